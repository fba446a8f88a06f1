(** * The proof-system facts in the vocabulary of ZkSpec.v, as used by the
    property files. *)
From Coq Require Import ZArith Znumtheory List Bool Lia.
From Verif Require Import Base BaseFacts SignedModel SignedSpec SignedProofs ModArith RsaFacts PaillierModel PaillierSpec
  PaillierProofs RnsProofs RpProofs PaillierLemmas ZkBase ZkModel ZkSpec ZkFacts ZkExtract
  EncElgProofs AffGProofs AffGStarProofs DecProofs PrmProofs ModProofs FacProofs ElogModel ElogProofs ZkToy.
Import ListNotations.
Open Scope Z_scope.

Lemma good_ok S : good_params S -> sp_ok S.
Proof. intros [H1 H2]. now apply sp_okP. Qed.
Lemma good_par S : good_params S -> params_ok (sp_pail S).
Proof. intros H. apply good_ok in H. apply H. Qed.

Lemma affine_affv N c x m rho d : 1 < N -> Z.gcd c N = 1 ->
  affine_cipher N c x m rho d -> d = affv N c x m rho.
Proof.
  intros HN Hc (cx & em & H1 & H2 & ->). unfold affv.
  apply unit_power_zpow in H1; [|nia|]. 2:{ apply gcd_mul_split; auto. }
  apply encv_textbook in H2; auto. now subst.
Qed.
Lemma cipher_encv N x rho c : 1 < N -> ct_pk c = N -> paillier_cipher N x rho (ct_val c) -> c = Ct N (encv N x rho).
Proof. intros HN H1 H2. apply encv_textbook in H2; auto. destruct c; cbn in *; subst; auto. Qed.
Lemma cipher_affv N c x m rho d : 1 < N -> Z.gcd c N = 1 -> ct_pk d = N ->
  affine_cipher N c x m rho (ct_val d) -> d = Ct N (affv N c x m rho).
Proof. intros HN Hc H1 H2. apply affine_affv in H2; auto. destruct d; cbn in *; subst; auto. Qed.

(** ** C41: the margin *)

(** A masked response stays in the interval unless the draw is within
    [2^(a + k - 1)] of an end. *)
Lemma range_margin a k eps x e draw : 1 <= a -> 0 <= k -> k <= eps -> pm_interval a x -> 0 <= e <= 2 ^ k ->
  2 ^ (a + k - 1) <= draw < 2 ^ (a + eps) - 2 ^ (a + k - 1) ->
  pm_interval (a + eps) (mask (a + eps) draw + x * e) /\ pm_interval (a + eps) (mask (a + eps) draw - x * e).
Proof.
  intros Ha Hk Hke Hx He Hd. unfold pm_interval, mask in *.
  assert (E1 : 2 ^ (a + k - 1) = 2 ^ (a - 1) * 2 ^ k) by (rewrite <- Z.pow_add_r by lia; f_equal; lia).
  assert (E2 : 2 ^ (a + eps) = 2 * 2 ^ (a + eps - 1)) by (rewrite <- Z.pow_succ_r by lia; f_equal; lia).
  assert (0 < 2 ^ (a - 1)) by (apply Z.pow_pos_nonneg; lia).
  assert (Hxe : - (2 ^ (a - 1) * 2 ^ k) <= x * e <= 2 ^ (a - 1) * 2 ^ k) by nia.
  rewrite <- E1 in Hxe. lia.
Qed.

(** ** C36 with scaled masks *)
Lemma range_margin_scaled s a eps x e draw : 0 < s -> 1 <= a -> 0 <= eps ->
  pm_interval a e -> 0 <= x ->
  x * 2 ^ (a - 1) <= draw < s * 2 ^ (a + eps) - x * 2 ^ (a - 1) ->
  - (s * 2 ^ (a + eps - 1)) + 1 <= mask_scaled (a + eps) s draw + x * e <= s * 2 ^ (a + eps - 1).
Proof.
  intros Hs Ha Heps He Hx Hd. unfold pm_interval, mask_scaled in *.
  assert (E2 : 2 ^ (a + eps) = 2 * 2 ^ (a + eps - 1)) by (rewrite <- Z.pow_succ_r by lia; f_equal; lia).
  assert (0 < 2 ^ (a - 1)) by (apply Z.pow_pos_nonneg; lia).
  assert (- (x * 2 ^ (a - 1)) <= x * e <= x * 2 ^ (a - 1)) by nia.
  rewrite E2 in Hd. lia.
Qed.

Section Statements.
Variables (S : sparams) (C : curve) (A : Type).
Notation w := (uint_w (sp_pail S)).
Notation ww := (wide_w (sp_pail S)).
Notation l := (sp_l S).
Notation lp := (sp_lp S).
Notation eps := (sp_eps S).
Notation q := (sp_q S).
Hypothesis HG : good_params S.
Hypothesis HC : curve_ok (sp_q S) C.
Let HS : sp_ok S.
Proof. exact (good_ok S HG). Qed.

(** ** C37 *)
Lemma enc_elg_honest (X : xof A (pt C)) sec (pub : enc_elg_public C) setup aux rnd x :
  xof_ok q X -> secret_of S l (es_x sec) x ->
  modulus_ok S (ep_pk0 pub) -> unit_ok (ep_pk0 pub) (es_rho sec) ->
  ct_pk (ep_cap_c pub) = ep_pk0 pub -> paillier_cipher (ep_pk0 pub) x (es_rho sec) (ct_val (ep_cap_c pub)) ->
  ep_cap_b pub = pmul C (es_b sec) (gen C) ->
  ep_cap_x pub = padd C (pmul C (es_b sec) (ep_cap_a pub)) (pmul C x (gen C)) ->
  setup_ok S setup -> enc_elg_rand_ok S (ep_pk0 pub) (rp_n setup) rnd ->
  exists pf r, enc_elg_new S X sec pub setup aux rnd = Ret pf /\
    enc_elg_verify S X pf pub setup aux = Ret r /\ 0 <= ee_e pf < q /\
    (r = true <-> pm_interval (l + eps) (mask (l + eps) (er_alpha rnd) + x * ee_e pf)).
Proof.
  intros HX (W & V & B & I) HN Hr Hc1 Hc2 Hb Hx Hs Hrnd.
  apply enc_elg_run; auto. apply cipher_encv; auto. apply HN.
Qed.

(** ** C38 *)
Lemma aff_g_honest (X : xof A (pt C)) sec (pub : aff_g_public C) setup aux rnd x y :
  xof_ok q X -> secret_of S l (as_x sec) x -> secret_of S lp (as_y sec) y ->
  let N0 := ap_pk0 pub in
  let N1 := ap_pk1 pub in
  modulus_ok S N0 -> modulus_ok S N1 -> unit_ok N0 (as_rho sec) -> unit_ok N1 (as_rho_y sec) ->
  ct_pk (ap_cap_c pub) = N0 -> ct_pk (ap_cap_d pub) = N0 -> ct_pk (ap_cap_y pub) = N1 ->
  unit_ok N0 (ct_val (ap_cap_c pub)) ->
  affine_cipher N0 (ct_val (ap_cap_c pub)) x (- y) (as_rho sec) (ct_val (ap_cap_d pub)) ->
  paillier_cipher N1 y (as_rho_y sec) (ct_val (ap_cap_y pub)) ->
  ap_cap_x pub = pmul C x (gen C) ->
  setup_ok S setup -> aff_g_rand_ok S N0 N1 (rp_n setup) rnd ->
  exists pf r, aff_g_new S X sec pub setup aux rnd = Ret pf /\
    aff_g_verify S X pf pub setup aux = Ret r /\ 0 <= ag_e pf < q /\
    (r = true <->
      pm_interval (l + eps) (mask (l + eps) (ar_alpha rnd) + x * ag_e pf) /\
      pm_interval (lp + eps) (mask (lp + eps) (ar_beta rnd) - y * ag_e pf)).
Proof.
  intros HX (W & V & B & I) (W2 & V2 & B2 & I2) N0 N1 HN0 HN1 Hr Hr1 P1 P2 P3 Hc Hd Hy Hx Hs Hrnd.
  apply (aff_g_run S C A HS HC X sec pub setup aux rnd x y N0 N1 (ct_val (ap_cap_c pub))); auto.
  - rewrite <- P1. destruct (ap_cap_c pub); reflexivity.
  - apply cipher_affv; auto; [apply HN0|apply Hc].
  - apply cipher_encv; auto. apply HN1.
Qed.

(** The statement's keys are compared before anything else. *)
Lemma aff_g_wrong_key (X : xof A (pt C)) pf (pub : aff_g_public C) setup aux :
  ct_pk (ap_cap_c pub) <> ap_pk0 pub \/ ct_pk (ap_cap_d pub) <> ap_pk0 pub \/ ct_pk (ap_cap_y pub) <> ap_pk1 pub ->
  aff_g_verify S X pf pub setup aux = Panic.
Proof.
  intros H. unfold aff_g_verify, oassert.
  destruct (Z.eqb_spec (ct_pk (ap_cap_c pub)) (ap_pk0 pub)); [|reflexivity]; cbn [obind].
  destruct (Z.eqb_spec (ct_pk (ap_cap_d pub)) (ap_pk0 pub)); [|reflexivity]; cbn [obind].
  destruct (Z.eqb_spec (ct_pk (ap_cap_y pub)) (ap_pk1 pub)); [|reflexivity]; cbn [obind].
  tauto.
Qed.

(** ** C39 *)
Lemma aff_gs_honest (X : xof A (pt C)) sec (pub : aff_g_public C) aux rnds x y :
  xof_ok q X -> secret_of S l (ss_x sec) x -> secret_of S lp (ss_y sec) y ->
  let N0 := ap_pk0 pub in
  let N1 := ap_pk1 pub in
  modulus_ok S N0 -> modulus_ok S N1 -> unit_ok N0 (ss_rho sec) -> unit_ok N1 (ss_mu sec) ->
  ct_pk (ap_cap_c pub) = N0 -> ct_pk (ap_cap_d pub) = N0 -> ct_pk (ap_cap_y pub) = N1 ->
  unit_ok N0 (ct_val (ap_cap_c pub)) ->
  affine_cipher N0 (ct_val (ap_cap_c pub)) x (- y) (ss_rho sec) (ct_val (ap_cap_d pub)) ->
  paillier_cipher N1 y (ss_mu sec) (ct_val (ap_cap_y pub)) ->
  ap_cap_x pub = pmul C x (gen C) ->
  length rnds = Z.to_nat (sp_kappa S) -> Forall (aff_gs_rand_ok S N0 N1) rnds ->
  exists pf r, aff_gs_new S X sec pub aux rnds = Ret pf /\ aff_gs_verify S X pf pub aux = Ret r /\
    length (sg_e pf) = Z.to_nat (sp_kappa S) /\
    (r = true <-> Forall (aff_gs_in_range S x y) (combine rnds (sg_e pf))).
Proof.
  intros HX (W & V & B & I) (W2 & V2 & B2 & I2) N0 N1 HN0 HN1 Hr Hr1 P1 P2 P3 Hc Hd Hy Hx Hl Hrnd.
  apply (aff_gs_run S C A HS HC X sec pub aux rnds x y N0 N1 (ct_val (ap_cap_c pub))); auto.
  - rewrite <- P1. destruct (ap_cap_c pub); reflexivity.
  - apply cipher_affv; auto; [apply HN0|apply Hc].
  - apply cipher_encv; auto. apply HN1.
Qed.

(** ** C40 *)
Lemma dec_honest (X : xof A (pt C)) sec (pub : dec_public C) setup aux rnds x y :
  xof_ok q X -> secret_of S l (ds_x sec) x ->
  let N := dp_pk0 pub in
  let n := dp_num_parties pub in
  2 <= n < 2 ^ 64 -> wf w (ds_y sec) -> sval w (ds_y sec) = y -> pm_interval (dec_y_exp S n) y ->
  modulus_ok S N -> unit_ok N (ds_rho sec) ->
  ct_pk (dp_cap_k pub) = N -> ct_pk (dp_cap_d pub) = N -> unit_ok N (ct_val (dp_cap_k pub)) ->
  affine_cipher N (ct_val (dp_cap_k pub)) (- x) y (ds_rho sec) (ct_val (dp_cap_d pub)) ->
  dp_cap_x pub = pmul C x (gen C) -> dp_cap_s pub = pmul C y (dp_cap_g pub) ->
  length rnds = Z.to_nat (sp_kappa S) -> Forall (dec_rand_ok S N n) rnds ->
  exists pf r, dec_new S X sec pub setup aux rnds = Ret pf /\ dec_verify S X pf pub setup aux = Ret r /\
    length (dg_e pf) = Z.to_nat (sp_kappa S) /\
    (r = true <-> Forall (dec_in_range S n x y) (combine rnds (dg_e pf))).
Proof.
  intros HX (W & V & B & I) N n Hn W2 V2 I2 HN Hr P1 P2 Hk Hd Hx Hs Hl Hrnd.
  apply (dec_run S C A HS HC X sec pub setup aux rnds x y N (ct_val (dp_cap_k pub)) n); auto.
  - rewrite <- P1. destruct (dp_cap_k pub); reflexivity.
  - apply cipher_affv; auto; [apply HN|apply Hk].
Qed.

(** ** C41 *)
Lemma q_le : 1 < q <= 2 ^ sp_kappa S.
Proof.
  pose proof (so_conv _ HS) as Hc. destruct (so_kappa _ HS) as [E _].
  destruct HG as [Hg _]. unfold sp_compiles in Hg.
  repeat rewrite andb_true_iff in Hg. repeat rewrite Z.eqb_eq in Hg. repeat rewrite Z.ltb_lt in Hg.
  assert (1 < q) by tauto. split; auto. rewrite <- E.
  assert (Hb : bits q = sp_num_bits S) by tauto. rewrite <- Hb.
  apply Z.lt_le_incl, bits_lt_pow. lia.
Qed.

Lemma enc_elg_margin (X : xof A (pt C)) sec (pub : enc_elg_public C) setup aux rnd x :
  xof_ok q X -> secret_of S l (es_x sec) x ->
  modulus_ok S (ep_pk0 pub) -> unit_ok (ep_pk0 pub) (es_rho sec) ->
  ct_pk (ep_cap_c pub) = ep_pk0 pub -> paillier_cipher (ep_pk0 pub) x (es_rho sec) (ct_val (ep_cap_c pub)) ->
  ep_cap_b pub = pmul C (es_b sec) (gen C) ->
  ep_cap_x pub = padd C (pmul C (es_b sec) (ep_cap_a pub)) (pmul C x (gen C)) ->
  setup_ok S setup -> enc_elg_rand_ok S (ep_pk0 pub) (rp_n setup) rnd ->
  2 ^ (l + sp_kappa S - 1) <= er_alpha rnd < 2 ^ (l + eps) - 2 ^ (l + sp_kappa S - 1) ->
  exists pf, enc_elg_new S X sec pub setup aux rnd = Ret pf /\
    enc_elg_verify S X pf pub setup aux = Ret true.
Proof.
  intros HX Hx HN Hr P1 Hc Hb Hxp Hs Hrnd Hm.
  destruct (enc_elg_honest X sec pub setup aux rnd x) as (pf & r & E1 & E2 & He & Hiff); auto.
  exists pf. split; auto. rewrite E2. f_equal. apply Hiff.
  pose proof q_le. destruct HS.
  apply range_margin with (sp_kappa S); try lia. apply Hx.
Qed.

Lemma aff_g_margin (X : xof A (pt C)) sec (pub : aff_g_public C) setup aux rnd x y :
  xof_ok q X -> secret_of S l (as_x sec) x -> secret_of S lp (as_y sec) y ->
  let N0 := ap_pk0 pub in
  let N1 := ap_pk1 pub in
  modulus_ok S N0 -> modulus_ok S N1 -> unit_ok N0 (as_rho sec) -> unit_ok N1 (as_rho_y sec) ->
  ct_pk (ap_cap_c pub) = N0 -> ct_pk (ap_cap_d pub) = N0 -> ct_pk (ap_cap_y pub) = N1 ->
  unit_ok N0 (ct_val (ap_cap_c pub)) ->
  affine_cipher N0 (ct_val (ap_cap_c pub)) x (- y) (as_rho sec) (ct_val (ap_cap_d pub)) ->
  paillier_cipher N1 y (as_rho_y sec) (ct_val (ap_cap_y pub)) ->
  ap_cap_x pub = pmul C x (gen C) ->
  setup_ok S setup -> aff_g_rand_ok S N0 N1 (rp_n setup) rnd ->
  2 ^ (l + sp_kappa S - 1) <= ar_alpha rnd < 2 ^ (l + eps) - 2 ^ (l + sp_kappa S - 1) ->
  2 ^ (lp + sp_kappa S - 1) <= ar_beta rnd < 2 ^ (lp + eps) - 2 ^ (lp + sp_kappa S - 1) ->
  exists pf, aff_g_new S X sec pub setup aux rnd = Ret pf /\ aff_g_verify S X pf pub setup aux = Ret true.
Proof.
  intros HX Hsx Hsy N0 N1 HN0 HN1 Hr Hr1 P1 P2 P3 Hc Hd Hy Hx Hs Hrnd M1 M2.
  destruct (aff_g_honest X sec pub setup aux rnd x y) as (pf & r & E1 & E2 & He & Hiff); auto.
  exists pf. split; auto. rewrite E2. f_equal. apply Hiff.
  pose proof q_le. destruct HS.
  split.
  - apply range_margin with (sp_kappa S); try lia. apply Hsx.
  - apply range_margin with (sp_kappa S); try lia. apply Hsy.
Qed.

Lemma fac_margin (X : xof A (pt C)) sk0 setup aux rnd p q' :
  xof_ok q X -> 0 < p < 2 ^ prime_bits (sp_pail S) -> 0 < q' < 2 ^ prime_bits (sp_pail S) ->
  modulus_ok S (p * q') ->
  pr_p (sk_primes sk0) = p -> pr_q (sk_primes sk0) = q' -> sk_pk sk0 = p * q' ->
  setup_ok S setup -> fac_rand_ok S (p * q') (rp_n setup) rnd ->
  2 * modulus_bits (sp_pail S) + l + eps + 1 < sp_xw S ->
  p * 2 ^ (l - 1) <= fr_alpha rnd < 2 ^ (prime_bits (sp_pail S) - 2) * 2 ^ (l + eps) - p * 2 ^ (l - 1) ->
  q' * 2 ^ (l - 1) <= fr_beta rnd < 2 ^ (prime_bits (sp_pail S) - 2) * 2 ^ (l + eps) - q' * 2 ^ (l - 1) ->
  exists pf, fac_new S X sk0 setup aux rnd = Ret pf /\ fac_verify S X pf (p * q') setup aux = Ret true.
Proof.
  intros HX Hp Hq HN E1 E2 E3 Hs Hrnd Hxw M1 M2.
  assert (Hb : l + eps + bits (p * q' * rp_n setup) + 1 < sp_xw S).
  { enough (bits (p * q' * rp_n setup) <= 2 * modulus_bits (sp_pail S)) by lia.
    pose proof (good_par _ HG) as (Hmb & Hpp). destruct Hs as (Hn & _). unfold modulus_ok in HN.
    apply bits_le.
    - nia.
    - destruct HS. lia.
    - replace (2 * modulus_bits (sp_pail S)) with (modulus_bits (sp_pail S) + modulus_bits (sp_pail S)) by lia.
      rewrite Z.pow_add_r by (destruct HS; lia). apply Z.mul_lt_mono_nonneg; lia. }
  destruct (fac_run S C A HS X sk0 setup aux rnd p q') as (pf & r & e & F1 & F2 & F3 & F4 & F5); auto.
  exists pf. split; auto. rewrite F2. f_equal. apply F5.
  assert (Hpb : 2 <= prime_bits (sp_pail S)). { destruct HS. lia. }
  assert (E : l + eps + prime_bits (sp_pail S) - 2 - 1 = (prime_bits (sp_pail S) - 2) + (l + eps - 1)) by lia.
  assert (0 < 2 ^ (prime_bits (sp_pail S) - 2)) by (apply Z.pow_pos_nonneg; lia).
  assert (1 <= l /\ 0 <= eps) by (destruct HS; lia).
  unfold fac_mask, pm_interval. rewrite E, Z.pow_add_r by lia.
  split; apply range_margin_scaled; auto; try lia.
Qed.

(** ** C34 *)
Lemma prm_extracts (X1 X2 : xof A (pt C)) pf1 pf2 setup aux :
  1 < rp_n setup -> Z.gcd (rp_t setup) (rp_n setup) = 1 -> 0 <= rp_s setup < rp_n setup ->
  Forall (fun z => 0 <= z) (prm_elems pf1) -> Forall (fun z => 0 <= z) (prm_elems pf2) ->
  prm_commitment pf1 = prm_commitment pf2 ->
  length (prm_commitment pf1) = sp_secbits S ->
  length (prm_challenge pf1) = sp_secbits S -> length (prm_challenge pf2) = sp_secbits S ->
  length (prm_elems pf1) = sp_secbits S -> length (prm_elems pf2) = sp_secbits S ->
  prm_challenge pf1 <> prm_challenge pf2 ->
  prm_verify S X1 pf1 setup aux = Ret true -> prm_verify S X2 pf2 setup aux = Ret true ->
  exists z, unit_power (rp_n setup) (rp_t setup) z (rp_s setup).
Proof.
  intros HN Hg Hs F1 F2 Ec L1 L2 L3 L4 L5 Hne V1 V2.
  destruct (prm_extract S C A X1 X2 pf1 pf2 setup aux) as (z & Hz); auto.
  exists z. apply unit_power_zpow; auto. symmetry. apply eqm_small with (rp_n setup); auto.
  apply zpow_range. lia.
Qed.

End Statements.

(** ** C35 *)
Lemma mod_honest S C A (X : xof A (pt C)) p q sk draws y b aux :
  xof_ok (sp_q S) X -> p_self_consistent (sp_pail S) = true ->
  prime p -> prime q -> p mod 4 = 3 -> q mod 4 = 3 ->
  p < 2 ^ prime_bits (sp_pail S) -> q < 2 ^ prime_bits (sp_pail S) ->
  skey_new (sp_pail S) p q = Ret sk ->
  random_quadratic_residue (p * q) draws = Some y ->
  exists pf, mod_new S X sk aux (nonsquare_residue sk y b) = Ret pf /\
    length (mod_elems pf) = sp_secbits S /\ length (mod_challenge pf) = sp_secbits S /\
    mod_verify S X pf (p * q) aux =
      Ret (negb (x_is_prime X Tmod_rng [IZ (mod_commitment pf); IZ (p * q); IA aux] (p * q))).
Proof.
  intros HX HP Pp Pq P4 Q4 Rp Rq Hsk Hy.
  apply params_okP in HP.
  pose proof (skey_new_inv (sp_pail S) p q sk HP Pp Pq ltac:(lia) ltac:(lia) Hsk) as HK.
  unfold random_quadratic_residue in Hy.
  destruct (random_invertible_residue (p * q) draws) as [r|] eqn:E; [|discriminate].
  apply residue_found in E. destruct E as [_ Gr]. inversion Hy; subst y. clear Hy.
  pose proof (nonsquare_ok (sp_pail S) p q sk HP HK r b P4 Q4 Gr) as H. cbv zeta in H.
  destruct H as (R & G & Hx & _).
  destruct (mod_run S C A HP p q sk HK P4 Q4 X aux _ HX R G Hx) as (pf & F1 & F2 & F3 & F4 & F5).
  exists pf. split; auto. split; auto. rewrite F3. split; auto.
  rewrite F4. apply (xo_residues _ _ HX).
  pose proof (prime_ge_2 _ Pp). pose proof (prime_ge_2 _ Pq). nia.
Qed.

(** ** C34 and C35: no length checks *)
Lemma prm_accepts S C A (X : xof A (pt C)) pf setup aux :
  0 < rp_n setup -> Forall (fun z => 0 <= z) (prm_elems pf) ->
  prm_verify S X pf setup aux = Ret true <->
  prm_challenge pf =
    x_bits X Tprm [IL (map IZ (prm_commitment pf)); IL [IZ (rp_n setup); IZ (rp_t setup); IZ (rp_s setup)]; IA aux]
      (sp_secbits S) /\
  forall i e z a, nth_error (prm_challenge pf) i = Some e -> nth_error (prm_elems pf) i = Some z ->
    nth_error (prm_commitment pf) i = Some a ->
    (rp_t setup ^ z) mod rp_n setup = (if e then a * rp_s setup else a) mod rp_n setup.
Proof.
  intros HN HF. rewrite (prm_accept S C A X pf setup aux HN HF).
  apply and_iff_compat_l. unfold prm_eq, b2z.
  split; intros H i e z a E1 E2 E3; specialize (H i e z a E1 E2 E3); rewrite H; destruct e;
    rewrite ?Z.pow_1_r, ?Z.pow_0_r, ?Z.mul_1_r; reflexivity.
Qed.
Lemma prm_empty_accepted S C A (X : xof A (pt C)) com setup aux :
  exists pf, prm_elems pf = [] /\ prm_commitment pf = com /\ prm_verify S X pf setup aux = Ret true.
Proof. eexists. split; [|split; [|apply prm_empty]]; reflexivity. Qed.

Lemma not_power_77 z : ~ unit_power 77 4 z 3.
Proof.
  assert (E : forall k, 0 <= k -> 4 ^ k = 2 ^ k * 2 ^ k).
  { intros k Hk. change 4 with (2 * 2). apply Z.pow_mul_l. }
  assert (Sq : forall y, (y * y) mod 7 = (y mod 7 * (y mod 7)) mod 7) by (intros; apply Zmult_mod).
  intros (_ & H1 & H2). destruct (Z.le_gt_cases 0 z) as [Hz|Hz].
  - specialize (H1 Hz). rewrite E in H1 by auto.
    assert (H3 : (2 ^ z * 2 ^ z) mod 7 = 3).
    { pose proof (Z.div_mod (2 ^ z * 2 ^ z) 77 ltac:(lia)) as D. rewrite <- H1 in D. rewrite D.
      replace (77 * (2 ^ z * 2 ^ z / 77) + 3) with (3 + (2 ^ z * 2 ^ z / 77 * 11) * 7) by ring.
      rewrite Z.mod_add by lia. reflexivity. }
    rewrite Sq in H3. pose proof (Z.mod_pos_bound (2 ^ z) 7 ltac:(lia)) as B.
    set (r := 2 ^ z mod 7) in *.
    assert (r = 0 \/ r = 1 \/ r = 2 \/ r = 3 \/ r = 4 \/ r = 5 \/ r = 6) as C by lia.
    decompose [or] C; subst r; match goal with K : _ mod 7 = _ |- _ => rewrite K in H3; vm_compute in H3; discriminate end.
  - specialize (H2 Hz). rewrite E in H2 by lia. set (y := 2 ^ - z) in *.
    assert (H3 : (3 * (y * y)) mod 7 = 1).
    { pose proof (Z.div_mod (3 * (y * y)) 77 ltac:(lia)) as D. rewrite H2 in D. change (1 mod 77) with 1 in D. rewrite D.
      replace (77 * (3 * (y * y) / 77) + 1) with (1 + (3 * (y * y) / 77 * 11) * 7) by ring.
      rewrite Z.mod_add by lia. reflexivity. }
    rewrite Zmult_mod, Sq in H3. pose proof (Z.mod_pos_bound y 7 ltac:(lia)) as B.
    set (r := y mod 7) in *.
    assert (r = 0 \/ r = 1 \/ r = 2 \/ r = 3 \/ r = 4 \/ r = 5 \/ r = 6) as C by lia.
    decompose [or] C; match goal with K : r = _ |- _ => rewrite K in H3; vm_compute in H3; discriminate end.
Qed.
Lemma prm_unsound S : sp_q S = 7 -> exists (C : curve) (X : xof unit (pt C)) pf setup,
  xof_ok (sp_q S) X /\ Z.gcd (rp_t setup) (rp_n setup) = 1 /\ Z.gcd (rp_s setup) (rp_n setup) = 1 /\
  prm_verify S X pf setup tt = Ret true /\ ~ exists z, unit_power (rp_n setup) (rp_t setup) z (rp_s setup).
Proof.
  intros Hq. exists toyC, (toyX 1 true 0), (PrmProof [] (repeat true (sp_secbits S)) []), (RP 77 4 3).
  split; [rewrite Hq; apply const_xof_ok; lia|]. split; [reflexivity|]. split; [reflexivity|]. split.
  - apply prm_empty.
  - intros (z & Hz). eapply not_power_77; eauto.
Qed.
Lemma mod_empty_accepted S C A : p_self_consistent (sp_pail S) = true ->
  forall (X : xof A (pt C)) N com aux, 1 < N < 2 ^ modulus_bits (sp_pail S) -> Z.gcd com N = 1 ->
  x_is_prime X Tmod_rng [IZ com; IZ N; IA aux] N = false ->
  exists pf, mod_elems pf = [] /\ mod_verify S X pf N aux = Ret true.
Proof.
  intros HP X N com aux HN Hg Hx. eexists. split; [|apply (mod_empty S C A (params_okP _ HP) X N com aux HN Hg Hx)].
  reflexivity.
Qed.

(** ** C40: the slack *)
Lemma dec_slack n : 2 <= n -> exists k, ceil_log2_parties n = Ret k /\ 2 ^ (k - 1) < n <= 2 ^ k.
Proof.
  intros Hn. exists (Z.log2_up n). split; [apply ceil_log2_ok; auto|].
  pose proof (Z.log2_up_spec n ltac:(lia)) as H. rewrite <- Z.sub_1_r in H. lia.
Qed.
