(** * Masked products: proofs for property C53. *)
From mathcomp Require Import eqtype.
From Coq Require Import ZArith Znumtheory List Bool Lia.
From Verif Require Import Base BaseFacts SignedModel SignedSpec SignedProofs EncodingModel ConversionModel
  ConversionProofs IntLemmas ModArith PaillierModel PaillierSpec PaillierProofs RnsProofs RpProofs PaillierLemmas
  ZkBase ZkModel ZkSpec ZkFacts ZkExtract ElogModel AffGProofs ZkLemmas.
From Verif Require Import AlgBase ProtoBase AuxGenModel SigningModel MtaSpec.
Open Scope Z_scope.

Section Mta.
Variables (S : sparams) (C : curve) (I HO : eqType).
Notation item := (hitem HO I (pt C)).
Notation P := (sp_pail S).
Notation w := (uint_w (sp_pail S)).
Notation q := (sp_q S).
Hypothesis HG : good_params S.
Hypothesis HC : curve_ok (sp_q S) C.
Let HS : sp_ok S.
Proof. exact (good_ok S HG). Qed.

Lemma key_bounds p r : keygen_primes (prime_bits P) p r -> 
  p < 2 ^ prime_bits P /\ r < 2 ^ prime_bits P /\ modulus_ok S (p * r) /\ 2 ^ modulus_bits P < 2 * (p * r).
Proof.
  intros (_ & _ & _ & _ & _ & Hp & Hr).
  assert (B : 2 <= prime_bits P) by (destruct HS; lia).
  assert (E : 2 ^ prime_bits P = 4 * 2 ^ (prime_bits P - 2)).
  { replace (prime_bits P) with (2 + (prime_bits P - 2)) at 1 by lia. rewrite Z.pow_add_r by lia. reflexivity. }
  assert (E2 : 2 ^ modulus_bits P = 2 ^ prime_bits P * 2 ^ prime_bits P).
  { rewrite (so_mod2 _ HS), <- Z.pow_add_r by lia. f_equal. lia. }
  assert (0 < 2 ^ (prime_bits P - 2)) by (apply Z.pow_pos_nonneg; lia).
  set (b := 2 ^ (prime_bits P - 2)) in *. unfold modulus_ok. rewrite E2, E in *.
  repeat split; nia.
Qed.

Lemma no_wrap p r k x y : keygen_primes (prime_bits P) p r ->
  pm_interval (sp_l S + sp_eps S) k -> pm_interval (sp_l S + sp_eps S) x -> pm_interval (sp_lp S + sp_eps S) y ->
  - (p * r) < 2 * (k * x - y) < p * r.
Proof.
  intros HK Hk Hx Hy. destruct (key_bounds p r HK) as (_ & _ & _ & HN).
  unfold pm_interval in *.
  set (e := sp_l S + sp_eps S) in *. set (f := sp_lp S + sp_eps S) in *.
  assert (Ee : 1 <= e /\ 2 * e <= f /\ f + 21 <= modulus_bits P) by (destruct HS; lia).
  assert (E1 : 2 ^ (e - 1) * 2 ^ (e - 1) <= 2 ^ (f - 1)).
  { rewrite <- Z.pow_add_r by lia. apply Z.pow_le_mono_r; lia. }
  assert (E2 : 8 * 2 ^ (f - 1) <= 2 ^ modulus_bits P).
  { change 8 with (2 ^ 3). rewrite <- Z.pow_add_r by lia. apply Z.pow_le_mono_r; lia. }
  assert (0 < 2 ^ (e - 1)) by (apply Z.pow_pos_nonneg; lia).
  assert (0 < 2 ^ (f - 1)) by (apply Z.pow_pos_nonneg; lia).
  set (A := 2 ^ (e - 1)) in *. set (B := 2 ^ (f - 1)) in *.
  assert (- (A * A) <= k * x <= A * A) by nia.
  lia.
Qed.

Lemma pm_mono e f v : 1 <= e <= f -> pm_interval e v -> pm_interval f v.
Proof.
  unfold pm_interval. intros H. pose proof (Z.pow_le_mono_r 2 (e - 1) (f - 1) ltac:(lia) ltac:(lia)). lia.
Qed.

(** Any encryption of a masked product within half the modulus decrypts to an
    additive share of the product. *)
Lemma half_shared sk N k x y d : key_of S sk N -> - N < 2 * (k * x - y) < N -> encrypts N d (k * x - y) ->
  exists a, decrypt P sk (Ct N d) = Ret a /\ sval w a = k * x - y /\
    exists s, scalar_of_secret S a = Ret s /\ (s + y) mod q = (k * x) mod q.
Proof.
  intros (p & r & HK & Hsk & ->) W (rho & Hg & Hd).
  destruct (key_bounds p r HK) as (Bp & Br & _).
  pose proof (good_par S HG) as HP.
  pose proof (skey_new_inv P p r sk HP (proj1 HK) (proj1 (proj2 HK)) Bp Br Hsk) as HKK.
  destruct (key_facts P p r sk HP HKK) as (? & ? & HN & ? & ? & ?).
  apply encv_textbook in Hd; [|lia]. subst d.
  destruct (decrypt_encv P p r sk HP HKK (k * x - y) rho Hg) as (a & E & Wa & Hc).
  assert (Va : sval w a = k * x - y) by (now apply (centred_small P p r sk HP HKK)). exists a. split; [exact E|]. split; [exact Va|].
  exists ((k * x - y) mod q). split.
  { apply (scalar_of_secret_has S HS a _ (bound a)). rewrite <- Va. now apply has_self. }
  rewrite Z.add_mod_idemp_l by (destruct (so_conv _ HS); lia). f_equal. lia.
Qed.
(** Whatever is encrypted, the decryption is the residue nearest to zero: a
    product out of that range comes back off by a multiple of the modulus. *)
Lemma centred_share sk N v d : key_of S sk N -> encrypts N d v ->
  exists a, decrypt P sk (Ct N d) = Ret a /\ - N < 2 * sval w a < N /\ sval w a mod N = v mod N.
Proof.
  intros (p & r & HK & Hsk & ->) (rho & Hg & Hd).
  destruct (key_bounds p r HK) as (Bp & Br & _).
  pose proof (good_par S HG) as HP.
  pose proof (skey_new_inv P p r sk HP (proj1 HK) (proj1 (proj2 HK)) Bp Br Hsk) as HKK.
  destruct (key_facts P p r sk HP HKK) as (? & ? & HN & ? & ? & ?).
  apply encv_textbook in Hd; [|lia]. subst d.
  destruct (decrypt_encv P p r sk HP HKK v rho Hg) as (a & E & Wa & Hc).
  exists a. split; [exact E|]. destruct Hc; lia.
Qed.
(** The proved ranges keep the product within half the modulus. *)
Lemma product_shared sk N k x y d : key_of S sk N ->
  pm_interval (sp_l S + sp_eps S) k -> pm_interval (sp_l S + sp_eps S) x -> pm_interval (sp_lp S + sp_eps S) y ->
  encrypts N d (k * x - y) ->
  exists a, decrypt P sk (Ct N d) = Ret a /\ sval w a = k * x - y /\
    exists s, scalar_of_secret S a = Ret s /\ (s + y) mod q = (k * x) mod q.
Proof.
  intros HK Hk Hx Hy Hd. apply half_shared; auto.
  destruct HK as (p & r & HK & _ & ->). now apply no_wrap.
Qed.

Lemma cipher_gcd N m rho c : 1 < N -> Z.gcd rho N = 1 -> paillier_cipher N m rho c -> unit_ok N c.
Proof.
  intros HN Hg H. apply encv_textbook in H; [|lia]. subst c. split.
  - apply encv_range. lia.
  - now apply encv_gcd.
Qed.

Lemma mask_interval e draw : 1 <= e -> 0 <= draw < 2 ^ e -> pm_interval e (mask e draw).
Proof.
  intros He Hd. unfold pm_interval, mask. replace e with (Z.succ (e - 1)) in Hd at 1 by lia.
  rewrite Z.pow_succ_r in Hd by lia. lia.
Qed.

Theorem mta_run (X : xof (list item) (pt C)) N0 N1 rp aux x xv cap_x k rho_k ck rnd :
  xof_ok q X -> modulus_ok S N0 -> modulus_ok S N1 -> setup_ok S rp ->
  secret_of S (sp_l S) x xv -> cap_x = pmul C xv (gen C) ->
  unit_ok N0 rho_k -> paillier_cipher N0 k rho_k ck ->
  mta_rand_ok S N0 N1 (rp_n rp) rnd ->
  exists m, sg_mta S X N1 N0 rp aux x cap_x (Ct N0 ck) rnd = Ret m /\
    secret_of S (sp_lp S) (mt_beta m) (mask (sp_lp S) (mr_beta rnd)) /\
    mt_r m = mr_r rnd /\ mt_s m = mr_s rnd /\
    ct_pk (mt_d m) = N0 /\ ct_pk (mt_f m) = N1 /\
    0 <= ct_val (mt_d m) < N0 * N0 /\ 0 <= ct_val (mt_f m) < N1 * N1 /\
    encrypts N0 (ct_val (mt_d m)) (k * xv - mask (sp_lp S) (mr_beta rnd)) /\
    paillier_cipher N1 (mask (sp_lp S) (mr_beta rnd)) (mr_r rnd) (ct_val (mt_f m)) /\
    affine_cipher N0 ck xv (- mask (sp_lp S) (mr_beta rnd)) (mr_s rnd) (ct_val (mt_d m)) /\
    aff_g_verify S X (mt_psi m) (AffGPublic N0 N1 (Ct N0 ck) (mt_d m) (mt_f m) cap_x) rp aux = Ret true.
Proof.
  intros HX HN0 HN1 Hrp Hx Hcx [Hrk Hgk] Hck [Hb [Hr Hrg] [Hs Hsg] Haff Hm1 Hm2].
  assert (Elp : 0 < sp_lp S < w) by (destruct HS; lia).
  destruct (has_range w (sp_lp S) (mr_beta rnd) Elp Hb) as (beta & Eb & Kb).
  fold (mask (sp_lp S) (mr_beta rnd)) in Kb. set (bv := mask (sp_lp S) (mr_beta rnd)) in *.
  assert (Bi : pm_interval (sp_lp S) bv) by (apply mask_interval; [destruct HS; lia|exact Hb]).
  assert (Sb : secret_of S (sp_lp S) beta bv).
  { destruct Kb as (Wb & Vb & Bb). split; [auto|split; [auto|split; [lia|exact Bi]]]. }
  unfold sg_mta. rewrite Eb. cbn [obind].
  rewrite (enc_has S HS N1 _ _ _ _ HN1 Hr Kb). cbn [obind].
  assert (Kx := has_self _ _ (proj1 Hx)). rewrite (proj1 (proj2 Hx)) in Kx.
  assert (Hu : unit_ok N0 ck) by (eapply cipher_gcd; [apply HN0|exact Hgk|exact Hck]).
  rewrite (hmul_sec_unit N0 ck (proj1 HN0) (proj2 Hu) _ _ _ _ (proj1 Hu) Kx). cbn [obind].
  pose proof (has_neg _ _ _ _ Kb) as Knb.
  rewrite (enc_has S HS N0 _ _ _ _ HN0 Hs Knb). cbn [obind].
  rewrite hadd_eq. cbn [obind]. fold (affv N0 ck xv (- bv) (mr_s rnd)).
  set (D := Ct N0 (affv N0 ck xv (- bv) (mr_s rnd))).
  set (F := Ct N1 (encv N1 bv (mr_r rnd))).
  assert (AC : affine_cipher N0 ck xv (- bv) (mr_s rnd) (ct_val D)).
  { exists (zpow (N0 * N0) ck xv), (encv N0 (- bv) (mr_s rnd)). split; [|split; [|reflexivity]].
    - apply unit_power_zpow; auto; [destruct HN0; nia|]. apply gcd_sq; [destruct HN0; lia|apply Hu].
    - apply encv_textbook; [destruct HN0; lia|reflexivity]. }
  assert (FC : paillier_cipher N1 bv (mr_r rnd) (ct_val F)) by (apply encv_textbook; [destruct HN1; lia|reflexivity]).
  destruct (aff_g_margin S C (list item) HG HC X (AffGSecret x beta (mr_s rnd) (mr_r rnd))
     (AffGPublic N0 N1 (Ct N0 ck) D F cap_x) rp aux (mr_aff rnd) xv bv) as (psi & E1 & E2);
    cbn [ap_pk0 ap_pk1 ap_cap_c ap_cap_d ap_cap_y ap_cap_x as_x as_y as_rho as_rho_y ct_pk ct_val D F]; auto;
    try (split; assumption).
  rewrite E1. cbn [obind]. eexists. split; [reflexivity|]. cbn [mt_beta mt_r mt_s mt_d mt_f mt_psi].
  repeat (split; [first [exact Sb|reflexivity|apply affv_range; apply HN0|apply encv_range; destruct HN1; lia]|]).
  split; [|split; [exact FC|split; [exact AC|exact E2]]].
  (* the plaintext *)
  apply encv_textbook in Hck; [|destruct HN0; lia]. subst ck.
  exists ((zpow N0 rho_k xv * mr_s rnd) mod N0). split.
  - rewrite Z.gcd_mod, (Z.gcd_comm N0) by (destruct HN0; lia). rewrite Z.gcd_comm. apply gcd_mul_split.
    rewrite !(Z.gcd_comm N0). split; [apply zpow_gcd; auto; destruct HN0; lia|exact Hsg].
  - apply encv_textbook; [apply HN0|]. cbn [ct_val D]. unfold affv.
    rewrite encv_zpow, encv_mul by (auto; apply HN0). reflexivity.
Qed.

(** Both ends together: the receiver decrypts a share which, with the sender's
    mask, adds up to the product. *)
Theorem mta_shares (X : xof (list item) (pt C)) sk N0 N1 rp aux x xv cap_x k rho_k ck rnd :
  xof_ok q X -> key_of S sk N0 -> modulus_ok S N1 -> setup_ok S rp ->
  secret_of S (sp_l S) x xv -> cap_x = pmul C xv (gen C) -> pm_interval (sp_l S) k ->
  unit_ok N0 rho_k -> paillier_cipher N0 k rho_k ck ->
  mta_rand_ok S N0 N1 (rp_n rp) rnd ->
  exists m a alpha beta, sg_mta S X N1 N0 rp aux x cap_x (Ct N0 ck) rnd = Ret m /\
    aff_g_verify S X (mt_psi m) (AffGPublic N0 N1 (Ct N0 ck) (ct_to_precomputed N0 (ct_val (mt_d m)))
      (ct_to_precomputed N1 (ct_val (mt_f m))) cap_x) rp aux = Ret true /\
    decrypt P sk (ct_to_precomputed N0 (ct_val (mt_d m))) = Ret a /\
    scalar_of_secret S a = Ret alpha /\ scalar_of_secret S (mt_beta m) = Ret beta /\
    (alpha + beta) mod q = (k * xv) mod q /\
    beta = mask (sp_lp S) (mr_beta rnd) mod q.
Proof.
  intros HX HK HN1 Hrp Hx Hcx Hk Hrk Hck Hrnd.
  assert (HN0 : modulus_ok S N0) by (destruct HK as (p & r & HK & _ & ->); apply (key_bounds p r HK)).
  destruct (mta_run X N0 N1 rp aux x xv cap_x k rho_k ck rnd HX HN0 HN1 Hrp Hx Hcx Hrk Hck Hrnd)
    as (m & E & Sb & _ & _ & Ed & Ef & Rd & Rf & Hd & _ & _ & Hv).
  set (bv := mask _ _) in *.
  destruct (product_shared sk N0 k xv bv (ct_val (mt_d m)) HK) as (a & Ea & _ & alpha & Eal & Hs); auto.
  1,2: apply (pm_mono (sp_l S)); [destruct HS; lia|auto; apply Hx].
  { apply (pm_mono (sp_lp S)); [destruct HS; lia|apply Sb]. }
  exists m, a, alpha, (bv mod q).
  destruct (mt_d m) as [pd vd], (mt_f m) as [pf vf]. cbn [ct_pk ct_val] in *. subst pd pf.
  unfold ct_to_precomputed. rewrite !Z.mod_small by lia.
  repeat (split; [first [assumption | reflexivity]|]).
  split.
  { destruct Sb as (Wb & Vb & _). apply (scalar_of_secret_has S HS (mt_beta m) _ (bound (mt_beta m))). rewrite <- Vb. now apply has_self. }
  split; [|reflexivity]. rewrite Z.add_mod_idemp_r by (destruct (so_conv _ HS); lia). exact Hs.
Qed.

(** ** The other steps of an honest signer *)

Lemma key_pk sk N : key_of S sk N -> sk_pk sk = N /\ Z.odd N = true /\ modulus_ok S N.
Proof.
  intros (p & r & HK & Hsk & ->). destruct (key_bounds p r HK) as (Bp & Br & HN & _).
  pose proof (skey_new_inv P p r sk (good_par S HG) (proj1 HK) (proj1 (proj2 HK)) Bp Br Hsk) as [].
  split; [auto|]. split; [|exact HN]. rewrite Z.odd_mul. now rewrite ko_op, ko_oq.
Qed.

(** A scalar as a signed integer. *)
Lemma share_signed z : 0 <= z < q ->
  exists x v, secret_signed_of S z = Ret x /\ secret_of S (sp_l S) x v /\ v mod q = z.
Proof.
  intros Hz. destruct (secret_signed_from_scalar_spec _ _ _ _ _ (so_conv _ HS) z Hz) as (x & E & W & M & R & B).
  exists x, (sval w x). rewrite (so_w _ HS) at 2. split; [exact E|]. split; [|exact M].
  pose proof (q_le S HG) as Hq. destruct (so_kappa _ HS) as [Ek Hk]. pose proof (so_l _ HS) as [Hl _].
  split; [rewrite (so_w _ HS); exact W|]. split; [reflexivity|]. split; [lia|].
  unfold pm_interval. rewrite (so_w _ HS).
  assert (2 ^ sp_kappa S <= 2 ^ sp_l S) by (apply Z.pow_le_mono_r; lia).
  assert (E2 : 2 ^ sp_l S = 2 * 2 ^ (sp_l S - 1)).
  { replace (sp_l S) with (Z.succ (sp_l S - 1)) at 1 by lia. now rewrite Z.pow_succ_r by lia. }
  lia.
Qed.

Lemma encrypt_share N x v rho : modulus_ok S N -> unit_ok N rho -> secret_of S (sp_l S) x v ->
  exists c, enc P N x rho = Ret (Ct N c) /\ paillier_cipher N v rho c /\ 0 <= c < N * N.
Proof.
  intros HN [Hr _] Hx. assert (Kx := has_self _ _ (proj1 Hx)). rewrite (proj1 (proj2 Hx)) in Kx.
  exists (encv N v rho). rewrite (enc_has S HS N _ _ _ _ HN Hr Kx). split; [reflexivity|]. split.
  - apply encv_textbook; [destruct HN; lia|reflexivity].
  - apply encv_range. destruct HN; lia.
Qed.

Lemma reduced_setup rp : setup_ok S rp -> setup_ok S (RP (rp_n rp) (rp_t rp mod rp_n rp) (rp_s rp mod rp_n rp)).
Proof.
  intros (H1 & H2 & H3 & H4 & H5). unfold setup_ok. cbn [rp_n rp_t rp_s].
  rewrite !Z.gcd_mod, !(Z.gcd_comm (rp_n rp)) by lia.
  pose proof (Z.mod_pos_bound (rp_t rp) (rp_n rp) ltac:(lia)).
  pose proof (Z.mod_pos_bound (rp_s rp) (rp_n rp) ltac:(lia)). intuition lia.
Qed.
End Mta.
