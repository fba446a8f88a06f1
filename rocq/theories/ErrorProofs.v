(** * The error rounds of signing: arithmetic of one party's message. *)
From mathcomp Require Import eqtype.
From Coq Require Import ZArith Znumtheory List Bool Lia.
From Verif Require Import Base BaseFacts SignedModel SignedSpec SignedProofs IntLemmas ModArith PaillierModel PaillierSpec
  PaillierProofs RnsProofs RpProofs PaillierLemmas ZkBase ZkModel ZkSpec ZkFacts ZkExtract ZkLemmas DecProofs
  MtaSpec MtaProofs SigningErrorSpec DecForgeSpec DecForge.
Open Scope Z_scope.

Section Err.
Variables (S : sparams) (C : curve) (A : Type).
Notation P := (sp_pail S).
Notation w := (uint_w (sp_pail S)).
Notation q := (sp_q S).
Hypothesis HG : good_params S.
Hypothesis HC : curve_ok q C.
Let HS : sp_ok S.
Proof. exact (good_ok S HG). Qed.

(** The owner of the key opens the product with its share added. *)
Lemma full_opened sk N k rho_k ck x xv d V : key_of S sk N -> secret_of S (sp_l S) x xv ->
  unit_ok N rho_k -> paillier_cipher N k rho_k ck -> encrypts N d V -> - N < 2 * (k * xv + V) < N ->
  exists kx full rho a, homomorphic_mul_sec w (Ct N ck) x = Ret kx /\ homomorphic_add kx (Ct N d) = Ret full /\
    derive_randomizer P sk full = Ret rho /\ decrypt P sk full = Ret a /\
    wf w a /\ sval w a = k * xv + V /\ unit_ok N rho /\ affine_cipher N ck (- xv) (k * xv + V) rho d.
Proof.
  intros (p & r & HK & Hsk & ->) Hx [Hr0 Hrg] Hck Hd W.
  destruct (key_bounds S HG p r HK) as (Bp & Br & HN & _).
  pose proof (good_par S HG) as HP.
  pose proof (skey_new_inv P p r sk HP (proj1 HK) (proj1 (proj2 HK)) Bp Br Hsk) as HKK.
  assert (N1 : 1 < p * r) by apply HN.
  assert (Hu : unit_ok (p * r) ck) by (apply cipher_gcd with k rho_k; auto).
  assert (Kx := has_self _ _ (proj1 Hx)). rewrite (proj1 (proj2 Hx)) in Kx.
  rewrite (hmul_sec_unit (p * r) ck N1 (proj2 Hu) _ _ _ _ (proj1 Hu) Kx).
  set (f := (zpow (p * r * (p * r)) ck xv * d) mod (p * r * (p * r))).
  assert (Ek : encrypts (p * r) ck k) by (exists rho_k; auto).
  assert (Ef : encrypts (p * r) f (k * xv + V)) by (apply encrypts_mul; auto; now apply encrypts_zpow).
  destruct Ef as (ro & Gro & Ef). apply encv_textbook in Ef; [|exact N1].
  destruct (decrypt_encv P p r sk HP HKK (k * xv + V) ro Gro) as (a & Ea & Wa & Ca).
  rewrite <- Ef in Ea. apply (centred_small P p r sk HP HKK) in Ca; [|exact W].
  assert (Rf : 0 <= f < p * r * (p * r)) by (apply Z.mod_pos_bound; nia).
  assert (NN : 1 < p * r * (p * r)) by nia.
  assert (Gf : Z.gcd f (p * r) = 1).
  { assert (E : encrypts (p * r) f (k * xv + V)) by (exists ro; split; [exact Gro|apply encv_textbook; [exact N1|exact Ef]]).
    destruct E as (r1 & G1 & E). exact (proj2 (cipher_gcd _ _ _ _ N1 G1 E)). }
  destruct (cipher_recovered P p r sk HP HKK f Rf Gf) as (m & rho & E1 & E2 & _ & Rr & Gr & Er).
  rewrite Ea in E1. injection E1 as <-. rewrite Ca in Er.
  eexists _, (Ct (p * r) f), rho, a. split; [reflexivity|].
  split; [apply hadd_eq|]. repeat (split; [assumption|]).
  split; [split; [lia|exact Gr]|].
  exists (zpow (p * r * (p * r)) ck (- xv)), f.
  assert (G2 : Z.gcd ck (p * r * (p * r)) = 1) by (apply gcd_sq; [lia|apply Hu]).
  split; [apply unit_power_zpow; auto|]. split; [apply encv_textbook; [exact N1|exact Er]|].
  destruct Hd as (rd & Gd & Hd). apply encv_textbook in Hd; [|exact N1].
  apply eqm_small with (p * r * (p * r)).
  - rewrite Hd. apply encv_range. lia.
  - apply Z.mod_pos_bound; lia.
  - rewrite eqm_mod. transitivity (zpow (p * r * (p * r)) ck (- xv) * (zpow (p * r * (p * r)) ck xv * d)).
    2: { apply eqm_mul; [reflexivity|symmetry; apply eqm_mod]. }
    rewrite (Z.mul_assoc (zpow _ _ _)). transitivity (1 * d); [now rewrite Z.mul_1_l|].
    apply eqm_mul; [symmetry; apply zpow_opp; auto; lia|reflexivity].
Qed.

(** A mask with room for the secret is never pushed out by a challenge bit. *)
Lemma bit_margin a x b draw : 1 <= a -> pm_interval a x -> safe_bit S a draw ->
  pm_interval (a + sp_eps S) (mask (a + sp_eps S) draw + x * b2z b) /\
  pm_interval (a + sp_eps S) (mask (a + sp_eps S) draw - x * b2z b).
Proof.
  intros Ha Hx Hd. apply (range_margin a 0); auto; try lia.
  - destruct HS; lia.
  - destruct b; cbn; lia.
  - rewrite Z.add_0_r. exact Hd.
Qed.

Lemma Forall_combine {U V} (Q : U -> Prop) (l : list U) (l' : list V) : Forall Q l ->
  Forall (fun p => Q (fst p)) (combine l l').
Proof.
  intros H. revert l'. induction H; intros [|b l']; cbn; constructor; auto.
Qed.

Lemma dec_passes (X : xof A (pt C)) sec (pub : dec_public C) setup aux rnds x y :
  xof_ok q X -> secret_of S (sp_l S) (ds_x sec) x ->
  let N := dp_pk0 pub in
  let n := dp_num_parties pub in
  2 <= n < 2 ^ 64 -> wf w (ds_y sec) -> sval w (ds_y sec) = y -> pm_interval (dec_y_exp S n) y ->
  modulus_ok S N -> unit_ok N (ds_rho sec) ->
  ct_pk (dp_cap_k pub) = N -> ct_pk (dp_cap_d pub) = N -> unit_ok N (ct_val (dp_cap_k pub)) ->
  affine_cipher N (ct_val (dp_cap_k pub)) (- x) y (ds_rho sec) (ct_val (dp_cap_d pub)) ->
  dp_cap_x pub = pmul C x (gen C) -> dp_cap_s pub = pmul C y (dp_cap_g pub) ->
  length rnds = Z.to_nat (sp_kappa S) -> Forall (dec_draw_ok S N n) rnds ->
  exists pf, dec_new S X sec pub setup aux rnds = Ret pf /\ dec_verify S X pf pub setup aux = Ret true.
Proof.
  intros HX Hx N n Hn Wy Vy Iy HN Hr P1 P2 Hk Ha Hcx Hcs Hl Hrnd.
  destruct (dec_honest S C A HG HC X sec pub setup aux rnds x y) as (pf & r & E1 & E2 & El & Hr'); auto.
  { eapply Forall_impl; [|exact Hrnd]. now intros ? []. }
  exists pf. split; [exact E1|]. rewrite E2. f_equal. apply Hr'.
  eapply Forall_impl; [|exact (Forall_combine _ _ (dg_e pf) Hrnd)].
  intros [d b] (_ & Sa & Sb). cbn in Sa, Sb. split; cbn [fst snd].
  - apply (proj1 (bit_margin (sp_l S) x b (dr_alpha d) ltac:(destruct HS; lia) (proj2 (proj2 (proj2 Hx))) Sa)).
  - assert (1 <= dec_y_exp S n) by (unfold dec_y_exp; pose proof (Z.log2_up_nonneg n); destruct HS; lia).
    exact (proj1 (bit_margin _ y b (dr_beta d) H Iy Sb)).
Qed.

Lemma gs_passes (X : xof A (pt C)) sec (pub : aff_g_public C) aux rnds x y :
  xof_ok q X -> secret_of S (sp_l S) (ss_x sec) x -> secret_of S (sp_lp S) (ss_y sec) y ->
  let N0 := ap_pk0 pub in
  let N1 := ap_pk1 pub in
  modulus_ok S N0 -> modulus_ok S N1 -> unit_ok N0 (ss_rho sec) -> unit_ok N1 (ss_mu sec) ->
  ct_pk (ap_cap_c pub) = N0 -> ct_pk (ap_cap_d pub) = N0 -> ct_pk (ap_cap_y pub) = N1 ->
  unit_ok N0 (ct_val (ap_cap_c pub)) ->
  affine_cipher N0 (ct_val (ap_cap_c pub)) x (- y) (ss_rho sec) (ct_val (ap_cap_d pub)) ->
  paillier_cipher N1 y (ss_mu sec) (ct_val (ap_cap_y pub)) ->
  ap_cap_x pub = pmul C x (gen C) ->
  length rnds = Z.to_nat (sp_kappa S) -> Forall (gs_draw_ok S N0 N1) rnds ->
  exists pf, aff_gs_new S X sec pub aux rnds = Ret pf /\ aff_gs_verify S X pf pub aux = Ret true.
Proof.
  intros HX Hx Hy N0 N1 HN0 HN1 Hr Hr1 P1 P2 P3 Hc Hd Hf Hcx Hl Hrnd.
  destruct (aff_gs_honest S C A HG HC X sec pub aux rnds x y) as (pf & r & E1 & E2 & El & Hr'); auto.
  { eapply Forall_impl; [|exact Hrnd]. now intros ? []. }
  exists pf. split; [exact E1|]. rewrite E2. f_equal. apply Hr'.
  eapply Forall_impl; [|exact (Forall_combine _ _ (sg_e pf) Hrnd)].
  intros [d b] (_ & Sa & Sb). cbn in Sa, Sb. split; cbn [fst snd].
  - apply (proj1 (bit_margin (sp_l S) x b (sr_alpha d) ltac:(destruct HS; lia) (proj2 (proj2 (proj2 Hx))) Sa)).
  - apply (proj2 (bit_margin (sp_lp S) y b (sr_beta d) ltac:(destruct HS; lia) (proj2 (proj2 (proj2 Hy))) Sb)).
Qed.

(** Size of the product with all shares added: [m] other parties. *)
Lemma product_size n N y : 2 <= n <= 2 ^ 40 -> 2 ^ modulus_bits P < 2 * N ->
  Z.abs y <= n * 2 ^ (sp_lp S + 1) -> - N < 2 * y < N /\ pm_interval (dec_y_exp S n) y.
Proof.
  intros Hn HN Hy.
  pose proof (Z.log2_up_spec n ltac:(lia)) as [_ Hl].
  assert (Hc : Z.log2_up n <= 40) by (rewrite <- (Z.log2_up_pow2 40) by lia; apply Z.log2_up_le_mono; lia).
  assert (Hb : n * 2 ^ (sp_lp S + 1) <= 2 ^ (Z.log2_up n + (sp_lp S + 1))).
  { rewrite (Z.pow_add_r 2 (Z.log2_up n)) by (try apply Z.log2_up_nonneg; destruct HS; lia).
    apply Z.mul_le_mono_nonneg_r; [apply Z.pow_nonneg; lia|exact Hl]. }
  pose proof (Z.log2_up_nonneg n) as Hc0. set (c := Z.log2_up n) in *.
  assert (E1 : 2 ^ (c + (sp_lp S + 1)) * 4 <= 2 ^ modulus_bits P).
  { replace 4 with (2 ^ 2) by reflexivity. rewrite <- Z.pow_add_r by (destruct HS; lia).
    apply Z.pow_le_mono_r; [lia|destruct HS; lia]. }
  assert (E2 : 2 ^ (c + (sp_lp S + 1)) * 2 <= 2 ^ (dec_y_exp S n - 1)).
  { change (2 ^ (c + (sp_lp S + 1)) * 2 ^ 1 <= 2 ^ (dec_y_exp S n - 1)). rewrite <- Z.pow_add_r by (destruct HS; lia).
    apply Z.pow_le_mono_r; [lia|unfold dec_y_exp; fold c; destruct HS; lia]. }
  assert (0 < 2 ^ (c + (sp_lp S + 1))) by (apply Z.pow_pos_nonneg; destruct HS; lia).
  unfold pm_interval. lia.
Qed.
End Err.
