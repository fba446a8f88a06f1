(** * aff_g: completeness, acceptance, extraction. *)
From Coq Require Import ZArith Znumtheory List Bool Lia.
From Verif Require Import Base BaseFacts SignedModel SignedSpec SignedProofs EncodingModel ConversionModel
  ConversionProofs IntLemmas ModArith PaillierModel PaillierSpec PaillierProofs RpProofs ZkBase ZkModel ZkSpec ZkFacts ZkExtract.
Import ListNotations.
Open Scope Z_scope.

Section AffG.
Variables (S : sparams) (C : curve) (A : Type).
Notation P := (sp_pail S).
Notation w := (uint_w (sp_pail S)).
Notation ww := (wide_w (sp_pail S)).
Notation q := (sp_q S).
Hypothesis HS : sp_ok S.
Hypothesis HC : curve_ok q C.


Theorem aff_g_run (X : xof A (pt C)) sec (pub : aff_g_public C) setup aux rnd x y N0 N1 c :
  xof_ok q X ->
  wf w (as_x sec) -> sval w (as_x sec) = x -> bound (as_x sec) <= sp_l S -> pm_interval (sp_l S) x ->
  wf w (as_y sec) -> sval w (as_y sec) = y -> bound (as_y sec) <= sp_lp S -> pm_interval (sp_lp S) y ->
  modulus_ok S N0 -> modulus_ok S N1 -> ap_pk0 pub = N0 -> ap_pk1 pub = N1 ->
  unit_ok N0 (as_rho sec) -> unit_ok N1 (as_rho_y sec) ->
  unit_ok N0 c -> ap_cap_c pub = Ct N0 c ->
  ap_cap_d pub = Ct N0 (affv N0 c x (- y) (as_rho sec)) ->
  ap_cap_y pub = Ct N1 (encv N1 y (as_rho_y sec)) ->
  ap_cap_x pub = pmul C x (gen C) ->
  setup_ok S setup -> aff_g_rand_ok S N0 N1 (rp_n setup) rnd ->
  exists pf r, aff_g_new S X sec pub setup aux rnd = Ret pf /\
    aff_g_verify S X pf pub setup aux = Ret r /\
    0 <= ag_e pf < q /\
    (r = true <->
      pm_interval (sp_l S + sp_eps S) (mask (sp_l S + sp_eps S) (ar_alpha rnd) + x * ag_e pf) /\
      pm_interval (sp_lp S + sp_eps S) (mask (sp_lp S + sp_eps S) (ar_beta rnd) - y * ag_e pf)).
Proof.
  intros HX Hx Hxv Hxb Hxr Hy Hyv Hyb Hyr HN0 HN1 E0 E1 [Hr0 Hrg] [Hry0 Hryg] [Hc0 Hcg] Hc Hd HY Hcx Hset
    [Da Db [Dr0 Drg] [Dry0 Dryg] Dg Dm Dd Dmu].
  pose proof (has_self _ _ Hx) as Kx. rewrite Hxv in Kx.
  pose proof (has_self _ _ Hy) as Ky. rewrite Hyv in Ky.
  assert (Hset' := Hset). destruct Hset' as (Hn & Hs & Ht & Gs & Gt).
  assert (Hbits : 0 < bits (rp_n setup) <= modulus_bits P) by (apply bits_modulus; destruct HS; lia).
  unfold aff_g_new. cbv zeta. rewrite E0, E1, Hc, Hd, HY. cbn [ct_pk].
  rewrite (has_assert_range _ _ _ _ (sp_l S) Kx) by (auto; destruct HS; lia). cbn [obind].
  rewrite (has_assert_range _ _ _ _ (sp_lp S) Ky) by (auto; destruct HS; lia). cbn [obind].
  rewrite !Z.eqb_refl. cbn [oassert obind].
  run_ex (sample_has S (sp_l S + sp_eps S) (ar_alpha rnd)) alpha Ka; [destruct HS; lia|].
  run_ex (sample_has S (sp_lp S + sp_eps S) (ar_beta rnd)) beta Kb; [destruct HS; lia|].
  run_ex (sample_scaled_has S HS (sp_l S + sp_eps S) (rp_n setup) (ar_gamma rnd)) gamma Kg; [destruct HS; lia..|].
  run_ex (sample_scaled_has S HS (sp_l S) (rp_n setup) (ar_m rnd)) m Km; [destruct HS; lia..|].
  run_ex (sample_scaled_has S HS (sp_l S + sp_eps S) (rp_n setup) (ar_delta rnd)) delta Kd; [destruct HS; lia..|].
  run_ex (sample_scaled_has S HS (sp_l S) (rp_n setup) (ar_mu rnd)) mu Kmu; [destruct HS; lia..|].
  fold (mask (sp_l S + sp_eps S) (ar_alpha rnd)) in Ka.
  fold (mask (sp_lp S + sp_eps S) (ar_beta rnd)) in Kb.
  set (av := mask _ (ar_alpha rnd)) in *. set (bv := mask _ (ar_beta rnd)) in *.
  rewrite (hmul_sec_unit N0 c (proj1 HN0) Hcg _ _ _ _ Hc0 Ka). cbn [obind].
  rewrite (enc_has S HS N0 _ _ _ _ HN0 Dr0 Kb). cbn [obind].
  rewrite hadd_eq. cbn [obind ct_val]. fold (affv N0 c av bv (ar_r rnd)).
  rewrite (scalar_of_secret_has S HS _ _ _ Ka). cbn [obind].
  rewrite (enc_has S HS N1 _ _ _ _ HN1 Dry0 Kb). cbn [obind ct_val].
  rewrite (commit_sec_has S _ _ _ _ _ _ _ _ _ Hset Ka Kg). cbn [obind].
  rewrite (commit_sec_has S _ _ _ _ _ _ _ _ _ Hset Kx Km). cbn [obind].
  rewrite (commit_sec_has S _ _ _ _ _ _ _ _ _ Hset Kb Kd). cbn [obind].
  pose proof (has_neg _ _ _ _ Ky) as Kny.
  rewrite (commit_sec_has S _ _ _ _ _ _ _ _ _ Hset Kny Kmu). cbn [obind].
  set (e := aff_g_challenge _ _ _ _ _ _ _ _ _ _ _).
  assert (He : 0 <= e < q) by apply (xo_scalar _ _ HX).
  destruct (signed_of_scalar_has S HS e He) as (es & Ees & Kes). rewrite Ees. cbn [obind].
  run_ex (has_pub_wide _ ww _ _ _ Kes) ew Kew; [destruct HS; lia|].
  run_ex (has_mul _ _ _ _ _ _ _ Kx Kes) xe Kxe; [destruct HS; lia|].
  run_ex (has_add _ _ _ _ _ _ _ Ka Kxe) z1 Kz1; [destruct HS; lia|].
  rewrite (has_public _ _ _ _ Kz1). cbn [obind].
  run_ex (has_mul _ _ _ _ _ _ _ Kny Kes) ye Kye; [destruct HS; lia|].
  run_ex (has_add _ _ _ _ _ _ _ Kb Kye) z2 Kz2; [destruct HS; lia|].
  rewrite (has_public _ _ _ _ Kz2). cbn [obind].
  run_ex (has_mul _ _ _ _ _ _ _ Km Kew) me Kme; [destruct HS; lia|].
  run_ex (has_add _ _ _ _ _ _ _ Kg Kme) z3 Kz3; [destruct HS; lia|].
  rewrite (has_public _ _ _ _ Kz3). cbn [obind].
  run_ex (has_mul _ _ _ _ _ _ _ Kmu Kew) mue Kmue; [destruct HS; lia|].
  run_ex (has_add _ _ _ _ _ _ _ Kd Kmue) z4 Kz4; [destruct HS; lia|].
  rewrite (has_public _ _ _ _ Kz4). cbn [obind].
  rewrite (masked_has S N0 _ _ _ _ _ HN0 Hrg Kes). cbn [obind].
  pose proof (has_pub_neg _ _ _ _ Kes) as Knes.
  rewrite (masked_has S N1 _ _ _ _ _ HN1 Hryg Knes). cbn [obind].
  assert (Hq : 1 < q) by (destruct (so_conv _ HS); lia).
  unfold aff_g_verify.
  destruct (has_in_range _ _ _ _ (sp_l S + sp_eps S) Kz1) as (rg1 & Erg1 & Hrg1); [destruct HS; lia|].
  destruct (has_in_range _ _ _ _ (sp_lp S + sp_eps S) Kz2) as (rg2 & Erg2 & Hrg2); [destruct HS; lia|].
  eexists _, (rg1 && rg2). split; [reflexivity|].
  cbn [ag_e ag_a ag_bx ag_by ag_ce ag_s ag_f ag_t ag_z1 ag_z2 ag_z3 ag_z4 ag_w ag_wy].
  split; [|split; [exact He|]].
  2:{ rewrite andb_true_iff, Hrg1, Hrg2. replace (bv - y * e) with (bv + - y * e) by ring. reflexivity. }
  rewrite E0, E1, Hc, Hd, HY. cbn [ct_pk]. rewrite !Z.eqb_refl. cbn [oassert obind].
  fold e. rewrite ?Z.eqb_refl. cbn [check]. rewrite Ees. cbn [obind]. rewrite Erg1. cbn [obind].
  destruct rg1; cbn [check andb]; [|reflexivity].
  rewrite Erg2. cbn [obind]. destruct rg2; cbn [check]; [|reflexivity].
  rewrite (hmul_pub_unit N0 c (proj1 HN0) Hcg _ _ _ _ Hc0 Kz1). cbn [obind].
  rewrite (enc_public_has S HS N0 _ _ _ _ HN0) with (2 := Kz2) by (apply Z.mod_pos_bound; destruct HN0; lia).
  cbn [obind]. rewrite hadd_eq. cbn [obind].
  rewrite (hmul_pub_unit N0 _ (proj1 HN0) (affv_gcd N0 c (proj1 HN0) Hcg x (- y) _ Hrg) _ _ _ _ (proj1 (affv_range N0 c (proj1 HN0) _ _ _)) Kes).
  cbn [obind]. unfold ct_to_precomputed. rewrite hadd_eq. cbn [obind].
  rewrite (Z.mod_small (affv N0 c av bv (ar_r rnd))) by (apply affv_range; apply HN0).
  rewrite (affv_zpow N0 c (proj1 HN0) Hcg) by auto.
  rewrite (affv_mul N0 c (proj1 HN0) Hcg).
  rewrite (proj2 (ct_eqb_eq _ _)).
  2:{ f_equal. fold (affv N0 c (av + x * e) (bv + - y * e) ((zpow N0 (as_rho sec) e * ar_r rnd) mod N0)).
      f_equal; ring. }
  cbn [check].
  rewrite (scalar_of_signed_has S HS _ _ _ Kz1). cbn [obind].
  assert (Hpm : forall a x, pmul C (a mod q) x = pmul C a x) by (intros; apply (pmul_mod q C HC); lia).
  rewrite Hcx, !Hpm.
  rewrite (proj2 (c_eqb _ _ HC _ _)).
  2:{ rewrite !(c_mulDl _ _ HC), !(c_mulA _ _ HC). rewrite !(Z.mul_comm e). reflexivity. }
  cbn [check].
  rewrite (enc_public_has S HS N1 _ _ _ _ HN1) with (2 := Kz2) by (apply Z.mod_pos_bound; destruct HN1; lia).
  cbn [obind].
  rewrite (hmul_pub_has S N1 _ _ _ _ _ _ HN1 Hryg Knes). cbn [obind].
  rewrite (Z.mod_small (encv N1 bv (ar_ry rnd))) by (apply encv_range; destruct HN1; lia).
  rewrite homomorphic_add_ok by (apply HN1). cbn [obind].
  rewrite (proj2 (ct_eqb_eq _ _)).
  2:{ f_equal. f_equal; ring. }
  cbn [check].
  rewrite !rpc_pre_comv with (S := S) by auto.
  rewrite (commit_pub_has S _ _ _ _ _ _ _ _ _ Hset Kz1 Kz3). cbn [obind].
  rewrite (rpc_pow_pub_has S setup _ _ _ _ _ _ Hset Kes). cbn [obind].
  rewrite (rpc_mul_comv S) by auto. rewrite Z.eqb_refl. cbn [check].
  rewrite (commit_pub_has S _ _ _ _ _ _ _ _ _ Hset Kz2 Kz4). cbn [obind].
  rewrite (rpc_pow_pub_has S setup _ _ _ _ _ _ Hset Kes). cbn [obind].
  rewrite (rpc_mul_comv S) by auto. rewrite Z.eqb_refl. reflexivity.
Qed.

Theorem aff_g_accept (X : xof A (pt C)) pf (pub : aff_g_public C) setup aux :
  xof_ok q X ->
  wf w (ag_z1 pf) -> wf w (ag_z2 pf) -> wf ww (ag_z3 pf) -> wf ww (ag_z4 pf) -> 0 <= ag_w pf -> 0 <= ag_wy pf ->
  modulus_ok S (ap_pk0 pub) -> modulus_ok S (ap_pk1 pub) -> setup_ok S setup ->
  0 <= ct_val (ap_cap_c pub) -> 0 <= ct_val (ap_cap_d pub) -> 0 <= ct_val (ap_cap_y pub) ->
  let N0 := ap_pk0 pub in
  let N1 := ap_pk1 pub in
  let e := ag_e pf in
  let z1 := sval w (ag_z1 pf) in
  let z2 := sval w (ag_z2 pf) in
  aff_g_verify S X pf pub setup aux = Ret true <->
    ct_pk (ap_cap_c pub) = N0 /\ ct_pk (ap_cap_d pub) = N0 /\ ct_pk (ap_cap_y pub) = N1 /\
    e = aff_g_challenge X (ag_a pf) (ag_bx pf) (ag_by pf) (ag_ce pf) (ag_f pf) (ag_s pf) (ag_t pf) pub setup aux /\
    pm_interval (sp_l S + sp_eps S) z1 /\ pm_interval (sp_lp S + sp_eps S) z2 /\
    (exists cz, unit_power (N0 * N0) (ct_val (ap_cap_c pub)) z1 cz /\
      exists ez, paillier_cipher N0 z2 (ag_w pf) ez /\
        (cz * ez) mod (N0 * N0) = (ag_a pf * ct_val (ap_cap_d pub) ^ e) mod (N0 * N0)) /\
    pmul C z1 (gen C) = padd C (ag_bx pf) (pmul C e (ap_cap_x pub)) /\
    (exists ye, unit_power (N1 * N1) (ct_val (ap_cap_y pub)) (- e) ye /\
      paillier_cipher N1 z2 (ag_wy pf) ((ag_by pf * ye) mod (N1 * N1))) /\
    rp_opens (rp_n setup) (rp_s setup) (rp_t setup) z1 (sval ww (ag_z3 pf)) ((ag_ce pf * ag_s pf ^ e) mod rp_n setup) /\
    rp_opens (rp_n setup) (rp_s setup) (rp_t setup) z2 (sval ww (ag_z4 pf)) ((ag_f pf * ag_t pf ^ e) mod rp_n setup).
Proof.
  intros HX W1 W2 W3 W4 Ww Wy HN0 HN1 Hset Hcc Hcd Hcy N0 N1 e z1 z2.
  pose proof (has_self _ _ W1) as K1. fold z1 in K1. pose proof (has_self _ _ W2) as K2. fold z2 in K2.
  pose proof (has_self _ _ W3) as K3. pose proof (has_self _ _ W4) as K4.
  assert (Hq : 1 < q) by (destruct (so_conv _ HS); lia).
  unfold aff_g_verify. cbv zeta. rewrite obind_oassert, Z.eqb_eq. fold N0 N1. fold e.
  apply and_iff_cond; intros E1. rewrite obind_oassert, Z.eqb_eq. apply and_iff_cond; intros E2.
  rewrite obind_oassert, Z.eqb_eq. apply and_iff_cond; intros E3.
  rewrite check_true, Z.eqb_eq.
  set (ch := aff_g_challenge _ _ _ _ _ _ _ _ _ _ _).
  assert (He : 0 <= ch < q) by apply (xo_scalar _ _ HX).
  apply and_iff_cond2; [split; congruence|]. intros Hee _. rewrite <- Hee.
  destruct (signed_of_scalar_has S HS ch He) as (es & Ees & Kes). rewrite Ees. cbn [obind].
  destruct (has_in_range _ _ _ _ (sp_l S + sp_eps S) K1) as (rg & Erg & Hrg); [destruct HS; lia|].
  rewrite Erg. cbn [obind]. rewrite check_true, Hrg. apply and_iff_compat_l.
  destruct (has_in_range _ _ _ _ (sp_lp S + sp_eps S) K2) as (rg2 & Erg2 & Hrg2); [destruct HS; lia|].
  rewrite Erg2. cbn [obind]. rewrite check_true, Hrg2. apply and_iff_compat_l.
  destruct (ap_cap_c pub) as [cpk cv] eqn:Ecc. cbn [ct_pk ct_val] in *. subst cpk.
  destruct (ap_cap_d pub) as [dpk dv] eqn:Edd. cbn [ct_pk ct_val] in *. subst dpk.
  destruct (ap_cap_y pub) as [ypk yv] eqn:Eyy. cbn [ct_pk ct_val] in *. subst ypk.
  rewrite (enc_public_has S HS N0 _ _ _ _ HN0 Ww K2). rewrite (enc_public_has S HS N1 _ _ _ _ HN1 Wy K2).
  rewrite (hmul_pub_nonneg es ch _ N0 dv); [|apply HN0|apply Kes|apply Kes|auto|lia].
  rewrite (hmul_pub_bind w N0 cv _ _ _ _ _ (proj1 HN0) Hcc K1).
  erewrite <- (ex_and_iff (fun cz => unit_power (N0 * N0) cv z1 cz)
    (fun cz => ct_eqb (Ct N0 ((cz * encv N0 z2 (ag_w pf)) mod (N0 * N0)))
       (Ct N0 (((dv ^ ch) mod (N0 * N0) * (ag_a pf mod (N0 * N0))) mod (N0 * N0))) = true)); [| |reflexivity].
  2:{ intros cz. rewrite ct_eqb_eq. rewrite <- Z.mul_mod by (destruct HN0; nia).
      rewrite (Z.mul_comm (dv ^ ch)).
      split; [intros [= H]; exists (encv N0 z2 (ag_w pf)); split; auto; apply encv_textbook; auto; apply HN0|].
      intros (ez & He1 & He2). apply encv_textbook in He1; [|apply HN0]. subst ez. now rewrite He2. }
  apply Morphisms_Prop.ex_iff_morphism. intros cz. apply and_iff_compat_l.
  cbn [obind]. rewrite hadd_eq. cbn [obind]. unfold ct_to_precomputed. rewrite hadd_eq. cbn [obind].
  rewrite check_true. apply and_iff_compat_l.
  rewrite (scalar_of_signed_has S HS _ _ _ K1). cbn [obind].
  rewrite check_true, (c_eqb _ _ HC), !(pmul_mod q C HC) by lia. apply and_iff_compat_l.
  pose proof (has_pub_neg _ _ _ _ Kes) as Knes.
  rewrite (hmul_pub_bind w N1 yv _ _ _ _ _ (proj1 HN1) Hcy Knes).
  erewrite <- (ex_and_iff (fun ye => unit_power (N1 * N1) yv (- ch) ye)
    (fun ye => ct_eqb (Ct N1 (encv N1 z2 (ag_wy pf)))
       (Ct N1 ((ye * (ag_by pf mod (N1 * N1))) mod (N1 * N1))) = true)); [| |reflexivity].
  2:{ intros ye. rewrite ct_eqb_eq. rewrite encv_textbook by apply HN1.
      rewrite (Z.mul_comm ye), Z.mul_mod_idemp_l by (destruct HN1; nia).
      split; [intros [= H]; auto|intros ->; auto]. }
  apply Morphisms_Prop.ex_iff_morphism. intros ye. apply and_iff_compat_l.
  rewrite hadd_eq. cbn [obind]. rewrite check_true. apply and_iff_compat_l.
  destruct (rp_check_then S setup w w ww es ch _ _ _ _ _ _ _ (ag_ce pf) (ag_s pf) Hset Kes (proj1 He) K1 K3) as (b & Eb & Hb).
  rewrite Eb, check_true, Hb. apply and_iff_compat_l.
  apply (rp_check S setup w w ww es ch _ _ _ _ _ _ _ (ag_f pf) (ag_t pf) Hset Kes (proj1 He) K2 K4).
Qed.

Theorem aff_g_extract (X1 X2 : xof A (pt C)) pf1 pf2 (pub : aff_g_public C) setup aux1 aux2 p0 q0 p1 q1 :
  xof_ok q X1 -> xof_ok q X2 -> prime q ->
  keygen_primes (prime_bits P) p0 q0 -> ap_pk0 pub = p0 * q0 ->
  keygen_primes (prime_bits P) p1 q1 -> ap_pk1 pub = p1 * q1 -> setup_ok S setup ->
  cipher_ok (p0 * q0) (ct_val (ap_cap_c pub)) ->
  cipher_ok (p0 * q0) (ct_val (ap_cap_d pub)) ->
  cipher_ok (p1 * q1) (ct_val (ap_cap_y pub)) ->
  (forall pf, pf = pf1 \/ pf = pf2 ->
    wf w (ag_z1 pf) /\ wf w (ag_z2 pf) /\ wf ww (ag_z3 pf) /\ wf ww (ag_z4 pf) /\ 0 <= ag_w pf /\ 0 <= ag_wy pf) ->
  Z.gcd (ag_a pf1) (p0 * q0) = 1 -> Z.gcd (ag_by pf1) (p1 * q1) = 1 ->
  Z.gcd (ag_ce pf1) (rp_n setup) = 1 -> Z.gcd (ag_s pf1) (rp_n setup) = 1 ->
  Z.gcd (ag_f pf1) (rp_n setup) = 1 -> Z.gcd (ag_t pf1) (rp_n setup) = 1 ->
  ag_a pf2 = ag_a pf1 -> ag_bx pf2 = ag_bx pf1 -> ag_by pf2 = ag_by pf1 -> ag_ce pf2 = ag_ce pf1 ->
  ag_s pf2 = ag_s pf1 -> ag_f pf2 = ag_f pf1 -> ag_t pf2 = ag_t pf1 ->
  aff_g_verify S X1 pf1 pub setup aux1 = Ret true ->
  aff_g_verify S X2 pf2 pub setup aux2 = Ret true ->
  ag_e pf1 <> ag_e pf2 ->
  let N0 := p0 * q0 in
  let N1 := p1 * q1 in
  let de := ag_e pf1 - ag_e pf2 in
  let dz1 := sval w (ag_z1 pf1) - sval w (ag_z1 pf2) in
  let dz2 := sval w (ag_z2 pf1) - sval w (ag_z2 pf2) in
  exists c d y x,
    encrypts N0 (ct_val (ap_cap_c pub)) c /\ encrypts N0 (ct_val (ap_cap_d pub)) d /\
    encrypts N1 (ct_val (ap_cap_y pub)) y /\ ap_cap_x pub = pmul C x (gen C) /\
    (d * de) mod N0 = (c * dz1 + dz2) mod N0 /\ (y * - de) mod N1 = dz2 mod N1 /\ (x * de) mod q = dz1 mod q /\
    (exists u, unit_power (rp_n setup) (ag_s pf1) de u /\
       rp_opens (rp_n setup) (rp_s setup) (rp_t setup) dz1 (sval ww (ag_z3 pf1) - sval ww (ag_z3 pf2)) u) /\
    (exists u, unit_power (rp_n setup) (ag_t pf1) de u /\
       rp_opens (rp_n setup) (rp_s setup) (rp_t setup) dz2 (sval ww (ag_z4 pf1) - sval ww (ag_z4 pf2)) u) /\
    Z.abs dz1 < 2 ^ (sp_l S + sp_eps S) /\ Z.abs dz2 < 2 ^ (sp_lp S + sp_eps S) /\
    (forall x' y', dz1 = x' * de -> dz2 = - y' * de ->
       encrypts N0 (ct_val (ap_cap_d pub)) (c * x' - y') /\ encrypts N1 (ct_val (ap_cap_y pub)) y' /\
       ap_cap_x pub = pmul C x' (gen C) /\
       Z.abs x' < 2 ^ (sp_l S + sp_eps S) /\ Z.abs y' < 2 ^ (sp_lp S + sp_eps S)).
Proof.
  intros HX1 HX2 Hq Kp0 HN0 Kp1 HN1 Hset [HC0 HCg] [HD0 HDg] [HY0 HYg] Hwf GA GB GE GS GF GT Ea Ebx Eby Ece Es Ef Et
    A1 A2 Hne N0 N1 de dz1 dz2.
  assert (Hm0 : modulus_ok S (p0 * q0)) by (apply keygen_modulus; [apply HS|exact Kp0]).
  assert (Hm1 : modulus_ok S (p1 * q1)) by (apply keygen_modulus; [apply HS|exact Kp1]).
  assert (Hset' := Hset). destruct Hset' as (Hn & Hs & Ht & Gs & Gt).
  destruct (Hwf pf1 (or_introl eq_refl)) as (Wa1 & Wa2 & Wa3 & Wa4 & Wa5 & Wa6).
  destruct (Hwf pf2 (or_intror eq_refl)) as (Wb1 & Wb2 & Wb3 & Wb4 & Wb5 & Wb6).
  rewrite aff_g_accept in A1, A2 by (auto; try (now rewrite HN0); try (now rewrite HN1); lia).
  rewrite HN0, HN1 in A1, A2. rewrite Ea, Ebx, Eby, Ece, Es, Ef, Et in A2.
  destruct A1 as (_ & _ & _ & E1 & R1 & Q1 & (cz1 & Uc1 & ez1 & Cz1 & Eq1) & B1 & (yz1 & Uy1 & Yz1) & O1 & T1).
  destruct A2 as (_ & _ & _ & E2 & R2 & Q2 & (cz2 & Uc2 & ez2 & Cz2 & Eq2) & B2 & (yz2 & Uy2 & Yz2) & O2 & T2).
  assert (H1 : 0 <= ag_e pf1 < q) by (rewrite E1; apply (xo_scalar _ _ HX1)).
  assert (H2 : 0 <= ag_e pf2 < q) by (rewrite E2; apply (xo_scalar _ _ HX2)).
  clear E1 E2. fold N0 in Hm0, Uc1, Uc2, Cz1, Cz2, Eq1, Eq2, HCg, HDg, GA. fold N1 in Hm1, Uy1, Uy2, Yz1, Yz2, HYg, GB.
  assert (G0 : 1 < N0) by apply Hm0. assert (G1 : 1 < N1) by apply Hm1.
  pose proof (so_par _ HS) as HP.
  destruct (encrypts_exists P p0 q0 HP Kp0 _ HC0 HCg) as (c & Ec). fold N0 in Ec.
  destruct (encrypts_exists P p0 q0 HP Kp0 _ HD0 HDg) as (d & Ed). fold N0 in Ed.
  destruct (encrypts_exists P p1 q1 HP Kp1 _ HY0 HYg) as (y & Ey). fold N1 in Ey.
  destruct (wire_encrypts P p0 q0 HP Kp0 _ GA) as (a & Eaa). fold N0 in Eaa.
  destruct (wire_encrypts P p1 q1 HP Kp1 _ GB) as (b & Ebb). fold N1 in Ebb.
  pose proof (affine_plain P p0 q0 HP Kp0 _ _ _ _ _ _ _ _ _ _ _ _ Ec Ed Eaa (proj1 H1) Uc1 Cz1 Eq1) as P1.
  pose proof (affine_plain P p0 q0 HP Kp0 _ _ _ _ _ _ _ _ _ _ _ _ Ec Ed Eaa (proj1 H2) Uc2 Cz2 Eq2) as P2.
  pose proof (linear_plain P p1 q1 HP Kp1 _ _ _ _ _ _ _ _ Ey Ebb Uy1 Yz1) as L1.
  pose proof (linear_plain P p1 q1 HP Kp1 _ _ _ _ _ _ _ _ Ey Ebb Uy2 Yz2) as L2.
  fold N0 in P1, P2. fold N1 in L1, L2.
  set (e1 := ag_e pf1) in *. set (e2 := ag_e pf2) in *.
  set (u1 := sval w (ag_z1 pf1)) in *. set (u2 := sval w (ag_z1 pf2)) in *.
  set (v1 := sval w (ag_z2 pf1)) in *. set (v2 := sval w (ag_z2 pf2)) in *.
  assert (Hd : eqm N0 (d * de) (c * dz1 + dz2)).
  { transitivity ((a + d * e1) - (a + d * e2)); [apply eqm_eq; unfold de; ring|].
    rewrite <- P1, <- P2. apply eqm_eq. unfold dz1, dz2. ring. }
  assert (Hy : eqm N1 (y * - de) dz2).
  { transitivity ((b + y * - e1) - (b + y * - e2)); [apply eqm_eq; unfold de; ring|].
    rewrite <- L1, <- L2. apply eqm_eq. unfold dz2. ring. }
  destruct (scalar_inv q e1 e2 Hq H1 H2 Hne) as (i & Hi). fold de in Hi.
  assert (Hq0 : q <> 0) by (pose proof (prime_ge_2 _ Hq); lia).
  assert (HX : ap_cap_x pub = pmul C (i * dz1) (gen C)).
  { pose proof (diff_points q C HC _ _ _ _ _ _ B1 B2) as D. fold de in D.
    rewrite <- (pmul_opp q C HC), <- (c_mulDl _ _ HC) in D.
    rewrite <- (divide_point q C HC i de (ap_cap_x pub)) by auto. rewrite <- D, (c_mulA _ _ HC). f_equal. }
  exists c, d, y, (i * dz1).
  split; [exact Ec|]. split; [exact Ed|]. split; [exact Ey|]. split; [exact HX|].
  split; [exact Hd|]. split; [exact Hy|].
  split. { change (eqm q (i * dz1 * de) dz1).
    transitivity ((i * de) * dz1); [apply eqm_eq; ring|]. rewrite Hi. apply eqm_eq. ring. }
  split. { apply rp_open_diff with (ag_ce pf1); auto; lia. }
  split. { apply rp_open_diff with (ag_f pf1); auto; lia. }
  assert (D1 : Z.abs dz1 < 2 ^ (sp_l S + sp_eps S)) by (apply pm_diff; auto; clear - HS; destruct HS; lia).
  assert (D2 : Z.abs dz2 < 2 ^ (sp_lp S + sp_eps S)) by (apply pm_diff; auto; clear - HS; destruct HS; lia).
  split; [exact D1|]. split; [exact D2|].
  intros x' y' Hx' Hy'. assert (Hde : de <> 0) by (clear - Hne; unfold de; lia).
  pose proof (chal_diff_small S e1 e2 HS H1 H2) as Hsm. fold de in Hsm.
  assert (Gd0 : Z.gcd de N0 = 1) by (clear - HS Kp0 Hde Hsm; apply (small_coprime P p0 q0 Kp0 de (sp_kappa S)); [destruct HS; lia|destruct HS; lia|exact Hde|exact Hsm]).
  assert (Gd1 : Z.gcd de N1 = 1) by (clear - HS Kp1 Hde Hsm; apply (small_coprime P p1 q1 Kp1 de (sp_kappa S)); [destruct HS; lia|destruct HS; lia|exact Hde|exact Hsm]).
  split; [|split; [|split; [|split]]].
  - apply (divide_plain P p0 q0 HP Kp0 _ d _ de); auto. fold N0. rewrite Hd, Hx', Hy'. apply eqm_eq. ring.
  - apply (divide_plain P p1 q1 HP Kp1 _ y _ de); auto. fold N1.
    transitivity (- (y * - de)); [apply eqm_eq; ring|]. rewrite Hy, Hy'. apply eqm_eq. ring.
  - rewrite HX. apply (pmul_eqm q C HC); auto. rewrite Hx'.
    transitivity ((i * de) * x'); [apply eqm_eq; ring|]. rewrite Hi. apply eqm_eq. ring.
  - eapply Z.le_lt_trans; [apply (abs_quot_le dz1 x' de Hde Hx')|exact D1].
  - rewrite <- (Z.abs_opp y'). eapply Z.le_lt_trans; [apply (abs_quot_le dz2 (- y') de Hde Hy')|exact D2].
Qed.

End AffG.
