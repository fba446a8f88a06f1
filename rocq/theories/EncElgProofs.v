(** * enc_elg: completeness, acceptance, extraction. *)
From Coq Require Import ZArith Znumtheory List Bool Lia.
From Verif Require Import Base BaseFacts SignedModel SignedSpec SignedProofs EncodingModel ConversionModel
  ConversionProofs IntLemmas ModArith PaillierModel PaillierSpec PaillierProofs RpProofs ZkBase ZkModel ZkSpec ZkFacts ZkExtract.
Import ListNotations.
Open Scope Z_scope.

Section EncElg.
Variables (S : sparams) (C : curve) (A : Type).
Notation P := (sp_pail S).
Notation w := (uint_w (sp_pail S)).
Notation ww := (wide_w (sp_pail S)).
Notation q := (sp_q S).
Hypothesis HS : sp_ok S.
Hypothesis HC : curve_ok q C.


Theorem enc_elg_run (X : xof A (pt C)) sec (pub : enc_elg_public C) setup aux rnd x :
  xof_ok q X ->
  wf w (es_x sec) -> sval w (es_x sec) = x -> bound (es_x sec) <= sp_l S -> pm_interval (sp_l S) x ->
  modulus_ok S (ep_pk0 pub) -> unit_ok (ep_pk0 pub) (es_rho sec) ->
  ep_cap_c pub = Ct (ep_pk0 pub) (encv (ep_pk0 pub) x (es_rho sec)) ->
  ep_cap_b pub = pmul C (es_b sec) (gen C) ->
  ep_cap_x pub = padd C (pmul C (es_b sec) (ep_cap_a pub)) (pmul C x (gen C)) ->
  setup_ok S setup -> enc_elg_rand_ok S (ep_pk0 pub) (rp_n setup) rnd ->
  exists pf r, enc_elg_new S X sec pub setup aux rnd = Ret pf /\
    enc_elg_verify S X pf pub setup aux = Ret r /\
    0 <= ee_e pf < q /\
    (r = true <-> pm_interval (sp_l S + sp_eps S) (mask (sp_l S + sp_eps S) (er_alpha rnd) + x * ee_e pf)).
Proof.
  intros HX Hx Hxv Hxb Hxr HN [Hr0 Hrg] Hc Hb Hcx Hset [Da Dm Dg [Dr0 Drg]].
  pose proof (has_self _ _ Hx) as Kx. rewrite Hxv in Kx.
  assert (Hset' := Hset). destruct Hset' as (Hn & Hs & Ht & Gs & Gt).
  assert (Hbits : 0 < bits (rp_n setup) <= modulus_bits P) by (apply bits_modulus; destruct HS; lia).
  unfold enc_elg_new. cbv zeta.
  set (N := ep_pk0 pub) in *. set (hat := rp_n setup) in *.
  rewrite (has_assert_range _ _ _ _ (sp_l S) Kx) by (auto; destruct HS; lia). cbn [obind].
  rewrite Hc. cbn [ct_pk]. fold N. rewrite Z.eqb_refl. cbn [oassert obind].
  run_ex (sample_has S (sp_l S + sp_eps S) (er_alpha rnd)) alpha Ka; [destruct HS; lia|].
  run_ex (sample_scaled_has S HS (sp_l S) hat (er_mu rnd)) mu Km; [destruct HS; lia..|].
  run_ex (sample_scaled_has S HS (sp_l S + sp_eps S) hat (er_gamma rnd)) gamma Kg; [destruct HS; lia..|].
  fold (mask (sp_l S + sp_eps S) (er_alpha rnd)) in Ka.
  fold (mask_scaled (sp_l S) hat (er_mu rnd)) in Km.
  fold (mask_scaled (sp_l S + sp_eps S) hat (er_gamma rnd)) in Kg.
  set (av := mask (sp_l S + sp_eps S) (er_alpha rnd)) in *.
  set (mv := mask_scaled _ _ _) in Km. set (gv := mask_scaled _ _ _) in Kg.
  rewrite (commit_sec_has S _ _ _ _ _ _ _ _ _ Hset Kx Km). cbn [obind].
  rewrite (enc_has S HS N _ _ _ _ HN Dr0 Ka). cbn [obind ct_val].
  rewrite (scalar_of_secret_has S HS _ _ _ Ka). cbn [obind].
  rewrite (commit_sec_has S _ _ _ _ _ _ _ _ _ Hset Ka Kg). cbn [obind].
  set (e := enc_elg_challenge _ _ _ _ _ _ _ _ _).
  assert (He : 0 <= e < q) by apply (xo_scalar _ _ HX).
  destruct (signed_of_scalar_has S HS e He) as (es & Ees & Kes). rewrite Ees. cbn [obind].
  run_ex (has_mul _ _ _ _ _ _ _ Kx Kes) xe Kxe; [destruct HS; lia|].
  run_ex (has_add _ _ _ _ _ _ _ Ka Kxe) z1 Kz1; [destruct HS; lia|].
  rewrite (has_public _ _ _ _ Kz1). cbn [obind].
  rewrite (masked_has S N _ _ _ _ _ HN Hrg Kes). cbn [obind].
  run_ex (has_pub_wide _ ww _ _ _ Kes) ew Kew; [destruct HS; lia|].
  run_ex (has_mul _ _ _ _ _ _ _ Km Kew) mue Kmue; [destruct HS; lia|].
  run_ex (has_add _ _ _ _ _ _ _ Kg Kmue) z3 Kz3; [destruct HS; lia|].
  rewrite (has_public _ _ _ _ Kz3). cbn [obind].
  assert (Hq : 1 < q) by (destruct (so_conv _ HS); lia).
  unfold enc_elg_verify. cbn [ee_s ee_d ee_y ee_z ee_t ee_e ee_z1 ee_z2 ee_z3 ee_w].
  destruct (has_in_range _ _ _ _ (sp_l S + sp_eps S) Kz1) as (rg & Erg & Hrg'); [destruct HS; lia|].
  eexists _, rg. split; [reflexivity|]. cbn [ee_s ee_d ee_y ee_z ee_t ee_e ee_z1 ee_z2 ee_z3 ee_w].
  split; [|split; [exact He|exact Hrg']].
  rewrite Hc. cbn [ct_pk]. fold N. rewrite Z.eqb_refl. cbn [oassert obind].
  fold e. rewrite Z.eqb_refl. cbn [check]. rewrite Ees. cbn [obind]. rewrite Erg. cbn [obind].
  destruct rg; cbn [check]; [|reflexivity].
  rewrite (enc_public_has S HS N _ _ _ _ HN) with (2 := Kz1) by (apply Z.mod_pos_bound; destruct HN; lia).
  cbn [obind]. rewrite ct_pre_encv with (S := S) by auto.
  rewrite (hmul_pub_has S N _ _ _ _ _ _ HN Hrg Kes). cbn [obind].
  rewrite homomorphic_add_ok by (apply HN). cbn [obind].
  rewrite (proj2 (ct_eqb_eq _ _)).
  2:{ f_equal. apply encv_same; [destruct HN; lia|reflexivity|].
      rewrite eqm_mod. rewrite (Z.mul_comm (er_r rnd)). rewrite eqm_mod. reflexivity. }
  cbn [check].
  rewrite (scalar_of_signed_has S HS _ _ _ Kz1). cbn [obind].
  assert (Hpm : forall a x, pmul C (a mod q) x = pmul C a x) by (intros; apply (pmul_mod q C HC); lia).
  rewrite Hb, Hcx, !Hpm.
  rewrite (proj2 (c_eqb _ _ HC _ _)).
  2:{ rewrite !(c_mulDl _ _ HC), !(c_mulDr _ _ HC), !(c_mulA _ _ HC).
      rewrite (padd_swap q C HC). rewrite !(Z.mul_comm e). reflexivity. }
  cbn [check].
  rewrite (proj2 (c_eqb _ _ HC _ _)).
  2:{ rewrite !(c_mulDl _ _ HC), !(c_mulA _ _ HC), (Z.mul_comm e). reflexivity. }
  cbn [check].
  rewrite !rpc_pre_comv with (S := S) by auto.
  rewrite (commit_pub_has S _ _ _ _ _ _ _ _ _ Hset Kz1 Kz3). cbn [obind].
  unfold hat in *. rewrite (rpc_pow_pub_has S setup _ _ _ _ _ _ Hset Kes). cbn [obind].
  rewrite (rpc_mul_comv S) by auto. rewrite Z.eqb_refl. reflexivity.
Qed.

Theorem enc_elg_accept (X : xof A (pt C)) pf (pub : enc_elg_public C) setup aux :
  xof_ok q X ->
  wf w (ee_z1 pf) -> wf ww (ee_z3 pf) -> 0 <= ee_z2 pf ->
  modulus_ok S (ep_pk0 pub) -> 0 <= ct_val (ep_cap_c pub) -> setup_ok S setup ->
  let N := ep_pk0 pub in
  let e := ee_e pf in
  let z1 := sval w (ee_z1 pf) in
  enc_elg_verify S X pf pub setup aux = Ret true <->
    ct_pk (ep_cap_c pub) = N /\
    e = enc_elg_challenge X (ee_s pf) (ee_d pf) (ee_y pf) (ee_z pf) (ee_t pf) pub setup aux /\
    pm_interval (sp_l S + sp_eps S) z1 /\
    paillier_cipher N z1 (ee_z2 pf) ((ee_d pf * ct_val (ep_cap_c pub) ^ e) mod (N * N)) /\
    padd C (pmul C (ee_w pf) (ep_cap_a pub)) (pmul C z1 (gen C)) = padd C (ee_y pf) (pmul C e (ep_cap_x pub)) /\
    pmul C (ee_w pf) (gen C) = padd C (ee_z pf) (pmul C e (ep_cap_b pub)) /\
    rp_opens (rp_n setup) (rp_s setup) (rp_t setup) z1 (sval ww (ee_z3 pf))
      ((ee_t pf * ee_s pf ^ e) mod rp_n setup).
Proof.
  intros HX Hz1 Hz3 Hz2 HN Hcc Hset N e z1.
  pose proof (has_self _ _ Hz1) as K1. fold z1 in K1. pose proof (has_self _ _ Hz3) as K3.
  assert (Hset' := Hset). destruct Hset' as (Hn & Hs & Ht & Gs & Gt).
  assert (Hq : 1 < q) by (destruct (so_conv _ HS); lia).
  unfold enc_elg_verify. rewrite obind_oassert, Z.eqb_eq. fold N. fold e.
  apply and_iff_cond; intros Hpk.
  rewrite check_true, Z.eqb_eq.
  set (ch := enc_elg_challenge _ _ _ _ _ _ _ _ _).
  assert (He : 0 <= ch < q) by apply (xo_scalar _ _ HX).
  apply and_iff_cond2; [split; congruence|]. intros Hee _. rewrite <- Hee.
  destruct (signed_of_scalar_has S HS ch He) as (es & Ees & Kes). rewrite Ees. cbn [obind].
  destruct (has_in_range _ _ _ _ (sp_l S + sp_eps S) K1) as (rg & Erg & Hrg); [destruct HS; lia|].
  rewrite Erg. cbn [obind]. rewrite check_true, Hrg. apply and_iff_compat_l.
  rewrite (enc_public_has S HS N _ _ _ _ HN Hz2 K1). cbn [obind].
  destruct (ep_cap_c pub) as [cpk cv] eqn:Ecc. cbn [ct_pk ct_val] in *. subst cpk.
  rewrite (hmul_pub_nonneg es ch _ N cv); [|apply HN|apply Kes|apply Kes|auto|lia]. cbn [obind].
  unfold homomorphic_add, ct_to_precomputed. cbn [ct_pk ct_val]. rewrite Z.eqb_refl. cbn [oassert obind].
  rewrite check_true. apply and_iff_compat2.
  { rewrite ct_eqb_eq, encv_textbook by apply HN.
    rewrite <- Z.mul_mod by (destruct HN; nia). split; [intros [= ->]; auto|intros ->; auto]. }
  rewrite (scalar_of_signed_has S HS _ _ _ K1). cbn [obind].
  rewrite !check_true, !(c_eqb _ _ HC), !(pmul_mod q C HC) by lia.
  apply and_iff_compat_l. apply and_iff_compat_l.
  rewrite (commit_pub_has S _ _ _ _ _ _ _ _ _ Hset K1 K3). cbn [obind].
  unfold rpc_pow_pub, rpc_to_precomputed.
  rewrite pow_pub_nonneg; [|lia|apply Kes|apply Z.mod_pos_bound; lia|rewrite (has_sval _ _ _ _ Kes); lia].
  rewrite (has_sval _ _ _ _ Kes). cbn [obind]. rewrite check_true, Z.eqb_eq.
  rewrite rp_opens_comv by (auto; lia). unfold rpc_mul.
  rewrite <- Z.mul_mod by lia.
  assert (Em : (ee_t pf * (ee_s pf mod rp_n setup) ^ ch) mod rp_n setup = (ee_t pf * ee_s pf ^ ch) mod rp_n setup).
  { apply (eqm_mul_l (rp_n setup)). apply eqm_pow, eqm_mod. }
  rewrite Em. split; [intros [-> _]; auto|intros ->; auto].
Qed.

Theorem enc_elg_extract (X1 X2 : xof A (pt C)) pf1 pf2 (pub : enc_elg_public C) setup aux1 aux2 p1 q1 :
  xof_ok q X1 -> xof_ok q X2 -> prime q ->
  keygen_primes (prime_bits P) p1 q1 -> ep_pk0 pub = p1 * q1 -> setup_ok S setup ->
  0 <= ct_val (ep_cap_c pub) < (p1 * q1) * (p1 * q1) -> Z.gcd (ct_val (ep_cap_c pub)) (p1 * q1) = 1 ->
  wf w (ee_z1 pf1) -> wf ww (ee_z3 pf1) -> 0 <= ee_z2 pf1 ->
  wf w (ee_z1 pf2) -> wf ww (ee_z3 pf2) -> 0 <= ee_z2 pf2 ->
  Z.gcd (ee_d pf1) (p1 * q1) = 1 -> Z.gcd (ee_t pf1) (rp_n setup) = 1 -> Z.gcd (ee_s pf1) (rp_n setup) = 1 ->
  ee_s pf2 = ee_s pf1 -> ee_d pf2 = ee_d pf1 -> ee_y pf2 = ee_y pf1 -> ee_z pf2 = ee_z pf1 -> ee_t pf2 = ee_t pf1 ->
  enc_elg_verify S X1 pf1 pub setup aux1 = Ret true ->
  enc_elg_verify S X2 pf2 pub setup aux2 = Ret true ->
  ee_e pf1 <> ee_e pf2 ->
  let de := ee_e pf1 - ee_e pf2 in
  let dz := sval w (ee_z1 pf1) - sval w (ee_z1 pf2) in
  exists m b x,
    encrypts (p1 * q1) (ct_val (ep_cap_c pub)) m /\ (m * de) mod (p1 * q1) = dz mod (p1 * q1) /\
    (b * de) mod q = (ee_w pf1 - ee_w pf2) mod q /\ (x * de) mod q = dz mod q /\
    ep_cap_b pub = pmul C b (gen C) /\
    ep_cap_x pub = padd C (pmul C b (ep_cap_a pub)) (pmul C x (gen C)) /\
    (exists c, unit_power (rp_n setup) (ee_s pf1) de c /\
       rp_opens (rp_n setup) (rp_s setup) (rp_t setup) dz (sval ww (ee_z3 pf1) - sval ww (ee_z3 pf2)) c) /\
    Z.abs dz < 2 ^ (sp_l S + sp_eps S) /\
    (forall d, dz = d * de ->
       encrypts (p1 * q1) (ct_val (ep_cap_c pub)) d /\ Z.abs d < 2 ^ (sp_l S + sp_eps S) /\
       ep_cap_x pub = padd C (pmul C b (ep_cap_a pub)) (pmul C d (gen C))).
Proof.
  intros HX1 HX2 Hq K HN Hset HC0 HCg W1 W3 W2 V1 V3 V2 GD GT GS Es Ed Ey Ez Et A1 A2 Hne de dz.
  assert (Hm : modulus_ok S (p1 * q1)) by (apply keygen_modulus; [apply HS|exact K]).
  assert (Hset' := Hset). destruct Hset' as (Hn & Hs & Ht & Gs & Gt).
  rewrite enc_elg_accept in A1, A2 by (auto; try (now rewrite HN); lia).
  rewrite HN in A1, A2. rewrite Es, Ed, Ey, Ez, Et in A2.
  destruct A1 as (_ & E1 & R1 & C1 & Y1 & Z1 & O1), A2 as (_ & E2 & R2 & C2 & Y2 & Z2 & O2).
  assert (H1 : 0 <= ee_e pf1 < q) by (rewrite E1; apply (xo_scalar _ _ HX1)).
  assert (H2 : 0 <= ee_e pf2 < q) by (rewrite E2; apply (xo_scalar _ _ HX2)).
  clear E1 E2. set (N := p1 * q1) in *. set (c := ct_val (ep_cap_c pub)) in *.
  set (e1 := ee_e pf1) in *. set (e2 := ee_e pf2) in *.
  set (z1 := sval w (ee_z1 pf1)) in *. set (z2 := sval w (ee_z1 pf2)) in *.
  assert (HN1 : 1 < N) by apply Hm.
  pose proof (so_par _ HS) as HP.
  destruct (encrypts_exists P p1 q1 HP K c HC0 HCg) as (m & Em). fold N in Em.
  destruct (encrypts_exists P p1 q1 HP K (ee_d pf1 mod (N * N))) as (d & Edd).
  { apply Z.mod_pos_bound. nia. }
  { fold N. apply gcd_sq in GD; [|lia]. apply gcd_sq; [lia|]. rewrite gcd_mod_l; auto. nia. }
  fold N in Edd.
  assert (Hpl : forall e z r, 0 <= e -> paillier_cipher N z r ((ee_d pf1 * c ^ e) mod (N * N)) -> eqm N z (d + m * e)).
  { intros e z r He Hc. apply (encrypts_unique P p1 q1 HP K ((ee_d pf1 * c ^ e) mod (N * N))); fold N.
    - exists r. split; auto. apply encv_textbook in Hc; auto.
      apply (encv_gcd N z r HN1). rewrite <- Hc.
      apply gcd_sq; [lia|]. rewrite gcd_mod_l by nia. apply gcd_sq; [lia|].
      apply gcd_mul_1; auto. apply gcd_pow_1; auto.
    - rewrite Z.mul_mod by nia. apply encrypts_mul; auto. apply encrypts_pow; auto. }
  pose proof (Hpl _ _ _ (proj1 H1) C1) as P1. pose proof (Hpl _ _ _ (proj1 H2) C2) as P2.
  assert (Hmd : eqm N (m * de) dz).
  { unfold dz, de. rewrite P1, P2. apply eqm_eq. ring. }
  destruct (scalar_inv q e1 e2 Hq H1 H2 Hne) as (i & Hi). fold de in Hi.
  assert (Hq0 : q <> 0) by (pose proof (prime_ge_2 _ Hq); lia).
  exists m, (i * (ee_w pf1 - ee_w pf2)), (i * dz).
  split; [exact Em|]. split; [exact Hmd|].
  split. { change (eqm q (i * (ee_w pf1 - ee_w pf2) * de) (ee_w pf1 - ee_w pf2)).
    transitivity ((i * de) * (ee_w pf1 - ee_w pf2)); [apply eqm_eq; ring|]. rewrite Hi. apply eqm_eq. ring. }
  split. { change (eqm q (i * dz * de) dz).
    transitivity ((i * de) * dz); [apply eqm_eq; ring|]. rewrite Hi. apply eqm_eq. ring. }
  assert (HB : ep_cap_b pub = pmul C (i * (ee_w pf1 - ee_w pf2)) (gen C)).
  { pose proof (diff_points q C HC _ _ _ _ _ _ Z1 Z2) as D. fold de in D.
    rewrite <- (pmul_opp q C HC), <- (c_mulDl _ _ HC) in D.
    rewrite <- (divide_point q C HC i de (ep_cap_b pub)) by auto. rewrite <- D, (c_mulA _ _ HC). f_equal. }
  split; [exact HB|].
  assert (HXd : pmul C de (ep_cap_x pub) = padd C (pmul C (ee_w pf1 - ee_w pf2) (ep_cap_a pub)) (pmul C dz (gen C))).
  { pose proof (diff_points q C HC _ _ _ _ _ _ Y1 Y2) as D. fold de in D. rewrite <- D.
    rewrite (popp_add q C HC), (padd_swap q C HC), <- !(pmul_opp q C HC), <- !(c_mulDl _ _ HC). reflexivity. }
  assert (HXx : ep_cap_x pub = padd C (pmul C (i * (ee_w pf1 - ee_w pf2)) (ep_cap_a pub)) (pmul C (i * dz) (gen C))).
  { rewrite <- (divide_point q C HC i de (ep_cap_x pub)) by auto. rewrite HXd.
    rewrite (c_mulDr _ _ HC), !(c_mulA _ _ HC). reflexivity. }
  split; [exact HXx|].
  split.
  { exists (zpow (rp_n setup) (ee_s pf1) de). split.
    - apply unit_power_zpow; auto; lia.
    - apply rp_opens_comv; auto; [lia|]. unfold de.
      apply rp_opens_comv in O1, O2; auto; try lia.
      apply comv_diff with (T := ee_t pf1); auto; [lia| |].
      + rewrite <- O1, eqm_mod. apply eqm_mul_l. symmetry. apply zpow_nonneg. lia.
      + rewrite <- O2, eqm_mod. apply eqm_mul_l. symmetry. apply zpow_nonneg. lia. }
  unfold pm_interval in R1, R2.
  assert (Hpow : 2 ^ (sp_l S + sp_eps S) = 2 * 2 ^ (sp_l S + sp_eps S - 1)).
  { rewrite <- Z.pow_succ_r by (destruct HS; lia). f_equal. lia. }
  assert (Hdz : Z.abs dz < 2 ^ (sp_l S + sp_eps S)) by (unfold dz; lia).
  split; [exact Hdz|].
  intros d0 Hd0. assert (Hde : de <> 0) by (unfold de; lia).
  split; [|split].
  - apply encrypts_mod_plain with m; auto. apply gauss_eqm with de; [lia| |].
    + apply (small_coprime P p1 q1 K de (sp_kappa S)); auto; try (destruct HS; lia).
      destruct (q_lt _ _ _ _ _ (so_conv _ HS)) as (Hql & _). destruct (so_kappa _ HS) as [<- _]. unfold de. lia.
    + rewrite !(Z.mul_comm de). rewrite Hmd, Hd0. reflexivity.
  - pose proof (abs_quot_le dz d0 de Hde Hd0). lia.
  - rewrite HXx. f_equal. apply (pmul_eqm q C HC); auto. rewrite Hd0.
    transitivity ((i * de) * d0); [apply eqm_eq; ring|]. rewrite Hi. apply eqm_eq. ring.
Qed.

End EncElg.
