(** * aff_g_star: completeness, acceptance, extraction. *)
From Coq Require Import ZArith Znumtheory List Bool Lia.
From Verif Require Import Base BaseFacts SignedModel SignedSpec SignedProofs EncodingModel ConversionModel
  ConversionProofs IntLemmas ModArith PaillierModel PaillierSpec PaillierProofs RpProofs ZkBase ZkModel ZkSpec ZkFacts ZkExtract.
Import ListNotations.
Open Scope Z_scope.

Section AffGStar.
Variables (S : sparams) (C : curve) (A : Type).
Notation P := (sp_pail S).
Notation w := (uint_w (sp_pail S)).
Notation ww := (wide_w (sp_pail S)).
Notation q := (sp_q S).
Hypothesis HS : sp_ok S.
Hypothesis HC : curve_ok q C.



Section Run.
Variables (sec : aff_gs_secret) (pub : aff_g_public C) (x y N0 N1 c : Z).
Hypothesis Hx : wf w (ss_x sec).
Hypothesis Hxv : sval w (ss_x sec) = x.
Hypothesis Hxb : bound (ss_x sec) <= sp_l S.
Hypothesis Hxr : pm_interval (sp_l S) x.
Hypothesis Hy : wf w (ss_y sec).
Hypothesis Hyv : sval w (ss_y sec) = y.
Hypothesis Hyb : bound (ss_y sec) <= sp_lp S.
Hypothesis Hyr : pm_interval (sp_lp S) y.
Hypothesis HN0 : modulus_ok S N0.
Hypothesis HN1 : modulus_ok S N1.
Hypothesis E0 : ap_pk0 pub = N0.
Hypothesis E1 : ap_pk1 pub = N1.
Hypothesis Hrho : unit_ok N0 (ss_rho sec).
Hypothesis Hmu : unit_ok N1 (ss_mu sec).
Hypothesis Huc : unit_ok N0 c.
Hypothesis Hc : ap_cap_c pub = Ct N0 c.
Hypothesis Hd : ap_cap_d pub = Ct N0 (affv N0 c x (- y) (ss_rho sec)).
Hypothesis HY : ap_cap_y pub = Ct N1 (encv N1 y (ss_mu sec)).
Hypothesis Hcx : ap_cap_x pub = pmul C x (gen C).

Lemma aff_gs_step rnd : aff_gs_rand_ok S N0 N1 rnd ->
  exists ec, aff_gs_commit S pub rnd = Ret ec /\
    forall b, exists l, aff_gs_respond S sec pub (fst ec, b) = Ret l /\
      exists res, aff_gs_elem_verify S pub (b, snd ec, l) = Ret res /\
        (res = true <-> aff_gs_in_range S x y (rnd, b)).
Proof.
  intros [Da Db [Dr0 Drg] [Ds0 Dsg]]. destruct Hrho as [Hr0 Hrg], Hmu as [Hm0 Hmg], Huc as [Hc0 Hcg].
  pose proof (has_self _ _ Hx) as Kx. rewrite Hxv in Kx.
  pose proof (has_self _ _ Hy) as Ky. rewrite Hyv in Ky.
  unfold aff_gs_commit. cbv zeta. rewrite E0, E1, Hc.
  run_ex (sample_has S (sp_l S + sp_eps S) (sr_alpha rnd)) alpha Ka; [destruct HS; lia|].
  run_ex (sample_has S (sp_lp S + sp_eps S) (sr_beta rnd)) beta Kb; [destruct HS; lia|].
  fold (mask (sp_l S + sp_eps S) (sr_alpha rnd)) in Ka.
  fold (mask (sp_lp S + sp_eps S) (sr_beta rnd)) in Kb.
  unfold aff_gs_in_range. cbn [fst snd].
  set (av := mask _ (sr_alpha rnd)) in *. set (bv := mask _ (sr_beta rnd)) in *.
  rewrite (hmul_sec_unit N0 c (proj1 HN0) Hcg _ _ _ _ Hc0 Ka). cbn [obind].
  rewrite (enc_has S HS N0 _ _ _ _ HN0 Dr0 Kb). cbn [obind].
  rewrite hadd_eq. cbn [obind ct_val]. fold (affv N0 c av bv (sr_r rnd)).
  rewrite (scalar_of_secret_has S HS _ _ _ Ka). cbn [obind].
  rewrite (enc_has S HS N1 _ _ _ _ HN1 Ds0 Kb). cbn [obind ct_val].
  eexists. split; [reflexivity|]. intros e. cbn [fst snd].
  assert (Hz : exists z bz, (if e then sec_add w alpha (ss_x sec) else Ret alpha) = Ret z /\ has w z (av + x * b2z e) bz).
  { destruct e; cbn [b2z].
    - destruct (has_add _ _ _ _ _ _ _ Ka Kx) as (z & Ez & Kz); [destruct HS; lia|]. exists z. eexists. split; [exact Ez|].
      rewrite Z.mul_1_r. exact Kz.
    - exists alpha. eexists. split; [reflexivity|]. rewrite Z.mul_0_r, Z.add_0_r. exact Ka. }
  destruct Hz as (z & bz & Ez & Kz).
  pose proof (has_neg _ _ _ _ Ky) as Kny.
  assert (Hz : exists z bz, (if e then sec_add w beta (sec_neg w (ss_y sec)) else Ret beta) = Ret z /\ has w z (bv + - y * b2z e) bz).
  { destruct e; cbn [b2z].
    - destruct (has_add _ _ _ _ _ _ _ Kb Kny) as (z' & Ez' & Kz'); [destruct HS; lia|]. exists z'. eexists. split; [exact Ez'|].
      rewrite Z.mul_1_r. exact Kz'.
    - exists beta. eexists. split; [reflexivity|]. rewrite Z.mul_0_r, Z.add_0_r. exact Kb. }
  destruct Hz as (zp & bzp & Ezp & Kzp).
  assert (Hex : exists bb, has w (if e then pub_one else s_zero) (b2z e) bb).
  { destruct e; eexists; [apply has_one|apply has_zero]; destruct HS; lia. }
  destruct Hex as (bb & Kex). pose proof (has_pub_neg _ _ _ _ Kex) as Knex.
  unfold aff_gs_respond. cbn [sh_alpha sh_beta sh_r sh_s]. cbv zeta. rewrite E0, E1, Ez. cbn [obind]. rewrite Ezp. cbn [obind].
  rewrite (masked_has S N0 _ _ _ _ _ HN0 Hrg Kex). cbn [obind].
  rewrite (masked_has S N1 _ _ _ _ _ HN1 Hmg Knex). cbn [obind].
  rewrite (has_public _ _ _ _ Kz), (has_public _ _ _ _ Kzp). cbn [obind].
  eexists. split; [reflexivity|].
  unfold aff_gs_elem_verify. cbn [sl_z sl_zp sl_w sl_lambda sc_a sc_r sc_b]. cbv zeta.
  destruct (has_in_range _ _ _ _ (sp_l S + sp_eps S) Kz) as (rg1 & Erg1 & Hrg1); [destruct HS; lia|].
  destruct (has_in_range _ _ _ _ (sp_lp S + sp_eps S) Kzp) as (rg2 & Erg2 & Hrg2); [destruct HS; lia|].
  exists (rg1 && rg2). split.
  2:{ rewrite andb_true_iff, Hrg1, Hrg2. replace (bv - y * b2z e) with (bv + - y * b2z e) by ring. reflexivity. }
  rewrite Erg1. cbn [obind]. destruct rg1; cbn [check andb]; [|reflexivity].
  rewrite Erg2. cbn [obind]. destruct rg2; cbn [check]; [|reflexivity].
  rewrite E0, E1, Hc, Hd, HY.
  rewrite (hmul_pub_unit N0 c (proj1 HN0) Hcg _ _ _ _ Hc0 Kz). cbn [obind].
  rewrite (enc_public_has S HS N0 _ _ _ _ HN0) with (2 := Kzp) by (apply Z.mod_pos_bound; destruct HN0; lia).
  cbn [obind]. rewrite hadd_eq. cbn [obind]. rewrite ct_bit by apply HN0. cbn [obind].
  set (ez := b2z e) in *. assert (Hez : 0 <= ez) by (unfold ez; destruct e; cbn; lia).
  assert (N0g : 1 < N0) by apply HN0. assert (N1g : 1 < N1) by apply HN1.
  assert (Hq : 1 < q) by (destruct (so_conv _ HS); lia).
  rewrite (proj2 (ct_eqb_eq _ _)).
  2:{ f_equal. transitivity ((affv N0 c av bv (sr_r rnd) * zpow (N0 * N0) (affv N0 c x (- y) (ss_rho sec)) ez) mod (N0 * N0)).
      - rewrite (affv_zpow N0 c N0g Hcg) by auto. rewrite (affv_mul N0 c N0g Hcg).
        fold (affv N0 c (av + x * ez) (bv + - y * ez) ((zpow N0 (ss_rho sec) ez * sr_r rnd) mod N0)).
        f_equal. f_equal. ring.
      - apply eqm_mul_l. now apply zpow_nonneg. }
  cbn [check].
  rewrite (scalar_of_signed_has S HS _ _ _ Kz). cbn [obind].
  assert (Hpm : forall a x, pmul C (a mod q) x = pmul C a x) by (intros; apply (pmul_mod q C HC); lia).
  rewrite (pt_bit q C HC), Hcx, !Hpm. fold ez.
  rewrite (proj2 (c_eqb _ _ HC _ _)).
  2:{ rewrite !(c_mulDl _ _ HC), !(c_mulA _ _ HC). rewrite !(Z.mul_comm ez). reflexivity. }
  cbn [check].
  rewrite (enc_public_has S HS N1 _ _ _ _ HN1) with (2 := Kzp) by (apply Z.mod_pos_bound; destruct HN1; lia).
  cbn [obind].
  rewrite ct_bit_sub; [|exact N1g|apply encv_range; lia].
  exists (zpow (N1 * N1) (encv N1 y (ss_mu sec)) (- ez)). split.
  { apply unit_power_zpow; [nia| |reflexivity]. now apply encv_gcd2. }
  rewrite encv_zpow by auto. rewrite encv_mul by auto.
  rewrite (proj2 (ct_eqb_eq _ _)); [reflexivity|]. f_equal. f_equal; [ring|].
  f_equal. ring.
Qed.

Lemma aff_gs_run_sec (X : xof A (pt C)) aux rnds : xof_ok q X ->
  length rnds = Z.to_nat (sp_kappa S) -> Forall (aff_gs_rand_ok S N0 N1) rnds ->
  exists pf r, aff_gs_new S X sec pub aux rnds = Ret pf /\ aff_gs_verify S X pf pub aux = Ret r /\
    length (sg_e pf) = Z.to_nat (sp_kappa S) /\
    (r = true <-> Forall (aff_gs_in_range S x y) (combine rnds (sg_e pf))).
Proof.
  intros HX Hlen Hok.
  pose proof (has_self _ _ Hx) as Kx. rewrite Hxv in Kx.
  pose proof (has_self _ _ Hy) as Ky. rewrite Hyv in Ky.
  destruct (parallel_run (aff_gs_commit S pub) (aff_gs_respond S sec pub) (aff_gs_elem_verify S pub)
    (aff_gs_in_range S x y) rnds) as (ecs & Ecs & Hle & Hrest).
  { eapply Forall_impl; [|exact Hok]. apply aff_gs_step. }
  unfold aff_gs_new. rewrite Hlen, Nat.eqb_refl. cbn [oassert obind].
  rewrite (has_assert_range _ _ _ _ (sp_l S) Kx) by (auto; destruct HS; lia). cbn [obind].
  rewrite (has_assert_range _ _ _ _ (sp_lp S) Ky) by (auto; destruct HS; lia). cbn [obind].
  rewrite E0, E1, Hc, Hd, HY. cbn [ct_pk]. rewrite !Z.eqb_refl. cbn [oassert obind].
  rewrite Ecs. cbn [obind]. cbv zeta.
  set (e := aff_gs_challenge S X (map snd ecs) pub aux).
  assert (He : length e = Z.to_nat (sp_kappa S)) by apply (xo_bits _ _ HX).
  destruct (Hrest e) as (ls & Els & Hll & res & Eres & Hres); [congruence|].
  rewrite Els. cbn [obind]. eexists _, res. split; [reflexivity|]. cbn [sg_e]. split; [|split; [exact He|exact Hres]].
  unfold aff_gs_verify. cbn [sg_e sg_coms sg_elems]. rewrite E0, E1, Hc, Hd, HY. cbn [ct_pk]. rewrite !Z.eqb_refl. cbn [oassert obind].
  fold e. cbv zeta. rewrite bits_eqb_refl. cbn [check]. rewrite map_length, Hle, Hll, Hlen, He, Nat.eqb_refl. cbn [andb check].
  exact Eres.
Qed.
End Run.

Theorem aff_gs_run (X : xof A (pt C)) sec (pub : aff_g_public C) aux rnds x y N0 N1 c :
  xof_ok q X ->
  wf w (ss_x sec) -> sval w (ss_x sec) = x -> bound (ss_x sec) <= sp_l S -> pm_interval (sp_l S) x ->
  wf w (ss_y sec) -> sval w (ss_y sec) = y -> bound (ss_y sec) <= sp_lp S -> pm_interval (sp_lp S) y ->
  modulus_ok S N0 -> modulus_ok S N1 -> ap_pk0 pub = N0 -> ap_pk1 pub = N1 ->
  unit_ok N0 (ss_rho sec) -> unit_ok N1 (ss_mu sec) ->
  unit_ok N0 c -> ap_cap_c pub = Ct N0 c ->
  ap_cap_d pub = Ct N0 (affv N0 c x (- y) (ss_rho sec)) ->
  ap_cap_y pub = Ct N1 (encv N1 y (ss_mu sec)) ->
  ap_cap_x pub = pmul C x (gen C) ->
  length rnds = Z.to_nat (sp_kappa S) -> Forall (aff_gs_rand_ok S N0 N1) rnds ->
  exists pf r, aff_gs_new S X sec pub aux rnds = Ret pf /\ aff_gs_verify S X pf pub aux = Ret r /\
    length (sg_e pf) = Z.to_nat (sp_kappa S) /\
    (r = true <-> Forall (aff_gs_in_range S x y) (combine rnds (sg_e pf))).
Proof. intros. now apply (aff_gs_run_sec sec pub x y N0 N1 c). Qed.



Lemma aff_gs_elem_accept (pub : aff_g_public C) t :
  aff_gs_elem_wf S (snd t) -> modulus_ok S (ap_pk0 pub) -> modulus_ok S (ap_pk1 pub) ->
  ct_pk (ap_cap_c pub) = ap_pk0 pub -> ct_pk (ap_cap_d pub) = ap_pk0 pub -> ct_pk (ap_cap_y pub) = ap_pk1 pub ->
  0 <= ct_val (ap_cap_c pub) -> 0 <= ct_val (ap_cap_y pub) ->
  (aff_gs_elem_verify S pub t = Ret true <-> aff_gs_elem_ok S pub t).
Proof.
  destruct t as [[b com] el]. cbn [snd]. intros (W1 & W2 & W3 & W4) HN0 HN1 E1 E2 E3 Hcc Hcy.
  unfold aff_gs_elem_ok, aff_gs_elem_verify. cbv zeta.
  set (N0 := ap_pk0 pub) in *. set (N1 := ap_pk1 pub) in *.
  pose proof (has_self _ _ W1) as K1. pose proof (has_self _ _ W2) as K2.
  set (z := sval w (sl_z el)) in *. set (z' := sval w (sl_zp el)) in *.
  assert (Hq : 1 < q) by (destruct (so_conv _ HS); lia).
  destruct (has_in_range _ _ _ _ (sp_l S + sp_eps S) K1) as (rg & Erg & Hrg); [destruct HS; lia|].
  rewrite Erg. cbn [obind]. rewrite check_true, Hrg. apply and_iff_compat_l.
  destruct (has_in_range _ _ _ _ (sp_lp S + sp_eps S) K2) as (rg2 & Erg2 & Hrg2); [destruct HS; lia|].
  rewrite Erg2. cbn [obind]. rewrite check_true, Hrg2. apply and_iff_compat_l.
  destruct (ap_cap_c pub) as [cpk cv] eqn:Ecc. cbn [ct_pk ct_val] in *. subst cpk.
  destruct (ap_cap_d pub) as [dpk dv] eqn:Edd. cbn [ct_pk ct_val] in *. subst dpk.
  destruct (ap_cap_y pub) as [ypk yv] eqn:Eyy. cbn [ct_pk ct_val] in *. subst ypk.
  rewrite (enc_public_has S HS N0 _ _ _ _ HN0 W3 K2). rewrite (enc_public_has S HS N1 _ _ _ _ HN1 W4 K2).
  rewrite ct_bit by apply HN0.
  rewrite (hmul_pub_bind w N0 cv _ _ _ _ _ (proj1 HN0) Hcc K1).
  erewrite <- (ex_and_iff (fun cz => unit_power (N0 * N0) cv z cz)
    (fun cz => ct_eqb (Ct N0 ((cz * encv N0 z' (sl_w el)) mod (N0 * N0)))
       (Ct N0 ((sc_a com * dv ^ b2z b) mod (N0 * N0))) = true)); [| |reflexivity].
  2:{ intros cz. rewrite ct_eqb_eq.
      split; [intros [= H]; exists (encv N0 z' (sl_w el)); split; auto; apply encv_textbook; auto; apply HN0|].
      intros (ez & He1 & He2). apply encv_textbook in He1; [|apply HN0]. subst ez. now rewrite He2. }
  apply Morphisms_Prop.ex_iff_morphism. intros cz. apply and_iff_compat_l.
  cbn [obind]. rewrite hadd_eq. cbn [obind].
  rewrite check_true. apply and_iff_compat_l.
  rewrite (scalar_of_signed_has S HS _ _ _ K1). cbn [obind].
  rewrite check_true, (c_eqb _ _ HC), (pt_bit q C HC), !(pmul_mod q C HC) by lia. apply and_iff_compat_l.
  rewrite ct_bit_sub; [|apply HN1|exact Hcy].
  apply Morphisms_Prop.ex_iff_morphism. intros yi. apply and_iff_compat_l.
  rewrite encv_textbook by apply HN1.
  split.
  - intros [= H]. apply ct_eqb_eq in H. congruence.
  - intros H. f_equal. apply ct_eqb_eq. now rewrite H.
Qed.

Theorem aff_gs_accept (X : xof A (pt C)) pf (pub : aff_g_public C) aux :
  xof_ok q X ->
  Forall (aff_gs_elem_wf S) (sg_elems pf) -> modulus_ok S (ap_pk0 pub) -> modulus_ok S (ap_pk1 pub) ->
  0 <= ct_val (ap_cap_c pub) -> 0 <= ct_val (ap_cap_y pub) ->
  aff_gs_verify S X pf pub aux = Ret true <->
    ct_pk (ap_cap_c pub) = ap_pk0 pub /\ ct_pk (ap_cap_d pub) = ap_pk0 pub /\ ct_pk (ap_cap_y pub) = ap_pk1 pub /\
    sg_e pf = aff_gs_challenge S X (sg_coms pf) pub aux /\
    length (sg_e pf) = Z.to_nat (sp_kappa S) /\
    length (sg_coms pf) = Z.to_nat (sp_kappa S) /\ length (sg_elems pf) = Z.to_nat (sp_kappa S) /\
    (forall i b com el, nth_error (sg_e pf) i = Some b -> nth_error (sg_coms pf) i = Some com ->
       nth_error (sg_elems pf) i = Some el -> aff_gs_elem_ok S pub (b, com, el)).
Proof.
  intros HX Hwf HN0 HN1 Hcc Hcy. unfold aff_gs_verify. cbv zeta.
  rewrite obind_oassert, Z.eqb_eq. apply and_iff_cond; intros E1.
  rewrite obind_oassert, Z.eqb_eq. apply and_iff_cond; intros E2.
  rewrite obind_oassert, Z.eqb_eq. apply and_iff_cond; intros E3.
  rewrite check_true, bits_eqb_eq. apply and_iff_cond2; [split; congruence|]. intros Hch _.
  assert (Hlen : length (sg_e pf) = Z.to_nat (sp_kappa S)) by (rewrite <- Hch; apply (xo_bits _ _ HX)).
  rewrite Hch, check_true, andb_true_iff, !Nat.eqb_eq, Hlen.
  rewrite oforall_true. rewrite (Forall_combine3_wf (aff_gs_elem_wf S) _ (aff_gs_elem_ok S pub)); [|exact Hwf|].
  2:{ intros t Ht. now apply aff_gs_elem_accept. }
  split.
  - intros ((L1 & L2) & H). do 3 (split; [congruence|]). apply Forall_combine3; congruence.
  - intros (_ & L1 & L2 & H). split; [split; congruence|]. apply Forall_combine3; try congruence. exact H.
Qed.

(** Answering both bits for one commitment opens everything. *)
Lemma aff_gs_elem_open (pub : aff_g_public C) com el1 el0 p0 q0 p1 q1 c :
  keygen_primes (prime_bits P) p0 q0 -> ap_pk0 pub = p0 * q0 ->
  keygen_primes (prime_bits P) p1 q1 -> ap_pk1 pub = p1 * q1 ->
  encrypts (p0 * q0) (ct_val (ap_cap_c pub)) c ->
  cipher_ok (p0 * q0) (ct_val (ap_cap_d pub)) ->
  cipher_ok (p1 * q1) (ct_val (ap_cap_y pub)) ->
  Z.gcd (sc_a com) (p0 * q0) = 1 -> Z.gcd (sc_b com) (p1 * q1) = 1 ->
  aff_gs_elem_ok S pub (true, com, el1) -> aff_gs_elem_ok S pub (false, com, el0) ->
  let x := sval w (sl_z el1) - sval w (sl_z el0) in
  let y := sval w (sl_zp el0) - sval w (sl_zp el1) in
  encrypts (p0 * q0) (ct_val (ap_cap_d pub)) (c * x - y) /\
  encrypts (p1 * q1) (ct_val (ap_cap_y pub)) y /\
  ap_cap_x pub = pmul C x (gen C) /\
  Z.abs x < 2 ^ (sp_l S + sp_eps S) /\ Z.abs y < 2 ^ (sp_lp S + sp_eps S).
Proof.
  intros Kp0 HN0 Kp1 HN1 Ec [HD0 HDg] [HY0 HYg] GA GB A1 A0 x y.
  unfold aff_gs_elem_ok in A1, A0. cbv zeta in A1, A0. rewrite HN0, HN1 in A1, A0.
  destruct A1 as (R1 & Q1 & (cz1 & Uc1 & ez1 & Cz1 & Eq1) & B1 & (yz1 & Uy1 & Yz1)).
  destruct A0 as (R2 & Q2 & (cz2 & Uc2 & ez2 & Cz2 & Eq2) & B2 & (yz2 & Uy2 & Yz2)).
  set (N0 := p0 * q0) in *. set (N1 := p1 * q1) in *.
  pose proof (so_par _ HS) as HP.
  destruct (encrypts_exists P p0 q0 HP Kp0 _ HD0 HDg) as (d & Ed). fold N0 in Ed.
  destruct (encrypts_exists P p1 q1 HP Kp1 _ HY0 HYg) as (yy & Ey). fold N1 in Ey.
  destruct (wire_encrypts P p0 q0 HP Kp0 _ GA) as (a & Eaa). fold N0 in Eaa.
  destruct (wire_encrypts P p1 q1 HP Kp1 _ GB) as (b & Ebb). fold N1 in Ebb.
  assert (G0 : 1 < N0) by apply (N_gt1 P p0 q0 HP Kp0).
  assert (G1 : 1 < N1) by apply (N_gt1 P p1 q1 HP Kp1).
  pose proof (affine_plain P p0 q0 HP Kp0 _ _ _ _ _ _ _ _ _ _ _ _ Ec Ed Eaa Z.le_0_1 Uc1 Cz1 Eq1) as P1.
  pose proof (affine_plain P p0 q0 HP Kp0 _ _ _ _ _ _ _ _ _ _ _ _ Ec Ed Eaa (Z.le_refl 0) Uc2 Cz2 Eq2) as P2.
  pose proof (linear_plain P p1 q1 HP Kp1 _ _ _ _ _ _ _ _ Ey Ebb Uy1 Yz1) as L1.
  pose proof (linear_plain P p1 q1 HP Kp1 _ _ _ _ _ _ _ _ Ey Ebb Uy2 Yz2) as L2.
  cbn [b2z] in *. fold N0 in P1, P2. fold N1 in L1, L2.
  set (u1 := sval w (sl_z el1)) in *. set (u0 := sval w (sl_z el0)) in *.
  set (v1 := sval w (sl_zp el1)) in *. set (v0 := sval w (sl_zp el0)) in *.
  split; [|split; [|split; [|split]]].
  - apply encrypts_mod_plain with d; auto.
    transitivity ((a + d * 1) - (a + d * 0)); [apply eqm_eq; ring|].
    rewrite <- P1, <- P2. apply eqm_eq. unfold x, y. ring.
  - apply encrypts_mod_plain with yy; auto.
    transitivity ((b + yy * - 0) - (b + yy * - (1))); [apply eqm_eq; ring|].
    rewrite <- L1, <- L2. apply eqm_eq. unfold y. ring.
  - pose proof (diff_points q C HC _ _ _ _ _ _ B1 B2) as D.
    rewrite <- (pmul_opp q C HC), <- (c_mulDl _ _ HC) in D. rewrite (c_mul1 _ _ HC) in D. now rewrite <- D.
  - apply pm_diff; auto. clear - HS. destruct HS; lia.
  - apply pm_diff; auto. clear - HS. destruct HS; lia.
Qed.

Theorem aff_gs_extract (X1 X2 : xof A (pt C)) pf1 pf2 (pub : aff_g_public C) aux1 aux2 p0 q0 p1 q1 c i com :
  xof_ok q X1 -> xof_ok q X2 ->
  keygen_primes (prime_bits P) p0 q0 -> ap_pk0 pub = p0 * q0 ->
  keygen_primes (prime_bits P) p1 q1 -> ap_pk1 pub = p1 * q1 ->
  0 <= ct_val (ap_cap_c pub) -> encrypts (p0 * q0) (ct_val (ap_cap_c pub)) c ->
  cipher_ok (p0 * q0) (ct_val (ap_cap_d pub)) ->
  cipher_ok (p1 * q1) (ct_val (ap_cap_y pub)) ->
  Forall (aff_gs_elem_wf S) (sg_elems pf1) -> Forall (aff_gs_elem_wf S) (sg_elems pf2) ->
  sg_coms pf1 = sg_coms pf2 -> nth_error (sg_coms pf1) i = Some com ->
  Z.gcd (sc_a com) (p0 * q0) = 1 -> Z.gcd (sc_b com) (p1 * q1) = 1 ->
  aff_gs_verify S X1 pf1 pub aux1 = Ret true ->
  aff_gs_verify S X2 pf2 pub aux2 = Ret true ->
  nth_error (sg_e pf1) i <> nth_error (sg_e pf2) i ->
  exists x y,
    encrypts (p0 * q0) (ct_val (ap_cap_d pub)) (c * x - y) /\
    encrypts (p1 * q1) (ct_val (ap_cap_y pub)) y /\
    ap_cap_x pub = pmul C x (gen C) /\
    Z.abs x < 2 ^ (sp_l S + sp_eps S) /\ Z.abs y < 2 ^ (sp_lp S + sp_eps S).
Proof.
  intros HX1 HX2 Kp0 HN0 Kp1 HN1 HC0 Ec Hd Hy W1 W2 Ecoms Hi GA GB A1 A2 Hne.
  assert (Hm0 : modulus_ok S (ap_pk0 pub)) by (rewrite HN0; apply keygen_modulus; [apply HS|exact Kp0]).
  assert (Hm1 : modulus_ok S (ap_pk1 pub)) by (rewrite HN1; apply keygen_modulus; [apply HS|exact Kp1]).
  assert (HY0 : 0 <= ct_val (ap_cap_y pub)) by apply Hy.
  rewrite aff_gs_accept in A1, A2 by auto.
  destruct A1 as (_ & _ & _ & _ & Le1 & Lc1 & Ll1 & A1), A2 as (_ & _ & _ & _ & Le2 & Lc2 & Ll2 & A2).
  assert (Hlt : (i < Z.to_nat (sp_kappa S))%nat) by (rewrite <- Lc1; apply nth_error_Some; congruence).
  assert (Hget : forall T (l : list T), length l = Z.to_nat (sp_kappa S) -> exists v, nth_error l i = Some v).
  { intros T l Hl. destruct (nth_error l i) eqn:E; [eauto|]. apply nth_error_None in E. lia. }
  destruct (Hget _ _ Le1) as (b1 & B1), (Hget _ _ Le2) as (b2 & B2), (Hget _ _ Ll1) as (l1 & L1), (Hget _ _ Ll2) as (l2 & L2).
  specialize (A1 _ _ _ _ B1 Hi L1). rewrite Ecoms in Hi. specialize (A2 _ _ _ _ B2 Hi L2).
  rewrite B1, B2 in Hne.
  destruct b1, b2; try congruence.
  - eexists _, _. exact (aff_gs_elem_open pub com l1 l2 p0 q0 p1 q1 c Kp0 HN0 Kp1 HN1 Ec Hd Hy GA GB A1 A2).
  - eexists _, _. exact (aff_gs_elem_open pub com l2 l1 p0 q0 p1 q1 c Kp0 HN0 Kp1 HN1 Ec Hd Hy GA GB A2 A1).
Qed.

End AffGStar.
