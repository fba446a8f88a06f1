(** * dec: completeness, acceptance, extraction. *)
From Coq Require Import ZArith Znumtheory List Bool Lia.
From Verif Require Import Base BaseFacts SignedModel SignedSpec SignedProofs EncodingModel ConversionModel
  ConversionProofs IntLemmas ModArith PaillierModel PaillierSpec PaillierProofs RpProofs ZkBase ZkModel ZkSpec ZkFacts ZkExtract.
Import ListNotations.
Open Scope Z_scope.

Lemma ceil_log2_ok n : 2 <= n -> ceil_log2_parties n = Ret (Z.log2_up n).
Proof.
  intros Hn. unfold ceil_log2_parties, csub. destruct (Z.leb_spec 1 n); [|lia].
  cbn [oexpect obind]. destruct (Z.ltb_spec 0 (n - 1)); [|lia]. cbn [oassert obind].
  unfold Z.log2_up. destruct (Z.compare_spec 1 n); try lia. f_equal.
Qed.
Lemma ceil_log2_panics n : n <= 1 -> ceil_log2_parties n = Panic.
Proof.
  intros Hn. unfold ceil_log2_parties, csub. destruct (Z.leb_spec 1 n); [|reflexivity].
  cbn [oexpect obind]. destruct (Z.ltb_spec 0 (n - 1)); [lia|]. reflexivity.
Qed.
Lemma log2_up_64 n : 2 <= n < 2 ^ 64 -> 1 <= Z.log2_up n <= 64.
Proof.
  intros [H1 H2]. split.
  - pose proof (Z.log2_up_le_mono 2 n H1) as H. exact H.
  - pose proof (Z.log2_up_le_mono n (2 ^ 64)) as H. rewrite Z.log2_up_pow2 in H by lia. lia.
Qed.

Section Dec.
Variables (S : sparams) (C : curve) (A : Type).
Notation P := (sp_pail S).
Notation w := (uint_w (sp_pail S)).
Notation ww := (wide_w (sp_pail S)).
Notation q := (sp_q S).
Hypothesis HS : sp_ok S.
Hypothesis HC : curve_ok q C.




Section Run.
Variables (sec : dec_secret) (pub : dec_public C) (x y N k n : Z).
Hypothesis Hx : wf w (ds_x sec).
Hypothesis Hxv : sval w (ds_x sec) = x.
Hypothesis Hxb : bound (ds_x sec) <= sp_l S.
Hypothesis Hxr : pm_interval (sp_l S) x.
Hypothesis Hn : 2 <= n < 2 ^ 64.
Hypothesis En : dp_num_parties pub = n.
Hypothesis Hy : wf w (ds_y sec).
Hypothesis Hyv : sval w (ds_y sec) = y.
Hypothesis Hyr : pm_interval (dec_y_exp S n) y.
Hypothesis HN : modulus_ok S N.
Hypothesis E0 : dp_pk0 pub = N.
Hypothesis Hrho : unit_ok N (ds_rho sec).
Hypothesis Huk : unit_ok N k.
Hypothesis Hk : dp_cap_k pub = Ct N k.
Hypothesis Hd : dp_cap_d pub = Ct N (affv N k (- x) y (ds_rho sec)).
Hypothesis Hcx : dp_cap_x pub = pmul C x (gen C).
Hypothesis Hcs : dp_cap_s pub = pmul C y (dp_cap_g pub).

Lemma dec_exp_lt : 0 < dec_y_exp S n /\ dec_y_exp S n + sp_eps S + 1 < ww.
Proof. pose proof (log2_up_64 n Hn). unfold dec_y_exp. destruct HS; lia. Qed.

Lemma dec_step rnd : dec_rand_ok S N n rnd ->
  exists ec, dec_commit S pub (dec_y_exp S n) rnd = Ret ec /\
    forall b, exists l, dec_respond S sec pub (fst ec, b) = Ret l /\
      exists res, dec_elem_verify S pub (b, snd ec, l) = Ret res /\
        (res = true <-> dec_in_range S n x y (rnd, b)).
Proof.
  intros [Da Db [Dr0 Drg]]. destruct Hrho as [Hr0 Hrg], Huk as [Hk0 Hkg].
  pose proof (has_self _ _ Hx) as Kx. rewrite Hxv in Kx.
  pose proof (has_self _ _ Hy) as Ky. rewrite Hyv in Ky.
  pose proof dec_exp_lt as [Hye0 Hye].
  unfold dec_commit. cbv zeta. rewrite E0, Hk.
  run_ex (sample_has S (sp_l S + sp_eps S) (dr_alpha rnd)) alpha Ka; [destruct HS; lia|].
  run_ex (has_range ww (dec_y_exp S n + sp_eps S) (dr_beta rnd)) beta Kb; [destruct HS; lia|].
  fold (mask (sp_l S + sp_eps S) (dr_alpha rnd)) in Ka.
  fold (mask (dec_y_exp S n + sp_eps S) (dr_beta rnd)) in Kb.
  unfold dec_in_range. cbn [fst snd].
  set (av := mask _ (dr_alpha rnd)) in *. set (bv := mask _ (dr_beta rnd)) in *.
  pose proof (has_neg _ _ _ _ Ka) as Kna.
  rewrite (hmul_sec_unit N k (proj1 HN) Hkg _ _ _ _ Hk0 Kna). cbn [obind].
  rewrite (enc_wide_has S HS N _ _ _ _ HN Dr0 Kb). cbn [obind].
  rewrite hadd_eq. cbn [obind ct_val]. fold (affv N k (- av) bv (dr_r rnd)).
  rewrite (scalar_of_wide_secret_has S HS _ _ _ Kb). cbn [obind].
  rewrite (scalar_of_secret_has S HS _ _ _ Ka). cbn [obind].
  eexists. split; [reflexivity|]. intros e. cbn [fst snd].
  assert (Hz : exists z bz, (if e then sec_add w alpha (ds_x sec) else Ret alpha) = Ret z /\ has w z (av + x * b2z e) bz).
  { destruct e; cbn [b2z].
    - destruct (has_add _ _ _ _ _ _ _ Ka Kx) as (z & Ez & Kz); [destruct HS; lia|]. exists z. eexists. split; [exact Ez|].
      rewrite Z.mul_1_r. exact Kz.
    - exists alpha. eexists. split; [reflexivity|]. rewrite Z.mul_0_r, Z.add_0_r. exact Ka. }
  destruct Hz as (z & bz & Ez & Kz).
  assert (Hz : exists z bz, (if e then (yw <~ sec_to_wide w ww (ds_y sec) ;; sec_add ww beta yw) else Ret beta) = Ret z
             /\ has ww z (bv + y * b2z e) bz).
  { destruct e; cbn [b2z].
    - destruct (has_wide _ ww _ _ _ Ky) as (yw & Eyw & Kyw); [destruct HS; lia|]. rewrite Eyw. cbn [obind].
      assert (bound (ds_y sec) < w) by (apply has_abs in Ky; lia).
      destruct (has_add _ _ _ _ _ _ _ Kb Kyw) as (z' & Ez' & Kz'); [destruct HS; lia|]. exists z'. eexists. split; [exact Ez'|].
      rewrite Z.mul_1_r. exact Kz'.
    - exists beta. eexists. split; [reflexivity|]. rewrite Z.mul_0_r, Z.add_0_r. exact Kb. }
  destruct Hz as (zw & bzw & Ezw & Kzw).
  assert (Hex : exists bb, has w (if e then pub_one else s_zero) (b2z e) bb).
  { destruct e; eexists; [apply has_one|apply has_zero]; destruct HS; lia. }
  destruct Hex as (bb & Kex).
  unfold dec_respond. cbn [dh_alpha dh_beta dh_r]. cbv zeta. rewrite E0, Ez. cbn [obind]. rewrite Ezw. cbn [obind].
  rewrite (masked_has S N _ _ _ _ _ HN Hrg Kex). cbn [obind].
  rewrite (has_public _ _ _ _ Kz), (has_public _ _ _ _ Kzw). cbn [obind].
  eexists. split; [reflexivity|].
  unfold dec_elem_verify. cbn [de_z de_w de_nu dc_a dc_b dc_c]. cbv zeta.
  destruct (has_in_range _ _ _ _ (sp_l S + sp_eps S) Kz) as (rg1 & Erg1 & Hrg1); [destruct HS; lia|].
  destruct (has_in_range _ _ _ _ (dec_y_exp S n + sp_eps S) Kzw) as (rg2 & Erg2 & Hrg2); [destruct HS; lia|].
  exists (rg1 && rg2). split.
  2:{ rewrite andb_true_iff, Hrg1, Hrg2. reflexivity. }
  rewrite E0, Hk, Hd, En.
  rewrite (enc_public_wide_has S HS N _ _ _ _ HN) with (2 := Kzw) by (apply Z.mod_pos_bound; destruct HN; lia).
  cbn [obind]. pose proof (has_pub_neg _ _ _ _ Kz) as Knz.
  rewrite (hmul_pub_unit N k (proj1 HN) Hkg _ _ _ _ Hk0 Knz). cbn [obind].
  rewrite hadd_eq. cbn [obind]. rewrite ct_bit by apply HN. cbn [obind].
  set (ez := b2z e) in *. assert (Hez : 0 <= ez) by (unfold ez; destruct e; cbn; lia).
  assert (Ng : 1 < N) by apply HN.
  assert (Hq : 1 < q) by (destruct (so_conv _ HS); lia).
  rewrite (proj2 (ct_eqb_eq _ _)).
  2:{ f_equal. transitivity ((affv N k (- av) bv (dr_r rnd) * zpow (N * N) (affv N k (- x) y (ds_rho sec)) ez) mod (N * N)).
      - rewrite (affv_zpow N k Ng Hkg) by auto. rewrite (affv_mul N k Ng Hkg).
        rewrite (Z.mul_comm (encv N _ _)).
        fold (affv N k (- (av + x * ez)) (bv + y * ez) ((zpow N (ds_rho sec) ez * dr_r rnd) mod N)).
        f_equal; [ring|]. f_equal. ring.
      - apply eqm_mul_l. now apply zpow_nonneg. }
  cbn [check].
  rewrite (scalar_of_signed_has S HS _ _ _ Kz). cbn [obind].
  assert (Hpm : forall a x, pmul C (a mod q) x = pmul C a x) by (intros; apply (pmul_mod q C HC); lia).
  rewrite !(pt_bit q C HC), Hcx, Hcs, !Hpm. fold ez.
  rewrite (proj2 (c_eqb _ _ HC _ _)).
  2:{ rewrite !(c_mulDl _ _ HC), !(c_mulA _ _ HC). rewrite !(Z.mul_comm ez). reflexivity. }
  cbn [check].
  rewrite (scalar_of_wide_signed_has S HS _ _ _ Kzw). cbn [obind]. rewrite !Hpm.
  rewrite (proj2 (c_eqb _ _ HC _ _)).
  2:{ rewrite !(c_mulDl _ _ HC), !(c_mulA _ _ HC). rewrite !(Z.mul_comm ez). reflexivity. }
  cbn [check].
  rewrite Erg1. cbn [obind]. destruct rg1; cbn [check andb]; [|reflexivity].
  rewrite ceil_log2_ok by lia. cbn [obind]. fold (dec_y_exp S n). rewrite Erg2. reflexivity.
Qed.

Lemma dec_run_sec (X : xof A (pt C)) setup aux rnds : xof_ok q X ->
  length rnds = Z.to_nat (sp_kappa S) -> Forall (dec_rand_ok S N n) rnds ->
  exists pf r, dec_new S X sec pub setup aux rnds = Ret pf /\ dec_verify S X pf pub setup aux = Ret r /\
    length (dg_e pf) = Z.to_nat (sp_kappa S) /\
    (r = true <-> Forall (dec_in_range S n x y) (combine rnds (dg_e pf))).
Proof.
  intros HX Hlen Hok.
  pose proof (has_self _ _ Hx) as Kx. rewrite Hxv in Kx.
  pose proof (has_self _ _ Hy) as Ky. rewrite Hyv in Ky.
  destruct (parallel_run (dec_commit S pub (dec_y_exp S n)) (dec_respond S sec pub) (dec_elem_verify S pub)
    (dec_in_range S n x y) rnds) as (ecs & Ecs & Hle & Hrest).
  { eapply Forall_impl; [|exact Hok]. apply dec_step. }
  unfold dec_new. rewrite Hlen, Nat.eqb_refl. cbn [oassert obind].
  rewrite (has_assert_range _ _ _ _ (sp_l S) Kx) by (auto; destruct HS; lia). cbn [obind].
  rewrite En, ceil_log2_ok by lia. cbn [obind]. cbv zeta. fold (dec_y_exp S n).
  rewrite (has_assert_range _ _ _ _ (dec_y_exp S n) Ky) by (auto; pose proof dec_exp_lt; lia). cbn [obind].
  rewrite E0, Hk, Hd. cbn [ct_pk]. rewrite !Z.eqb_refl. cbn [oassert obind].
  rewrite Ecs. cbn [obind].
  set (e := dec_challenge S X (map snd ecs) pub setup aux).
  assert (He : length e = Z.to_nat (sp_kappa S)) by apply (xo_bits _ _ HX).
  destruct (Hrest e) as (ls & Els & Hll & res & Eres & Hres); [congruence|].
  rewrite Els. cbn [obind]. eexists _, res. split; [reflexivity|]. cbn [dg_e]. split; [|split; [exact He|exact Hres]].
  unfold dec_verify. cbn [dg_e dg_coms dg_elems].
  fold e. cbv zeta. rewrite bits_eqb_refl. cbn [check]. rewrite map_length, Hle, Hll, Hlen, He, Nat.eqb_refl. cbn [andb check].
  exact Eres.
Qed.
End Run.

Theorem dec_run (X : xof A (pt C)) sec (pub : dec_public C) setup aux rnds x y N k n :
  xof_ok q X ->
  wf w (ds_x sec) -> sval w (ds_x sec) = x -> bound (ds_x sec) <= sp_l S -> pm_interval (sp_l S) x ->
  2 <= n < 2 ^ 64 -> dp_num_parties pub = n ->
  wf w (ds_y sec) -> sval w (ds_y sec) = y -> pm_interval (dec_y_exp S n) y ->
  modulus_ok S N -> dp_pk0 pub = N -> unit_ok N (ds_rho sec) ->
  unit_ok N k -> dp_cap_k pub = Ct N k ->
  dp_cap_d pub = Ct N (affv N k (- x) y (ds_rho sec)) ->
  dp_cap_x pub = pmul C x (gen C) -> dp_cap_s pub = pmul C y (dp_cap_g pub) ->
  length rnds = Z.to_nat (sp_kappa S) -> Forall (dec_rand_ok S N n) rnds ->
  exists pf r, dec_new S X sec pub setup aux rnds = Ret pf /\ dec_verify S X pf pub setup aux = Ret r /\
    length (dg_e pf) = Z.to_nat (sp_kappa S) /\
    (r = true <-> Forall (dec_in_range S n x y) (combine rnds (dg_e pf))).
Proof. intros. now apply (dec_run_sec sec pub x y N k n). Qed.

(** With one party the slack computation itself aborts. *)
Theorem dec_single_party (X : xof A (pt C)) sec (pub : dec_public C) setup aux rnds :
  dp_num_parties pub <= 1 -> dec_new S X sec pub setup aux rnds = Panic.
Proof.
  intros Hn. unfold dec_new. destruct (Nat.eqb _ _); cbn [oassert obind]; [|reflexivity].
  destruct (sec_assert_range _ _ _); cbn [obind]; [|reflexivity].
  now rewrite ceil_log2_panics.
Qed.



Lemma dec_elem_accept (pub : dec_public C) t :
  dec_elem_wf S (snd t) -> modulus_ok S (dp_pk0 pub) -> 2 <= dp_num_parties pub < 2 ^ 64 ->
  ct_pk (dp_cap_k pub) = dp_pk0 pub -> ct_pk (dp_cap_d pub) = dp_pk0 pub -> 0 <= ct_val (dp_cap_k pub) ->
  (dec_elem_verify S pub t = Ret true <-> dec_elem_ok S pub t).
Proof.
  destruct t as [[b com] el]. cbn [snd]. intros (W1 & W2 & W3) HN Hn E1 E2 Hcc.
  unfold dec_elem_ok, dec_elem_verify. cbv zeta.
  set (N := dp_pk0 pub) in *. set (n := dp_num_parties pub) in *.
  pose proof (has_self _ _ W1) as K1. pose proof (has_self _ _ W2) as K2.
  set (z := sval w (de_z el)) in *. set (v := sval ww (de_w el)) in *.
  assert (Hq : 1 < q) by (destruct (so_conv _ HS); lia).
  pose proof (dec_exp_lt n Hn) as [Hye0 Hye].
  destruct (dp_cap_k pub) as [cpk cv] eqn:Ecc. cbn [ct_pk ct_val] in *. subst cpk.
  destruct (dp_cap_d pub) as [dpk dv] eqn:Edd. cbn [ct_pk ct_val] in *. subst dpk.
  rewrite (enc_public_wide_has S HS N _ _ _ _ HN W3 K2). cbn [obind].
  rewrite ct_bit by apply HN.
  pose proof (has_pub_neg _ _ _ _ K1) as Kn1.
  rewrite (hmul_pub_bind w N cv _ _ _ _ _ (proj1 HN) Hcc Kn1).
  erewrite <- (ex_and_iff (fun kz => unit_power (N * N) cv (- z) kz)
    (fun kz => ct_eqb (Ct N ((encv N v (de_nu el) * kz) mod (N * N)))
       (Ct N ((dc_a com * dv ^ b2z b) mod (N * N))) = true)); [| |reflexivity].
  2:{ intros kz. rewrite ct_eqb_eq, (Z.mul_comm (encv N v _)).
      split; [intros [= H]; exists (encv N v (de_nu el)); split; auto; apply encv_textbook; auto; apply HN|].
      intros (ez & He1 & He2). apply encv_textbook in He1; [|apply HN]. subst ez. now rewrite He2. }
  apply Morphisms_Prop.ex_iff_morphism. intros kz. apply and_iff_compat_l.
  rewrite hadd_eq. cbn [obind].
  rewrite check_true. apply and_iff_compat_l.
  rewrite (scalar_of_signed_has S HS _ _ _ K1). cbn [obind].
  rewrite check_true, (c_eqb _ _ HC), (pt_bit q C HC), !(pmul_mod q C HC) by lia. apply and_iff_compat_l.
  rewrite (scalar_of_wide_signed_has S HS _ _ _ K2). cbn [obind].
  rewrite check_true, (c_eqb _ _ HC), (pt_bit q C HC), !(pmul_mod q C HC) by lia. apply and_iff_compat_l.
  destruct (has_in_range _ _ _ _ (sp_l S + sp_eps S) K1) as (rg & Erg & Hrg); [destruct HS; lia|].
  rewrite Erg. cbn [obind]. rewrite check_true, Hrg. apply and_iff_compat_l.
  rewrite ceil_log2_ok by lia. cbn [obind]. fold (dec_y_exp S n).
  destruct (has_in_range _ _ _ _ (dec_y_exp S n + sp_eps S) K2) as (rg2 & Erg2 & Hrg2); [destruct HS; lia|].
  rewrite Erg2. cbn [obind]. rewrite <- Hrg2. split; congruence.
Qed.

Theorem dec_accept (X : xof A (pt C)) pf (pub : dec_public C) setup aux :
  xof_ok q X ->
  Forall (dec_elem_wf S) (dg_elems pf) -> modulus_ok S (dp_pk0 pub) -> 2 <= dp_num_parties pub < 2 ^ 64 ->
  ct_pk (dp_cap_k pub) = dp_pk0 pub -> ct_pk (dp_cap_d pub) = dp_pk0 pub -> 0 <= ct_val (dp_cap_k pub) ->
  dec_verify S X pf pub setup aux = Ret true <->
    dg_e pf = dec_challenge S X (dg_coms pf) pub setup aux /\
    length (dg_e pf) = Z.to_nat (sp_kappa S) /\
    length (dg_coms pf) = Z.to_nat (sp_kappa S) /\ length (dg_elems pf) = Z.to_nat (sp_kappa S) /\
    (forall i b com el, nth_error (dg_e pf) i = Some b -> nth_error (dg_coms pf) i = Some com ->
       nth_error (dg_elems pf) i = Some el -> dec_elem_ok S pub (b, com, el)).
Proof.
  intros HX Hwf HN Hn E1 E2 Hcc. unfold dec_verify. cbv zeta.
  rewrite check_true, bits_eqb_eq. apply and_iff_cond2; [split; congruence|]. intros Hch _.
  assert (Hlen : length (dg_e pf) = Z.to_nat (sp_kappa S)) by (rewrite <- Hch; apply (xo_bits _ _ HX)).
  rewrite Hch, check_true, andb_true_iff, !Nat.eqb_eq, Hlen.
  rewrite oforall_true. rewrite (Forall_combine3_wf (dec_elem_wf S) _ (dec_elem_ok S pub)); [|exact Hwf|].
  2:{ intros t Ht. now apply dec_elem_accept. }
  split.
  - intros ((L1 & L2) & H). do 3 (split; [congruence|]). apply Forall_combine3; congruence.
  - intros (_ & L1 & L2 & H). split; [split; congruence|]. apply Forall_combine3; try congruence. exact H.
Qed.

(** Answering both bits for one commitment opens everything. *)
Lemma dec_elem_open (pub : dec_public C) com el1 el0 p0 q0 k :
  keygen_primes (prime_bits P) p0 q0 -> dp_pk0 pub = p0 * q0 -> 2 <= dp_num_parties pub < 2 ^ 64 ->
  encrypts (p0 * q0) (ct_val (dp_cap_k pub)) k ->
  cipher_ok (p0 * q0) (ct_val (dp_cap_d pub)) ->
  Z.gcd (dc_a com) (p0 * q0) = 1 ->
  dec_elem_ok S pub (true, com, el1) -> dec_elem_ok S pub (false, com, el0) ->
  let x := sval w (de_z el1) - sval w (de_z el0) in
  let y := sval ww (de_w el1) - sval ww (de_w el0) in
  encrypts (p0 * q0) (ct_val (dp_cap_d pub)) (y - k * x) /\
  dp_cap_x pub = pmul C x (gen C) /\ dp_cap_s pub = pmul C y (dp_cap_g pub) /\
  Z.abs x < 2 ^ (sp_l S + sp_eps S) /\ Z.abs y < 2 ^ (dec_y_exp S (dp_num_parties pub) + sp_eps S).
Proof.
  intros Kp0 HN0 Hn Ek [HD0 HDg] GA A1 A0 x y.
  unfold dec_elem_ok in A1, A0. cbv zeta in A1, A0. rewrite HN0 in A1, A0.
  destruct A1 as ((cz1 & Uc1 & ez1 & Cz1 & Eq1) & B1 & S1 & R1 & Q1).
  destruct A0 as ((cz2 & Uc2 & ez2 & Cz2 & Eq2) & B2 & S2 & R2 & Q2).
  set (N0 := p0 * q0) in *.
  pose proof (so_par _ HS) as HP.
  destruct (encrypts_exists P p0 q0 HP Kp0 _ HD0 HDg) as (d & Ed). fold N0 in Ed.
  destruct (wire_encrypts P p0 q0 HP Kp0 _ GA) as (a & Eaa). fold N0 in Eaa.
  assert (G0 : 1 < N0) by apply (N_gt1 P p0 q0 HP Kp0).
  pose proof (affine_plain P p0 q0 HP Kp0 _ _ _ _ _ _ _ _ _ _ _ _ Ek Ed Eaa Z.le_0_1 Uc1 Cz1 Eq1) as P1.
  pose proof (affine_plain P p0 q0 HP Kp0 _ _ _ _ _ _ _ _ _ _ _ _ Ek Ed Eaa (Z.le_refl 0) Uc2 Cz2 Eq2) as P2.
  cbn [b2z] in *. fold N0 in P1, P2.
  set (u1 := sval w (de_z el1)) in *. set (u0 := sval w (de_z el0)) in *.
  set (v1 := sval ww (de_w el1)) in *. set (v0 := sval ww (de_w el0)) in *.
  split; [|split; [|split; [|split]]].
  - apply encrypts_mod_plain with d; auto.
    transitivity ((a + d * 1) - (a + d * 0)); [apply eqm_eq; ring|].
    rewrite <- P1, <- P2. apply eqm_eq. unfold x, y. ring.
  - pose proof (diff_points q C HC _ _ _ _ _ _ B1 B2) as D.
    rewrite <- (pmul_opp q C HC), <- (c_mulDl _ _ HC) in D. rewrite (c_mul1 _ _ HC) in D. now rewrite <- D.
  - pose proof (diff_points q C HC _ _ _ _ _ _ S1 S2) as D.
    rewrite <- (pmul_opp q C HC), <- (c_mulDl _ _ HC) in D. rewrite (c_mul1 _ _ HC) in D. now rewrite <- D.
  - apply pm_diff; auto. clear - HS. destruct HS; lia.
  - apply pm_diff; auto. clear - HS Hn. pose proof (dec_exp_lt _ Hn). destruct HS; lia.
Qed.

Theorem dec_extract (X1 X2 : xof A (pt C)) pf1 pf2 (pub : dec_public C) setup aux1 aux2 p0 q0 k i com :
  xof_ok q X1 -> xof_ok q X2 ->
  keygen_primes (prime_bits P) p0 q0 -> dp_pk0 pub = p0 * q0 -> 2 <= dp_num_parties pub < 2 ^ 64 ->
  ct_pk (dp_cap_k pub) = dp_pk0 pub -> ct_pk (dp_cap_d pub) = dp_pk0 pub ->
  encrypts (p0 * q0) (ct_val (dp_cap_k pub)) k ->
  cipher_ok (p0 * q0) (ct_val (dp_cap_d pub)) ->
  Forall (dec_elem_wf S) (dg_elems pf1) -> Forall (dec_elem_wf S) (dg_elems pf2) ->
  dg_coms pf1 = dg_coms pf2 -> nth_error (dg_coms pf1) i = Some com ->
  Z.gcd (dc_a com) (p0 * q0) = 1 ->
  dec_verify S X1 pf1 pub setup aux1 = Ret true ->
  dec_verify S X2 pf2 pub setup aux2 = Ret true ->
  nth_error (dg_e pf1) i <> nth_error (dg_e pf2) i ->
  exists x y,
    encrypts (p0 * q0) (ct_val (dp_cap_d pub)) (y - k * x) /\
    dp_cap_x pub = pmul C x (gen C) /\ dp_cap_s pub = pmul C y (dp_cap_g pub) /\
    Z.abs x < 2 ^ (sp_l S + sp_eps S) /\ Z.abs y < 2 ^ (dec_y_exp S (dp_num_parties pub) + sp_eps S).
Proof.
  intros HX1 HX2 Kp0 HN0 Hn EK ED Ek Hd W1 W2 Ecoms Hi GA A1 A2 Hne.
  assert (Hm0 : modulus_ok S (dp_pk0 pub)) by (rewrite HN0; apply keygen_modulus; [apply HS|exact Kp0]).
  assert (HK0 : 0 <= ct_val (dp_cap_k pub)).
  { apply encrypts_range in Ek; [lia|]. rewrite <- HN0. apply Hm0. }
  rewrite dec_accept in A1, A2 by auto.
  destruct A1 as (_ & Le1 & Lc1 & Ll1 & A1), A2 as (_ & Le2 & Lc2 & Ll2 & A2).
  assert (Hlt : (i < Z.to_nat (sp_kappa S))%nat) by (rewrite <- Lc1; apply nth_error_Some; congruence).
  assert (Hget : forall T (l : list T), length l = Z.to_nat (sp_kappa S) -> exists v, nth_error l i = Some v).
  { intros T l Hl. destruct (nth_error l i) eqn:E; [eauto|]. apply nth_error_None in E. lia. }
  destruct (Hget _ _ Le1) as (b1 & B1), (Hget _ _ Le2) as (b2 & B2), (Hget _ _ Ll1) as (l1 & L1), (Hget _ _ Ll2) as (l2 & L2).
  specialize (A1 _ _ _ _ B1 Hi L1). rewrite Ecoms in Hi. specialize (A2 _ _ _ _ B2 Hi L2).
  rewrite B1, B2 in Hne.
  destruct b1, b2; try congruence.
  - eexists _, _. exact (dec_elem_open pub com l1 l2 p0 q0 k Kp0 HN0 Hn Ek Hd GA A1 A2).
  - eexists _, _. exact (dec_elem_open pub com l2 l1 p0 q0 k Kp0 HN0 Hn Ek Hd GA A2 A1).
Qed.

End Dec.
