(** * The no-small-factor proof reveals nothing (property C73). *)
From Coq Require Import ZArith Znumtheory List Bool Lia.
From Verif Require Import Base BaseFacts SignedModel SignedSpec SignedProofs EncodingModel ConversionModel
  ConversionProofs IntLemmas ModArith RsaFacts PaillierModel PaillierSpec PaillierProofs RpProofs ZkBase ZkModel ZkSpec
  ZkFacts ZkExtract FacProofs HideSpec HideInt HideRpSpec HideRp.
Import ListNotations.
Open Scope Z_scope.

Lemma by_draw half spread v d : inner_by half spread v -> Z.abs d <= spread -> 0 <= v - d + (half - 1) < 2 * half.
Proof. unfold inner_by. lia. Qed.
Lemma draw_by half spread draw d : margin_by half spread draw -> Z.abs d <= spread -> inner_by half spread (draw - (half - 1) + d).
Proof. unfold inner_by, margin_by. lia. Qed.

Lemma comv_commitment_z N s t a v r V R e : 1 < N -> Z.gcd s N = 1 -> Z.gcd t N = 1 -> 0 <= a < N ->
  comv N s t V R = (a * zpow N (comv N s t v r) e) mod N ->
  comv N s t (V - v * e) (R - r * e) = a.
Proof.
  intros HN Hs Ht Ha E. apply eqm_small with N; auto; [apply comv_range; lia|].
  apply gauss_eqm with (zpow N (comv N s t v r) e); [lia|apply zpow_gcd; [lia|apply comv_gcd; auto; lia]|].
  transitivity (comv N s t V R); [|rewrite E, eqm_mod; apply eqm_eq; ring].
  rewrite comv_zpow by (auto; lia). unfold eqm. rewrite comv_add by (auto; lia).
  rewrite (Z.mod_small (comv N s t V R)) by (apply comv_range; lia). f_equal; ring.
Qed.
Lemma comv_0r N s t a : 0 < N -> comv N s t a 0 = zpow N s a.
Proof.
  intros HN. apply eqm_small with N; [apply comv_range; lia|apply zpow_range; lia|]. rewrite comv_eqm.
  rewrite (zpow_nonneg N t 0) by lia. rewrite Z.pow_0_r. apply eqm_eq. ring.
Qed.
Lemma comv_0l N s t a : 0 < N -> comv N s t 0 a = zpow N t a.
Proof.
  intros HN. apply eqm_small with N; [apply comv_range; lia|apply zpow_range; lia|]. rewrite comv_eqm.
  rewrite (zpow_nonneg N s 0) by lia. rewrite Z.pow_0_r. apply eqm_eq. ring.
Qed.

Section HideFac.
Variables (S : sparams) (C : curve) (A : Type).
Notation P := (sp_pail S).
Notation w := (uint_w (sp_pail S)).
Notation ww := (wide_w (sp_pail S)).
Notation xw := (sp_xw S).
Notation ma := (sp_l S + sp_eps S).
Hypothesis HS : sp_ok S.

Variables (X : xof A (pt C)) (sk0 : skey) (setup : rpparams) (aux : A) (p q : Z).
Notation hat := (rp_n setup).
Notation com := (comv (rp_n setup) (rp_s setup) (rp_t setup)).
Hypothesis HX : xof_ok (sp_q S) X.
Hypothesis Hp : 0 < p < 2 ^ prime_bits P.
Hypothesis Hq : 0 < q < 2 ^ prime_bits P.
Hypothesis HN0 : modulus_ok S (p * q).
Hypothesis Ep : pr_p (sk_primes sk0) = p.
Hypothesis Eq : pr_q (sk_primes sk0) = q.
Hypothesis EN : sk_pk sk0 = p * q.
Hypothesis Hset : setup_ok S setup.
Hypothesis Hxw : sp_l S + sp_eps S + bits (p * q * rp_n setup) + 1 < xw.

Lemma fac_new_val rnd : fac_rand_ok S (p * q) hat rnd ->
  let av := fac_mask S (fr_alpha rnd) in
  let bv := fac_mask S (fr_beta rnd) in
  let muv := mask_scaled (sp_l S) hat (fr_mu rnd) in
  let nuv := mask_scaled (sp_l S) hat (fr_nu rnd) in
  let rv := mask_scaled ma (p * q * hat) (fr_r rnd) in
  let xv := mask_scaled ma hat (fr_x rnd) in
  let yv := mask_scaled ma hat (fr_y rnd) in
  let cp := com p muv in
  let cq := com q nuv in
  let ca := com av xv in
  let cb := com bv yv in
  let ct := com (q * av) (nuv * av + rv) in
  exists e ev z1 z2 w1 w2 v,
    fac_challenge S X cp cq ca cb ct (p * q) setup aux = Ret e /\ has w e ev (sp_l S) /\ pm_interval (sp_l S) ev /\
    has ww z1 (av + p * ev) (Z.max (ma + (prime_bits P - 1)) (prime_bits P + sp_l S) + 1) /\
    has ww z2 (bv + q * ev) (Z.max (ma + (prime_bits P - 1)) (prime_bits P + sp_l S) + 1) /\
    has ww w1 (xv + muv * ev) (Z.max (ma + bits hat) (sp_l S + bits hat + sp_l S) + 1) /\
    has ww w2 (yv + nuv * ev) (Z.max (ma + bits hat) (sp_l S + bits hat + sp_l S) + 1) /\
    has xw v (rv - p * ev * nuv) (Z.max (ma + bits (p * q * hat)) (prime_bits P + sp_l S + (sp_l S + bits hat)) + 1) /\
    fac_new S X sk0 setup aux rnd = Ret (FacProof e cp cq ca cb ct z1 z2 w1 w2 v).
Proof.
  intros [Da Db Dmu Dnu Dr Dx Dy]. cbv zeta.
  assert (Hset' := Hset). destruct Hset' as (Hn & Hs & Ht & Gs & Gt).
  assert (Hbits : 0 < bits (rp_n setup) <= modulus_bits P) by (apply bits_modulus; destruct HS; lia).
  assert (Hprod : 0 < p * q * rp_n setup < 2 ^ (2 * modulus_bits P)).
  { destruct HN0 as [H1 H2]. split; [clear - H1 Hn; nia|].
    replace (2 * modulus_bits P) with (modulus_bits P + modulus_bits P) by lia.
    rewrite Z.pow_add_r by (destruct HS; lia). clear - H1 H2 Hn. nia. }
  assert (Hbits2 : 0 < bits (p * q * rp_n setup) <= 2 * modulus_bits P).
  { apply bits_modulus; [destruct HS; lia|exact Hprod]. }
  assert (Hpb : 2 <= prime_bits P) by (destruct HS; lia).
  assert (Ebits : bits (2 ^ (prime_bits P - 2)) = prime_bits P - 1) by (rewrite bits_pow2 by lia; lia).
  assert (Hs2 : 0 < 2 ^ (prime_bits P - 2)) by (apply Z.pow_pos_nonneg; lia).
  assert (Hwu : ww <= xw) by (destruct HS; lia).
  unfold fac_new. cbv zeta. rewrite EN.
  assert (Eshl : oshl w 1 (prime_bits P - 2) = Some (2 ^ (prime_bits P - 2))).
  { unfold oshl. rewrite (proj2 (Z.ltb_lt _ _)) by (destruct HS; lia). rewrite Z.mul_1_l, Z.mod_small; auto.
    split; [lia|]. apply Z.pow_lt_mono_r; destruct HS; lia. }
  rewrite Eshl. cbn [oexpect obind].
  run_ex (sample_scaled_has S HS (sp_l S + sp_eps S) (2 ^ (prime_bits P - 2)) (fr_alpha rnd)) alpha Ka; [destruct HS; lia..|].
  run_ex (sample_scaled_has S HS (sp_l S + sp_eps S) (2 ^ (prime_bits P - 2)) (fr_beta rnd)) beta Kb; [destruct HS; lia..|].
  run_ex (sample_scaled_has S HS (sp_l S) (rp_n setup) (fr_mu rnd)) mu Kmu; [destruct HS; lia..|].
  run_ex (sample_scaled_has S HS (sp_l S) (rp_n setup) (fr_nu rnd)) nu Knu; [destruct HS; lia..|].
  rewrite random_range_scaled_wide_eq.
  run_ex (has_scaled w xw (sp_l S + sp_eps S) (p * q * rp_n setup) (fr_r rnd)) r Kr; [destruct HS; lia..|].
  run_ex (sample_scaled_has S HS (sp_l S + sp_eps S) (rp_n setup) (fr_x rnd)) x Kx; [destruct HS; lia..|].
  run_ex (sample_scaled_has S HS (sp_l S + sp_eps S) (rp_n setup) (fr_y rnd)) y Ky; [destruct HS; lia..|].
  fold (mask_scaled (sp_l S + sp_eps S) (2 ^ (prime_bits P - 2)) (fr_alpha rnd)) in Ka.
  fold (mask_scaled (sp_l S + sp_eps S) (2 ^ (prime_bits P - 2)) (fr_beta rnd)) in Kb.
  fold (fac_mask S (fr_alpha rnd)) in Ka. fold (fac_mask S (fr_beta rnd)) in Kb.
  set (av := fac_mask S (fr_alpha rnd)) in *. set (bv := fac_mask S (fr_beta rnd)) in *.
  fold (mask_scaled (sp_l S) (rp_n setup) (fr_mu rnd)) in Kmu. fold (mask_scaled (sp_l S) (rp_n setup) (fr_nu rnd)) in Knu.
  fold (mask_scaled ma (p * q * rp_n setup) (fr_r rnd)) in Kr.
  fold (mask_scaled ma (rp_n setup) (fr_x rnd)) in Kx. fold (mask_scaled ma (rp_n setup) (fr_y rnd)) in Ky.
  set (muv := mask_scaled _ _ (fr_mu rnd)) in *. set (nuv := mask_scaled _ _ (fr_nu rnd)) in *.
  set (rv := mask_scaled _ _ (fr_r rnd)) in *. set (xv := mask_scaled _ _ (fr_x rnd)) in *.
  set (yv := mask_scaled _ _ (fr_y rnd)) in *.
  clearbody av bv muv nuv rv xv yv. rewrite Ebits in *.
  unfold p_signed, q_signed. rewrite Ep, Eq.
  destruct (has_positive w p (prime_bits P)) as (ps & Eps & Kp); [destruct HS; lia..|].
  destruct (has_positive w q (prime_bits P)) as (qs & Eqs & Kq); [destruct HS; lia..|].
  rewrite Eps, Eqs. cbn [oexpect obind].
  rewrite (commit_sec_has S _ _ _ _ _ _ _ _ _ Hset Kp Kmu). cbn [obind].
  rewrite (commit_sec_has S _ _ _ _ _ _ _ _ _ Hset Kq Knu). cbn [obind].
  rewrite (commit_sec_has S _ _ _ _ _ _ _ _ _ Hset Ka Kx). cbn [obind].
  rewrite (commit_sec_has S _ _ _ _ _ _ _ _ _ Hset Kb Ky). cbn [obind].
  rewrite (rpc_pow_sec_has S setup _ _ _ _ _ _ Hset Ka). cbn [obind].
  destruct (rp_commit_zero_value_ok setup xw r (proj1 Hn) Ht Gs Gt (has_wf _ _ _ _ Kr)) as [Ezr _].
  rewrite Ezr, (has_sval _ _ _ _ Kr). cbn [obind].
  rewrite (rpc_mul_comv S) by auto.
  rewrite Z.add_0_r.
  set (cp := comv _ _ _ p muv). set (cq := comv _ _ _ q nuv). set (ca := comv _ _ _ av xv).
  set (cb := comv _ _ _ bv yv). set (ct := comv _ _ _ _ (nuv * av + rv)).
  destruct (fac_challenge_has S C A HS X cp cq ca cb ct (p * q) setup aux HX) as (e & ev & Ee & Ke & Re).
  rewrite Ee. cbn [obind].
  run_ex (has_pub_wide _ ww _ _ _ Ke) ew Kew; [destruct HS; lia..|].
  run_ex (has_mul _ _ _ _ _ _ _ Kp Ke) pe Kpe; [destruct HS; lia..|].
  run_ex (has_wide _ ww _ _ _ Kpe) pew Kpew; [destruct HS; lia..|].
  run_ex (has_add _ _ _ _ _ _ _ Ka Kpew) z1 Kz1; [destruct HS; lia..|].
  rewrite (has_public _ _ _ _ Kz1). cbn [obind].
  run_ex (has_mul _ _ _ _ _ _ _ Kq Ke) qe Kqe; [destruct HS; lia..|].
  run_ex (has_wide _ ww _ _ _ Kqe) qew Kqew; [destruct HS; lia..|].
  run_ex (has_add _ _ _ _ _ _ _ Kb Kqew) z2 Kz2; [destruct HS; lia..|].
  rewrite (has_public _ _ _ _ Kz2). cbn [obind].
  run_ex (has_mul _ _ _ _ _ _ _ Kmu Kew) mue Kmue; [destruct HS; lia..|].
  run_ex (has_add _ _ _ _ _ _ _ Kx Kmue) w1 Kw1; [destruct HS; lia..|].
  rewrite (has_public _ _ _ _ Kw1). cbn [obind].
  run_ex (has_mul _ _ _ _ _ _ _ Knu Kew) nue Knue; [destruct HS; lia..|].
  run_ex (has_add _ _ _ _ _ _ _ Ky Knue) w2 Kw2; [destruct HS; lia..|].
  rewrite (has_public _ _ _ _ Kw2). cbn [obind].
  destruct (has_mul_wide _ w _ _ _ _ _ _ Kp Ke) as (pew2 & E2 & Kpew2). rewrite E2. clear E2. cbn [obind].
  rewrite <- (so_ww2 _ HS) in Kpew2.
  run_ex (has_mul _ _ _ _ _ _ _ Kpew2 Knu) pen Kpen; [destruct HS; lia..|].
  run_ex (has_wide _ xw _ _ _ Kpen) penx Kpenx; [destruct HS; lia..|].
  run_ex (has_sub _ _ _ _ _ _ _ Kr Kpenx) v Kv; [destruct HS; lia..|].
  rewrite (has_public _ _ _ _ Kv). cbn [obind].
  exists e, ev, z1, z2, w1, w2, v.
  split; [reflexivity|]. split; [exact Ke|]. split; [exact Re|]. split; [exact Kz1|]. split; [exact Kz2|].
  split; [exact Kw1|]. split; [exact Kw2|]. split; [exact Kv|]. reflexivity.
Qed.

Lemma prod_le a b A0 B0 : Z.abs a <= A0 -> Z.abs b <= B0 -> Z.abs (a * b) <= A0 * B0.
Proof. intros Ha Hb. rewrite Z.abs_mul. apply Z.mul_le_mono_nonneg; lia. Qed.

Lemma spread_p r e : 0 < r < 2 ^ prime_bits P -> pm_interval (sp_l S) e -> Z.abs (r * e) <= fac_spread_z S.
Proof. intros Hr He. unfold fac_spread_z. apply prod_le; [lia|]. unfold pm_interval in He. lia. Qed.
Lemma spread_w draw e : 0 <= draw < hat * 2 ^ sp_l S -> pm_interval (sp_l S) e ->
  Z.abs (mask_scaled (sp_l S) hat draw * e) <= fac_spread_w S hat.
Proof.
  intros Hr He. unfold fac_spread_w. apply prod_le; [apply mask_scaled_abs; auto; destruct HS; lia|].
  unfold pm_interval in He. lia.
Qed.
Lemma spread_v draw e : 0 <= draw < hat * 2 ^ sp_l S -> pm_interval (sp_l S) e ->
  Z.abs (- (p * e * mask_scaled (sp_l S) hat draw)) <= fac_spread_v S hat.
Proof.
  intros Hr He. unfold fac_spread_v. rewrite Z.abs_opp. apply prod_le; [|apply mask_scaled_abs; auto; destruct HS; lia].
  apply prod_le; [lia|]. unfold pm_interval in He. lia.
Qed.
Lemma spread_z_nonneg : 0 <= fac_spread_z S.
Proof. unfold fac_spread_z. apply Z.mul_nonneg_nonneg; apply Z.pow_nonneg; lia. Qed.

Lemma half_z_full : 2 * fac_half_z S = 2 ^ (prime_bits P - 2) * 2 ^ ma.
Proof. unfold fac_half_z. rewrite (pow2_half ma) by (destruct HS; lia). ring. Qed.
Lemma half_w_full : 2 * fac_half_w S hat = hat * 2 ^ ma.
Proof. unfold fac_half_w. rewrite (pow2_half ma) by (destruct HS; lia). ring. Qed.
Lemma half_v_full : 2 * fac_half_v S (p * q) hat = p * q * hat * 2 ^ ma.
Proof. unfold fac_half_v. rewrite (pow2_half ma) by (destruct HS; lia). ring. Qed.

Lemma inner_z_pm v : inner_by (fac_half_z S) (fac_spread_z S) v -> pm_interval (ma + prime_bits P - 2) v.
Proof.
  pose proof spread_z_nonneg as Hs. unfold inner_by, pm_interval, fac_half_z in *.
  rewrite <- Z.pow_add_r by (destruct HS; lia).
  replace (prime_bits P - 2 + (ma - 1)) with (ma + prime_bits P - 2 - 1) by ring. lia.
Qed.

Lemma fac_hides_sec pf mu nu : fac_inner S (p * q) hat pf ->
  0 <= mu < hat * 2 ^ sp_l S -> fac_p pf = com p (mask_scaled (sp_l S) hat mu) ->
  0 <= nu < hat * 2 ^ sp_l S -> fac_q pf = com q (mask_scaled (sp_l S) hat nu) ->
  (fac_verify S X pf (p * q) setup aux = Ret true <->
   exists! rnd, (fac_rand_ok S (p * q) hat rnd /\ fr_mu rnd = mu /\ fr_nu rnd = nu) /\
     fac_new S X sk0 setup aux rnd = Ret pf).
Proof.
  intros [Ia Ib It J1 B1 R1 J2 B2 R2 J3 B3 R3 J4 B4 R4 J5 B5 R5] Hmu EP Hnu EQ.
  assert (Hset' := Hset). destruct Hset' as (Hn & Hs & Ht & Gs & Gt).
  assert (Hl : 0 < sp_l S) by (destruct HS; lia).
  set (muv := mask_scaled (sp_l S) hat mu) in *. set (nuv := mask_scaled (sp_l S) hat nu) in *.
  assert (GP : Z.gcd (fac_p pf) hat = 1) by (rewrite EP; apply comv_gcd; auto; lia).
  assert (GQ : Z.gcd (fac_q pf) hat = 1) by (rewrite EQ; apply comv_gcd; auto; lia).
  split.
  - intros V. apply (fac_accept S C A HS) in V; auto.
    destruct V as (Ech & _ & _ & (pe & Upe & Oa) & (qe & Uqe & Ob) & (qz & tv & re & Uqz & Utv & Ure & Et)).
    set (e := sval w (fac_e pf)) in *. set (z1 := sval ww (fac_z1 pf)) in *. set (z2 := sval ww (fac_z2 pf)) in *.
    set (w1 := sval ww (fac_w1 pf)) in *. set (w2 := sval ww (fac_w2 pf)) in *. set (v := sval xw (fac_v pf)) in *.
    assert (He : pm_interval (sp_l S) e).
    { destruct (fac_challenge_has S C A HS X (fac_p pf) (fac_q pf) (fac_a pf) (fac_b pf) (fac_t pf) (p * q) setup aux HX)
        as (e' & ev & Ee & Ke & Re).
      rewrite Ech in Ee. injection Ee as Ee. unfold e. rewrite Ee, (has_sval _ _ _ _ Ke). exact Re. }
    pose proof (by_draw _ _ _ _ R1 (spread_p p e Hp He)) as Da. pose proof (by_draw _ _ _ _ R2 (spread_p q e Hq He)) as Db.
    pose proof (by_draw _ _ _ _ R3 (spread_w mu e Hmu He)) as Dx. pose proof (by_draw _ _ _ _ R4 (spread_w nu e Hnu He)) as Dy.
    pose proof (by_draw _ _ _ _ R5 (spread_v nu e Hnu He)) as Dr. fold muv nuv in Dx, Dy, Dr.
    rewrite half_z_full in Da, Db. rewrite half_w_full in Dx, Dy. rewrite half_v_full in Dr.
    apply unit_power_zpow in Upe, Uqe, Uqz, Utv, Ure; auto; try lia. subst pe qe qz tv re.
    apply rp_opens_comv in Oa, Ob; auto; try lia. rewrite EP in Oa. rewrite EQ in Ob. symmetry in Oa, Ob.
    apply comv_commitment_z in Oa, Ob; auto; try lia.
    assert (ET : com (q * (z1 - p * e)) (nuv * (z1 - p * e) + (v - - (p * e * nuv))) = fac_t pf).
    { rewrite EQ in Et. rewrite comv_zpow in Et by (auto; lia).
      rewrite <- (comv_0l hat (rp_s setup) (rp_t setup) v) in Et by lia.
      rewrite <- (comv_0r hat (rp_s setup) (rp_t setup)) in Et by lia. rewrite comv_add in Et by (auto; lia).
      replace (com (p * q * e) 0) with (zpow hat (com (p * q) 0) e) in Et by (rewrite comv_zpow by (auto; lia); f_equal; ring).
      apply comv_commitment_z in Et; auto; try lia. rewrite <- Et. f_equal; ring. }
    set (rnd := FacRand (z1 - p * e + (fac_half_z S - 1)) (z2 - q * e + (fac_half_z S - 1)) mu nu
      (v - - (p * e * nuv) + (fac_half_v S (p * q) hat - 1))
      (w1 - muv * e + (fac_half_w S hat - 1)) (w2 - nuv * e + (fac_half_w S hat - 1))).
    exists rnd. split.
    + assert (Hok : fac_rand_ok S (p * q) hat rnd) by (split; assumption).
      split; [split; [exact Hok|split; reflexivity]|].
      destruct (fac_new_val rnd Hok) as (e' & ev & z1' & z2' & w1' & w2' & v' & Ee & Ke & _ & K1 & K2 & K3 & K4 & K5 & En).
      cbv zeta in *.
      replace (fac_mask S (fr_alpha rnd)) with (z1 - p * e) in *
        by (unfold fac_mask, mask_scaled, fac_half_z; cbn [rnd fr_alpha]; unfold fac_half_z; ring).
      replace (fac_mask S (fr_beta rnd)) with (z2 - q * e) in *
        by (unfold fac_mask, mask_scaled, fac_half_z; cbn [rnd fr_beta]; unfold fac_half_z; ring).
      replace (mask_scaled ma hat (fr_x rnd)) with (w1 - muv * e) in *
        by (unfold mask_scaled; cbn [rnd fr_x]; unfold fac_half_w; ring).
      replace (mask_scaled ma hat (fr_y rnd)) with (w2 - nuv * e) in *
        by (unfold mask_scaled; cbn [rnd fr_y]; unfold fac_half_w; ring).
      replace (mask_scaled ma (p * q * hat) (fr_r rnd)) with (v - - (p * e * nuv)) in *
        by (unfold mask_scaled; cbn [rnd fr_r]; unfold fac_half_v; ring).
      change (mask_scaled (sp_l S) hat (fr_mu rnd)) with muv in *.
      change (mask_scaled (sp_l S) hat (fr_nu rnd)) with nuv in *.
      rewrite Oa, Ob, ET, <- EP, <- EQ in *. rewrite Ech in Ee. injection Ee as Ee. subst e'.
      assert (Eev : ev = e) by (unfold e; symmetry; apply Ke). subst ev.
      rewrite En. f_equal.
      replace (z1 - p * e + p * e) with z1 in K1 by ring. replace (z2 - q * e + q * e) with z2 in K2 by ring.
      replace (w1 - muv * e + muv * e) with w1 in K3 by ring. replace (w2 - nuv * e + nuv * e) with w2 in K4 by ring.
      replace (v - - (p * e * nuv) - p * e * nuv) with v in K5 by ring.
      destruct pf as [pe pp pq pa pbb pt0 pz1 pz2 pw1 pw2 pv].
      cbn [fac_e fac_p fac_q fac_a fac_b fac_t fac_z1 fac_z2 fac_w1 fac_w2 fac_v] in *.
      f_equal.
      * apply (has_eq ww _ _ z1 _ K1). split; auto.
      * apply (has_eq ww _ _ z2 _ K2). split; auto.
      * apply (has_eq ww _ _ w1 _ K3). split; auto.
      * apply (has_eq ww _ _ w2 _ K4). split; auto.
      * apply (has_eq xw _ _ v _ K5). split; auto.
    + intros rnd' ((Hok & Emu & Enu) & En).
      destruct (fac_new_val rnd' Hok) as (e' & ev & z1' & z2' & w1' & w2' & v' & Ee & Ke & _ & K1 & K2 & K3 & K4 & K5 & En').
      cbv zeta in *. rewrite En in En'. injection En' as En'.
      pose proof (f_equal fac_e En') as F0. cbn [fac_e] in F0. rewrite <- F0 in *.
      assert (Eev : ev = e) by (unfold e; symmetry; apply Ke). subst ev.
      pose proof (f_equal fac_z1 En') as F1. pose proof (f_equal fac_z2 En') as F2.
      pose proof (f_equal fac_w1 En') as F3. pose proof (f_equal fac_w2 En') as F4. pose proof (f_equal fac_v En') as F5.
      cbn [fac_z1 fac_z2 fac_w1 fac_w2 fac_v] in F1, F2, F3, F4, F5. apply has_sval in K1, K2, K3, K4, K5.
      rewrite <- F1 in K1. rewrite <- F2 in K2. rewrite <- F3 in K3. rewrite <- F4 in K4. rewrite <- F5 in K5.
      fold z1 in K1. fold z2 in K2. fold w1 in K3. fold w2 in K4. fold v in K5.
      destruct rnd' as [a' b' mu' nu' r' x' y']. cbn [fr_alpha fr_beta fr_mu fr_nu fr_r fr_x fr_y] in *.
      subst mu' nu'. fold muv in K3. fold nuv in K4, K5.
      unfold fac_mask, mask_scaled in K1, K2, K3, K4, K5. unfold rnd, fac_half_z, fac_half_w, fac_half_v.
      clear - K1 K2 K3 K4 K5. f_equal; lia.
  - intros (rnd & ((Hok & Emu & Enu) & En) & _).
    destruct (fac_run S C A HS X sk0 setup aux rnd p q) as (pf' & b & ev & En' & Ev & Eev & Rev & Hb); auto.
    rewrite En in En'. injection En' as <-. rewrite Ev. f_equal. apply Hb.
    destruct (fac_new_val rnd Hok) as (e' & ev' & z1' & z2' & w1' & w2' & v' & Ee & Ke & _ & K1 & K2 & K3 & K4 & K5 & En').
    cbv zeta in *. rewrite En in En'. injection En' as En'.
    pose proof (f_equal fac_e En') as F0. pose proof (f_equal fac_z1 En') as F1. pose proof (f_equal fac_z2 En') as F2.
    cbn [fac_e fac_z1 fac_z2] in F0, F1, F2. rewrite F0, (has_sval _ _ _ _ Ke) in Eev. subst ev'.
    rewrite <- F1 in K1. rewrite <- F2 in K2. apply has_sval in K1, K2. rewrite <- K1, <- K2.
    split; now apply inner_z_pm.
Qed.

Lemma fac_inner_sec rnd : fac_rand_ok S (p * q) hat rnd -> fac_margins S (p * q) hat rnd ->
  exists pf, fac_new S X sk0 setup aux rnd = Ret pf /\ fac_verify S X pf (p * q) setup aux = Ret true /\
    fac_inner S (p * q) hat pf /\
    fac_p pf = com p (mask_scaled (sp_l S) hat (fr_mu rnd)) /\ fac_q pf = com q (mask_scaled (sp_l S) hat (fr_nu rnd)).
Proof.
  intros Hok ((M1 & M2) & (M3 & M4) & M5).
  assert (Hset' := Hset). destruct Hset' as (Hn & Hs & Ht & Gs & Gt).
  destruct (fac_new_val rnd Hok) as (e' & e & z1 & z2 & w1 & w2 & v & Ee & Ke & He & K1 & K2 & K3 & K4 & K5 & En).
  cbv zeta in *. assert (Hok' := Hok). destruct Hok' as [Da Db Dmu Dnu Dr Dx Dy].
  pose proof (draw_by _ _ _ _ M1 (spread_p p e Hp He)) as I1. pose proof (draw_by _ _ _ _ M2 (spread_p q e Hq He)) as I2.
  pose proof (draw_by _ _ _ _ M3 (spread_w _ e Dmu He)) as I3. pose proof (draw_by _ _ _ _ M4 (spread_w _ e Dnu He)) as I4.
  pose proof (draw_by _ _ _ _ M5 (spread_v _ e Dnu He)) as I5.
  destruct K1 as (W1 & V1 & B1), K2 as (W2 & V2 & B2), K3 as (W3 & V3 & B3), K4 as (W4 & V4 & B4), K5 as (W5 & V5 & B5).
  destruct (fac_run S C A HS X sk0 setup aux rnd p q) as (pf' & b & ev & En' & Ev & Eev & Rev & Hb); auto.
  rewrite En in En'. injection En' as <-. cbn [fac_e] in Eev. rewrite (has_sval _ _ _ _ Ke) in Eev. subst ev.
  eexists. split; [exact En|]. split; [|split; [|split; reflexivity]].
  - rewrite Ev. f_equal. apply Hb. split; apply inner_z_pm; [exact I1|exact I2].
  - split; cbn [fac_e fac_p fac_q fac_a fac_b fac_t fac_z1 fac_z2 fac_w1 fac_w2 fac_v]; try assumption;
      try (apply comv_range; lia).
    + rewrite V1. exact I1.
    + rewrite V2. exact I2.
    + rewrite V3. exact I3.
    + rewrite V4. exact I4.
    + rewrite V5. exact I5.
Qed.
End HideFac.

Lemma fac_hides S C A : sp_ok S -> forall (X : xof A (pt C)) sk0 setup aux p q pf mu nu,
  xof_ok (sp_q S) X ->
  0 < p < 2 ^ prime_bits (sp_pail S) -> 0 < q < 2 ^ prime_bits (sp_pail S) -> modulus_ok S (p * q) ->
  pr_p (sk_primes sk0) = p -> pr_q (sk_primes sk0) = q -> sk_pk sk0 = p * q ->
  let hat := rp_n setup in
  setup_ok S setup -> sp_l S + sp_eps S + bits (p * q * hat) + 1 < sp_xw S ->
  fac_inner S (p * q) hat pf ->
  0 <= mu < hat * 2 ^ sp_l S -> rp_opens hat (rp_s setup) (rp_t setup) p (mask_scaled (sp_l S) hat mu) (fac_p pf) ->
  0 <= nu < hat * 2 ^ sp_l S -> rp_opens hat (rp_s setup) (rp_t setup) q (mask_scaled (sp_l S) hat nu) (fac_q pf) ->
  (fac_verify S X pf (p * q) setup aux = Ret true <->
   exists! rnd, (fac_rand_ok S (p * q) hat rnd /\ fr_mu rnd = mu /\ fr_nu rnd = nu) /\
     fac_new S X sk0 setup aux rnd = Ret pf).
Proof.
  intros HS X sk0 setup aux p q pf mu nu HX Hp Hq HN Ep Eq EN hat Hset Hxw Hin Hmu Op Hnu Oq.
  assert (Hs' := Hset). destruct Hs' as (Hn & _ & _ & Gs & Gt).
  apply rp_opens_comv in Op, Oq; auto; [|unfold hat; lia..].
  apply (fac_hides_sec S C A HS); auto.
Qed.

Lemma fac_inner_honest S C A : sp_ok S -> forall (X : xof A (pt C)) sk0 setup aux p q rnd,
  xof_ok (sp_q S) X ->
  0 < p < 2 ^ prime_bits (sp_pail S) -> 0 < q < 2 ^ prime_bits (sp_pail S) -> modulus_ok S (p * q) ->
  pr_p (sk_primes sk0) = p -> pr_q (sk_primes sk0) = q -> sk_pk sk0 = p * q ->
  let hat := rp_n setup in
  setup_ok S setup -> sp_l S + sp_eps S + bits (p * q * hat) + 1 < sp_xw S ->
  fac_rand_ok S (p * q) hat rnd -> fac_margins S (p * q) hat rnd ->
  exists pf, fac_new S X sk0 setup aux rnd = Ret pf /\ fac_verify S X pf (p * q) setup aux = Ret true /\
    fac_inner S (p * q) hat pf /\
    rp_opens hat (rp_s setup) (rp_t setup) p (mask_scaled (sp_l S) hat (fr_mu rnd)) (fac_p pf) /\
    rp_opens hat (rp_s setup) (rp_t setup) q (mask_scaled (sp_l S) hat (fr_nu rnd)) (fac_q pf).
Proof.
  intros HS X sk0 setup aux p q rnd HX Hp Hq HN Ep Eq EN hat Hset Hxw Hok Hm.
  assert (Hs' := Hset). destruct Hs' as (Hn & _ & _ & Gs & Gt).
  destruct (fac_inner_sec S C A HS X sk0 setup aux p q) with (rnd := rnd) as (pf & E1 & E2 & E3 & E4 & E5); auto.
  exists pf. split; [exact E1|]. split; [exact E2|]. split; [exact E3|].
  split; apply rp_opens_comv; auto; unfold hat; lia.
Qed.
