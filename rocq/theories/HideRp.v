(** * The proofs relative to ring-Pedersen parameters reveal nothing (property C73). *)
From Coq Require Import ZArith Znumtheory List Bool Lia.
From Verif Require Import Base BaseFacts SignedModel SignedSpec SignedProofs EncodingModel EncodingProofs ConversionModel
  ConversionProofs IntLemmas ModArith PaillierModel PaillierSpec PaillierProofs RpProofs ZkBase ZkModel ZkSpec ZkFacts ZkExtract
  EncElgProofs AffGProofs ZkLemmas HideSpec HideInt HideRpSpec.
Import ListNotations.
Open Scope Z_scope.

Lemma pow2_half m : 0 < m -> 2 ^ m = 2 * 2 ^ (m - 1).
Proof. intros H. rewrite <- Z.pow_succ_r by lia. f_equal. lia. Qed.

Lemma prod_abs_le x e B q : Z.abs x <= B -> 0 <= e < q -> Z.abs (x * e) <= B * (q - 1).
Proof. intros Hx He. rewrite Z.abs_mul, (Z.abs_eq e) by lia. apply Z.mul_le_mono_nonneg; lia. Qed.

(** An inner answer is the answer of a draw. *)
Lemma scaled_draw q scale m k v x e : 0 < m -> 0 < scale -> inner_scaled q scale m k v ->
  Z.abs x <= scale * 2 ^ (k - 1) -> 0 <= e < q ->
  0 <= v - x * e + (scale * 2 ^ (m - 1) - 1) < scale * 2 ^ m.
Proof.
  intros Hm Hsc Hv Hx He. unfold inner_scaled in Hv. pose proof (prod_abs_le _ _ _ _ Hx He) as Hxe.
  rewrite (pow2_half m Hm). set (T := 2 ^ (m - 1)) in *. set (K := 2 ^ (k - 1)) in *.
  replace (scale * (T - q * K)) with (scale * T - scale * K * q) in Hv by ring.
  replace (scale * K * (q - 1)) with (scale * K * q - scale * K) in Hxe by ring.
  replace (scale * (2 * T)) with (2 * (scale * T)) by ring.
  assert (0 <= scale * K) by (pose proof (Z.abs_nonneg x); lia). lia.
Qed.
Lemma draw_inner q scale m k draw x e : 0 < m -> 0 < k -> 0 < scale -> margin_scaled q scale m k draw ->
  Z.abs x <= scale * 2 ^ (k - 1) -> 0 <= e < q ->
  inner_scaled q scale m k (mask_scaled m scale draw + x * e).
Proof.
  intros Hm Hk Hsc Hd Hx He. unfold inner_scaled, margin_scaled, mask_scaled in *.
  pose proof (prod_abs_le _ _ _ _ Hx He) as Hxe.
  rewrite (pow2_half m Hm), (pow2_half k Hk) in Hd. set (T := 2 ^ (m - 1)) in *. set (K := 2 ^ (k - 1)) in *.
  replace (scale * (T - q * K)) with (scale * T - scale * K * q) by ring.
  replace (scale * K * (q - 1)) with (scale * K * q - scale * K) in Hxe by ring.
  replace (scale * (2 * T)) with (2 * (scale * T)) in Hd by ring.
  replace (scale * q * (2 * K)) with (2 * (scale * K * q)) in Hd by ring.
  assert (0 <= scale * K) by (pose proof (Z.abs_nonneg x); lia). lia.
Qed.
Lemma inner_pm q m k v : 0 < m -> 0 < q -> inner_scaled q 1 m k v -> pm_interval m v.
Proof.
  intros Hm Hq Hv. unfold inner_scaled, pm_interval in *. rewrite Z.mul_1_l in Hv.
  assert (0 <= q * 2 ^ (k - 1)) by (apply Z.mul_nonneg_nonneg; [lia|apply Z.pow_nonneg; lia]). lia.
Qed.
Lemma pm_abs1 k x : pm_interval k x -> Z.abs x <= 1 * 2 ^ (k - 1).
Proof. unfold pm_interval. lia. Qed.
Lemma mask_scaled_abs k scale draw : 0 < k -> 0 <= draw < scale * 2 ^ k ->
  Z.abs (mask_scaled k scale draw) <= scale * 2 ^ (k - 1).
Proof.
  intros Hk Hd. unfold mask_scaled. rewrite (pow2_half k Hk) in Hd. set (T := 2 ^ (k - 1)) in *.
  replace (scale * (2 * T)) with (2 * (scale * T)) in Hd by ring. lia.
Qed.
Lemma mask_1 m draw : mask_scaled m 1 draw = ZkSpec.mask m draw.
Proof. unfold mask_scaled, ZkSpec.mask. now rewrite Z.mul_1_l. Qed.

(** The commitments are determined by the equations the verifier checks. *)
Lemma encv_commitment N a x rho X nu e : 1 < N -> Z.gcd rho N = 1 -> 0 <= e -> 0 <= a < N * N -> unit_in N nu ->
  encv N X nu = (a * encv N x rho ^ e) mod (N * N) ->
  encv N (X - x * e) ((zpow N rho (- e) * nu) mod N) = a.
Proof.
  intros HN Hr He Ha Hnu E. apply eqm_small with (N * N); auto; [apply encv_range; lia|].
  set (D := encv N x rho) in *.
  assert (HD : Z.gcd D (N * N) = 1) by (apply encv_gcd2; auto).
  apply gauss_eqm with (D ^ e); [nia|now apply gcd_pow_1|].
  transitivity (encv N X nu); [|rewrite E, eqm_mod; apply eqm_eq; ring].
  rewrite <- (zpow_nonneg (N * N) D) by lia. unfold D. rewrite encv_zpow by auto.
  unfold eqm. rewrite encv_mul by auto. rewrite masked_inv by (auto; apply Hnu).
  rewrite (Z.mod_small (encv N X nu)) by (apply encv_range; lia). f_equal; ring.
Qed.
Lemma encv_commitment_z N a x rho X nu e : 1 < N -> Z.gcd rho N = 1 -> 0 <= a < N * N -> unit_in N nu ->
  encv N X nu = (a * zpow (N * N) (encv N x rho) e) mod (N * N) ->
  encv N (X - x * e) ((zpow N rho (- e) * nu) mod N) = a.
Proof.
  intros HN Hr Ha Hnu E. apply eqm_small with (N * N); auto; [apply encv_range; lia|].
  apply gauss_eqm with (zpow (N * N) (encv N x rho) e); [nia|apply zpow_gcd; [nia|now apply encv_gcd2]|].
  transitivity (encv N X nu); [|rewrite E, eqm_mod; apply eqm_eq; ring].
  rewrite encv_zpow by auto.
  unfold eqm. rewrite encv_mul by auto. rewrite masked_inv by (auto; apply Hnu).
  rewrite (Z.mod_small (encv N X nu)) by (apply encv_range; lia). f_equal; ring.
Qed.
Lemma affv_commitment_e N c a x m rho X M nu e : 1 < N -> Z.gcd c N = 1 -> Z.gcd rho N = 1 -> 0 <= e ->
  0 <= a < N * N -> unit_in N nu ->
  affv N c X M nu = (a * affv N c x m rho ^ e) mod (N * N) ->
  affv N c (X - x * e) (M - m * e) ((zpow N rho (- e) * nu) mod N) = a.
Proof.
  intros HN Hc Hr He Ha Hnu E. apply eqm_small with (N * N); auto; [apply affv_range; nia|].
  set (D := affv N c x m rho) in *.
  assert (HD : Z.gcd D (N * N) = 1) by (apply affv_gcd2; auto).
  apply gauss_eqm with (D ^ e); [nia|now apply gcd_pow_1|].
  transitivity (affv N c X M nu); [|rewrite E, eqm_mod; apply eqm_eq; ring].
  rewrite <- (zpow_nonneg (N * N) D) by lia. unfold D. rewrite affv_zpow by auto.
  unfold eqm. rewrite affv_mul by auto. rewrite masked_inv by (auto; apply Hnu).
  rewrite (Z.mod_small (affv N c X M nu)) by (apply affv_range; auto). f_equal; ring.
Qed.
Lemma comv_commitment N s t a v r V R e : 1 < N -> Z.gcd s N = 1 -> Z.gcd t N = 1 -> 0 <= e -> 0 <= a < N ->
  comv N s t V R = (a * comv N s t v r ^ e) mod N ->
  comv N s t (V - v * e) (R - r * e) = a.
Proof.
  intros HN Hs Ht He Ha E. apply eqm_small with N; auto; [apply comv_range; lia|].
  set (D := comv N s t v r) in *.
  assert (HD : Z.gcd D N = 1) by (apply comv_gcd; auto; lia).
  apply gauss_eqm with (D ^ e); [lia|now apply gcd_pow_1|].
  transitivity (comv N s t V R); [|rewrite E, eqm_mod; apply eqm_eq; ring].
  rewrite <- (zpow_nonneg N D) by lia. unfold D. rewrite comv_zpow by (auto; lia).
  unfold eqm. rewrite comv_add by (auto; lia).
  rewrite (Z.mod_small (comv N s t V R)) by (apply comv_range; lia). f_equal; ring.
Qed.

(** A commitment says nothing about its value: each window of randomizers as long
    as the order of the base contains exactly one that explains it. *)
Lemma order_divides n t o k : 1 < n -> Z.gcd t n = 1 -> has_order n t o -> (eqm n (zpow n t k) 1 <-> (o | k)).
Proof.
  intros Hn Hg (Ho & E1 & Hmin).
  assert (Eo : eqm n (zpow n t o) 1) by (rewrite zpow_nonneg by lia; exact E1).
  assert (Em : forall j, eqm n (zpow n t (o * j)) 1).
  { intros j. rewrite zpow_mul by (auto; lia).
    rewrite (zpow_eqm n (zpow n t o) 1 j); [|lia|apply zpow_gcd; auto; lia|exact Eo].
    destruct (Z.le_gt_cases 0 j) as [Hj|Hj].
    - rewrite zpow_nonneg by lia. now rewrite Z.pow_1_l.
    - rewrite zpow_neg by lia. 
      assert (Hi : eqm n (zinv n 1) 1) by (symmetry; apply zinv_unique; [lia|reflexivity]).
      rewrite (eqm_pow n _ _ (- j) Hi). rewrite Z.pow_1_l by lia. reflexivity. }
  split.
  - intros E. rewrite (Z_div_mod_eq_full k o) in E. rewrite zpow_add, Em, Z.mul_1_l in E by (auto; lia).
    pose proof (Z.mod_pos_bound k o Ho) as Hb. destruct (Z.eq_dec (k mod o) 0) as [H0|H0].
    + apply Z.mod_divide; lia.
    + exfalso. apply (Hmin (k mod o)); [lia|]. rewrite zpow_nonneg in E by lia. exact E.
  - intros (j & ->). rewrite Z.mul_comm. apply Em.
Qed.

Lemma commitment_hides n s t o lambda c a x : 1 < n -> Z.gcd t n = 1 -> has_order n t o ->
  s = zpow n t lambda -> (exists k, c = zpow n t k) ->
  exists! mu, a <= mu < a + o /\ rp_opens n s t x mu c.
Proof.
  intros Hn Hg Ho -> (k & ->).
  assert (Hgs : Z.gcd (zpow n t lambda) n = 1) by (apply zpow_gcd; auto; lia).
  assert (Hop : forall mu, rp_opens n (zpow n t lambda) t x mu (zpow n t k) <-> (o | lambda * x + mu - k)).
  { intros mu. rewrite rp_opens_comv by auto. rewrite <- (order_divides n t o) by auto.
    assert (Ec : eqm n (comv n (zpow n t lambda) t x mu) (zpow n t (lambda * x + mu))).
    { rewrite comv_eqm, <- zpow_mul, <- zpow_add by (auto; lia). reflexivity. }
    rewrite zpow_sub by (auto; lia). split.
    - intros E. rewrite <- Ec, <- E. rewrite Z.mul_comm. apply zpow_opp; auto; lia.
    - intros E. apply eqm_small with n; [apply zpow_range; lia|apply comv_range; lia|]. rewrite Ec.
      transitivity (zpow n t (lambda * x + mu) * (zpow n t (- k) * zpow n t k)).
      + rewrite Z.mul_assoc, E. apply eqm_eq. ring.
      + rewrite zpow_opp by (auto; lia). apply eqm_eq. ring. }
  destruct Ho as (Ho & _). set (d := k - lambda * x - a).
  exists (a + d mod o). split.
  - split; [pose proof (Z.mod_pos_bound d o Ho); lia|]. apply Hop.
    exists (- (d / o)). pose proof (Z_div_mod_eq_full d o). unfold d in *. lia.
  - intros mu (Hr & Hm). apply Hop in Hm. destruct Hm as (j & Hj).
    assert (d mod o = mu - a); [|lia]. symmetry. apply (Z.mod_unique_pos d o (- j)); [lia|]. unfold d. lia.
Qed.

Section HideRp.
Variables (S : sparams) (C : curve) (A : Type).
Notation P := (sp_pail S).
Notation w := (uint_w (sp_pail S)).
Notation ww := (wide_w (sp_pail S)).
Notation q := (sp_q S).
Hypothesis HS : sp_ok S.
Hypothesis HC : curve_ok q C.

Lemma padd_cancel_r x y z : padd C x z = padd C y z -> x = y.
Proof. rewrite !(c_addC _ _ HC _ z). apply (p_cancel q C HC). Qed.

Lemma q_gt1 : 1 < q.
Proof. destruct (so_conv _ HS). lia. Qed.

Notation ma := (sp_l S + sp_eps S).

Section EncElg.
Variables (X : xof A (pt C)) (sec : enc_elg_secret) (pub : enc_elg_public C) (setup : rpparams) (aux : A) (x : Z).
Notation N := (ep_pk0 pub).
Notation hat := (rp_n setup).
Notation com := (comv (rp_n setup) (rp_s setup) (rp_t setup)).
Hypothesis HX : xof_ok q X.
Hypothesis Hx : wf w (es_x sec).
Hypothesis Hxv : sval w (es_x sec) = x.
Hypothesis Hxb : bound (es_x sec) <= sp_l S.
Hypothesis Hxr : pm_interval (sp_l S) x.
Hypothesis HN : modulus_ok S N.
Hypothesis Hrho : unit_ok N (es_rho sec).
Hypothesis Hc : ep_cap_c pub = Ct N (encv N x (es_rho sec)).
Hypothesis Hb : ep_cap_b pub = pmul C (es_b sec) (gen C).
Hypothesis Hcx : ep_cap_x pub = padd C (pmul C (es_b sec) (ep_cap_a pub)) (pmul C x (gen C)).
Hypothesis Hset : setup_ok S setup.

Lemma enc_elg_new_val rnd : enc_elg_rand_ok S N hat rnd ->
  let av := mask ma (er_alpha rnd) in
  let mv := mask_scaled (sp_l S) hat (er_mu rnd) in
  let gv := mask_scaled ma hat (er_gamma rnd) in
  let d := encv N av (er_r rnd) in
  let y := padd C (pmul C (er_beta rnd) (ep_cap_a pub)) (pmul C av (gen C)) in
  let z := pmul C (er_beta rnd) (gen C) in
  let e := enc_elg_challenge X (com x mv) d y z (com av gv) pub setup aux in
  exists z1 z3, has w z1 (av + x * e) (reply_bound S ma (bound (es_x sec))) /\
    has ww z3 (gv + mv * e) (reply_bound S (ma + bits hat) (sp_l S + bits hat)) /\
    enc_elg_new S X sec pub setup aux rnd = Ret (EncElgProof e (com x mv) d y z (com av gv) z1
      ((er_beta rnd + es_b sec * e) mod q) ((zpow N (es_rho sec) e * er_r rnd) mod N) z3).
Proof.
  intros [Da Dm Dg [Dr0 Drg]]. cbv zeta. destruct Hrho as [Hr0 Hrg].
  pose proof (has_self _ _ Hx) as Kx. rewrite Hxv in Kx.
  assert (Hset' := Hset). destruct Hset' as (Hn & Hs & Ht & Gs & Gt).
  assert (Hbits : 0 < bits hat <= modulus_bits P) by (apply bits_modulus; destruct HS; lia).
  pose proof q_gt1 as Hq.
  unfold enc_elg_new. cbv zeta.
  rewrite (has_assert_range _ _ _ _ (sp_l S) Kx) by (auto; destruct HS; lia). cbn [obind].
  rewrite Hc. cbn [ct_pk]. rewrite Z.eqb_refl. cbn [oassert obind].
  run_ex (sample_has S ma (er_alpha rnd)) alpha Ka; [destruct HS; lia|].
  run_ex (sample_scaled_has S HS (sp_l S) hat (er_mu rnd)) mu Km; [destruct HS; lia..|].
  run_ex (sample_scaled_has S HS ma hat (er_gamma rnd)) gamma Kg; [destruct HS; lia..|].
  fold (mask ma (er_alpha rnd)) in Ka.
  fold (mask_scaled (sp_l S) hat (er_mu rnd)) in Km.
  fold (mask_scaled ma hat (er_gamma rnd)) in Kg.
  rewrite (commit_sec_has S _ _ _ _ _ _ _ _ _ Hset Kx Km). cbn [obind].
  rewrite (enc_has S HS N _ _ _ _ HN Dr0 Ka). cbn [obind ct_val].
  rewrite (scalar_of_secret_has S HS _ _ _ Ka). cbn [obind].
  rewrite (commit_sec_has S _ _ _ _ _ _ _ _ _ Hset Ka Kg). cbn [obind].
  rewrite (pmul_mod q C HC) by lia.
  set (e := enc_elg_challenge _ _ _ _ _ _ _ _ _).
  assert (He : 0 <= e < q) by apply (xo_scalar _ _ HX).
  destruct (signed_of_scalar_has S HS e He) as (es & Ees & Kes). rewrite Ees. cbn [obind].
  run_ex (has_mul _ _ _ _ _ _ _ Kx Kes) xe Kxe; [destruct HS; lia|].
  run_ex (has_add _ _ _ _ _ _ _ Ka Kxe) z1 Kz1; [destruct HS; lia|].
  rewrite (has_public _ _ _ _ Kz1). cbn [obind].
  rewrite (masked_has S N _ _ _ _ _ HN Hrg Kes). cbn [obind].
  run_ex (has_pub_wide _ ww _ _ _ Kes) ew Kew; [destruct HS; lia|].
  run_ex (has_mul _ _ _ _ _ _ _ Km Kew) mue Kmue; [destruct HS; lia|].
  run_ex (has_add _ _ _ _ _ _ _ Kg Kmue) z3 Kz3; [destruct HS; lia|].
  rewrite (has_public _ _ _ _ Kz3). cbn [obind].
  exists z1, z3. auto.
Qed.

Lemma enc_elg_hides_sec pf mu : enc_elg_inner S N hat (bound (es_x sec)) pf ->
  0 <= mu < hat * 2 ^ sp_l S -> ee_s pf = com x (mask_scaled (sp_l S) hat mu) ->
  (enc_elg_verify S X pf pub setup aux = Ret true <->
   exists! rnd, (enc_elg_draw S N hat rnd /\ er_mu rnd = mu) /\ enc_elg_new S X sec pub setup aux rnd = Ret pf).
Proof.
  intros [I1 I2 I3 I4 I5 I6 I7 I8 I9 I10] Hmu Es. destruct Hrho as [Hr0 Hrg].
  assert (Hset' := Hset). destruct Hset' as (Hn & Hs & Ht & Gs & Gt).
  assert (Ng : 1 < N) by apply HN. pose proof q_gt1 as Hq.
  assert (Hl : 0 < sp_l S) by (destruct HS; lia). assert (Hma : 0 < ma) by (destruct HS; lia).
  set (mv := mask_scaled (sp_l S) hat mu) in *.
  split.
  - intros V. apply (enc_elg_accept S C A HS HC) in V; auto; [|apply I7|rewrite Hc; apply encv_range; lia].
    destruct V as (_ & Ee & _ & Ec & Ey & Ez & Et).
    assert (He : 0 <= ee_e pf < q) by (rewrite Ee; apply (xo_scalar _ _ HX)).
    set (e := ee_e pf) in *. set (z1 := sval w (ee_z1 pf)) in *. set (z3 := sval ww (ee_z3 pf)) in *.
    pose proof (scaled_draw q 1 ma (sp_l S) z1 x e Hma ltac:(lia) I5 (pm_abs1 _ _ Hxr) He) as Da.
    pose proof (mask_scaled_abs (sp_l S) hat mu Hl Hmu) as Amv. fold mv in Amv.
    pose proof (scaled_draw q hat ma (sp_l S) z3 mv e Hma ltac:(lia) I10 Amv He) as Dg.
    rewrite !Z.mul_1_l in Da.
    apply encv_textbook in Ec; [|exact Ng]. rewrite Hc in Ec. cbn [ct_val] in Ec. symmetry in Ec.
    apply encv_commitment in Ec; auto; [|lia].
    apply rp_opens_comv in Et; auto; [|lia]. rewrite Es in Et. symmetry in Et.
    apply comv_commitment in Et; auto; [|lia..].
    set (r := (zpow N (es_rho sec) (- e) * ee_z2 pf) mod N) in *.
    pose proof (masked_unit N (es_rho sec) (- e) _ Ng Hrg I7) as [Hr1 Hr2]. fold r in Hr1, Hr2.
    set (beta := (ee_w pf - es_b sec * e) mod q).
    assert (Hbeta : 0 <= beta < q) by (apply Z.mod_pos_bound; lia).
    assert (Hbw : (beta + es_b sec * e) mod q = ee_w pf).
    { unfold beta. rewrite Z.add_mod_idemp_l by lia.
      replace (ee_w pf - es_b sec * e + es_b sec * e) with (ee_w pf) by ring. now apply Z.mod_small. }
    assert (Hpw : forall g, pmul C (ee_w pf) g = padd C (pmul C beta g) (pmul C (es_b sec * e) g)).
    { intros g. rewrite <- Hbw, (pmul_mod q C HC) by lia. apply (c_mulDl _ _ HC). }
    assert (Ez' : pmul C beta (gen C) = ee_z pf).
    { rewrite Hpw, Hb, (c_mulA _ _ HC), (Z.mul_comm (es_b sec)) in Ez. now apply padd_cancel_r in Ez. }
    assert (Ey' : padd C (pmul C beta (ep_cap_a pub)) (pmul C (z1 - x * e) (gen C)) = ee_y pf).
    { apply padd_cancel_r with (pmul C e (ep_cap_x pub)). rewrite <- Ey, Hcx, Hpw.
      rewrite (c_mulDr _ _ HC), !(c_mulA _ _ HC), (padd_swap q C HC), <- (c_mulDl _ _ HC _ _ (gen C)).
      rewrite (Z.mul_comm e (es_b sec)). do 2 f_equal. ring. }
    set (rnd := EncElgRand (z1 - x * e + (2 ^ (ma - 1) - 1)) mu r beta (z3 - mv * e + (hat * 2 ^ (ma - 1) - 1))).
    exists rnd. split.
    + assert (Hok : enc_elg_rand_ok S N hat rnd)
        by (split; [exact Da|exact Hmu|exact Dg|split; [exact (proj1 Hr1)|exact Hr2]]).
      split; [split; [split; [exact Hok|split; [exact (proj2 Hr1)|exact Hbeta]]|reflexivity]|].
      destruct (enc_elg_new_val rnd Hok) as (z1' & z3' & K1 & K3 & En). cbv zeta in *.
      replace (mask ma (er_alpha rnd)) with (z1 - x * e) in * by (unfold mask; cbn; lia).
      replace (mask_scaled ma hat (er_gamma rnd)) with (z3 - mv * e) in * by (unfold mask_scaled; cbn; lia).
      change (mask_scaled (sp_l S) hat (er_mu rnd)) with mv in *.
      cbn [rnd er_r er_beta er_mu] in *. rewrite Ec, Et, Ez', Ey', <- Es in *. rewrite <- Ee in *. fold e in K1, K3, En.
      rewrite En. f_equal. rewrite Hbw.
      replace (z1 - x * e + x * e) with z1 in K1 by ring. replace (z3 - mv * e + mv * e) with z3 in K3 by ring.
      destruct pf as [pe ps pd py pz pt0 pz1 pw pz2 pz3]. cbn [ee_e ee_s ee_d ee_y ee_z ee_t ee_z1 ee_w ee_z2 ee_z3] in *.
      f_equal.
      * apply (has_eq w _ _ z1 _ K1). split; auto.
      * unfold r. apply masked_inv; auto. apply I7.
      * apply (has_eq ww _ _ z3 _ K3). split; auto.
    + intros rnd' (((Hok & Hr' & Hbeta') & Em) & En).
      destruct (enc_elg_new_val rnd' Hok) as (z1' & z3' & K1 & K3 & En'). cbv zeta in *. rewrite En in En'.
      injection En' as En'. pose proof (f_equal (@ee_e C) En') as F0. cbn [ee_e] in F0. rewrite <- F0 in *. fold e in En', K1, K3.
      pose proof (f_equal (@ee_z1 C) En') as F1. pose proof (f_equal (@ee_z3 C) En') as F2.
      pose proof (f_equal (@ee_z2 C) En') as F3. pose proof (f_equal (@ee_w C) En') as F4.
      cbn [ee_z1 ee_z3 ee_z2 ee_w] in F1, F2, F3, F4. apply has_sval in K1, K3. rewrite <- F1 in K1. rewrite <- F2 in K3.
      fold z1 in K1. fold z3 in K3.
      destruct rnd' as [a' m' r' b' g']. cbn [er_alpha er_mu er_r er_beta er_gamma] in *. subst m'. fold mv in K3.
      unfold rnd, mask, mask_scaled in *. f_equal; [lia| | |lia].
      * apply (masked_inj N (es_rho sec) e); auto.
        { split; [apply Hok|exact Hr']. }
        rewrite <- F3. unfold r. apply masked_inv; auto. apply I7.
      * unfold beta. rewrite F4. apply eqm_small with q; [apply Z.mod_pos_bound; lia|auto|].
        rewrite eqm_mod. unfold eqm. rewrite Zminus_mod_idemp_l. f_equal. ring.
  - intros (rnd & (((Hok & Hr' & Hbeta') & Em) & En) & _).
    destruct (enc_elg_run S C A HS HC X sec pub setup aux rnd x) as (pf' & b & En' & Ev & He & Hb'); auto.
    rewrite En in En'. injection En' as <-. rewrite Ev. f_equal. apply Hb'.
    destruct (enc_elg_new_val rnd Hok) as (z1' & z3' & K1 & K3 & En'). cbv zeta in *. rewrite En in En'.
    injection En' as En'. pose proof (f_equal (@ee_e C) En') as F0. pose proof (f_equal (@ee_z1 C) En') as F1.
    cbn [ee_e ee_z1] in F0, F1. rewrite <- F0, <- F1 in K1. apply has_sval in K1. rewrite <- K1.
    apply (inner_pm q ma (sp_l S)); auto; lia.
Qed.

Lemma enc_elg_inner_sec rnd : enc_elg_draw S N hat rnd -> enc_elg_margin S hat rnd ->
  exists pf, enc_elg_new S X sec pub setup aux rnd = Ret pf /\ enc_elg_verify S X pf pub setup aux = Ret true /\
    enc_elg_inner S N hat (bound (es_x sec)) pf /\ ee_s pf = com x (mask_scaled (sp_l S) hat (er_mu rnd)).
Proof.
  intros (Hok & Hr' & Hbeta) [M1 M2]. destruct Hrho as [Hr0 Hrg].
  assert (Hset' := Hset). destruct Hset' as (Hn & Hs & Ht & Gs & Gt).
  assert (Ng : 1 < N) by apply HN. pose proof q_gt1 as Hq.
  assert (Hl : 0 < sp_l S) by (destruct HS; lia). assert (Hma : 0 < ma) by (destruct HS; lia).
  destruct (enc_elg_new_val rnd Hok) as (z1 & z3 & K1 & K3 & En). cbv zeta in *.
  set (e := enc_elg_challenge _ _ _ _ _ _ _ _ _) in *.
  assert (He : 0 <= e < q) by apply (xo_scalar _ _ HX).
  pose proof (draw_inner q 1 ma (sp_l S) _ x e Hma Hl ltac:(lia) M1 (pm_abs1 _ _ Hxr) He) as J1.
  rewrite mask_1 in J1. destruct Hok as [Da Dm Dg [Dr0 Drg]].
  pose proof (draw_inner q hat ma (sp_l S) _ _ e Hma Hl ltac:(lia) M2 (mask_scaled_abs _ _ _ Hl Dm) He) as J2.
  destruct (enc_elg_run S C A HS HC X sec pub setup aux rnd x) as (pf' & b & En' & Ev & He' & Hb'); auto.
  { split; auto. split; auto. }
  rewrite En in En'. injection En' as <-. eexists. split; [exact En|]. cbn [ee_e] in Hb'.
  split; [|split; [|reflexivity]].
  - rewrite Ev. f_equal. apply Hb'. apply (inner_pm q ma (sp_l S)); auto; lia.
  - destruct K1 as (W1 & V1 & B1), K3 as (W3 & V3 & B3).
    split; cbn [ee_e ee_s ee_d ee_y ee_z ee_t ee_z1 ee_w ee_z2 ee_z3].
    + apply encv_range; lia.
    + apply comv_range; lia.
    + exact W1.
    + exact B1.
    + rewrite V1. exact J1.
    + apply Z.mod_pos_bound; lia.
    + apply masked_unit; auto. split; [lia|exact Drg].
    + exact W3.
    + exact B3.
    + rewrite V3. exact J2.
Qed.
End EncElg.

Section AffG.
Variables (X : xof A (pt C)) (sec : aff_g_secret) (pub : aff_g_public C) (setup : rpparams) (aux : A) (x y c : Z).
Notation N0 := (ap_pk0 pub).
Notation N1 := (ap_pk1 pub).
Notation hat := (rp_n setup).
Notation com := (comv (rp_n setup) (rp_s setup) (rp_t setup)).
Notation mb := (sp_lp S + sp_eps S).
Hypothesis HX : xof_ok q X.
Hypothesis Hx : wf w (as_x sec).
Hypothesis Hxv : sval w (as_x sec) = x.
Hypothesis Hxb : bound (as_x sec) <= sp_l S.
Hypothesis Hxr : pm_interval (sp_l S) x.
Hypothesis Hy : wf w (as_y sec).
Hypothesis Hyv : sval w (as_y sec) = y.
Hypothesis Hyb : bound (as_y sec) <= sp_lp S.
Hypothesis Hyr : pm_interval (sp_lp S) y.
Hypothesis HN0 : modulus_ok S N0.
Hypothesis HN1 : modulus_ok S N1.
Hypothesis Hrho : unit_ok N0 (as_rho sec).
Hypothesis Hrhoy : unit_ok N1 (as_rho_y sec).
Hypothesis Huc : unit_ok N0 c.
Hypothesis Hc : ap_cap_c pub = Ct N0 c.
Hypothesis Hd : ap_cap_d pub = Ct N0 (affv N0 c x (- y) (as_rho sec)).
Hypothesis HY : ap_cap_y pub = Ct N1 (encv N1 y (as_rho_y sec)).
Hypothesis Hcx : ap_cap_x pub = pmul C x (gen C).
Hypothesis Hset : setup_ok S setup.

Lemma aff_g_new_val rnd : aff_g_rand_ok S N0 N1 hat rnd ->
  let av := mask ma (ar_alpha rnd) in
  let bv := mask mb (ar_beta rnd) in
  let gv := mask_scaled ma hat (ar_gamma rnd) in
  let mv := mask_scaled (sp_l S) hat (ar_m rnd) in
  let dv := mask_scaled ma hat (ar_delta rnd) in
  let uv := mask_scaled (sp_l S) hat (ar_mu rnd) in
  let a := affv N0 c av bv (ar_r rnd) in
  let bx := pmul C av (gen C) in
  let by_ := encv N1 bv (ar_ry rnd) in
  let e := aff_g_challenge X a bx by_ (com av gv) (com bv dv) (com x mv) (com (- y) uv) pub setup aux in
  exists z1 z2 z3 z4, has w z1 (av + x * e) (reply_bound S ma (bound (as_x sec))) /\
    has w z2 (bv + - y * e) (reply_bound S mb (bound (as_y sec))) /\
    has ww z3 (gv + mv * e) (reply_bound S (ma + bits hat) (sp_l S + bits hat)) /\
    has ww z4 (dv + uv * e) (reply_bound S (ma + bits hat) (sp_l S + bits hat)) /\
    aff_g_new S X sec pub setup aux rnd = Ret (AffGProof e a bx by_ (com av gv) (com x mv) (com bv dv) (com (- y) uv)
      z1 z2 z3 z4 ((zpow N0 (as_rho sec) e * ar_r rnd) mod N0) ((zpow N1 (as_rho_y sec) (- e) * ar_ry rnd) mod N1)).
Proof.
  intros [Da Db [Dr0 Drg] [Dry0 Dryg] Dg Dm Dd Dmu]. cbv zeta.
  destruct Hrho as [Hr0 Hrg], Hrhoy as [Hry0 Hryg], Huc as [Hc0 Hcg].
  pose proof (has_self _ _ Hx) as Kx. rewrite Hxv in Kx.
  pose proof (has_self _ _ Hy) as Ky. rewrite Hyv in Ky.
  assert (Hset' := Hset). destruct Hset' as (Hn & Hs & Ht & Gs & Gt).
  assert (Hbits : 0 < bits hat <= modulus_bits P) by (apply bits_modulus; destruct HS; lia).
  pose proof q_gt1 as Hq.
  unfold aff_g_new. cbv zeta. rewrite Hc, Hd, HY. cbn [ct_pk].
  rewrite (has_assert_range _ _ _ _ (sp_l S) Kx) by (auto; destruct HS; lia). cbn [obind].
  rewrite (has_assert_range _ _ _ _ (sp_lp S) Ky) by (auto; destruct HS; lia). cbn [obind].
  rewrite !Z.eqb_refl. cbn [oassert obind].
  run_ex (sample_has S ma (ar_alpha rnd)) alpha Ka; [destruct HS; lia|].
  run_ex (sample_has S mb (ar_beta rnd)) beta Kb; [destruct HS; lia|].
  run_ex (sample_scaled_has S HS ma hat (ar_gamma rnd)) gamma Kg; [destruct HS; lia..|].
  run_ex (sample_scaled_has S HS (sp_l S) hat (ar_m rnd)) m Km; [destruct HS; lia..|].
  run_ex (sample_scaled_has S HS ma hat (ar_delta rnd)) delta Kd; [destruct HS; lia..|].
  run_ex (sample_scaled_has S HS (sp_l S) hat (ar_mu rnd)) mu Kmu; [destruct HS; lia..|].
  fold (mask ma (ar_alpha rnd)) in Ka. fold (mask mb (ar_beta rnd)) in Kb.
  fold (mask_scaled ma hat (ar_gamma rnd)) in Kg. fold (mask_scaled (sp_l S) hat (ar_m rnd)) in Km.
  fold (mask_scaled ma hat (ar_delta rnd)) in Kd. fold (mask_scaled (sp_l S) hat (ar_mu rnd)) in Kmu.
  set (av := mask _ (ar_alpha rnd)) in *. set (bv := mask _ (ar_beta rnd)) in *.
  rewrite (hmul_sec_unit N0 c (proj1 HN0) Hcg _ _ _ _ Hc0 Ka). cbn [obind].
  rewrite (enc_has S HS N0 _ _ _ _ HN0 Dr0 Kb). cbn [obind].
  rewrite hadd_eq. cbn [obind ct_val]. fold (affv N0 c av bv (ar_r rnd)).
  rewrite (scalar_of_secret_has S HS _ _ _ Ka). cbn [obind].
  rewrite (enc_has S HS N1 _ _ _ _ HN1 Dry0 Kb). cbn [obind ct_val].
  rewrite (commit_sec_has S _ _ _ _ _ _ _ _ _ Hset Ka Kg). cbn [obind].
  rewrite (commit_sec_has S _ _ _ _ _ _ _ _ _ Hset Kx Km). cbn [obind].
  rewrite (commit_sec_has S _ _ _ _ _ _ _ _ _ Hset Kb Kd). cbn [obind].
  pose proof (has_neg _ _ _ _ Ky) as Kny.
  rewrite (commit_sec_has S _ _ _ _ _ _ _ _ _ Hset Kny Kmu). cbn [obind].
  rewrite (pmul_mod q C HC) by lia.
  set (e := aff_g_challenge _ _ _ _ _ _ _ _ _ _ _).
  assert (He : 0 <= e < q) by apply (xo_scalar _ _ HX).
  destruct (signed_of_scalar_has S HS e He) as (es & Ees & Kes). rewrite Ees. cbn [obind].
  run_ex (has_pub_wide _ ww _ _ _ Kes) ew Kew; [destruct HS; lia|].
  run_ex (has_mul _ _ _ _ _ _ _ Kx Kes) xe Kxe; [destruct HS; lia|].
  run_ex (has_add _ _ _ _ _ _ _ Ka Kxe) z1 Kz1; [destruct HS; lia|].
  rewrite (has_public _ _ _ _ Kz1). cbn [obind].
  run_ex (has_mul _ _ _ _ _ _ _ Kny Kes) ye Kye; [destruct HS; lia|].
  run_ex (has_add _ _ _ _ _ _ _ Kb Kye) z2 Kz2; [destruct HS; lia|].
  rewrite (has_public _ _ _ _ Kz2). cbn [obind].
  run_ex (has_mul _ _ _ _ _ _ _ Km Kew) me Kme; [destruct HS; lia|].
  run_ex (has_add _ _ _ _ _ _ _ Kg Kme) z3 Kz3; [destruct HS; lia|].
  rewrite (has_public _ _ _ _ Kz3). cbn [obind].
  run_ex (has_mul _ _ _ _ _ _ _ Kmu Kew) mue Kmue; [destruct HS; lia|].
  run_ex (has_add _ _ _ _ _ _ _ Kd Kmue) z4 Kz4; [destruct HS; lia|].
  rewrite (has_public _ _ _ _ Kz4). cbn [obind].
  rewrite (masked_has S N0 _ _ _ _ _ HN0 Hrg Kes). cbn [obind].
  rewrite (masked_has S N1 _ _ _ _ _ HN1 Hryg (has_pub_neg _ _ _ _ Kes)). cbn [obind].
  exists z1, z2, z3, z4. auto.
Qed.

Lemma pmul_sub_e a v e g cm : pmul C a g = padd C cm (pmul C e (pmul C v g)) -> pmul C (a - v * e) g = cm.
Proof.
  intros E. apply padd_cancel_r with (pmul C e (pmul C v g)). rewrite <- E, (c_mulA _ _ HC), <- (c_mulDl _ _ HC).
  f_equal. ring.
Qed.

Lemma aff_g_hides_sec pf m mu : aff_g_inner S N0 N1 hat (bound (as_x sec)) (bound (as_y sec)) pf ->
  0 <= m < hat * 2 ^ sp_l S -> ag_s pf = com x (mask_scaled (sp_l S) hat m) ->
  0 <= mu < hat * 2 ^ sp_l S -> ag_t pf = com (- y) (mask_scaled (sp_l S) hat mu) ->
  (aff_g_verify S X pf pub setup aux = Ret true <->
   exists! rnd, (aff_g_draw S N0 N1 hat rnd /\ ar_m rnd = m /\ ar_mu rnd = mu) /\
     aff_g_new S X sec pub setup aux rnd = Ret pf).
Proof.
  intros [I1 I2 I3 I4 J1 B1 R1 J2 B2 R2 J3 B3 R3 J4 B4 R4 I5 I6] Hm Es Hmu Et.
  assert (Hrho' := Hrho). assert (Hrhoy' := Hrhoy). assert (Huc' := Huc).
  destruct Hrho' as [Hr0 Hrg], Hrhoy' as [Hry0 Hryg], Huc' as [Hc0 Hcg].
  assert (Hset' := Hset). destruct Hset' as (Hn & Hs & Ht & Gs & Gt).
  assert (Ng0 : 1 < N0) by apply HN0. assert (Ng1 : 1 < N1) by apply HN1. pose proof q_gt1 as Hq.
  assert (Hl : 0 < sp_l S) by (destruct HS; lia). assert (Hma : 0 < ma) by (destruct HS; lia).
  assert (Hmb : 0 < mb) by (destruct HS; lia).
  assert (Hyr' : Z.abs (- y) <= 1 * 2 ^ (sp_lp S - 1)) by (rewrite Z.abs_opp; now apply pm_abs1).
  set (mv := mask_scaled (sp_l S) hat m) in *. set (uv := mask_scaled (sp_l S) hat mu) in *.
  split.
  - intros V. apply (aff_g_accept S C A HS HC) in V; auto;
      [|apply I5|apply I6|rewrite Hc; exact Hc0|rewrite Hd; apply affv_range; auto|rewrite HY; apply encv_range; lia].
    destruct V as (_ & _ & _ & Ee & _ & _ & (cz & Ucz & ez & Hez & Ea) & Ex & (ye & Uye & Eb) & Ece & Ef).
    assert (He : 0 <= ag_e pf < q) by (rewrite Ee; apply (xo_scalar _ _ HX)).
    rewrite Hc, Hd, HY in *. cbn [ct_val] in *. rewrite Hcx in Ex.
    set (e := ag_e pf) in *. set (z1 := sval w (ag_z1 pf)) in *. set (z2 := sval w (ag_z2 pf)) in *.
    set (z3 := sval ww (ag_z3 pf)) in *. set (z4 := sval ww (ag_z4 pf)) in *.
    pose proof (scaled_draw q 1 ma (sp_l S) z1 x e Hma ltac:(lia) R1 (pm_abs1 _ _ Hxr) He) as Da.
    pose proof (scaled_draw q 1 mb (sp_lp S) z2 (- y) e Hmb ltac:(lia) R2 Hyr' He) as Db.
    pose proof (mask_scaled_abs (sp_l S) hat m Hl Hm) as Amv. fold mv in Amv.
    pose proof (mask_scaled_abs (sp_l S) hat mu Hl Hmu) as Auv. fold uv in Auv.
    pose proof (scaled_draw q hat ma (sp_l S) z3 mv e Hma ltac:(lia) R3 Amv He) as Dg.
    pose proof (scaled_draw q hat ma (sp_l S) z4 uv e Hma ltac:(lia) R4 Auv He) as Dd.
    rewrite !Z.mul_1_l in Da, Db.
    apply unit_power_zpow in Ucz; [|clear - Ng0; nia|apply gcd_sq; auto; lia].
    apply unit_power_zpow in Uye; [|clear - Ng1; nia|apply encv_gcd2; auto].
    apply encv_textbook in Hez; [|exact Ng0]. subst cz ez.
    change (affv N0 c z1 z2 (ag_w pf) = (ag_a pf * affv N0 c x (- y) (as_rho sec) ^ e) mod (N0 * N0)) in Ea.
    apply affv_commitment_e in Ea; auto; [|lia].
    apply encv_textbook in Eb; [|exact Ng1]. subst ye. symmetry in Eb. apply encv_commitment_z in Eb; auto.
    apply pmul_sub_e in Ex.
    apply rp_opens_comv in Ece; auto; [|lia]. rewrite Es in Ece. symmetry in Ece.
    apply comv_commitment in Ece; auto; [|lia..].
    apply rp_opens_comv in Ef; auto; [|lia]. rewrite Et in Ef. symmetry in Ef.
    apply comv_commitment in Ef; auto; [|lia..].
    set (r := (zpow N0 (as_rho sec) (- e) * ag_w pf) mod N0) in *.
    pose proof (masked_unit N0 (as_rho sec) (- e) _ Ng0 Hrg I5) as [Hr1 Hr2]. fold r in Hr1, Hr2.
    set (ry := (zpow N1 (as_rho_y sec) (- - e) * ag_wy pf) mod N1) in *.
    pose proof (masked_unit N1 (as_rho_y sec) (- - e) _ Ng1 Hryg I6) as [Hry1 Hry2]. fold ry in Hry1, Hry2.
    replace (z2 - y * - e) with (z2 - - y * e) in Eb by ring.
    set (rnd := AffGRand (z1 - x * e + (2 ^ (ma - 1) - 1)) (z2 - - y * e + (2 ^ (mb - 1) - 1)) r ry
      (z3 - mv * e + (hat * 2 ^ (ma - 1) - 1)) m (z4 - uv * e + (hat * 2 ^ (ma - 1) - 1)) mu).
    exists rnd. split.
    + assert (Hok : aff_g_rand_ok S N0 N1 hat rnd).
      { split; [exact Da|exact Db|split; [exact (proj1 Hr1)|exact Hr2]|split; [exact (proj1 Hry1)|exact Hry2]
          |exact Dg|exact Hm|exact Dd|exact Hmu]. }
      split; [split; [split; [exact Hok|split; [exact (proj2 Hr1)|exact (proj2 Hry1)]]|split; reflexivity]|].
      destruct (aff_g_new_val rnd Hok) as (z1' & z2' & z3' & z4' & K1 & K2 & K3 & K4 & En). cbv zeta in *.
      replace (mask ma (ar_alpha rnd)) with (z1 - x * e) in * by (unfold mask; cbn [rnd ar_alpha]; lia).
      replace (mask mb (ar_beta rnd)) with (z2 - - y * e) in * by (unfold mask; cbn [rnd ar_beta]; lia).
      replace (mask_scaled ma hat (ar_gamma rnd)) with (z3 - mv * e) in * by (unfold mask_scaled; cbn [rnd ar_gamma]; lia).
      replace (mask_scaled ma hat (ar_delta rnd)) with (z4 - uv * e) in * by (unfold mask_scaled; cbn [rnd ar_delta]; lia).
      change (mask_scaled (sp_l S) hat (ar_m rnd)) with mv in *.
      change (mask_scaled (sp_l S) hat (ar_mu rnd)) with uv in *.
      cbn [rnd ar_r ar_ry] in *. rewrite Ea, Eb, Ex, Ece, Ef, <- Es, <- Et in *. rewrite <- Ee in *. fold e in K1, K2, K3, K4, En.
      rewrite En. f_equal.
      replace (z1 - x * e + x * e) with z1 in K1 by ring. replace (z2 - - y * e + - y * e) with z2 in K2 by ring.
      replace (z3 - mv * e + mv * e) with z3 in K3 by ring. replace (z4 - uv * e + uv * e) with z4 in K4 by ring.
      destruct pf as [pe pa pbx pby pce ps pf_ pt0 pz1 pz2 pz3 pz4 pw pwy].
      cbn [ag_e ag_a ag_bx ag_by ag_ce ag_s ag_f ag_t ag_z1 ag_z2 ag_z3 ag_z4 ag_w ag_wy] in *.
      f_equal.
      * apply (has_eq w _ _ z1 _ K1). split; auto.
      * apply (has_eq w _ _ z2 _ K2). split; auto.
      * apply (has_eq ww _ _ z3 _ K3). split; auto.
      * apply (has_eq ww _ _ z4 _ K4). split; auto.
      * unfold r. apply masked_inv; auto. apply I5.
      * unfold ry. apply masked_inv; auto. apply I6.
    + intros rnd' (((Hok & Hr' & Hry') & Em & Emu) & En).
      destruct (aff_g_new_val rnd' Hok) as (z1' & z2' & z3' & z4' & K1 & K2 & K3 & K4 & En'). cbv zeta in *. rewrite En in En'.
      injection En' as En'. pose proof (f_equal (@ag_e C) En') as F0. cbn [ag_e] in F0. rewrite <- F0 in *. fold e in En', K1, K2, K3, K4.
      pose proof (f_equal (@ag_z1 C) En') as F1. pose proof (f_equal (@ag_z2 C) En') as F2.
      pose proof (f_equal (@ag_z3 C) En') as F3. pose proof (f_equal (@ag_z4 C) En') as F4.
      pose proof (f_equal (@ag_w C) En') as F5. pose proof (f_equal (@ag_wy C) En') as F6.
      cbn [ag_z1 ag_z2 ag_z3 ag_z4 ag_w ag_wy] in F1, F2, F3, F4, F5, F6. apply has_sval in K1, K2, K3, K4.
      rewrite <- F1 in K1. rewrite <- F2 in K2. rewrite <- F3 in K3. rewrite <- F4 in K4.
      fold z1 in K1. fold z2 in K2. fold z3 in K3. fold z4 in K4.
      destruct Hok as [_ _ [Or0 Org] [Ory0 Oryg] _ _ _ _].
      destruct rnd' as [a' b' r' ry' g' m' d' mu']. cbn [ar_alpha ar_beta ar_r ar_ry ar_gamma ar_m ar_delta ar_mu] in *.
      subst m' mu'. fold mv in K3. fold uv in K4.
      unfold rnd, mask, mask_scaled in *. f_equal; [lia|lia| | |lia|lia].
      * apply (masked_inj N0 (as_rho sec) e); auto. rewrite <- F5. unfold r. apply masked_inv; auto. apply I5.
      * apply (masked_inj N1 (as_rho_y sec) (- e)); auto. rewrite <- F6. unfold ry. apply masked_inv; auto. apply I6.
  - intros (rnd & (((Hok & Hr' & Hry') & Em & Emu) & En) & _).
    destruct (aff_g_run S C A HS HC X sec pub setup aux rnd x y N0 N1 c) as (pf' & b & En' & Ev & He & Hb'); auto.
    rewrite En in En'. injection En' as <-. rewrite Ev. f_equal. apply Hb'.
    destruct (aff_g_new_val rnd Hok) as (z1' & z2' & z3' & z4' & K1 & K2 & K3 & K4 & En'). cbv zeta in *. rewrite En in En'.
    injection En' as En'. pose proof (f_equal (@ag_e C) En') as F0. pose proof (f_equal (@ag_z1 C) En') as F1.
    pose proof (f_equal (@ag_z2 C) En') as F2.
    cbn [ag_e ag_z1 ag_z2] in F0, F1, F2. rewrite <- F0, <- F1 in K1. rewrite <- F0, <- F2 in K2. apply has_sval in K1, K2.
    rewrite <- K1. replace (mask mb (ar_beta rnd) - y * ag_e pf) with (mask mb (ar_beta rnd) + - y * ag_e pf) by ring.
    rewrite <- K2. split; [apply (inner_pm q ma (sp_l S))|apply (inner_pm q mb (sp_lp S))]; auto; lia.
Qed.

Lemma aff_g_inner_sec rnd : aff_g_draw S N0 N1 hat rnd -> aff_g_margin S hat rnd ->
  exists pf, aff_g_new S X sec pub setup aux rnd = Ret pf /\ aff_g_verify S X pf pub setup aux = Ret true /\
    aff_g_inner S N0 N1 hat (bound (as_x sec)) (bound (as_y sec)) pf /\
    ag_s pf = com x (mask_scaled (sp_l S) hat (ar_m rnd)) /\ ag_t pf = com (- y) (mask_scaled (sp_l S) hat (ar_mu rnd)).
Proof.
  intros (Hok & Hr' & Hry') (M1 & M2 & M3 & M4).
  assert (Hrho' := Hrho). assert (Hrhoy' := Hrhoy). assert (Huc' := Huc).
  destruct Hrho' as [Hr0 Hrg], Hrhoy' as [Hry0 Hryg], Huc' as [Hc0 Hcg].
  assert (Hset' := Hset). destruct Hset' as (Hn & Hs & Ht & Gs & Gt).
  assert (Ng0 : 1 < N0) by apply HN0. assert (Ng1 : 1 < N1) by apply HN1. pose proof q_gt1 as Hq.
  assert (Hl : 0 < sp_l S) by (destruct HS; lia). assert (Hma : 0 < ma) by (destruct HS; lia).
  assert (Hmb : 0 < mb) by (destruct HS; lia). assert (Hlp : 0 < sp_lp S) by (destruct HS; lia).
  assert (Hyr' : Z.abs (- y) <= 1 * 2 ^ (sp_lp S - 1)) by (rewrite Z.abs_opp; now apply pm_abs1).
  destruct (aff_g_new_val rnd Hok) as (z1 & z2 & z3 & z4 & K1 & K2 & K3 & K4 & En). cbv zeta in *.
  set (e := aff_g_challenge _ _ _ _ _ _ _ _ _ _ _) in *.
  assert (He : 0 <= e < q) by apply (xo_scalar _ _ HX).
  pose proof (draw_inner q 1 ma (sp_l S) _ x e Hma Hl ltac:(lia) M1 (pm_abs1 _ _ Hxr) He) as J1.
  pose proof (draw_inner q 1 mb (sp_lp S) _ (- y) e Hmb Hlp ltac:(lia) M2 Hyr' He) as J2.
  rewrite mask_1 in J1, J2. assert (Hok' := Hok). destruct Hok' as [Da Db [Dr0 Drg] [Dry0 Dryg] Dg Dm Dd Dmu].
  pose proof (draw_inner q hat ma (sp_l S) _ _ e Hma Hl ltac:(lia) M3 (mask_scaled_abs _ _ _ Hl Dm) He) as J3.
  pose proof (draw_inner q hat ma (sp_l S) _ _ e Hma Hl ltac:(lia) M4 (mask_scaled_abs _ _ _ Hl Dmu) He) as J4.
  destruct (aff_g_run S C A HS HC X sec pub setup aux rnd x y N0 N1 c) as (pf' & b & En' & Ev & He' & Hb'); auto.
  rewrite En in En'. injection En' as <-. eexists. split; [exact En|]. cbn [ag_e] in Hb'.
  split; [|split; [|split; reflexivity]].
  - rewrite Ev. f_equal. apply Hb'.
    replace (mask mb (ar_beta rnd) - y * e) with (mask mb (ar_beta rnd) + - y * e) by ring.
    split; [apply (inner_pm q ma (sp_l S))|apply (inner_pm q mb (sp_lp S))]; auto; lia.
  - destruct K1 as (W1 & V1 & B1), K2 as (W2 & V2 & B2), K3 as (W3 & V3 & B3), K4 as (W4 & V4 & B4).
    split; cbn [ag_e ag_a ag_bx ag_by ag_ce ag_s ag_f ag_t ag_z1 ag_z2 ag_z3 ag_z4 ag_w ag_wy].
    + apply affv_range; auto.
    + apply encv_range; lia.
    + apply comv_range; lia.
    + apply comv_range; lia.
    + exact W1.
    + exact B1.
    + rewrite V1. exact J1.
    + exact W2.
    + exact B2.
    + rewrite V2. exact J2.
    + exact W3.
    + exact B3.
    + rewrite V3. exact J3.
    + exact W4.
    + exact B4.
    + rewrite V4. exact J4.
    + apply masked_unit; auto. split; [lia|exact Drg].
    + apply masked_unit; auto. split; [lia|exact Dryg].
Qed.
End AffG.

Lemma enc_elg_hides (X : xof A (pt C)) sec (pub : enc_elg_public C) setup aux x pf mu :
  xof_ok q X -> secret_of S (sp_l S) (es_x sec) x ->
  let N := ep_pk0 pub in
  let hat := rp_n setup in
  modulus_ok S N -> unit_ok N (es_rho sec) ->
  ct_pk (ep_cap_c pub) = N -> paillier_cipher N x (es_rho sec) (ct_val (ep_cap_c pub)) ->
  ep_cap_b pub = pmul C (es_b sec) (gen C) ->
  ep_cap_x pub = padd C (pmul C (es_b sec) (ep_cap_a pub)) (pmul C x (gen C)) ->
  setup_ok S setup -> enc_elg_inner S N hat (bound (es_x sec)) pf ->
  0 <= mu < hat * 2 ^ sp_l S ->
  rp_opens hat (rp_s setup) (rp_t setup) x (mask_scaled (sp_l S) hat mu) (ee_s pf) ->
  (enc_elg_verify S X pf pub setup aux = Ret true <->
   exists! rnd, (enc_elg_draw S N hat rnd /\ er_mu rnd = mu) /\ enc_elg_new S X sec pub setup aux rnd = Ret pf).
Proof.
  intros HX (W & V & B & I) N hat HN Hr Hc1 Hc2 Hb Hx Hs Hin Hmu Hop.
  assert (Hs' := Hs). destruct Hs' as (Hn & _ & _ & Gs & Gt). apply rp_opens_comv in Hop; auto; [|unfold hat; lia].
  apply (enc_elg_hides_sec X sec pub setup aux x); auto. apply cipher_encv; auto. apply HN.
Qed.

Lemma enc_elg_inner_honest (X : xof A (pt C)) sec (pub : enc_elg_public C) setup aux x rnd :
  xof_ok q X -> secret_of S (sp_l S) (es_x sec) x ->
  let N := ep_pk0 pub in
  let hat := rp_n setup in
  modulus_ok S N -> unit_ok N (es_rho sec) ->
  ct_pk (ep_cap_c pub) = N -> paillier_cipher N x (es_rho sec) (ct_val (ep_cap_c pub)) ->
  ep_cap_b pub = pmul C (es_b sec) (gen C) ->
  ep_cap_x pub = padd C (pmul C (es_b sec) (ep_cap_a pub)) (pmul C x (gen C)) ->
  setup_ok S setup -> enc_elg_draw S N hat rnd -> enc_elg_margin S hat rnd ->
  exists pf, enc_elg_new S X sec pub setup aux rnd = Ret pf /\ enc_elg_verify S X pf pub setup aux = Ret true /\
    enc_elg_inner S N hat (bound (es_x sec)) pf /\
    rp_opens hat (rp_s setup) (rp_t setup) x (mask_scaled (sp_l S) hat (er_mu rnd)) (ee_s pf).
Proof.
  intros HX (W & V & B & I) N hat HN Hr Hc1 Hc2 Hb Hx Hs Hd Hm.
  assert (Hs' := Hs). destruct Hs' as (Hn & _ & _ & Gs & Gt).
  destruct (enc_elg_inner_sec X sec pub setup aux x) with (rnd := rnd) as (pf & E1 & E2 & E3 & E4); auto.
  { apply cipher_encv; auto. apply HN. }
  exists pf. split; [exact E1|]. split; [exact E2|]. split; [exact E3|]. apply rp_opens_comv; auto. unfold hat. lia.
Qed.

Lemma aff_g_hides (X : xof A (pt C)) sec (pub : aff_g_public C) setup aux x y pf m mu :
  xof_ok q X -> secret_of S (sp_l S) (as_x sec) x -> secret_of S (sp_lp S) (as_y sec) y ->
  let N0 := ap_pk0 pub in
  let N1 := ap_pk1 pub in
  let hat := rp_n setup in
  modulus_ok S N0 -> modulus_ok S N1 -> unit_ok N0 (as_rho sec) -> unit_ok N1 (as_rho_y sec) ->
  ct_pk (ap_cap_c pub) = N0 -> ct_pk (ap_cap_d pub) = N0 -> ct_pk (ap_cap_y pub) = N1 ->
  unit_ok N0 (ct_val (ap_cap_c pub)) ->
  affine_cipher N0 (ct_val (ap_cap_c pub)) x (- y) (as_rho sec) (ct_val (ap_cap_d pub)) ->
  paillier_cipher N1 y (as_rho_y sec) (ct_val (ap_cap_y pub)) ->
  ap_cap_x pub = pmul C x (gen C) ->
  setup_ok S setup -> aff_g_inner S N0 N1 hat (bound (as_x sec)) (bound (as_y sec)) pf ->
  0 <= m < hat * 2 ^ sp_l S ->
  rp_opens hat (rp_s setup) (rp_t setup) x (mask_scaled (sp_l S) hat m) (ag_s pf) ->
  0 <= mu < hat * 2 ^ sp_l S ->
  rp_opens hat (rp_s setup) (rp_t setup) (- y) (mask_scaled (sp_l S) hat mu) (ag_t pf) ->
  (aff_g_verify S X pf pub setup aux = Ret true <->
   exists! rnd, (aff_g_draw S N0 N1 hat rnd /\ ar_m rnd = m /\ ar_mu rnd = mu) /\
     aff_g_new S X sec pub setup aux rnd = Ret pf).
Proof.
  intros HX (W & V & B & I) (W2 & V2 & B2 & I2) N0 N1 hat HN0 HN1 Hr Hr1 P1 P2 P3 Hc Hd Hy Hx Hs Hin Hm Hop Hmu Hop2.
  assert (Hs' := Hs). destruct Hs' as (Hn & _ & _ & Gs & Gt).
  apply rp_opens_comv in Hop, Hop2; auto; [|unfold hat; lia..].
  apply (aff_g_hides_sec X sec pub setup aux x y (ct_val (ap_cap_c pub))); auto.
  - fold N0. rewrite <- P1. destruct (ap_cap_c pub); reflexivity.
  - apply cipher_affv; auto; [apply HN0|apply Hc].
  - apply cipher_encv; auto. apply HN1.
Qed.

Lemma aff_g_inner_honest (X : xof A (pt C)) sec (pub : aff_g_public C) setup aux x y rnd :
  xof_ok q X -> secret_of S (sp_l S) (as_x sec) x -> secret_of S (sp_lp S) (as_y sec) y ->
  let N0 := ap_pk0 pub in
  let N1 := ap_pk1 pub in
  let hat := rp_n setup in
  modulus_ok S N0 -> modulus_ok S N1 -> unit_ok N0 (as_rho sec) -> unit_ok N1 (as_rho_y sec) ->
  ct_pk (ap_cap_c pub) = N0 -> ct_pk (ap_cap_d pub) = N0 -> ct_pk (ap_cap_y pub) = N1 ->
  unit_ok N0 (ct_val (ap_cap_c pub)) ->
  affine_cipher N0 (ct_val (ap_cap_c pub)) x (- y) (as_rho sec) (ct_val (ap_cap_d pub)) ->
  paillier_cipher N1 y (as_rho_y sec) (ct_val (ap_cap_y pub)) ->
  ap_cap_x pub = pmul C x (gen C) ->
  setup_ok S setup -> aff_g_draw S N0 N1 hat rnd -> aff_g_margin S hat rnd ->
  exists pf, aff_g_new S X sec pub setup aux rnd = Ret pf /\ aff_g_verify S X pf pub setup aux = Ret true /\
    aff_g_inner S N0 N1 hat (bound (as_x sec)) (bound (as_y sec)) pf /\
    rp_opens hat (rp_s setup) (rp_t setup) x (mask_scaled (sp_l S) hat (ar_m rnd)) (ag_s pf) /\
    rp_opens hat (rp_s setup) (rp_t setup) (- y) (mask_scaled (sp_l S) hat (ar_mu rnd)) (ag_t pf).
Proof.
  intros HX (W & V & B & I) (W2 & V2 & B2 & I2) N0 N1 hat HN0 HN1 Hr Hr1 P1 P2 P3 Hc Hd Hy Hx Hs Hdr Hmg.
  assert (Hs' := Hs). destruct Hs' as (Hn & _ & _ & Gs & Gt).
  destruct (aff_g_inner_sec X sec pub setup aux x y (ct_val (ap_cap_c pub))) with (rnd := rnd) as (pf & E1 & E2 & E3 & E4 & E5); auto.
  - fold N0. rewrite <- P1. destruct (ap_cap_c pub); reflexivity.
  - apply cipher_affv; auto; [apply HN0|apply Hc].
  - apply cipher_encv; auto. apply HN1.
  - exists pf. split; [exact E1|]. split; [exact E2|]. split; [exact E3|].
    split; apply rp_opens_comv; auto; unfold hat; lia.
Qed.
End HideRp.

Lemma commitment_hides_spec n s t o lambda k c a x : 1 < n -> Z.gcd t n = 1 -> has_order n t o ->
  unit_power n t lambda s -> unit_power n t k c ->
  exists! mu, a <= mu < a + o /\ rp_opens n s t x mu c.
Proof.
  intros Hn Hg Ho Hs Hc. apply unit_power_zpow in Hs, Hc; auto.
  apply (commitment_hides n s t o lambda c a x Hn Hg Ho Hs). now exists k.
Qed.
