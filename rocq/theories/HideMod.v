(** * The Paillier-Blum proof reveals nothing: proofs for C74. *)
From Coq Require Import ZArith Znumtheory Lia List Bool Setoid.
From Verif Require Import Base BaseFacts SignedModel SignedSpec SignedProofs ModArith RsaFacts
  PaillierModel PaillierSpec PaillierProofs PaillierLemmas RnsProofs RpProofs ZkBase ZkModel ZkSpec ZkFacts PrmProofs
  ModProofs HideModSpec.
Import ListNotations.
Open Scope Z_scope.

(** Squares of squares: modulo a prime that is 3 modulo 4 a square has one
    square root that is itself a square. *)
Lemma square_root_unique_p m x y : prime m -> m mod 4 = 3 -> Z.gcd y m = 1 ->
  is_square_mod m x -> is_square_mod m y -> eqm m (x * x) (y * y) -> eqm m x y.
Proof.
  intros Hm M4 Gy Sx Sy E. pose proof (prime_ge_2 _ Hm).
  apply eqm_divide in E; [|lia]. replace (x * x - y * y) with ((x - y) * (x + y)) in E by ring.
  apply prime_mult in E; auto. destruct E as [E|E].
  - apply eqm_divide; auto; lia.
  - exfalso. apply (not_square_neg m y); auto. apply square_eqm with x; auto.
    apply eqm_divide; [lia|]. now replace (x - - y) with (x + y) by ring.
Qed.

Lemma square_pow m x e : 0 <= e -> is_square_mod m x -> is_square_mod m (x ^ e).
Proof.
  intros He [y Hy]. exists (y ^ e). rewrite <- Z.pow_mul_l. apply eqm_pow. exact Hy.
Qed.

Lemma gcd_pow x e n : 0 <= e -> Z.gcd x n = 1 -> Z.gcd (x ^ e) n = 1.
Proof.
  intros He G. revert e He. apply natlike_ind; [apply Z.gcd_1_l|].
  intros e He IH. rewrite Z.pow_succ_r by auto. now apply gcd_mul_1.
Qed.

(** Odd powers keep the quadratic character. *)
Lemma square_odd_pow m x k : prime m -> Z.gcd x m = 1 -> 0 <= k ->
  (is_square_mod m (x ^ (2 * k + 1)) <-> is_square_mod m x).
Proof.
  intros Hm G Hk.
  replace (x ^ (2 * k + 1)) with (x ^ k * x ^ k * x).
  2:{ rewrite Z.pow_add_r, Z.pow_1_r, Z.pow_mul_r, Z.pow_2_r, Z.pow_mul_l by lia. reflexivity. }
  apply mul_square; auto.
  - apply gcd_mul_1; now apply gcd_pow.
  - exists (x ^ k). reflexivity.
Qed.

Section HideMod.
Variables (S : sparams) (C : curve) (A : Type).
Notation P := (sp_pail S).
Notation w := (uint_w (sp_pail S)).
Hypothesis HP : params_ok (sp_pail S).
Variables (p q : Z) (sk : skey).
Hypotheses (HK : key_ok (sp_pail S) p q sk) (P4 : p mod 4 = 3) (Q4 : q mod 4 = 3).
Let N := p * q.
Let im := uword (sk_inv_modulus sk).

Let kf := key_facts P p q sk HP HK.

Lemma N_pos : 0 < N.
Proof. destruct kf as (Hp & Hq & HN & _). unfold N. lia. Qed.
Lemma im_nonneg : 0 <= im.
Proof. pose proof (ko_im_r _ _ _ _ HK). unfold im. lia. Qed.

Lemma square_root_unique x y : Z.gcd y N = 1 ->
  is_square_mod N x -> is_square_mod N y -> eqm N (x * x) (y * y) -> eqm N x y.
Proof.
  intros G Sx Sy E. destruct kf as (Hp & Hq & HN & _).
  apply gcd_mul_split in G. destruct G as [Gp Gq].
  apply (square_N P p q sk HP HK) in Sx, Sy. destruct Sx as [Sxp Sxq], Sy as [Syp Syq].
  apply eqm_crt; try lia; [apply primes_coprime; apply HK| |].
  - apply square_root_unique_p; auto; try apply HK.
    apply eqm_weaken with N; auto; try (unfold N; lia). apply Z.divide_factor_l.
  - apply square_root_unique_p; auto; try apply HK.
    apply eqm_weaken with N; auto; try (unfold N; lia). apply Z.divide_factor_r.
Qed.

Lemma fourth_root_unique x y : Z.gcd y N = 1 ->
  is_square_mod N x -> is_square_mod N y -> eqm N (x ^ 4) (y ^ 4) -> eqm N x y.
Proof.
  intros G Sx Sy E. apply square_root_unique; auto.
  apply square_root_unique; auto; try now apply gcd_mul_1.
  - now apply square_mul.
  - now apply square_mul.
  - replace (x * x * (x * x)) with (x ^ 4) by ring. now replace (y * y * (y * y)) with (y ^ 4) by ring.
Qed.

Lemma one_sided_is x : one_sided p q x <-> (is_square_mod p x <-> ~ is_square_mod q x).
Proof. unfold one_sided. rewrite !square_mod_iff. tauto. Qed.

(** What the prover computes for a challenge. *)
Lemma mod_elem_val com y : 0 <= y < 2 ^ w -> Z.gcd com N = 1 -> Z.gcd y N = 1 ->
  (is_square_mod p com <-> ~ is_square_mod q com) ->
  exists a b u, mod_elem_new S sk (com mod p, com mod q) y = Ret (ModElem u a b ((y ^ im) mod N)) /\
    0 <= u < N /\ is_square_mod N u /\ eqm N (u ^ 4) (cand com y (a, b)) /\
    forall a' b', is_square_mod N (cand com y (a', b')) <-> a' = a /\ b' = b.
Proof.
  intros Ry Gc Gy Hc. destruct kf as (Hp & Hq & HN & Hmb & Hphi & Ho).
  unfold mod_elem_new. rewrite (rns_split_ok P p q sk HP HK y Ry). cbn [obind].
  destruct (mod_search_found S HP p q sk HK P4 Q4 com y Gc Gy Hc) as ([a b] & rt & -> & Hrt & Hsq).
  cbn [oexpect obind fst snd].
  destruct (rns_sqrt_split S HP p q sk HK P4 Q4 _ Hsq) as (v & E1 & E2 & E3 & E4).
  rewrite E1 in Hrt. injection Hrt as <-.
  pose proof (rns_sqrt_spec P p q sk HP HK v P4 Q4) as Hv.
  destruct (rns_sqrt P sk (v mod p, v mod q)) as [ab|] eqn:E5; [|tauto].
  destruct Hv as [_ (u & E6 & Ru & E7 & E8)]. cbn [oexpect obind]. rewrite E6. cbn [obind].
  rewrite pow_unsigned_spec.
  2:{ rewrite (ko_im_b _ _ _ _ HK). pose proof (ko_im_r _ _ _ _ HK). lia. }
  cbn [obind]. exists a, b, u. rewrite (ko_pk _ _ _ _ HK). fold N im.
  split.
  { do 2 f_equal. change (eqm N ((y mod N) ^ im) (y ^ im)). apply eqm_pow, eqm_mod. }
  split; [exact Ru|]. split; [exact E8|]. split.
  { replace (u ^ 4) with ((u * u) * (u * u)) by ring. rewrite E7. exact E3. }
  destruct (four_candidates P p q sk HP HK com y P4 Q4 Gc Gy Hc) as (a0 & b0 & H4).
  assert (Hs : forall a' b', is_square_mod N (cand com y (a', b')) <-> a' = a0 /\ b' = b0).
  { intros a' b'. unfold cand. cbn [fst snd]. apply H4. }
  apply Hs in Hsq. destruct Hsq as [-> ->]. exact Hs.
Qed.

Lemma N_odd : exists k, 0 <= k /\ N = 2 * k + 1.
Proof.
  destruct kf as (Hp & Hq & HN & Hmb & Hphi & Hodd). fold N in Hodd.
  exists (N / 2). split; [apply Z.div_pos; [pose proof N_pos; lia|lia]|].
  rewrite (Z.div_mod N 2) at 1 by lia. rewrite Zmod_odd, Hodd. reflexivity.
Qed.

Lemma sq_pow_N m x : prime m -> Z.gcd x m = 1 -> (is_square_mod m (x ^ N) <-> is_square_mod m x).
Proof. intros Hm G. destruct N_odd as (k & Hk & ->). now apply square_odd_pow. Qed.

Lemma sign_pow (a : bool) : (if a then -1 else 1) ^ N = if a then -1 else 1.
Proof.
  destruct N_odd as (k & Hk & ->). destruct a; [|apply Z.pow_1_l; lia].
  rewrite Z.pow_add_r, Z.pow_mul_r by lia. change ((-1) ^ 2) with 1. rewrite Z.pow_1_l by lia. reflexivity.
Qed.

Lemma sign_unit (a : bool) : Z.gcd (if a then -1 else 1) N = 1.
Proof. destruct a; [rewrite (Z.gcd_opp_l 1)|]; apply Z.gcd_1_l. Qed.

(** ** The simulator *)
Section Omega.
Variables (omega omega' : Z).
Hypotheses (Eo : (omega * omega') mod N = 1) (Ho : one_sided p q omega).
Let com := sim_com N omega.

Lemma omega_inv : eqm N (omega * omega') 1.
Proof. pose proof N_pos. destruct kf as (Hp & Hq & HN & _). unfold eqm. rewrite Eo, Z.mod_1_l; auto. unfold N. lia. Qed.
Lemma omega_unit : Z.gcd omega N = 1.
Proof. apply gcd_mul_1_inv with omega'. rewrite (eqm_gcd N _ 1); [apply Z.gcd_1_l|apply N_pos|apply omega_inv]. Qed.
Lemma omega'_unit : Z.gcd omega' N = 1.
Proof. apply gcd_mul_1_inv with omega. rewrite Z.mul_comm, (eqm_gcd N _ 1); [apply Z.gcd_1_l|apply N_pos|apply omega_inv]. Qed.

Lemma com_eqm : eqm N com (omega ^ N).
Proof. apply eqm_mod. Qed.

Lemma com_unit : Z.gcd com N = 1.
Proof.
  rewrite (eqm_gcd N _ _ N_pos com_eqm). apply gcd_pow; [pose proof N_pos; lia|apply omega_unit].
Qed.

Lemma com_sides : is_square_mod p com <-> ~ is_square_mod q com.
Proof.
  destruct kf as (Hp & Hq & HN & _).
  pose proof omega_unit as G. apply gcd_mul_split in G. destruct G as [Gp Gq].
  assert (Ep : eqm p com (omega ^ N)).
  { apply eqm_weaken with N; try (unfold N; lia); [apply Z.divide_factor_l|apply com_eqm]. }
  assert (Eq : eqm q com (omega ^ N)).
  { apply eqm_weaken with N; try (unfold N; lia); [apply Z.divide_factor_r|apply com_eqm]. }
  assert (H1 : is_square_mod p com <-> is_square_mod p omega).
  { rewrite <- (sq_pow_N p omega); auto; [|apply HK]. split; apply square_eqm; [auto|now symmetry]. }
  assert (H2 : is_square_mod q com <-> is_square_mod q omega).
  { rewrite <- (sq_pow_N q omega); auto; [|apply HK]. split; apply square_eqm; [auto|now symmetry]. }
  rewrite H1, H2. now apply one_sided_is.
Qed.

Lemma sim_z_unit d : draw_ok N d -> Z.gcd (me_z (sim_elem N omega' d)) N = 1.
Proof.
  intros (R & G & _). cbn [me_z sim_elem]. rewrite (eqm_gcd N _ _ N_pos (eqm_mod N _)).
  apply gcd_mul_1; [apply gcd_mul_1; [apply sign_unit|]|apply gcd_pow; [lia|auto]].
  destruct (md_b d); [apply omega'_unit|apply Z.gcd_1_l].
Qed.

(** The twisted challenge is the fourth power of the simulated answer. *)
Lemma sim_cand d y : eqm N y (sim_y N omega' d) ->
  eqm N (cand com y (md_a d, md_b d)) ((md_r d ^ N) ^ 4).
Proof.
  intros Ey. unfold cand. cbn [fst snd]. rewrite Ey. unfold sim_y. rewrite eqm_mod.
  cbn [me_z sim_elem]. rewrite (eqm_pow N _ _ N (eqm_mod N _)).
  rewrite !Z.pow_mul_l, sign_pow.
  replace ((md_r d ^ N) ^ 4) with ((md_r d ^ 4) ^ N).
  2:{ pose proof N_pos. rewrite <- !Z.pow_mul_r by lia. f_equal. ring. }
  destruct (md_b d).
  - rewrite com_eqm.
    replace ((if md_a d then -1 else 1) * omega ^ N * ((if md_a d then -1 else 1) * omega' ^ N * (md_r d ^ 4) ^ N))
      with ((omega * omega') ^ N * (md_r d ^ 4) ^ N) by (rewrite Z.pow_mul_l; destruct (md_a d); ring).
    rewrite (eqm_pow N _ _ N omega_inv), Z.pow_1_l by (pose proof N_pos; lia). apply eqm_eq. ring.
  - rewrite Z.pow_1_l by (pose proof N_pos; lia). apply eqm_eq. destruct (md_a d); ring.
Qed.

Lemma sim_y_unit d : draw_ok N d -> 0 <= sim_y N omega' d < N /\ Z.gcd (sim_y N omega' d) N = 1.
Proof.
  intros Hd. pose proof N_pos. split; [apply Z.mod_pos_bound; auto|].
  unfold sim_y. rewrite (eqm_gcd N _ _ N_pos (eqm_mod N _)). apply gcd_pow; [lia|now apply sim_z_unit].
Qed.

(** The prover, who knows the factors, answers the simulated challenge with the
    simulated answer. *)
Lemma sim_answer d y : draw_ok N d -> 0 <= y < 2 ^ w -> eqm N y (sim_y N omega' d) ->
  mod_elem_new S sk (com mod p, com mod q) y = Ret (sim_elem N omega' d).
Proof.
  intros Hd Ry Ey. pose proof N_pos as HN0. pose proof im_nonneg as Him.
  destruct (sim_y_unit d Hd) as [_ Gs].
  assert (Gy : Z.gcd y N = 1) by (rewrite (eqm_gcd N _ _ HN0 Ey); auto).
  destruct (mod_elem_val com y Ry com_unit Gy com_sides) as (a & b & u & -> & Ru & Su & E4 & Hu).
  pose proof (sim_cand d y Ey) as Ec. destruct Hd as (Rr & Gr & Sr). apply square_mod_iff in Sr.
  assert (Sc : is_square_mod N (cand com y (md_a d, md_b d))).
  { apply square_eqm with ((md_r d ^ N) ^ 4); [now symmetry|]. apply square_pow; [lia|]. apply square_pow; [lia|auto]. }
  apply Hu in Sc. destruct Sc as [<- <-].
  assert (Eu : u = (md_r d ^ N) mod N).
  { apply eqm_small with N; auto; [apply Z.mod_pos_bound; auto|]. rewrite eqm_mod.
    apply fourth_root_unique; auto.
    - apply gcd_pow; [lia|auto].
    - apply square_pow; [lia|auto].
    - rewrite E4. exact Ec. }
  assert (Ez : (y ^ im) mod N = me_z (sim_elem N omega' d)).
  { apply eqm_small with N; try (apply Z.mod_pos_bound; auto). rewrite eqm_mod.
    rewrite (eqm_pow N _ _ im Ey). unfold sim_y. rewrite (eqm_pow N _ _ im (eqm_mod N _)).
    apply (derive_unroot P p q sk HP HK). apply sim_z_unit. split; [exact Rr|]. split; [exact Gr|]. now apply square_mod_iff. }
  unfold sim_elem in *. cbn [me_z] in Ez. now rewrite Ez, Eu.
Qed.

(** Every challenge is the simulated one for exactly one draw. *)
Lemma sim_draw y : Z.gcd y N = 1 -> exists! d, draw_ok N d /\ sim_y N omega' d = y mod N.
Proof.
  intros Gy. pose proof N_pos as HN0. pose proof im_nonneg as Him.
  pose proof HP as (HP1 & HP2 & HP3 & HP4 & HP5 & HP6).
  destruct kf as (Hp & Hq & HN & Hmb & _). fold N in HN.
  assert (Hw : 2 ^ modulus_bits P <= 2 ^ w) by (apply pow2_le; lia).
  set (y0 := y mod N). assert (Ry0 : 0 <= y0 < N) by (apply Z.mod_pos_bound; auto).
  assert (Gy0 : Z.gcd y0 N = 1) by (unfold y0; rewrite (eqm_gcd N _ _ HN0 (eqm_mod N y)); auto).
  destruct (mod_elem_val com y0 ltac:(lia) com_unit Gy0 com_sides) as (a & b & u & Hel & Ru & Su & E4 & Hu).
  assert (Gu : Z.gcd u N = 1).
  { apply gcd_mul_1_inv with (u ^ 3). replace (u * u ^ 3) with (u ^ 4) by ring.
    rewrite (eqm_gcd N _ _ HN0 E4). unfold cand. cbn [fst snd].
    apply gcd_mul_1; auto. apply gcd_mul_1; [apply sign_unit|]. destruct b; [apply com_unit|apply Z.gcd_1_l]. }
  set (r := (u ^ im) mod N).
  assert (Er : eqm N (r ^ N) u).
  { unfold r. rewrite (eqm_pow N _ _ N (eqm_mod N _)). now apply (derive_root P p q sk HP HK). }
  assert (Hok : draw_ok N (ModDraw a b r)).
  { split; [apply Z.mod_pos_bound; auto|]. cbn [md_r]. split.
    - unfold r. rewrite (eqm_gcd N _ _ HN0 (eqm_mod N _)). now apply gcd_pow.
    - apply square_mod_iff. apply square_eqm with (u ^ im); [symmetry; apply eqm_mod|]. now apply square_pow. }
  assert (Uniq : forall d1 d2, draw_ok N d1 -> draw_ok N d2 -> sim_y N omega' d1 = sim_y N omega' d2 -> d1 = d2).
  { intros d1 d2 H1 H2 E.
    destruct (sim_y_unit d1 H1) as [R1 G1].
    assert (A1 := sim_answer d1 (sim_y N omega' d1) H1 ltac:(lia) (eqm_refl N _)).
    assert (A2 := sim_answer d2 (sim_y N omega' d1) H2 ltac:(lia) (eqm_eq N _ _ E)).
    rewrite A1 in A2. injection A2 as Ex Ea Eb _.
    destruct d1 as [a1 b1 r1], d2 as [a2 b2 r2]. cbn [md_a md_b md_r] in *. subst a2 b2. f_equal.
    destruct H1 as (Q1 & Q2 & _), H2 as (Q3 & Q4' & _). cbn [md_r] in *.
    apply eqm_small with N; auto.
    transitivity ((r1 ^ N) ^ im); [symmetry; now apply (derive_unroot P p q sk HP HK)|].
    transitivity ((r2 ^ N) ^ im); [apply eqm_pow; exact Ex|]. now apply (derive_unroot P p q sk HP HK). }
  assert (Ey : sim_y N omega' (ModDraw a b r) = y0).
  { destruct (sim_y_unit _ Hok) as [Rs Gs]. apply eqm_small with N; auto.
    pose proof (sim_cand (ModDraw a b r) _ (eqm_refl N _)) as Ec. cbn [md_a md_b md_r] in Ec.
    assert (E5 : eqm N (cand com (sim_y N omega' (ModDraw a b r)) (a, b)) (cand com y0 (a, b))).
    { rewrite Ec, <- E4. now apply eqm_pow. }
    unfold cand in E5. cbn [fst snd] in E5. apply gauss_eqm in E5; auto.
    apply gcd_mul_1; [apply sign_unit|]. destruct b; [apply com_unit|apply Z.gcd_1_l]. }
  exists (ModDraw a b r). split; [split; auto|].
  intros d' [H1 H2]. apply Uniq; auto. congruence.
Qed.

Lemma sim_proof (X : xof A (pt C)) aux ds : xof_ok (sp_q S) X -> Forall (draw_ok N) ds ->
  map (fun y => y mod N) (mod_challenge_of S X N com aux) = map (sim_y N omega') ds ->
  mod_new S X sk aux com = Ret (ModProof com (mod_challenge_of S X N com aux) (map (sim_elem N omega') ds)).
Proof.
  intros HX Hds Hch. pose proof N_pos as HN0.
  pose proof HP as (HP1 & HP2 & HP3 & HP4 & HP5 & HP6).
  destruct kf as (Hp & Hq & HN & Hmb & _). fold N in HN.
  assert (Hw : 2 ^ modulus_bits P <= 2 ^ w) by (apply pow2_le; lia).
  assert (Rc : 0 <= com < N) by (apply Z.mod_pos_bound; auto).
  unfold mod_new. cbv zeta. rewrite (ko_pk _ _ _ _ HK). fold N.
  rewrite (rns_split_ok P p q sk HP HK com) by lia. cbn [obind].
  destruct (xo_residues _ _ HX Tmod [IZ N; IZ com; IA aux] N (sp_secbits S) HN0) as [_ Hall].
  fold (mod_challenge_of S X N com aux) in Hall.
  set (ch := mod_challenge_of S X N com aux) in *. clearbody ch.
  assert (E : omap (mod_elem_new S sk (com mod p, com mod q)) ch = Ret (map (sim_elem N omega') ds)).
  { revert ds Hds Hch. induction Hall as [|y ys [Ry Gy] _ IH]; intros [|d ds] Hds Hch; try discriminate; [reflexivity|].
    injection Hch as Ey Hch. inversion Hds as [|d0 ds0 Hd Hds']; subst. cbn [omap map].
    assert (2 ^ bits N <= 2 ^ modulus_bits P) by (apply pow2_le, bits_le; lia).
    rewrite (sim_answer d y Hd ltac:(lia)).
    2:{ unfold eqm. rewrite Ey. symmetry. apply Z.mod_small. now apply sim_y_unit. }
    cbn [obind]. rewrite (IH ds Hds' Hch). reflexivity. }
  rewrite E. reflexivity.
Qed.
End Omega.

(** ** The commitment *)
Lemma com_root com : 0 <= com < N -> Z.gcd com N = 1 -> one_sided p q com ->
  exists! omega, (0 <= omega < N /\ Z.gcd omega N = 1 /\ one_sided p q omega) /\ sim_com N omega = com.
Proof.
  intros Rc Gc Hc. pose proof N_pos as HN0. pose proof im_nonneg as Him.
  destruct kf as (Hp & Hq & HN & _).
  set (om := (com ^ im) mod N).
  assert (Eom : eqm N (om ^ N) com).
  { unfold om. rewrite (eqm_pow N _ _ N (eqm_mod N _)). now apply (derive_root P p q sk HP HK). }
  assert (Gom : Z.gcd om N = 1) by (unfold om; rewrite (eqm_gcd N _ _ HN0 (eqm_mod N _)); now apply gcd_pow).
  exists om. split.
  - split; [split; [apply Z.mod_pos_bound; auto|split; [exact Gom|]]|].
    + apply one_sided_is. apply (proj1 (one_sided_is _)) in Hc.
      pose proof Gom as G. apply gcd_mul_split in G. destruct G as [Gp Gq].
      assert (Ep : eqm p (om ^ N) com).
      { apply eqm_weaken with N; try (unfold N; lia); [apply Z.divide_factor_l|apply Eom]. }
      assert (Eq : eqm q (om ^ N) com).
      { apply eqm_weaken with N; try (unfold N; lia); [apply Z.divide_factor_r|apply Eom]. }
      pose proof (sq_pow_N p om (ko_p _ _ _ _ HK) Gp) as H1. pose proof (sq_pow_N q om (ko_q _ _ _ _ HK) Gq) as H2.
      assert (H3 : is_square_mod p (om ^ N) <-> is_square_mod p com) by (split; apply square_eqm; [auto|now symmetry]).
      assert (H4 : is_square_mod q (om ^ N) <-> is_square_mod q com) by (split; apply square_eqm; [auto|now symmetry]).
      tauto.
    + apply eqm_small with N; auto; [apply Z.mod_pos_bound; auto|]. unfold sim_com. rewrite eqm_mod. exact Eom.
  - intros o [(Ro & Go & _) Eo]. apply eqm_small with N; auto; [apply Z.mod_pos_bound; auto|].
    unfold om. rewrite eqm_mod, <- Eo. unfold sim_com. rewrite (eqm_pow N _ _ im (eqm_mod N _)).
    now apply (derive_unroot P p q sk HP HK).
Qed.

(** The sampler reaches every admissible commitment once. *)
Lemma com_sampled com : 0 <= com < N -> Z.gcd com N = 1 -> one_sided p q com ->
  exists! yb, (0 <= fst yb < N /\ Z.gcd (fst yb) N = 1 /\ square_mod N (fst yb)) /\
    nonsquare_residue sk (fst yb) (snd yb) = com.
Proof.
  intros Rc Gc Hc. apply (proj1 (one_sided_is _)) in Hc. pose proof N_pos as HN0.
  destruct kf as (Hp & Hq & HN & _). pose proof (ko_p _ _ _ _ HK) as Pp. pose proof (ko_q _ _ _ _ HK) as Pq.
  set (u := sk_u sk).
  assert (Gu : Z.gcd u N = 1) by apply (u_gcd P p q sk HP HK).
  assert (Eu : eqm N (u * u) 1).
  { apply eqm_crt; try lia; [apply primes_coprime; auto; apply HK| |].
    - unfold u. rewrite (ko_u_p _ _ _ _ HK). apply eqm_eq. reflexivity.
    - unfold u. rewrite (ko_u_q _ _ _ _ HK). apply eqm_eq. reflexivity. }
  assert (Ens : forall y b, eqm N (nonsquare_residue sk y b) ((if b then -1 else 1) * y * u)).
  { intros y b. unfold nonsquare_residue. rewrite (ko_pk _ _ _ _ HK). fold N u.
    destruct b; rewrite !eqm_mod; apply eqm_eq; ring. }
  assert (Rns : forall y b, 0 <= nonsquare_residue sk y b < N).
  { intros y b. unfold nonsquare_residue. rewrite (ko_pk _ _ _ _ HK). fold N.
    destruct b; apply Z.mod_pos_bound; auto. }
  pose proof Gc as G. apply gcd_mul_split in G. destruct G as [Gp Gq].
  assert (Ep : eqm p (com * u) (- com)) by (unfold u; rewrite (ko_u_p _ _ _ _ HK); apply eqm_eq; ring).
  assert (Eq : eqm q (com * u) com) by (unfold u; rewrite (ko_u_q _ _ _ _ HK); apply eqm_eq; ring).
  assert (Hb : exists b : bool, is_square_mod N ((if b then -1 else 1) * (com * u))).
  { destruct (sign_cases p com Pp P4 Gp) as [[H1 H2]|[H1 H2]].
    - exists true. apply (square_N P p q sk HP HK). split.
      + apply square_eqm with com; auto. rewrite Ep. apply eqm_eq. ring.
      + destruct (sign_cases q com Pq Q4 Gq) as [[H3 H4]|[H3 H4]]; [tauto|].
        apply square_eqm with (- com); auto. rewrite Eq. apply eqm_eq. ring.
    - exists false. apply (square_N P p q sk HP HK). split.
      + apply square_eqm with (- com); auto. rewrite Ep. apply eqm_eq. ring.
      + destruct (sign_cases q com Pq Q4 Gq) as [[H3 H4]|[H3 H4]]; [|tauto].
        apply square_eqm with com; auto. rewrite Eq. apply eqm_eq. ring. }
  destruct Hb as [b Hb]. set (y := ((if b then -1 else 1) * (com * u)) mod N).
  assert (Ey : eqm N y ((if b then -1 else 1) * (com * u))) by apply eqm_mod.
  exists (y, b). split.
  - cbn [fst snd]. split; [split; [apply Z.mod_pos_bound; auto|split]|].
    + rewrite (eqm_gcd N _ _ HN0 Ey). apply gcd_mul_1; [apply sign_unit|now apply gcd_mul_1].
    + apply square_mod_iff. now apply square_eqm with (2 := Hb).
    + apply eqm_small with N; auto. rewrite Ens, Ey.
      replace ((if b then -1 else 1) * ((if b then -1 else 1) * (com * u)) * u) with (com * (u * u)) by (destruct b; ring).
      rewrite Eu. apply eqm_eq. ring.
  - intros [y' b'] [(R' & G' & S') E']. cbn [fst snd] in *. apply square_mod_iff in S'.
    assert (E1 : eqm N ((if b' then -1 else 1) * y') (com * u)).
    { rewrite <- E', Ens. replace ((if b' then -1 else 1) * y' * u * u) with ((if b' then -1 else 1) * y' * (u * u)) by ring.
      rewrite Eu. apply eqm_eq. ring. }
    assert (E2 : eqm N y ((if b then -1 else 1) * ((if b' then -1 else 1) * y'))) by (rewrite Ey, E1; reflexivity).
    assert (Sy : is_square_mod N y) by (now apply square_eqm with (2 := Hb)).
    assert (Hbb : b = b').
    { assert (Hn : ~ eqm N y (- y')).
      { intros E3. apply (not_square_neg p y'); auto; [now apply gcd_mul_split in G'|now apply (square_N P p q sk HP HK) in S'|].
        apply (square_N P p q sk HP HK). now apply square_eqm with y. }
      destruct b, b'; auto; exfalso; apply Hn; rewrite E2; apply eqm_eq; ring. }
    subst b'. f_equal. apply eqm_small with N; auto; [apply Z.mod_pos_bound; auto|].
    rewrite E2. apply eqm_eq. destruct b; ring.
Qed.

(** ** No two different roots *)
Lemma roots_agree com1 com2 y1 y2 e1 e2 :
  0 <= y1 < 2 ^ w -> Z.gcd com1 N = 1 -> Z.gcd y1 N = 1 -> one_sided p q com1 ->
  0 <= y2 < 2 ^ w -> Z.gcd com2 N = 1 -> Z.gcd y2 N = 1 -> one_sided p q com2 ->
  mod_elem_new S sk (com1 mod p, com1 mod q) y1 = Ret e1 ->
  mod_elem_new S sk (com2 mod p, com2 mod q) y2 = Ret e2 ->
  (me_x e1 ^ 4) mod N = (me_x e2 ^ 4) mod N -> me_x e1 = me_x e2.
Proof.
  intros R1 G1 U1 O1 R2 G2 U2 O2 H1 H2 E. apply (proj1 (one_sided_is _)) in O1, O2.
  destruct (mod_elem_val com1 y1 R1 G1 U1 O1) as (a & b & u & E1 & Ru & Su & F1 & _).
  destruct (mod_elem_val com2 y2 R2 G2 U2 O2) as (a' & b' & v & E2 & Rv & Sv & F2 & _).
  rewrite H1 in E1. rewrite H2 in E2. injection E1 as ->. injection E2 as ->. cbn [me_x] in *.
  apply eqm_small with N; auto. apply fourth_root_unique; auto.
  apply gcd_mul_1_inv with (v ^ 3). replace (v * v ^ 3) with (v ^ 4) by ring.
  rewrite (eqm_gcd N _ _ N_pos F2). unfold cand. cbn [fst snd].
  apply gcd_mul_1; auto. apply gcd_mul_1; [destruct a'; [rewrite (Z.gcd_opp_l 1)|]; apply Z.gcd_1_l|].
  destruct b'; auto. apply Z.gcd_1_l.
Qed.
End HideMod.

(** Two square roots of one number that differ by more than the sign give a
    factor. *)
Lemma two_roots_factor p q x y : prime p -> prime q ->
  (x * x) mod (p * q) = (y * y) mod (p * q) ->
  x mod (p * q) <> y mod (p * q) -> x mod (p * q) <> (- y) mod (p * q) ->
  1 < Z.gcd (x - y) (p * q) < p * q.
Proof.
  intros Pp Pq E N1 N2. pose proof (prime_ge_2 _ Pp). pose proof (prime_ge_2 _ Pq).
  assert (HN : 0 < p * q) by nia. set (N := p * q) in *.
  assert (D : (N | (x - y) * (x + y))).
  { replace ((x - y) * (x + y)) with (x * x - y * y) by ring. now apply eqm_divide. }
  assert (G0 := Z.gcd_nonneg (x - y) N).
  assert (G1 : Z.gcd (x - y) N <> 1).
  { intros G. apply N2. change (eqm N x (- y)). apply eqm_divide; auto.
    replace (x - - y) with (x + y) by ring. rewrite Z.gcd_comm in G. now apply Z.gauss with (x - y). }
  assert (G2 : Z.gcd (x - y) N <> 0) by (intros G; apply Z.gcd_eq_0_r in G; lia).
  assert (G3 : Z.gcd (x - y) N <> N).
  { intros G. apply N1. change (eqm N x y). apply eqm_divide; auto. rewrite <- G. apply Z.gcd_divide_l. }
  assert (G4 : Z.gcd (x - y) N <= N) by (apply Z.divide_pos_le; auto; apply Z.gcd_divide_r).
  lia.
Qed.
