(** * The setup-less integer proofs reveal nothing (property C70). *)
From Coq Require Import ZArith Znumtheory List Bool Lia.
From Verif Require Import Base BaseFacts SignedModel SignedSpec SignedProofs EncodingModel EncodingProofs ConversionModel
  ConversionProofs IntLemmas ModArith PaillierModel PaillierSpec PaillierProofs RpProofs ZkBase ZkModel ZkSpec ZkFacts ZkExtract
  DecProofs AffGStarProofs ZkLemmas HideSpec.
Import ListNotations.
Open Scope Z_scope.

Lemma omap_cons {A B} (f : A -> outcome B) x l y ys : f x = Ret y -> omap f l = Ret ys -> omap f (x :: l) = Ret (y :: ys).
Proof. intros E1 E2. cbn. rewrite E1. cbn. now rewrite E2. Qed.
Lemma omap_cons_inv {A B} (f : A -> outcome B) x l r : omap f (x :: l) = Ret r ->
  exists y ys, f x = Ret y /\ omap f l = Ret ys /\ r = y :: ys.
Proof.
  cbn. destruct (f x) as [y|]; cbn; [|discriminate]. destruct (omap f l) as [ys|]; cbn; [|discriminate].
  intros [= <-]. now exists y, ys.
Qed.

Lemma omap_length {A B} (f : A -> outcome B) l r : omap f l = Ret r -> length r = length l.
Proof.
  revert r. induction l as [|x l IH]; intros r E; [now injection E as <-|].
  apply omap_cons_inv in E. destruct E as (y & ys & _ & E & ->). cbn. f_equal. now apply IH.
Qed.

(** One choice of draws per repetition is one choice for all. *)
Section Parallel.
Context {R E M L : Type} (commit : R -> outcome (E * M)) (respond : E * bool -> outcome L).
Context (okR : R -> Prop) (okT : bool * M * L -> Prop).
Definition one_run (r : R) (b : bool) (m : M) (l : L) : Prop :=
  exists eph, commit r = Ret (eph, m) /\ respond (eph, b) = Ret l.
Definition all_run (rs : list R) (es : list bool) (ms : list M) (ls : list L) : Prop :=
  exists ecs, omap commit rs = Ret ecs /\ map snd ecs = ms /\ omap respond (combine (map fst ecs) es) = Ret ls.
Hypothesis Hstep : forall b m l, okT (b, m, l) -> exists! r, okR r /\ one_run r b m l.

Lemma parallel_hide es ms ls : length ms = length es -> length ls = length es ->
  Forall okT (combine (combine es ms) ls) ->
  exists! rs, (length rs = length es /\ Forall okR rs) /\ all_run rs es ms ls.
Proof.
  revert ms ls. induction es as [|b es IH]; intros [|m ms] [|l ls] L1 L2 H; try discriminate.
  - exists []. split; [repeat split; auto; exists []; auto|].
    intros [|r rs] ((Hl & _) & _); [reflexivity|discriminate].
  - cbn [combine] in H. apply Forall_cons_iff in H. destruct H as [H1 H2].
    destruct (Hstep b m l H1) as (r & (Hr & eph & Ec & Er) & Ur).
    destruct (IH ms ls) as (rs & ((Lr & Hrs) & ecs & Ecs & Em & Els) & Urs); [now injection L1|now injection L2|auto|].
    exists (r :: rs). split.
    + split; [split; [cbn; congruence|now constructor]|]. exists ((eph, m) :: ecs).
      split; [now apply omap_cons|]. split; [cbn; congruence|]. cbn [map fst combine]. now apply omap_cons.
    + intros [|r' rs'] ((Lr' & Hrs') & ecs' & Ecs' & Em' & Els'); [discriminate|].
      apply Forall_cons_iff in Hrs'. destruct Hrs' as [Hr' Hrs'].
      apply omap_cons_inv in Ecs'. destruct Ecs' as ([eph' m'] & ecs0 & Ec' & Ecs0 & ->).
      cbn [map snd fst combine] in Em', Els'. injection Em' as -> Em0.
      apply omap_cons_inv in Els'. destruct Els' as (l' & ls0 & Er' & Els0 & [= <- <-]).
      f_equal.
      * apply Ur. split; [exact Hr'|]. now exists eph'.
      * apply Urs. split; [split; [now injection Lr'|exact Hrs']|]. now exists ecs0.
Qed.

Lemma parallel_in (okI : bool * M * L -> Prop) (Q : R * bool -> Prop) rs es ms ls :
  (forall r b m l, okR r -> one_run r b m l -> okI (b, m, l) -> Q (r, b)) ->
  length rs = length es -> Forall okR rs -> all_run rs es ms ls -> Forall okI (combine (combine es ms) ls) ->
  Forall Q (combine rs es).
Proof.
  intros HQ. revert es ms ls. induction rs as [|r rs IH]; intros [|b es] ms ls Hl Hr (ecs & Ec & Em & El) HI; try discriminate.
  - constructor.
  - apply omap_cons_inv in Ec. destruct Ec as ([eph m] & ecs0 & Ec & Ecs & ->). cbn [map fst snd combine] in Em, El. subst ms.
    apply omap_cons_inv in El. destruct El as (l & ls0 & El & Els & ->).
    cbn [combine] in HI |- *. apply Forall_cons_iff in HI, Hr. destruct HI as [HI1 HI2], Hr as [Hr1 Hr2]. constructor.
    + apply (HQ r b m l Hr1); auto. now exists eph.
    + apply (IH es (map snd ecs0) ls0); auto. now exists ecs0.
Qed.

Lemma parallel_out (okI : bool * M * L -> Prop) rs es ms ls :
  (forall r b m l, okR r -> one_run r b m l -> okI (b, m, l)) ->
  length rs = length es -> Forall okR rs -> all_run rs es ms ls -> Forall okI (combine (combine es ms) ls).
Proof.
  intros HQ. revert es ms ls. induction rs as [|r rs IH]; intros [|b es] ms ls Hl Hr (ecs & Ec & Em & El); try discriminate.
  - constructor.
  - apply omap_cons_inv in Ec. destruct Ec as ([eph m] & ecs0 & Ec & Ecs & ->). cbn [map fst snd combine] in Em, El. subst ms.
    apply omap_cons_inv in El. destruct El as (l & ls0 & El & Els & ->).
    apply Forall_cons_iff in Hr. destruct Hr as [Hr1 Hr2]. cbn [combine]. constructor.
    + apply (HQ r b m l Hr1). now exists eph.
    + apply (IH es (map snd ecs0) ls0); auto. now exists ecs0.
Qed.
End Parallel.

Lemma inner_draw m k v x e : 0 < k <= m -> inner m k v -> pm_interval k x ->
  0 <= v - x * b2z e + (2 ^ (m - 1) - 1) < 2 ^ m /\ pm_interval m v.
Proof.
  intros Hk Hv Hx. unfold inner, pm_interval in *.
  assert (2 ^ m = 2 * 2 ^ (m - 1)) by (rewrite <- Z.pow_succ_r by lia; f_equal; lia).
  assert (0 < 2 ^ (k - 1)) by (apply Z.pow_pos_nonneg; lia).
  destruct e; cbn [b2z]; lia.
Qed.

(** How rarely an answer is not inner: for at most [2^(k+1) + 1] draws out of [2^m],
    whatever the secret. *)
Lemma mask_inner m k x e draw : 0 < k <= m -> pm_interval k x ->
  margin m k draw -> inner m k (mask m draw + x * b2z e) /\ inner m k (mask m draw + - x * b2z e).
Proof.
  intros Hk Hx Hd. unfold inner, pm_interval, mask, margin in *.
  assert (2 ^ m = 2 * 2 ^ (m - 1)) by (rewrite <- Z.pow_succ_r by lia; f_equal; lia).
  assert (2 ^ k = 2 * 2 ^ (k - 1)) by (rewrite <- Z.pow_succ_r by lia; f_equal; lia).
  assert (0 < 2 ^ (k - 1)) by (apply Z.pow_pos_nonneg; lia).
  destruct e; cbn [b2z]; lia.
Qed.

(** Taking the secret's part out of a randomizer. *)
Lemma masked_inv N rho e nu : 1 < N -> Z.gcd rho N = 1 -> 0 <= nu < N ->
  (zpow N rho e * ((zpow N rho (- e) * nu) mod N)) mod N = nu.
Proof.
  intros HN Hr Hnu. apply eqm_small with N; auto; [apply Z.mod_pos_bound; lia|]. rewrite !eqm_mod.
  rewrite Z.mul_assoc, (Z.mul_comm (zpow N rho e)), zpow_opp by (auto; lia). apply eqm_eq. ring.
Qed.
Lemma masked_inj N rho e r r' : 1 < N -> Z.gcd rho N = 1 -> 0 <= r < N -> 0 <= r' < N ->
  (zpow N rho e * r) mod N = (zpow N rho e * r') mod N -> r = r'.
Proof.
  intros HN Hr H1 H2 E. apply eqm_small with N; auto. apply gauss_eqm with (zpow N rho e); [lia| |exact E].
  apply zpow_gcd; auto; lia.
Qed.
Lemma masked_unit N rho e nu : 1 < N -> Z.gcd rho N = 1 -> unit_in N nu -> unit_in N ((zpow N rho e * nu) mod N).
Proof.
  intros HN Hr [H1 H2]. split; [apply Z.mod_pos_bound; lia|]. rewrite gcd_mod_l by lia.
  apply gcd_mul_1; auto. apply zpow_gcd; auto; lia.
Qed.

(** The commitment is determined by the equation the verifier checks. *)
Lemma affv_commitment N c a x m rho X M nu b : 1 < N -> Z.gcd c N = 1 -> Z.gcd rho N = 1 -> 0 <= a < N * N -> unit_in N nu ->
  affv N c X M nu = (a * affv N c x m rho ^ b2z b) mod (N * N) ->
  affv N c (X - x * b2z b) (M - m * b2z b) ((zpow N rho (- b2z b) * nu) mod N) = a.
Proof.
  intros HN Hc Hr Ha Hnu E. assert (0 <= b2z b) by (destruct b; cbn; lia).
  apply eqm_small with (N * N); auto; [apply affv_range; nia|].
  set (D := affv N c x m rho) in *.
  assert (HD : Z.gcd D (N * N) = 1) by (apply affv_gcd2; auto).
  apply gauss_eqm with (D ^ b2z b); [nia|now apply gcd_pow_1|].
  transitivity (affv N c X M nu); [|rewrite E, eqm_mod; apply eqm_eq; ring].
  rewrite <- (zpow_nonneg (N * N) D) by lia. unfold D. rewrite affv_zpow by auto.
  unfold eqm. rewrite affv_mul by auto. rewrite masked_inv by (auto; apply Hnu).
  rewrite (Z.mod_small (affv N c X M nu)) by (apply affv_range; auto). f_equal; ring.
Qed.

Lemma answer_sum w a x (e : bool) av xv m b : has w a av m -> has w x xv b -> Z.max m b + 1 < w ->
  exists z, (if e then sec_add w a x else Ret a) = Ret z /\ has w z (av + xv * b2z e) (answer_bound m b e).
Proof.
  intros Ka Kx Hb. destruct e; cbn [b2z answer_bound].
  - destruct (has_add _ _ _ _ _ _ _ Ka Kx Hb) as (z & Ez & Kz). exists z. split; [exact Ez|].
    rewrite Z.mul_1_r. exact Kz.
  - exists a. split; [reflexivity|]. rewrite Z.mul_0_r, Z.add_0_r. exact Ka.
Qed.
Lemma has_eq w x y v b : has w x v b -> has w y v b -> x = y.
Proof. intros (W1 & V1 & B1) (W2 & V2 & B2). apply (signed_eq w); congruence. Qed.

Section HideInt.
Variables (S : sparams) (C : curve) (A : Type).
Notation P := (sp_pail S).
Notation w := (uint_w (sp_pail S)).
Notation ww := (wide_w (sp_pail S)).
Notation q := (sp_q S).
Hypothesis HS : sp_ok S.
Hypothesis HC : curve_ok q C.

Lemma pmul_sub a x b g com : pmul C a g = padd C com (pmul C (b2z b) (pmul C x g)) -> com = pmul C (a - x * b2z b) g.
Proof.
  intros E. apply (f_equal (fun v => padd C v (popp C (pmul C (b2z b) (pmul C x g))))) in E.
  rewrite <- (c_addA _ _ HC), (c_addN _ _ HC), (c_add0 _ _ HC) in E. rewrite <- E.
  rewrite <- (pmul_opp q C HC), !(c_mulA _ _ HC), <- (c_mulDl _ _ HC). f_equal. ring.
Qed.

Section Dec.
Variables (sec : dec_secret) (pub : dec_public C) (x y N k n : Z).
Hypothesis Hx : wf w (ds_x sec).
Hypothesis Hxv : sval w (ds_x sec) = x.
Hypothesis Hxb : bound (ds_x sec) <= sp_l S.
Hypothesis Hxr : pm_interval (sp_l S) x.
Hypothesis Hn : 2 <= n < 2 ^ 64.
Hypothesis En : dp_num_parties pub = n.
Hypothesis Hy : wf w (ds_y sec).
Hypothesis Hyv : sval w (ds_y sec) = y.
Hypothesis Hyr : pm_interval (dec_y_exp S n) y.
Hypothesis HN : modulus_ok S N.
Hypothesis E0 : dp_pk0 pub = N.
Hypothesis Hrho : unit_ok N (ds_rho sec).
Hypothesis Huk : unit_ok N k.
Hypothesis Hk : dp_cap_k pub = Ct N k.
Hypothesis Hd : dp_cap_d pub = Ct N (affv N k (- x) y (ds_rho sec)).
Hypothesis Hcx : dp_cap_x pub = pmul C x (gen C).
Hypothesis Hcs : dp_cap_s pub = pmul C y (dp_cap_g pub).

Notation ma := (sp_l S + sp_eps S).
Notation mb := (dec_y_exp S n + sp_eps S).

Lemma dec_commit_val rnd : dec_rand_ok S N n rnd ->
  exists alpha beta, has w alpha (mask ma (dr_alpha rnd)) ma /\ has ww beta (mask mb (dr_beta rnd)) mb /\
    dec_commit S pub (dec_y_exp S n) rnd = Ret (DecEph alpha beta (dr_r rnd),
      DecCom (affv N k (- mask ma (dr_alpha rnd)) (mask mb (dr_beta rnd)) (dr_r rnd))
        (pmul C (mask mb (dr_beta rnd)) (dp_cap_g pub)) (pmul C (mask ma (dr_alpha rnd)) (gen C))).
Proof.
  intros [Da Db [Dr0 Drg]]. destruct Huk as [Hk0 Hkg].
  pose proof (dec_exp_lt S HS n Hn) as [Hye0 Hye].
  unfold dec_commit. cbv zeta. rewrite E0, Hk.
  run_ex (sample_has S ma (dr_alpha rnd)) alpha Ka; [destruct HS; lia|].
  run_ex (has_range ww mb (dr_beta rnd)) beta Kb; [destruct HS; lia|].
  fold (mask ma (dr_alpha rnd)) in Ka. fold (mask mb (dr_beta rnd)) in Kb.
  exists alpha, beta. split; [exact Ka|]. split; [exact Kb|].
  pose proof (has_neg _ _ _ _ Ka) as Kna.
  rewrite (hmul_sec_unit N k (proj1 HN) Hkg _ _ _ _ Hk0 Kna). cbn [obind].
  rewrite (enc_wide_has S HS N _ _ _ _ HN Dr0 Kb). cbn [obind].
  rewrite hadd_eq. cbn [obind ct_val].
  rewrite (scalar_of_wide_secret_has S HS _ _ _ Kb). cbn [obind].
  rewrite (scalar_of_secret_has S HS _ _ _ Ka). cbn [obind].
  assert (Hq : 1 < q) by (destruct (so_conv _ HS); lia).
  now rewrite !(pmul_mod q C HC) by lia.
Qed.

Lemma dec_respond_val alpha beta r av bv b : has w alpha av ma -> has ww beta bv mb ->
  exists z v, has w z (av + x * b2z b) (answer_bound ma (bound (ds_x sec)) b) /\
    has ww v (bv + y * b2z b) (answer_bound mb (bound (ds_y sec)) b) /\
    dec_respond S sec pub (DecEph alpha beta r, b) = Ret (DecElem z v ((zpow N (ds_rho sec) (b2z b) * r) mod N)).
Proof.
  intros Ka Kb. destruct Hrho as [Hr0 Hrg].
  pose proof (has_self _ _ Hx) as Kx. rewrite Hxv in Kx.
  pose proof (has_self _ _ Hy) as Ky. rewrite Hyv in Ky.
  pose proof (dec_exp_lt S HS n Hn) as [Hye0 Hye].
  assert (Hyb : bound (ds_y sec) < w) by (apply has_abs in Ky; lia).
  destruct (answer_sum w alpha (ds_x sec) b _ _ _ _ Ka Kx) as (z & Ez & Kz); [destruct HS; lia|].
  destruct (has_wide _ ww _ _ _ Ky) as (yw & Eyw & Kyw); [destruct HS; lia|].
  destruct (answer_sum ww beta yw b _ _ _ _ Kb Kyw) as (v & Ev & Kv); [destruct HS; lia|].
  exists z, v. split; [exact Kz|]. split; [exact Kv|].
  assert (Hex : exists bb, has w (if b then pub_one else s_zero) (b2z b) bb).
  { destruct b; eexists; [apply has_one|apply has_zero]; destruct HS; lia. }
  destruct Hex as (bb & Kex).
  unfold dec_respond. cbn [dh_alpha dh_beta dh_r]. cbv zeta. rewrite E0, Ez. cbn [obind]. rewrite Eyw. cbn [obind].
  rewrite Ev. cbn [obind]. rewrite (masked_has S N _ _ _ _ _ HN Hrg Kex). cbn [obind].
  rewrite (has_public _ _ _ _ Kz), (has_public _ _ _ _ Kv). reflexivity.
Qed.

Lemma dec_hide_step b com el :
  dec_elem_ok S pub (b, com, el) /\ dec_inner S N n (bound (ds_x sec)) (bound (ds_y sec)) (b, com, el) ->
  exists! rnd, dec_draw S N n rnd /\
    one_run (dec_commit S pub (dec_y_exp S n)) (dec_respond S sec pub) rnd b com el.
Proof.
  intros [((kz & Ukz & ez & Hez & Ea) & Ex & Eg & _ & _) [I1 I2 I3 I4 I5 I6 I7 I8]].
  cbn [fst snd] in *. rewrite E0, Hk, Hd in *. cbn [ct_val] in *. rewrite Hcx in Ex. rewrite Hcs in Eg.
  destruct Hrho as [Hr0 Hrg], Huk as [Hk0 Hkg]. assert (Ng : 1 < N) by apply HN.
  pose proof (dec_exp_lt S HS n Hn) as [Hye0 Hye].
  set (z := sval w (de_z el)) in *. set (v := sval ww (de_w el)) in *.
  destruct (inner_draw ma (sp_l S) _ _ b ltac:(destruct HS; lia) I4 Hxr) as [Da _].
  destruct (inner_draw mb (dec_y_exp S n) _ _ b ltac:(destruct HS; lia) I7 Hyr) as [Db _].
  apply unit_power_zpow in Ukz; [|nia|apply gcd_sq; auto; lia].
  apply encv_textbook in Hez; [|exact Ng]. subst kz ez.
  change (affv N k (- z) v (de_nu el) = (dc_a com * affv N k (- x) y (ds_rho sec) ^ b2z b) mod (N * N)) in Ea.
  apply affv_commitment in Ea; auto.
  apply pmul_sub in Ex, Eg.
  set (r := (zpow N (ds_rho sec) (- b2z b) * de_nu el) mod N) in *.
  pose proof (masked_unit N (ds_rho sec) (- b2z b) _ Ng Hrg I8) as [Hr1 Hr2]. fold r in Hr1, Hr2.
  set (rnd := DecRand (z - x * b2z b + (2 ^ (ma - 1) - 1)) (v - y * b2z b + (2 ^ (mb - 1) - 1)) r).
  exists rnd. split.
  - assert (Hok : dec_rand_ok S N n rnd) by (split; [exact Da|exact Db|split; [exact (proj1 Hr1)|exact Hr2]]).
    split; [split; [exact Hok|exact (proj2 Hr1)]|].
    destruct (dec_commit_val rnd Hok) as (alpha & beta & Ka & Kb & Ec).
    replace (mask ma (dr_alpha rnd)) with (z - x * b2z b) in * by (unfold mask; cbn; lia).
    replace (mask mb (dr_beta rnd)) with (v - y * b2z b) in * by (unfold mask; cbn; lia).
    exists (DecEph alpha beta r). split.
    { rewrite Ec. do 2 f_equal. destruct com as [a cb cc]. cbn [dc_a dc_b dc_c] in *. f_equal; auto.
      rewrite <- Ea. cbn [rnd dr_r]. f_equal. ring. }
    destruct (dec_respond_val alpha beta r _ _ b Ka Kb) as (z' & v' & Kz & Kv & Er). rewrite Er. f_equal.
    replace (z - x * b2z b + x * b2z b) with z in Kz by ring.
    replace (v - y * b2z b + y * b2z b) with v in Kv by ring.
    destruct el as [ez ev nu]. cbn [de_z de_w de_nu] in *. f_equal.
    + apply (has_eq w _ _ z _ Kz). split; auto.
    + apply (has_eq ww _ _ v _ Kv). split; auto.
    + unfold r. apply masked_inv; auto. apply I8.
  - intros rnd' ((Hok & Hr') & eph & Ec & Er).
    destruct (dec_commit_val rnd' Hok) as (alpha & beta & Ka & Kb & Ec'). rewrite Ec in Ec'. injection Ec' as -> _.
    destruct (dec_respond_val alpha beta (dr_r rnd') _ _ b Ka Kb) as (z' & v' & Kz & Kv & Er').
    rewrite Er in Er'. injection Er' as Er'.
    apply has_sval in Kz, Kv. pose proof (f_equal de_z Er') as F1. pose proof (f_equal de_w Er') as F2.
    pose proof (f_equal de_nu Er') as F3. cbn [de_z de_w de_nu] in F1, F2, F3. rewrite <- F1 in Kz. rewrite <- F2 in Kv.
    fold z in Kz. fold v in Kv. destruct rnd' as [a' b' r']. unfold rnd, mask in *. cbn [dr_alpha dr_beta dr_r] in *.
    f_equal; [lia|lia|]. apply (masked_inj N (ds_rho sec) (b2z b)); auto.
    { split; [apply Hok|exact Hr']. }
    rewrite <- F3. unfold r. apply masked_inv; auto. apply I8.
Qed.

Lemma dec_new_run (X : xof A (pt C)) setup aux rnds pf : length rnds = Z.to_nat (sp_kappa S) ->
  (dec_new S X sec pub setup aux rnds = Ret pf <->
   dg_e pf = dec_challenge S X (dg_coms pf) pub setup aux /\
   all_run (dec_commit S pub (dec_y_exp S n)) (dec_respond S sec pub) rnds (dg_e pf) (dg_coms pf) (dg_elems pf)).
Proof.
  pose proof (has_self _ _ Hx) as Kx. rewrite Hxv in Kx.
  pose proof (has_self _ _ Hy) as Ky. rewrite Hyv in Ky.
  pose proof (dec_exp_lt S HS n Hn) as [Hye0 Hye].
  intros Hl. unfold dec_new. rewrite Hl, Nat.eqb_refl. cbn [oassert obind].
    rewrite (has_assert_range _ _ _ _ (sp_l S) Kx) by (auto; destruct HS; lia). cbn [obind].
    rewrite En, ceil_log2_ok by lia. cbn [obind]. cbv zeta. fold (dec_y_exp S n).
    rewrite (has_assert_range _ _ _ _ (dec_y_exp S n) Ky) by (auto; lia). cbn [obind].
    rewrite E0, Hk, Hd. cbn [ct_pk]. rewrite !Z.eqb_refl. cbn [oassert obind].
    unfold all_run. destruct (omap (dec_commit S pub (dec_y_exp S n)) rnds) as [ecs|]; cbn [obind].
    2:{ split; [discriminate|]. intros (_ & ecs & [=] & _). }
    split.
    - destruct (omap (dec_respond S sec pub) _) as [ls|] eqn:El; cbn [obind]; [|discriminate].
      intros [= <-]. cbn [dg_e dg_coms dg_elems]. split; [reflexivity|]. exists ecs. auto.
    - intros (He & ecs' & [= <-] & Em & El). rewrite Em, <- He, El. cbn [obind]. destruct pf; reflexivity.
Qed.

Lemma dec_hides_sec (X : xof A (pt C)) setup aux pf : xof_ok q X ->
  Forall (dec_inner S N n (bound (ds_x sec)) (bound (ds_y sec))) (combine (combine (dg_e pf) (dg_coms pf)) (dg_elems pf)) ->
  length (dg_e pf) = Z.to_nat (sp_kappa S) -> length (dg_coms pf) = Z.to_nat (sp_kappa S) ->
  length (dg_elems pf) = Z.to_nat (sp_kappa S) ->
  (dec_verify S X pf pub setup aux = Ret true <->
   exists! rnds, (length rnds = Z.to_nat (sp_kappa S) /\ Forall (dec_draw S N n) rnds) /\
     dec_new S X sec pub setup aux rnds = Ret pf).
Proof.
  intros HX HI L1 L2 L3.
  pose proof (has_self _ _ Hx) as Kx. rewrite Hxv in Kx.
  pose proof (has_self _ _ Hy) as Ky. rewrite Hyv in Ky.
  pose proof (dec_exp_lt S HS n Hn) as [Hye0 Hye].
  pose proof (fun rnds => dec_new_run X setup aux rnds pf) as Hnew.
  split.
  - intros V. apply dec_accept in V; auto.
    + destruct V as (He & _ & _ & _ & Hall).
      destruct (parallel_hide (dec_commit S pub (dec_y_exp S n)) (dec_respond S sec pub) (dec_draw S N n)
        (fun t => dec_elem_ok S pub t /\ dec_inner S N n (bound (ds_x sec)) (bound (ds_y sec)) t)
        dec_hide_step (dg_e pf) (dg_coms pf) (dg_elems pf)) as (rs & ((Lr & Hr) & Hrun) & Uq); try congruence.
      { apply Forall_and; [|exact HI]. apply Forall_combine3; congruence || exact Hall. }
      exists rs. split.
      * split; [split; [congruence|exact Hr]|]. apply Hnew; [congruence|]. auto.
      * intros rs' ((Lr' & Hr') & E). apply Uq. split; [split; [congruence|exact Hr']|]. apply Hnew in E; tauto.
    + apply Forall_forall. intros el Hin.
      apply In_nth_error in Hin. destruct Hin as (i & Hi).
      assert (Hlt : (i < Z.to_nat (sp_kappa S))%nat) by (rewrite <- L3; apply nth_error_Some; congruence).
      destruct (nth_error (dg_e pf) i) as [b|] eqn:Eb; [|apply nth_error_None in Eb; lia].
      destruct (nth_error (dg_coms pf) i) as [m|] eqn:Em; [|apply nth_error_None in Em; lia].
      rewrite Forall_combine3 in HI by congruence. specialize (HI i b m el Eb Em Hi).
      destruct HI as [_ J1 _ _ J2 _ _ [J3 _]]. cbn [fst snd] in *. split; [auto|]. split; [auto|]. lia.
    + now rewrite E0.
    + now rewrite En.
    + now rewrite Hk, E0.
    + now rewrite Hd, E0.
    + rewrite Hk. apply Huk.
  - intros (rs & ((Lr & Hr) & E) & _).
    destruct (dec_run S C A HS HC X sec pub setup aux rs x y N k n) as (pf' & r & E' & V & Lc & Hres); auto.
    { eapply Forall_impl; [|exact Hr]. now intros ? [? _]. }
    rewrite E in E'. injection E' as <-. rewrite V. f_equal. apply Hres.
    apply Hnew in E; [|exact Lr]. destruct E as [_ Hrun].
    refine (parallel_in _ _ _ _ _ rs (dg_e pf) _ _ _ _ Hr Hrun HI); [|congruence].
    intros rnd b com el (Hok & _) (eph & Ec & Er) HI1.
    destruct (dec_commit_val rnd Hok) as (alpha & beta & Ka & Kb & Ec'). rewrite Ec in Ec'. injection Ec' as -> _.
    destruct (dec_respond_val alpha beta (dr_r rnd) _ _ b Ka Kb) as (z' & v' & Kz & Kv & Er').
    rewrite Er in Er'. injection Er' as ->. destruct HI1 as [_ _ _ I4 _ _ I7 _]. cbn [fst snd de_z de_w] in *.
    rewrite (has_sval _ _ _ _ Kz) in I4. rewrite (has_sval _ _ _ _ Kv) in I7.
    split; cbn [fst snd].
    + apply (inner_draw ma (sp_l S) _ _ b ltac:(destruct HS; lia) I4 Hxr).
    + apply (inner_draw mb (dec_y_exp S n) _ _ b ltac:(destruct HS; lia) I7 Hyr).
Qed.

Lemma dec_inner_run (X : xof A (pt C)) setup aux rnds : xof_ok q X ->
  length rnds = Z.to_nat (sp_kappa S) -> Forall (dec_draw S N n) rnds -> Forall (dec_margin S n) rnds ->
  exists pf, dec_new S X sec pub setup aux rnds = Ret pf /\ dec_verify S X pf pub setup aux = Ret true /\
    Forall (dec_inner S N n (bound (ds_x sec)) (bound (ds_y sec))) (combine (combine (dg_e pf) (dg_coms pf)) (dg_elems pf)) /\
    length (dg_e pf) = Z.to_nat (sp_kappa S) /\ length (dg_coms pf) = Z.to_nat (sp_kappa S) /\
    length (dg_elems pf) = Z.to_nat (sp_kappa S).
Proof.
  intros HX Hl Hdr Hmg. pose proof (dec_exp_lt S HS n Hn) as [Hye0 Hye].
  destruct (dec_run S C A HS HC X sec pub setup aux rnds x y N k n) as (pf & r & E & V & Lc & Hres); auto.
  { eapply Forall_impl; [|exact Hdr]. now intros ? [? _]. }
  exists pf. split; [exact E|].
  pose proof E as E'. apply dec_new_run in E'; [|exact Hl]. destruct E' as [_ Hrun].
  assert (HI : Forall (dec_inner S N n (bound (ds_x sec)) (bound (ds_y sec)))
    (combine (combine (dg_e pf) (dg_coms pf)) (dg_elems pf))).
  { refine (parallel_out _ _ (fun rnd => dec_draw S N n rnd /\ dec_margin S n rnd) _ rnds (dg_e pf) _ _ _ _ _ Hrun).
    2: congruence. 2: now apply Forall_and.
    intros rnd b com el ((Hok & Hrn) & (M1 & M2)) (eph & Ec & Er).
    destruct (dec_commit_val rnd Hok) as (alpha & beta & Ka & Kb & Ec'). rewrite Ec in Ec'. injection Ec' as -> ->.
    destruct (dec_respond_val alpha beta (dr_r rnd) _ _ b Ka Kb) as (z' & v' & Kz & Kv & Er').
    rewrite Er in Er'. injection Er' as ->.
    assert (Ng : 1 < N) by apply HN.
    split; cbn [fst snd dc_a de_z de_w de_nu].
    - apply affv_range; auto.
    - apply Kz.
    - apply Kz.
    - rewrite (has_sval _ _ _ _ Kz). apply (mask_inner _ _ x b); auto. destruct HS; lia.
    - apply Kv.
    - apply Kv.
    - rewrite (has_sval _ _ _ _ Kv). apply (mask_inner _ _ y b); auto. destruct HS; lia.
    - apply masked_unit; auto; [apply Hrho|]. destruct Hok as [_ _ [? ?]]. split; auto. }
  assert (L : length (dg_coms pf) = Z.to_nat (sp_kappa S) /\ length (dg_elems pf) = Z.to_nat (sp_kappa S)).
  { destruct Hrun as (ecs & Ec & <- & El). rewrite map_length. pose proof (omap_length _ _ _ Ec) as Le.
    pose proof (omap_length _ _ _ El) as Le2. rewrite combine_length, map_length in Le2. lia. }
  split; [|tauto]. rewrite V. f_equal. apply Hres.
  refine (parallel_in _ _ _ _ _ rnds (dg_e pf) _ _ _ _ Hdr Hrun HI); [|congruence].
  intros rnd b com el (Hok & _) (eph & Ec & Er) HI1.
  destruct (dec_commit_val rnd Hok) as (alpha & beta & Ka & Kb & Ec'). rewrite Ec in Ec'. injection Ec' as -> _.
  destruct (dec_respond_val alpha beta (dr_r rnd) _ _ b Ka Kb) as (z' & v' & Kz & Kv & Er').
  rewrite Er in Er'. injection Er' as ->. destruct HI1 as [_ _ _ I4 _ _ I7 _]. cbn [fst snd de_z de_w] in *.
  rewrite (has_sval _ _ _ _ Kz) in I4. rewrite (has_sval _ _ _ _ Kv) in I7.
  split; cbn [fst snd].
  - apply (inner_draw ma (sp_l S) _ _ b ltac:(destruct HS; lia) I4 Hxr).
  - apply (inner_draw mb (dec_y_exp S n) _ _ b ltac:(destruct HS; lia) I7 Hyr).
Qed.
End Dec.

Section AffGStar.
Variables (sec : aff_gs_secret) (pub : aff_g_public C) (x y N0 N1 c : Z).
Hypothesis Hx : wf w (ss_x sec).
Hypothesis Hxv : sval w (ss_x sec) = x.
Hypothesis Hxb : bound (ss_x sec) <= sp_l S.
Hypothesis Hxr : pm_interval (sp_l S) x.
Hypothesis Hy : wf w (ss_y sec).
Hypothesis Hyv : sval w (ss_y sec) = y.
Hypothesis Hyb : bound (ss_y sec) <= sp_lp S.
Hypothesis Hyr : pm_interval (sp_lp S) y.
Hypothesis HN0 : modulus_ok S N0.
Hypothesis HN1 : modulus_ok S N1.
Hypothesis E0 : ap_pk0 pub = N0.
Hypothesis E1 : ap_pk1 pub = N1.
Hypothesis Hrho : unit_ok N0 (ss_rho sec).
Hypothesis Hmu : unit_ok N1 (ss_mu sec).
Hypothesis Huc : unit_ok N0 c.
Hypothesis Hc : ap_cap_c pub = Ct N0 c.
Hypothesis Hd : ap_cap_d pub = Ct N0 (affv N0 c x (- y) (ss_rho sec)).
Hypothesis HY : ap_cap_y pub = Ct N1 (encv N1 y (ss_mu sec)).
Hypothesis Hcx : ap_cap_x pub = pmul C x (gen C).

Notation ma := (sp_l S + sp_eps S).
Notation mb := (sp_lp S + sp_eps S).

Lemma aff_gs_commit_val rnd : aff_gs_rand_ok S N0 N1 rnd ->
  exists alpha beta, has w alpha (mask ma (sr_alpha rnd)) ma /\ has w beta (mask mb (sr_beta rnd)) mb /\
    aff_gs_commit S pub rnd = Ret (AffGStarEph alpha beta (sr_r rnd) (sr_s rnd),
      AffGStarCom (affv N0 c (mask ma (sr_alpha rnd)) (mask mb (sr_beta rnd)) (sr_r rnd))
        (pmul C (mask ma (sr_alpha rnd)) (gen C)) (encv N1 (mask mb (sr_beta rnd)) (sr_s rnd))).
Proof.
  intros [Da Db [Dr0 Drg] [Ds0 Dsg]]. destruct Huc as [Hc0 Hcg].
  unfold aff_gs_commit. cbv zeta. rewrite E0, E1, Hc.
  run_ex (sample_has S ma (sr_alpha rnd)) alpha Ka; [destruct HS; lia|].
  run_ex (sample_has S mb (sr_beta rnd)) beta Kb; [destruct HS; lia|].
  fold (mask ma (sr_alpha rnd)) in Ka. fold (mask mb (sr_beta rnd)) in Kb.
  exists alpha, beta. split; [exact Ka|]. split; [exact Kb|].
  rewrite (hmul_sec_unit N0 c (proj1 HN0) Hcg _ _ _ _ Hc0 Ka). cbn [obind].
  rewrite (enc_has S HS N0 _ _ _ _ HN0 Dr0 Kb). cbn [obind].
  rewrite hadd_eq. cbn [obind ct_val].
  rewrite (scalar_of_secret_has S HS _ _ _ Ka). cbn [obind].
  rewrite (enc_has S HS N1 _ _ _ _ HN1 Ds0 Kb). cbn [obind ct_val].
  assert (Hq : 1 < q) by (destruct (so_conv _ HS); lia).
  now rewrite !(pmul_mod q C HC) by lia.
Qed.

Lemma aff_gs_respond_val alpha beta r s av bv b : has w alpha av ma -> has w beta bv mb ->
  exists z v, has w z (av + x * b2z b) (answer_bound ma (bound (ss_x sec)) b) /\
    has w v (bv + - y * b2z b) (answer_bound mb (bound (ss_y sec)) b) /\
    aff_gs_respond S sec pub (AffGStarEph alpha beta r s, b) =
      Ret (AffGStarElem z v ((zpow N0 (ss_rho sec) (b2z b) * r) mod N0) ((zpow N1 (ss_mu sec) (- b2z b) * s) mod N1)).
Proof.
  intros Ka Kb. destruct Hrho as [Hr0 Hrg], Hmu as [Hm0 Hmg].
  pose proof (has_self _ _ Hx) as Kx. rewrite Hxv in Kx.
  pose proof (has_self _ _ Hy) as Ky. rewrite Hyv in Ky.
  pose proof (has_neg _ _ _ _ Ky) as Kny.
  destruct (answer_sum w alpha (ss_x sec) b _ _ _ _ Ka Kx) as (z & Ez & Kz); [destruct HS; lia|].
  destruct (answer_sum w beta (sec_neg w (ss_y sec)) b _ _ _ _ Kb Kny) as (v & Ev & Kv); [destruct HS; lia|].
  exists z, v. split; [exact Kz|]. split; [exact Kv|].
  assert (Hex : exists bb, has w (if b then pub_one else s_zero) (b2z b) bb).
  { destruct b; eexists; [apply has_one|apply has_zero]; destruct HS; lia. }
  destruct Hex as (bb & Kex). pose proof (has_pub_neg _ _ _ _ Kex) as Knex.
  unfold aff_gs_respond. cbn [sh_alpha sh_beta sh_r sh_s]. cbv zeta. rewrite E0, E1, Ez. cbn [obind]. rewrite Ev. cbn [obind].
  rewrite (masked_has S N0 _ _ _ _ _ HN0 Hrg Kex). cbn [obind].
  rewrite (masked_has S N1 _ _ _ _ _ HN1 Hmg Knex). cbn [obind].
  rewrite (has_public _ _ _ _ Kz), (has_public _ _ _ _ Kv). reflexivity.
Qed.

Lemma inner_neg m k v e : pm_interval k y -> 0 < k <= m -> inner m k v ->
  0 <= v - - y * b2z e + (2 ^ (m - 1) - 1) < 2 ^ m.
Proof.
  intros Hy' Hk Hv. unfold inner, pm_interval in *.
  assert (2 ^ m = 2 * 2 ^ (m - 1)) by (rewrite <- Z.pow_succ_r by lia; f_equal; lia).
  assert (0 < 2 ^ (k - 1)) by (apply Z.pow_pos_nonneg; lia).
  destruct e; cbn [b2z]; lia.
Qed.

Lemma aff_gs_hide_step b com el :
  aff_gs_elem_ok S pub (b, com, el) /\ aff_gs_inner S N0 N1 (bound (ss_x sec)) (bound (ss_y sec)) (b, com, el) ->
  exists! rnd, aff_gs_draw S N0 N1 rnd /\
    one_run (aff_gs_commit S pub) (aff_gs_respond S sec pub) rnd b com el.
Proof.
  intros [(_ & _ & (cz & Ucz & ez & Hez & Ea) & Ex & (yi & Uyi & Eb)) [I0 I0' I2 I3 I4 I5 I6 I7 I8 I9]].
  cbn [fst snd] in *. rewrite E0, E1, Hc, Hd, HY in *. cbn [ct_val] in *. rewrite Hcx in Ex.
  destruct Hrho as [Hr0 Hrg], Hmu as [Hm0 Hmg], Huc as [Hc0 Hcg].
  assert (Ng : 1 < N0) by apply HN0. assert (Ng1 : 1 < N1) by apply HN1.
  set (z := sval w (sl_z el)) in *. set (v := sval w (sl_zp el)) in *.
  destruct (inner_draw ma (sp_l S) _ _ b ltac:(destruct HS; lia) I4 Hxr) as [Da _].
  pose proof (inner_neg mb (sp_lp S) _ b Hyr ltac:(destruct HS; lia) I7) as Db.
  apply unit_power_zpow in Ucz; [|nia|apply gcd_sq; auto; lia].
  apply unit_power_zpow in Uyi; [|nia|now apply encv_gcd2].
  apply encv_textbook in Hez; [|exact Ng]. apply encv_textbook in Eb; [|exact Ng1]. subst cz ez yi.
  change (affv N0 c z v (sl_w el) = (sc_a com * affv N0 c x (- y) (ss_rho sec) ^ b2z b) mod (N0 * N0)) in Ea.
  apply affv_commitment in Ea; auto.
  apply pmul_sub in Ex.
  set (r := (zpow N0 (ss_rho sec) (- b2z b) * sl_w el) mod N0) in *.
  set (s := (zpow N1 (ss_mu sec) (- - b2z b) * sl_lambda el) mod N1).
  pose proof (masked_unit N0 (ss_rho sec) (- b2z b) _ Ng Hrg I8) as [Hr1 Hr2]. fold r in Hr1, Hr2.
  pose proof (masked_unit N1 (ss_mu sec) (- - b2z b) _ Ng1 Hmg I9) as [Hs1 Hs2]. fold s in Hs1, Hs2.
  assert (Es : encv N1 (v - - y * b2z b) s = sc_b com).
  { apply eqm_small with (N1 * N1); [apply encv_range; lia|auto|].
    set (Y := encv N1 y (ss_mu sec)) in *.
    assert (HYg : Z.gcd Y (N1 * N1) = 1) by (now apply encv_gcd2).
    apply gauss_eqm with (zpow (N1 * N1) Y (- b2z b)); [nia|apply zpow_gcd; auto; nia|].
    transitivity (encv N1 v (sl_lambda el)).
    2:{ rewrite <- Eb, eqm_mod. apply eqm_eq. ring. }
    unfold Y. rewrite encv_zpow by auto. unfold eqm. rewrite encv_mul by auto.
    rewrite (Z.mod_small (encv N1 v _)) by (apply encv_range; lia). f_equal; [ring|].
    unfold s. apply masked_inv; auto. apply I9. }
  set (rnd := AffGStarRand (z - x * b2z b + (2 ^ (ma - 1) - 1)) (v - - y * b2z b + (2 ^ (mb - 1) - 1)) r s).
  exists rnd. split.
  - assert (Hok : aff_gs_rand_ok S N0 N1 rnd)
      by (split; [exact Da|exact Db|split; [exact (proj1 Hr1)|exact Hr2]|split; [exact (proj1 Hs1)|exact Hs2]]).
    split; [split; [exact Hok|split; [exact (proj2 Hr1)|exact (proj2 Hs1)]]|].
    destruct (aff_gs_commit_val rnd Hok) as (alpha & beta & Ka & Kb & Ec).
    replace (mask ma (sr_alpha rnd)) with (z - x * b2z b) in * by (unfold mask; cbn; lia).
    replace (mask mb (sr_beta rnd)) with (v - - y * b2z b) in * by (unfold mask; cbn; lia).
    exists (AffGStarEph alpha beta r s). split.
    { rewrite Ec. do 2 f_equal. destruct com as [a cb cc]. cbn [sc_a sc_r sc_b] in *. f_equal; auto. }
    destruct (aff_gs_respond_val alpha beta r s _ _ b Ka Kb) as (z' & v' & Kz & Kv & Er). rewrite Er. f_equal.
    replace (z - x * b2z b + x * b2z b) with z in Kz by ring.
    replace (v - - y * b2z b + - y * b2z b) with v in Kv by ring.
    destruct el as [ez ev nu la]. cbn [sl_z sl_zp sl_w sl_lambda] in *. f_equal.
    + apply (has_eq w _ _ z _ Kz). split; auto.
    + apply (has_eq w _ _ v _ Kv). split; auto.
    + unfold r. apply masked_inv; auto. apply I8.
    + unfold s. apply masked_inv; auto. apply I9.
  - intros rnd' ((Hok & Hr' & Hs') & eph & Ec & Er).
    destruct (aff_gs_commit_val rnd' Hok) as (alpha & beta & Ka & Kb & Ec'). rewrite Ec in Ec'. injection Ec' as -> _.
    destruct (aff_gs_respond_val alpha beta (sr_r rnd') (sr_s rnd') _ _ b Ka Kb) as (z' & v' & Kz & Kv & Er').
    rewrite Er in Er'. injection Er' as Er'.
    apply has_sval in Kz, Kv. pose proof (f_equal sl_z Er') as F1. pose proof (f_equal sl_zp Er') as F2.
    pose proof (f_equal sl_w Er') as F3. pose proof (f_equal sl_lambda Er') as F4.
    cbn [sl_z sl_zp sl_w sl_lambda] in F1, F2, F3, F4. rewrite <- F1 in Kz. rewrite <- F2 in Kv.
    fold z in Kz. fold v in Kv. destruct rnd' as [a' b' r' s']. unfold rnd, mask in *. cbn [sr_alpha sr_beta sr_r sr_s] in *.
    f_equal; [lia|lia| |].
    + apply (masked_inj N0 (ss_rho sec) (b2z b)); auto; [split; [apply Hok|exact Hr']|].
      rewrite <- F3. unfold r. apply masked_inv; auto. apply I8.
    + apply (masked_inj N1 (ss_mu sec) (- b2z b)); auto; [split; [apply Hok|exact Hs']|].
      rewrite <- F4. unfold s. apply masked_inv; auto. apply I9.
Qed.

Lemma aff_gs_new_run (X : xof A (pt C)) aux rnds pf : length rnds = Z.to_nat (sp_kappa S) ->
  (aff_gs_new S X sec pub aux rnds = Ret pf <->
   sg_e pf = aff_gs_challenge S X (sg_coms pf) pub aux /\
   all_run (aff_gs_commit S pub) (aff_gs_respond S sec pub) rnds (sg_e pf) (sg_coms pf) (sg_elems pf)).
Proof.
  pose proof (has_self _ _ Hx) as Kx. rewrite Hxv in Kx.
  pose proof (has_self _ _ Hy) as Ky. rewrite Hyv in Ky.
  intros Hl. unfold aff_gs_new. rewrite Hl, Nat.eqb_refl. cbn [oassert obind].
    rewrite (has_assert_range _ _ _ _ (sp_l S) Kx) by (auto; destruct HS; lia). cbn [obind].
    rewrite (has_assert_range _ _ _ _ (sp_lp S) Ky) by (auto; destruct HS; lia). cbn [obind].
    rewrite E0, E1, Hc, Hd, HY. cbn [ct_pk]. rewrite !Z.eqb_refl. cbn [oassert obind].
    unfold all_run. destruct (omap (aff_gs_commit S pub) rnds) as [ecs|]; cbn [obind].
    2:{ split; [discriminate|]. intros (_ & ecs & [=] & _). }
    split.
    - destruct (omap (aff_gs_respond S sec pub) _) as [ls|] eqn:El; cbn [obind]; [|discriminate].
      intros [= <-]. cbn [sg_e sg_coms sg_elems]. split; [reflexivity|]. exists ecs. auto.
    - intros (He & ecs' & [= <-] & Em & El). rewrite Em. cbv zeta. rewrite <- He, El. cbn [obind]. destruct pf; reflexivity.
Qed.

Lemma aff_gs_hides_sec (X : xof A (pt C)) aux pf : xof_ok q X ->
  Forall (aff_gs_inner S N0 N1 (bound (ss_x sec)) (bound (ss_y sec))) (combine (combine (sg_e pf) (sg_coms pf)) (sg_elems pf)) ->
  length (sg_e pf) = Z.to_nat (sp_kappa S) -> length (sg_coms pf) = Z.to_nat (sp_kappa S) ->
  length (sg_elems pf) = Z.to_nat (sp_kappa S) ->
  (aff_gs_verify S X pf pub aux = Ret true <->
   exists! rnds, (length rnds = Z.to_nat (sp_kappa S) /\ Forall (aff_gs_draw S N0 N1) rnds) /\
     aff_gs_new S X sec pub aux rnds = Ret pf).
Proof.
  intros HX HI L1 L2 L3.
  pose proof (has_self _ _ Hx) as Kx. rewrite Hxv in Kx.
  pose proof (has_self _ _ Hy) as Ky. rewrite Hyv in Ky.
  pose proof (fun rnds => aff_gs_new_run X aux rnds pf) as Hnew.
  split.
  - intros V. apply aff_gs_accept in V; auto.
    + destruct V as (_ & _ & _ & He & _ & _ & _ & Hall).
      destruct (parallel_hide (aff_gs_commit S pub) (aff_gs_respond S sec pub) (aff_gs_draw S N0 N1)
        (fun t => aff_gs_elem_ok S pub t /\ aff_gs_inner S N0 N1 (bound (ss_x sec)) (bound (ss_y sec)) t)
        aff_gs_hide_step (sg_e pf) (sg_coms pf) (sg_elems pf)) as (rs & ((Lr & Hr) & Hrun) & Uq); try congruence.
      { apply Forall_and; [|exact HI]. apply Forall_combine3; congruence || exact Hall. }
      exists rs. split.
      * split; [split; [congruence|exact Hr]|]. apply Hnew; [congruence|]. auto.
      * intros rs' ((Lr' & Hr') & E). apply Uq. split; [split; [congruence|exact Hr']|]. apply Hnew in E; tauto.
    + apply Forall_forall. intros el Hin.
      apply In_nth_error in Hin. destruct Hin as (i & Hi).
      assert (Hlt : (i < Z.to_nat (sp_kappa S))%nat) by (rewrite <- L3; apply nth_error_Some; congruence).
      destruct (nth_error (sg_e pf) i) as [b|] eqn:Eb; [|apply nth_error_None in Eb; lia].
      destruct (nth_error (sg_coms pf) i) as [m|] eqn:Em; [|apply nth_error_None in Em; lia].
      rewrite Forall_combine3 in HI by congruence. specialize (HI i b m el Eb Em Hi).
      destruct HI as [_ _ J1 _ _ J2 _ _ [J3 _] [J4 _]]. cbn [fst snd] in *. split; [auto|]. split; [auto|]. lia.
    + now rewrite E0.
    + now rewrite E1.
    + rewrite Hc. apply Huc.
    + rewrite HY. cbn [ct_val]. apply encv_range. destruct HN1. lia.
  - intros (rs & ((Lr & Hr) & E) & _).
    destruct (aff_gs_run S C A HS HC X sec pub aux rs x y N0 N1 c) as (pf' & r & E' & V & Lc & Hres); auto.
    { eapply Forall_impl; [|exact Hr]. now intros ? [? _]. }
    rewrite E in E'. injection E' as <-. rewrite V. f_equal. apply Hres.
    apply Hnew in E; [|exact Lr]. destruct E as [_ Hrun].
    refine (parallel_in _ _ _ _ _ rs (sg_e pf) _ _ _ _ Hr Hrun HI); [|congruence].
    intros rnd b com el (Hok & _) (eph & Ec & Er) HI1.
    destruct (aff_gs_commit_val rnd Hok) as (alpha & beta & Ka & Kb & Ec'). rewrite Ec in Ec'. injection Ec' as -> _.
    destruct (aff_gs_respond_val alpha beta (sr_r rnd) (sr_s rnd) _ _ b Ka Kb) as (z' & v' & Kz & Kv & Er').
    rewrite Er in Er'. injection Er' as ->. destruct HI1 as [_ _ _ _ I4 _ _ I7 _ _]. cbn [fst snd sl_z sl_zp] in *.
    rewrite (has_sval _ _ _ _ Kz) in I4. rewrite (has_sval _ _ _ _ Kv) in I7.
    split; cbn [fst snd].
    + apply (inner_draw ma (sp_l S) _ _ b ltac:(destruct HS; lia) I4 Hxr).
    + replace (mask mb (sr_beta rnd) - y * b2z b) with (mask mb (sr_beta rnd) + - y * b2z b) by ring.
      apply (inner_draw mb (sp_lp S) _ _ b ltac:(destruct HS; lia) I7 Hyr).
Qed.

Lemma aff_gs_inner_run (X : xof A (pt C)) aux rnds : xof_ok q X ->
  length rnds = Z.to_nat (sp_kappa S) -> Forall (aff_gs_draw S N0 N1) rnds -> Forall (aff_gs_margin S) rnds ->
  exists pf, aff_gs_new S X sec pub aux rnds = Ret pf /\ aff_gs_verify S X pf pub aux = Ret true /\
    Forall (aff_gs_inner S N0 N1 (bound (ss_x sec)) (bound (ss_y sec))) (combine (combine (sg_e pf) (sg_coms pf)) (sg_elems pf)) /\
    length (sg_e pf) = Z.to_nat (sp_kappa S) /\ length (sg_coms pf) = Z.to_nat (sp_kappa S) /\
    length (sg_elems pf) = Z.to_nat (sp_kappa S).
Proof.
  intros HX Hl Hdr Hmg.
  destruct (aff_gs_run S C A HS HC X sec pub aux rnds x y N0 N1 c) as (pf & r & E & V & Lc & Hres); auto.
  { eapply Forall_impl; [|exact Hdr]. now intros ? [? _]. }
  exists pf. split; [exact E|].
  pose proof E as E'. apply aff_gs_new_run in E'; [|exact Hl]. destruct E' as [_ Hrun].
  assert (HI : Forall (aff_gs_inner S N0 N1 (bound (ss_x sec)) (bound (ss_y sec)))
    (combine (combine (sg_e pf) (sg_coms pf)) (sg_elems pf))).
  { refine (parallel_out _ _ (fun rnd => aff_gs_draw S N0 N1 rnd /\ aff_gs_margin S rnd) _ rnds (sg_e pf) _ _ _ _ _ Hrun).
    2: congruence. 2: now apply Forall_and.
    intros rnd b com el ((Hok & Hrn & Hsn) & (M1 & M2)) (eph & Ec & Er).
    destruct (aff_gs_commit_val rnd Hok) as (alpha & beta & Ka & Kb & Ec'). rewrite Ec in Ec'. injection Ec' as -> ->.
    destruct (aff_gs_respond_val alpha beta (sr_r rnd) (sr_s rnd) _ _ b Ka Kb) as (z' & v' & Kz & Kv & Er').
    rewrite Er in Er'. injection Er' as ->.
    assert (Ng : 1 < N0) by apply HN0. assert (Ng1 : 1 < N1) by apply HN1.
    split; cbn [fst snd sc_a sc_b sl_z sl_zp sl_w sl_lambda].
    - apply affv_range; auto.
    - apply encv_range; lia.
    - apply Kz.
    - apply Kz.
    - rewrite (has_sval _ _ _ _ Kz). apply (mask_inner _ _ x b); auto. destruct HS; lia.
    - apply Kv.
    - apply Kv.
    - rewrite (has_sval _ _ _ _ Kv). apply (mask_inner _ _ y b); auto. destruct HS; lia.
    - apply masked_unit; auto; [apply Hrho|]. destruct Hok as [_ _ [? ?] _]. split; auto.
    - apply masked_unit; auto; [apply Hmu|]. destruct Hok as [_ _ _ [? ?]]. split; auto. }
  assert (L : length (sg_coms pf) = Z.to_nat (sp_kappa S) /\ length (sg_elems pf) = Z.to_nat (sp_kappa S)).
  { destruct Hrun as (ecs & Ec & <- & El). rewrite map_length. pose proof (omap_length _ _ _ Ec) as Le.
    pose proof (omap_length _ _ _ El) as Le2. rewrite combine_length, map_length in Le2. lia. }
  split; [|tauto]. rewrite V. f_equal. apply Hres.
  refine (parallel_in _ _ _ _ _ rnds (sg_e pf) _ _ _ _ Hdr Hrun HI); [|congruence].
  intros rnd b com el (Hok & _) (eph & Ec & Er) HI1.
  destruct (aff_gs_commit_val rnd Hok) as (alpha & beta & Ka & Kb & Ec'). rewrite Ec in Ec'. injection Ec' as -> _.
  destruct (aff_gs_respond_val alpha beta (sr_r rnd) (sr_s rnd) _ _ b Ka Kb) as (z' & v' & Kz & Kv & Er').
  rewrite Er in Er'. injection Er' as ->. destruct HI1 as [_ _ _ _ I4 _ _ I7 _ _]. cbn [fst snd sl_z sl_zp] in *.
  rewrite (has_sval _ _ _ _ Kz) in I4. rewrite (has_sval _ _ _ _ Kv) in I7.
  split; cbn [fst snd].
  - apply (inner_draw ma (sp_l S) _ _ b ltac:(destruct HS; lia) I4 Hxr).
  - replace (mask mb (sr_beta rnd) - y * b2z b) with (mask mb (sr_beta rnd) + - y * b2z b) by ring.
    apply (inner_draw mb (sp_lp S) _ _ b ltac:(destruct HS; lia) I7 Hyr).
Qed.
End AffGStar.

(** The two statements with the hypotheses of C40 and C39. *)
Lemma dec_hides (X : xof A (pt C)) sec (pub : dec_public C) setup aux x y pf :
  xof_ok q X -> secret_of S (sp_l S) (ds_x sec) x ->
  let N := dp_pk0 pub in
  let n := dp_num_parties pub in
  2 <= n < 2 ^ 64 -> wf w (ds_y sec) -> sval w (ds_y sec) = y -> pm_interval (dec_y_exp S n) y ->
  modulus_ok S N -> unit_ok N (ds_rho sec) ->
  ct_pk (dp_cap_k pub) = N -> ct_pk (dp_cap_d pub) = N -> unit_ok N (ct_val (dp_cap_k pub)) ->
  affine_cipher N (ct_val (dp_cap_k pub)) (- x) y (ds_rho sec) (ct_val (dp_cap_d pub)) ->
  dp_cap_x pub = pmul C x (gen C) -> dp_cap_s pub = pmul C y (dp_cap_g pub) ->
  Forall (dec_inner S N n (bound (ds_x sec)) (bound (ds_y sec))) (combine (combine (dg_e pf) (dg_coms pf)) (dg_elems pf)) ->
  length (dg_e pf) = Z.to_nat (sp_kappa S) -> length (dg_coms pf) = Z.to_nat (sp_kappa S) ->
  length (dg_elems pf) = Z.to_nat (sp_kappa S) ->
  (dec_verify S X pf pub setup aux = Ret true <->
   exists! rnds, (length rnds = Z.to_nat (sp_kappa S) /\ Forall (dec_draw S N n) rnds) /\
     dec_new S X sec pub setup aux rnds = Ret pf).
Proof.
  intros HX (W & V & B & I) N n Hn W2 V2 I2 HN Hr P1 P2 Hk Hd Hx Hs HI L1 L2 L3.
  apply (dec_hides_sec sec pub x y N (ct_val (dp_cap_k pub)) n); auto.
  - rewrite <- P1. destruct (dp_cap_k pub); reflexivity.
  - apply cipher_affv; auto; [apply HN|apply Hk].
Qed.

Lemma aff_gs_hides (X : xof A (pt C)) sec (pub : aff_g_public C) aux x y pf :
  xof_ok q X -> secret_of S (sp_l S) (ss_x sec) x -> secret_of S (sp_lp S) (ss_y sec) y ->
  let N0 := ap_pk0 pub in
  let N1 := ap_pk1 pub in
  modulus_ok S N0 -> modulus_ok S N1 -> unit_ok N0 (ss_rho sec) -> unit_ok N1 (ss_mu sec) ->
  ct_pk (ap_cap_c pub) = N0 -> ct_pk (ap_cap_d pub) = N0 -> ct_pk (ap_cap_y pub) = N1 ->
  unit_ok N0 (ct_val (ap_cap_c pub)) ->
  affine_cipher N0 (ct_val (ap_cap_c pub)) x (- y) (ss_rho sec) (ct_val (ap_cap_d pub)) ->
  paillier_cipher N1 y (ss_mu sec) (ct_val (ap_cap_y pub)) ->
  ap_cap_x pub = pmul C x (gen C) ->
  Forall (aff_gs_inner S N0 N1 (bound (ss_x sec)) (bound (ss_y sec))) (combine (combine (sg_e pf) (sg_coms pf)) (sg_elems pf)) ->
  length (sg_e pf) = Z.to_nat (sp_kappa S) -> length (sg_coms pf) = Z.to_nat (sp_kappa S) ->
  length (sg_elems pf) = Z.to_nat (sp_kappa S) ->
  (aff_gs_verify S X pf pub aux = Ret true <->
   exists! rnds, (length rnds = Z.to_nat (sp_kappa S) /\ Forall (aff_gs_draw S N0 N1) rnds) /\
     aff_gs_new S X sec pub aux rnds = Ret pf).
Proof.
  intros HX (W & V & B & I) (W2 & V2 & B2 & I2) N0 N1 HN0 HN1 Hr Hr1 P1 P2 P3 Hc Hd Hy Hx HI L1 L2 L3.
  apply (aff_gs_hides_sec sec pub x y N0 N1 (ct_val (ap_cap_c pub))); auto.
  - rewrite <- P1. destruct (ap_cap_c pub); reflexivity.
  - apply cipher_affv; auto; [apply HN0|apply Hc].
  - apply cipher_encv; auto. apply HN1.
Qed.

Lemma dec_inner_honest (X : xof A (pt C)) sec (pub : dec_public C) setup aux rnds x y :
  xof_ok q X -> secret_of S (sp_l S) (ds_x sec) x ->
  let N := dp_pk0 pub in
  let n := dp_num_parties pub in
  2 <= n < 2 ^ 64 -> wf w (ds_y sec) -> sval w (ds_y sec) = y -> pm_interval (dec_y_exp S n) y ->
  modulus_ok S N -> unit_ok N (ds_rho sec) ->
  ct_pk (dp_cap_k pub) = N -> ct_pk (dp_cap_d pub) = N -> unit_ok N (ct_val (dp_cap_k pub)) ->
  affine_cipher N (ct_val (dp_cap_k pub)) (- x) y (ds_rho sec) (ct_val (dp_cap_d pub)) ->
  dp_cap_x pub = pmul C x (gen C) -> dp_cap_s pub = pmul C y (dp_cap_g pub) ->
  length rnds = Z.to_nat (sp_kappa S) -> Forall (dec_draw S N n) rnds -> Forall (dec_margin S n) rnds ->
  exists pf, dec_new S X sec pub setup aux rnds = Ret pf /\ dec_verify S X pf pub setup aux = Ret true /\
    Forall (dec_inner S N n (bound (ds_x sec)) (bound (ds_y sec))) (combine (combine (dg_e pf) (dg_coms pf)) (dg_elems pf)) /\
    length (dg_e pf) = Z.to_nat (sp_kappa S) /\ length (dg_coms pf) = Z.to_nat (sp_kappa S) /\
    length (dg_elems pf) = Z.to_nat (sp_kappa S).
Proof.
  intros HX (W & V & B & I) N n Hn W2 V2 I2 HN Hr P1 P2 Hk Hd Hx Hs L Hdr Hm.
  apply (dec_inner_run sec pub x y N (ct_val (dp_cap_k pub)) n); auto.
  - rewrite <- P1. destruct (dp_cap_k pub); reflexivity.
  - apply cipher_affv; auto; [apply HN|apply Hk].
Qed.

Lemma aff_gs_inner_honest (X : xof A (pt C)) sec (pub : aff_g_public C) aux rnds x y :
  xof_ok q X -> secret_of S (sp_l S) (ss_x sec) x -> secret_of S (sp_lp S) (ss_y sec) y ->
  let N0 := ap_pk0 pub in
  let N1 := ap_pk1 pub in
  modulus_ok S N0 -> modulus_ok S N1 -> unit_ok N0 (ss_rho sec) -> unit_ok N1 (ss_mu sec) ->
  ct_pk (ap_cap_c pub) = N0 -> ct_pk (ap_cap_d pub) = N0 -> ct_pk (ap_cap_y pub) = N1 ->
  unit_ok N0 (ct_val (ap_cap_c pub)) ->
  affine_cipher N0 (ct_val (ap_cap_c pub)) x (- y) (ss_rho sec) (ct_val (ap_cap_d pub)) ->
  paillier_cipher N1 y (ss_mu sec) (ct_val (ap_cap_y pub)) ->
  ap_cap_x pub = pmul C x (gen C) ->
  length rnds = Z.to_nat (sp_kappa S) -> Forall (aff_gs_draw S N0 N1) rnds -> Forall (aff_gs_margin S) rnds ->
  exists pf, aff_gs_new S X sec pub aux rnds = Ret pf /\ aff_gs_verify S X pf pub aux = Ret true /\
    Forall (aff_gs_inner S N0 N1 (bound (ss_x sec)) (bound (ss_y sec))) (combine (combine (sg_e pf) (sg_coms pf)) (sg_elems pf)) /\
    length (sg_e pf) = Z.to_nat (sp_kappa S) /\ length (sg_coms pf) = Z.to_nat (sp_kappa S) /\
    length (sg_elems pf) = Z.to_nat (sp_kappa S).
Proof.
  intros HX (W & V & B & I) (W2 & V2 & B2 & I2) N0 N1 HN0 HN1 Hr Hr1 P1 P2 P3 Hc Hd Hy Hx L Hdr Hm.
  apply (aff_gs_inner_run sec pub x y N0 N1 (ct_val (ap_cap_c pub))); auto.
  - rewrite <- P1. destruct (ap_cap_c pub); reflexivity.
  - apply cipher_affv; auto; [apply HN0|apply Hc].
  - apply cipher_encv; auto. apply HN1.
Qed.
End HideInt.
