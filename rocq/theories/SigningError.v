(** * The error rounds of a session whose first two rounds were honest
    (properties C68 and C69): proofs. *)
From Coq Require Import ZArith Lia.
From Verif Require Import Base BaseFacts ModArith EncodingModel SignedModel SignedSpec PaillierModel PaillierSpec PaillierProofs ZkBase ZkModel ZkSpec ZkFacts
  ElogModel ElogProofs ZkLemmas ZkExtract DecForgeSpec DecForge.
From mathcomp Require Import all_ssreflect.
From Verif Require Import AlgBase AlgFacts ProtoBase ProtoSpec ProtoFacts AuxGenModel SigningSpec SigningModel SigningAlgebra SigningSums
  SigningProofs SigningShares SigningEvidence MtaSpec MtaProofs SigningHonestSpec SigningHonest SigningMain SigningHonestMain SigningBranchSpec SigningBranch SigningErrorSpec ErrorProofs ErrorView.
Set Implicit Arguments.
Unset Strict Implicit.
Unset Printing Implicit Defensive.
Local Open Scope Z_scope.

(** ** Sums and products *)
Lemma zsum_eqm (I : eqType) n (f g : I -> Z) s : {in s, forall j, eqm n (f j) (g j)} -> eqm n (zsum f s) (zsum g s).
Proof.
elim: s => [|i s IH] h //; rewrite -[zsum f _]/(f i + zsum f s) -[zsum g _]/(g i + zsum g s).
apply: eqm_add; first by apply: h; rewrite mem_head.
by apply: IH => j hj; apply: h; rewrite inE hj orbT.
Qed.
Lemma encrypts_prod (I : eqType) N0 (f v : I -> Z) s : 1 < N0 -> {in s, forall j, encrypts N0 (f j) (v j)} ->
  encrypts N0 (foldr Z.mul 1 [seq f j | j <- s] mod (N0 * N0)) (zsum v s).
Proof.
move=> h1; elim: s => [|i s IH] h /=.
  exists 1; split; first by rewrite Z.gcd_1_l.
  apply/encv_textbook; first lia.
  by rewrite /encv Z.mul_0_l Z.add_0_r Z.mul_1_l Z.pow_1_l //; lia.
rewrite -Z.mul_mod_idemp_r; last lia.
apply: encrypts_mul => //; first by apply: h; rewrite mem_head.
by apply: IH => j hj; apply: h; rewrite inE hj orbT.
Qed.

Lemma zsum_bound (I : eqType) (v : I -> Z) s B : {in s, forall j, Z.abs (v j) <= B} -> Z.abs (zsum v s) <= Z.of_nat (size s) * B.
Proof.
elim: s => [|i s IH] h //.
have := h i (mem_head _ _); have : Z.abs (zsum v s) <= Z.of_nat (size s) * B.
  by apply: IH => j hj; apply: h; rewrite inE hj orbT.
rewrite -[size (i :: s)]/(size s).+1 Nat2Z.inj_succ Z.mul_succ_l -[zsum v (i :: s)]/(v i + zsum v s); lia.
Qed.

Lemma aget_flatten (K J : eqType) A (f : J -> seq (K * A)) (s : seq J) (a : K) (b : J) : uniq s ->
  aget (flatten [seq [seq ((e.1, j), e.2) | e <- f j] | j <- s]) (a, b) = if b \in s then aget (f b) a else None.
Proof.
have cat (m m' : seq ((K * J) * A)) k : aget (m ++ m') k = if aget m k is Some x then Some x else aget m' k.
  by elim: m => [|[k' x] m IH] //=; case: ifP.
have one (m : seq (K * A)) (j : J) : aget [seq ((e.1, j), e.2) | e <- m] (a, b) = if b == j then aget m a else None.
  elim: m => [|[k x] m IH] /=; first by case: ifP.
  rewrite IH xpair_eqE; case: (b == j); rewrite ?andbT ?andbF //.
elim: s => [|j s IH] //= /andP [nj hu]; rewrite cat one inE IH //.
case: eqP => [->|_] //=; rewrite (negbTE nj); by case: (aget _ _).
Qed.

Section Err.
Variables (S : sparams) (C : curve) (I : eqType) (le : rel I) (HO : eqType).
Notation item := (hitem HO I (pt C)).
Notation q := (sp_q S).
Notation w := (uint_w (sp_pail S)).
Notation G := (gen C).
Variables (H : dst -> seq item -> HO) (X : xof (seq item) (pt C)) (scheme : seq item).
Variables (xcoord : pt C -> Z) (lift_x : nat -> Z -> option (pt C)) (positional : bool).
Hypothesis (HG : good_params S) (HC : curve_ok q C) (HXO : xof_ok q X).
Hypothesis ho : total_order le.
Variables (p : parties I) (d : draws I) (randomness text : seq Z).
Hypotheses (hp : parties_ok S le p) (hd : draws_ok S p d).
Notation ids := (py_ids p).
Hypotheses (h2 : (1 < size ids)%N) (h18 : Z.of_nat (size ids) <= 2 ^ 18).
Notation N := (py_N p).
Notation x_ := (py_secret p).
Notation k_ i := (g1_k (dr_1 d i)).
Notation g_ i := (g1_gamma (dr_1 d i)).
Notation K i := (ciph S p i (k_ i) (g1_rho (dr_1 d i))).
Notation ctx := (ctx S H scheme p d randomness text).
Notation mtv := (mtv S H X scheme p d randomness text).
Notation al := (al S p).
Notation be := (be S).
Notation df := (df p).
Notation val := (val S).
Notation sec := (sec S).
Notation rpr := (rpr p).

Let HS := good_ok S HG.
Let q1 : 1 < q.
Proof. exact: (proj1 (q_le S HG)). Qed.
Let hu : uniq ids. Proof. exact: pk_uniq hp. Qed.
Let pmm a P : pmul C (a mod q) P = pmul C a P.
Proof. exact: (pmul_modq HC q1). Qed.
Let inw i j : j \in without ids i -> j \in ids /\ j != i.
Proof. by rewrite mem_filter => /andP []. Qed.

(** ** One family of products *)
Section Family.
Variables (z : I -> Z) (rr : I -> I -> mta_rand) (mm : I -> I -> mta C).
Hypothesis hz : {in ids, forall i, 0 <= z i < q}.
Hypothesis hm : forall i j, mm i j = mtv i j (z i) (rr i j).
Hypothesis hr : {in ids &, forall i j, i != j -> mta_rand_ok S (N j) (N i) (rp_n (py_rp p j)) (rr i j)}.
Notation bv i j := (ZkSpec.mask (sp_lp S) (mr_beta (rr i j))).
Notation D a b := (ct_val (mt_d (mm b a))).
Notation F a b := (ct_val (mt_f (mm b a))).

Lemma KE i : i \in ids -> ct_to_precomputed (N i) (K i) = Ct (N i) (K i).
Proof.
move=> hi; have [rk rg rr' rn] := do_1 hd hi; have [_ _ hcr] := ciphP HG hp hi rk rr'.
by rewrite /ct_to_precomputed Z.mod_small.
Qed.

Lemma mm_facts i j : i \in ids -> j \in ids -> i != j ->
  [/\ secret_of S (sp_lp S) (mt_beta (mm i j)) (bv i j), mt_r (mm i j) = mr_r (rr i j), mt_s (mm i j) = mr_s (rr i j),
      mt_d (mm i j) = Ct (N j) (D j i) & mt_f (mm i j) = Ct (N i) (F j i)] /\
  [/\ 0 <= D j i < N j * N j, 0 <= F j i < N i * N i,
      encrypts (N j) (D j i) (val (k_ j) * val (z i) - bv i j),
      paillier_cipher (N i) (bv i j) (mr_r (rr i j)) (F j i) &
      affine_cipher (N j) (K j) (val (z i)) (- bv i j) (mr_s (rr i j)) (D j i)].
Proof.
move=> hi hj ne; have [_ _ hNi] := pN HG hp hi; have [_ _ hNj] := pN HG hp hj.
have [_ hx hxm] := secP HG (hz hi); have [rk rg rho rn] := do_1 hd hj.
have [_ hk hkm] := secP HG rk; have [_ hc hcr] := ciphP HG hp hj rk rho; have [hrp _] := rprP hp hj.
have [|m [E [h1 [h2' [h3 [h4 [h5 [h6 [h7 [h8 [h9 [h10 _]]]]]]]]]]]] :=
  @mta_run S C I HO HG HC X _ _ _ (sg_aux (ctx i) i) _ _ (pmul C (z i) G) _ _ _ (rr i j) HXO hNj hNi hrp hx _ rho hc (hr hi hj ne).
  by rewrite -(pmm (val (z i))) hxm.
have -> : mm i j = m by rewrite hm /mtv /SigningHonest.mtv KE // E.
split; split=> //.
- by case: (mt_d m) h4 => ? ? /= ->.
- by case: (mt_f m) h5 => ? ? /= ->.
Qed.

Lemma df_lookup v a b : v \in ids -> a \in ids -> b \in ids -> a != b ->
  aget (df_matrix v [seq (j, mm v j) | j <- without ids v] [seq (j, df mm j) | j <- without ids v]) (a, b)
    = Some (Ct (N a) (D a b), Ct (N b) (F a b)).
Proof.
move=> hv ha hb ne; have nba : b != a by rewrite eq_sym.
have [[_ _ _ e1 e2] [r1 r2 _ _ _]] := mm_facts hb ha nba.
have cat (m m' : seq ((I * I) * (ciphertext * ciphertext))) k : aget (m ++ m') k = if aget m k is Some x then Some x else aget m' k.
  by elim: m => [|[k' x] m IH] //=; case: ifP.
have own s : aget [seq ((e.1, v), (mt_d e.2, mt_f e.2)) | e <- [seq (j, mm v j) | j <- s]] (a, b)
    = if (b == v) && (a \in s) then Some (mt_d (mm v a), mt_f (mm v a)) else None.
  elim: s => [|j s IH] /=; first by rewrite andbF.
  rewrite IH xpair_eqE inE andbC; case: (b == v) => //=; by case: eqP => [->|].
rewrite /df_matrix cat own.
case: eqP => [E|/eqP nb] /=; first by rewrite -E mem_filter ne ha /= e1 e2.
rewrite -map_comp -[flatten _]/(flatten [seq [seq ((e.1, j), e.2) | e <- df mm j] | j <- without ids v]).
rewrite aget_flatten; last by rewrite filter_uniq.
rewrite mem_filter nb hb /= /df /SigningHonest.df aget_tab mem_filter ne ha /=.
by rewrite /ct_to_precomputed !Z.mod_small.
Qed.

(** What the joined ciphertext of [l] holds, and the plaintext of its product. *)
Definition masks (l : I) : Z :=
  zsum (fun j => val (k_ l) * val (z j) - bv j l) (without ids l) + zsum (fun j => bv l j) (without ids l).
Definition plain (l : I) : Z := val (k_ l) * val (z l) + masks l.

Lemma joined_encrypts l : l \in ids -> encrypts (N l) (joined ids N (fun a b => D a b) (fun a b => F a b) l) (masks l).
Proof.
move=> hl; have [_ _ [h1 _]] := pN HG hp hl.
have -> : joined ids N (fun a b => D a b) (fun a b => F a b) l =
  ((foldr Z.mul 1 [seq D l j | j <- without ids l] mod (N l * N l)) * (foldr Z.mul 1 [seq F j l | j <- without ids l] mod (N l * N l))) mod (N l * N l).
  by rewrite -Z.mul_mod //; lia.
apply: encrypts_mul => //; apply: encrypts_prod => // j /inw [hj ne].
  by have [_ []] := mm_facts hj hl ne.
rewrite eq_sym in ne; have [_ [_ _ _ h _]] := mm_facts hl hj ne.
by have [_ [_ hg] _ _ _ _] := hr hl hj ne; exists (mr_r (rr l j)).
Qed.

Lemma plain_size l : l \in ids -> Z.abs (plain l) <= Z.of_nat (size ids) * 2 ^ (sp_lp S + 1).
Proof.
move=> hl; have sz : Z.of_nat (size ids) = Z.of_nat (size (without ids l)) + 1.
  by move/perm_size: (perm_without hu hl) => /= ->; lia.
have hk j : j \in ids -> Z.abs (val (k_ j)) <= 2 ^ (sp_l S - 1).
  by move=> hj; have [rk _ _ _] := do_1 hd hj; have [_ [_ [_ [_ [Lo Hi]]]] _] := secP HG rk; lia.
have hzz j : j \in ids -> Z.abs (val (z j)) <= 2 ^ (sp_l S - 1).
  by move=> hj; have [_ [_ [_ [_ [Lo Hi]]]] _] := secP HG (hz hj); lia.
have lp1 : 2 ^ (sp_lp S - 1) * 2 = 2 ^ sp_lp S by rewrite -[X in _ * X]Z.pow_1_r -Z.pow_add_r; try (congr (2 ^ _)); case: HS => *; lia.
have lp2 : 2 ^ sp_lp S * 2 = 2 ^ (sp_lp S + 1) by rewrite Z.pow_add_r //; case: HS => *; lia.
have ll : 2 ^ (sp_l S - 1) * 2 ^ (sp_l S - 1) <= 2 ^ (sp_lp S - 1).
  by rewrite -Z.pow_add_r; try (apply: Z.pow_le_mono_r); case: HS => *; lia.
have kz j i : j \in ids -> i \in ids -> Z.abs (val (k_ j) * val (z i)) <= 2 ^ (sp_lp S - 1).
  move=> hj hi; rewrite Z.abs_mul; apply: Z.le_trans ll.
  apply: Z.mul_le_mono_nonneg; try lia; [exact: hk|exact: hzz].
have hb i j : i \in ids -> j \in ids -> i != j -> Z.abs (bv i j) <= 2 ^ (sp_lp S - 1).
  by move=> hi hj ne; have [[[_ [_ [_ [Lo Hi]]]] _ _ _ _] _] := mm_facts hi hj ne; lia.
have b1 : Z.abs (zsum (fun j => val (k_ l) * val (z j) - bv j l) (without ids l)) <= Z.of_nat (size (without ids l)) * 2 ^ sp_lp S.
  by apply: zsum_bound => j /inw [hj ne]; have := kz l j hl hj; have := hb j l hj hl ne; lia.
have b2 : Z.abs (zsum (fun j => bv l j) (without ids l)) <= Z.of_nat (size (without ids l)) * 2 ^ sp_lp S.
  by apply: zsum_bound => j /inw [hj ne]; rewrite eq_sym in ne; have := hb l j hl hj ne; lia.
have := kz l l hl hl; rewrite /plain /masks sz -lp2; nia.
Qed.

Lemma scalar_beta i j : i \in ids -> j \in ids -> i != j -> be (mm i j) = bv i j mod q.
Proof.
move=> hi hj ne; have [[[wb [vb _]] _ _ _ _] _] := mm_facts hi hj ne.
rewrite /SigningHonest.be (scalar_of_secret_has S HS (mt_beta (mm i j)) (bv i j) (bound (mt_beta (mm i j)))) //.
Qed.

Lemma plain_mod l : l \in ids ->
  plain l mod q = (z l * k_ l + sum_scs S [seq al l (mm j l) | j <- without ids l] + sum_scs S [seq be (mm l j) | j <- without ids l]) mod q.
Proof.
move=> hl; rewrite !(sum_scsE q1) -[LHS]/(plain l mod q).
have vm a : 0 <= a < q -> eqm q (val a) a by move=> ha; have [_ _ E] := secP HG ha; rewrite /eqm E Z.mod_small.
have kE : eqm q (val (k_ l)) (k_ l) by apply: vm; case: (do_1 hd hl).
have zE j : j \in ids -> eqm q (val (z j)) (z j) by move=> /hz /vm.
rewrite -/(eqm q _ _) !eqm_mod /plain /masks Z.add_assoc.
apply: eqm_add; last first.
  by apply: zsum_eqm => j /inw [hj ne]; rewrite eq_sym in ne; rewrite scalar_beta // eqm_mod.
apply: eqm_add; first by rewrite kE zE // Z.mul_comm.
apply: zsum_eqm => j /inw [hj ne].
have [_ _ _ _] := mtP H scheme HG HC HXO randomness text hp hd hj hl (hz hj) (hr hj hl ne); rewrite -hm scalar_beta // => E.
have {}E : eqm q (al l (mm j l) + bv j l) (k_ l * z j) by rewrite /eqm -E Z.add_mod_idemp_r //; lia.
have -> : al l (mm j l) = al l (mm j l) + bv j l - bv j l by lia.
by rewrite /Z.sub E kE zE.
Qed.
End Family.

(** ** The states of the error rounds *)
Variables (o1 o2 o3 o4 : I -> seq I).
Hypothesis hord : {in ids, forall i, [/\ perm_eq (o1 i) (without ids i), perm_eq (o2 i) (without ids i),
  perm_eq (o3 i) (without ids i) & perm_eq (o4 i) (without ids i)]}.
Notation mt := (mt S H X scheme p d randomness text).
Notation ht := (ht S H X scheme p d randomness text).
Notation eb := (eb S C p d).
Notation m1 := (m1 S H X scheme p d randomness text).
Notation s2 := (s2 S H X scheme p d randomness text).
Notation s3 := (s3 S H X scheme p d randomness text).
Notation pl3 := (pl3 S H X scheme p d randomness text).
Notation Gam := (Gam C p d).
Notation until4 v m3 := (sg_until4 S le X xcoord (ctx v) (eb v) (dr_2 d v) (dr_3 d v) (m1 v) (fun j => sg_send2 (s2 j)) m3 (o1 v) (o2 v) (o3 v)).
Notation Dm mm := (fun a b => ct_val (mt_d (mm b a))).
Notation Fm mm := (fun a b => ct_val (mt_f (mm b a))).

Let gz : {in ids, forall i, 0 <= g_ i < q}. Proof. by move=> i /(do_1 hd) []. Qed.
Let grand : {in ids &, forall i j, i != j -> mta_rand_ok S (N j) (N i) (rp_n (py_rp p j)) (g2_mta (dr_2 d i) j)}.
Proof. by move=> i j hi hj ne; have [] := do_mta hd hi hj ne. Qed.
Let xz : {in ids, forall i, 0 <= x_ i < q}. Proof. exact: pk_secret hp. Qed.
Let xrand : {in ids &, forall i j, i != j -> mta_rand_ok S (N j) (N i) (rp_n (py_rp p j)) (g2_hat (dr_2 d i) j)}.
Proof. by move=> i j hi hj ne; have [] := do_mta hd hi hj ne. Qed.

Definition view5 (v : I) (f : I -> r3pl C) (s : sg_round56 C I HO) : Prop :=
  [/\ s5_ctx s = ctx v, s5_mta s = [seq (j, mt v j) | j <- without ids v] &
   view ids N rpr (fun i => K i) (Dm mt) (Fm mt) (fun j => pmul C (g_ j) G) (fun l => pmul C (l3_delta (f l)) G) G s].
Definition view6 (v : I) (f : I -> r3pl C) (s : sg_round56 C I HO) : Prop :=
  [/\ s5_ctx s = ctx v, s5_mta s = [seq (j, ht v j) | j <- without ids v] &
   view ids N rpr (fun i => K i) (Dm ht) (Fm ht) (fun j => pmul C (x_ j) G) (fun l => l3_cap_s (f l)) Gam s].

Lemma after3 v m3 n : v \in ids -> until4 v m3 = Accept n ->
  exists f : I -> r3pl C, [/\ f v = pl3 v, {in without ids v, forall l, sg_recv3 X (s3 v) l (m3 l) = Accept (f l)} &
    match n with ToRound4 _ => True | ToRound5 s => view5 v f s | ToRound6 s => view6 v f s end].
Proof.
move=> hv; have [p1 p2 p3 _] := hord hv.
rewrite /sg_until4 (huntil3 H scheme HG HC HXO ho randomness text hp hd hord) //= => U.
have [pl3' R3 {}U] := vbind_inv U.
have [_ _ get] := round_inv R3.
exists (fun l => if l == v then pl3 v else odflt (pl3 v) (aget pl3' l)).
rewrite eqxx; split=> //.
  move=> l hl; have [pl hr ->] := get l (eq_ind_r is_true hl (perm_mem p3 l)).
  by have [_ /negbTE ->] := inw hl.
have res (A : Type) (h : r3pl C -> A) l : l \in ids ->
   aget [seq (x.1, h x.2) | x <- binsert le pl3' v (pl3 v)] l = Some (h (if l == v then pl3 v else odflt (pl3 v) (aget pl3' l))).
  move=> hl; rewrite aget_map_val aget_binsert; case: eqP => // /eqP ne.
  by have [|pl _ ->] := get l; rewrite ?(perm_mem p3) ?mem_filter ?ne.
have ks l : l \in ids -> aget (binsert le [seq (x.1, l1_k x.2) | x <- [seq (j, pl1 S C p d j) | j <- ids]] v (ct_to_precomputed (N v) (K v))) l = Some (Ct (N l) (K l)).
  move=> hl; rewrite aget_binsert; case: eqP => [->|_]; first by rewrite KE.
  by rewrite aget_map_val aget_tab hl /= KE.
move: U; rewrite /sg_finalize3 /=; set own := R3Pl _ _ _.
have -> : own = pl3 v by [].
case: ifP => _.
  case=> <-; split=> //; split=> //=.
  - by move=> j hj; rewrite aget_tab hj.
  - by move=> a b ha hb ne; apply: (@df_lookup (fun i => g_ i) (fun i j => g2_mta (dr_2 d i) j)).
  - by move=> j hj; rewrite aget_tab hj.
  - by move=> j; exact: (res _ (fun x => pmul C (l3_delta x) G)).
case: ifP => _.
  case=> <-; split=> //; split=> //=.
  - by move=> j hj; rewrite aget_tab hj.
  - by move=> a b ha hb ne; apply: (@df_lookup x_ (fun i j => g2_hat (dr_2 d i) j)).
  - by move=> j hj; rewrite aget_tab hj.
  - by move=> j; exact: (res _ (fun x => l3_cap_s x)).
by case: (inv_mod _ _) => // di [<-].
Qed.

(** ** Own messages *)
Section Messages.
Variables (z : I -> Z) (rr : I -> I -> mta_rand) (mm : I -> I -> mta C) (res : I -> pt C) (base : pt C).
Hypothesis hz : {in ids, forall i, 0 <= z i < q}.
Hypothesis hm : forall i j, mm i j = mtv i j (z i) (rr i j).
Hypothesis hr : {in ids &, forall i j, i != j -> mta_rand_ok S (N j) (N i) (rp_n (py_rp p j)) (rr i j)}.
Notation vw := (view ids N rpr (fun i => K i) (Dm mm) (Fm mm) (fun j => pmul C (z j) G) res base).
Notation about := (dec_about ids N (fun i => K i) (Dm mm) (Fm mm) (fun j => pmul C (z j) G) res base).
Notation affs := (aff_about N (fun i => K i) (Dm mm) (Fm mm) (fun j => pmul C (z j) G)).

Lemma own_message v s rnd rnds recheck : v \in ids -> vw s -> s5_ctx s = ctx v -> s5_mta s = [seq (j, mm v j) | j <- without ids v] ->
  res v = pmul C (plain z rr v) base -> error_draws_ok S N ids v rnd rnds ->
  exists eb', [/\ sg_send56 S X recheck s (z v) (pmul C (z v) G) rnd rnds = Accept eb',
    dec_verify S X (e5_dec eb') (about v) (rpr v) (sg_aux (ctx v) v) = Ret true,
    akeys (e5_psis eb') = without ids v &
    forall j pf, aget (e5_psis eb') j = Some pf -> aff_gs_verify S X pf (affs v j) (sg_aux (ctx v) v) = Ret true].
Proof.
move=> hv hvw ec em hres [l1 f1 l2 f2].
have [rk _ rho _] := do_1 hd hv; have [_ hc _] := ciphP HG hp hv rk rho.
have := @send56_ok S C I HO X ids N rpr (fun i => K i) (Dm mm) (Fm mm) (fun j => pmul C (z j) G) res base s hvw hu h2 h18 HG HC HXO
  (z v) (val (k_ v)) (g1_rho (dr_1 d v)) (masks z rr v) (mm v) (fun j => ZkSpec.mask (sp_lp S) (mr_beta (rr v j))) rnd rnds.
rewrite ec /=; apply=> //.
- exact: pk_key hp _ hv.
- exact: hz.
- exact: (joined_encrypts hz hm hr hv).
- exact: (plain_size hz hm hr hv).
- move=> j /inw [hj ne]; have nvj : v != j by rewrite eq_sym.
  have [[b1 b2 b3 b4 b5] [b6 b7 b8 b9 b10]] := mm_facts hz hm hr hv hj nvj.
  have [_ c1 c2 _ _ _] := hr hv hj nvj; have [_ _ hN] := pN HG hp hj.
  split; rewrite ?ec ?b2 ?b3 //=.
  + by rewrite em aget_tab mem_filter ne hj.
  + have [rkj _ rhoj _] := do_1 hd hj; have [_ hcj _] := ciphP HG hp hj rkj rhoj.
    exact: (cipher_gcd _ _ _ _ (proj1 hN) (proj2 rhoj) hcj).
- by move=> j hj; split; [exact: l2|exact: f2].
Qed.

(** What the receiver's check amounts to. *)
Lemma check_iff as_eb e1 e2 e3 v s l m : v \in ids -> l \in ids -> vw s -> s5_ctx s = ctx v ->
  sg_recv56 S X as_eb e1 e2 e3 s l m = Accept tt <->
  exists wire eb', [/\ m = Msg None (Some wire) None, as_eb wire = Some eb',
    dec_verify S X (e5_dec eb') (about l) (rpr l) (sg_aux (ctx l) l) = Ret true,
    akeys (e5_psis eb') = without ids l &
    forall j pf, aget (e5_psis eb') j = Some pf -> j != v -> aff_gs_verify S X pf (affs l j) (sg_aux (ctx l) l) = Ret true].
Proof.
move=> hv hl hvw ec; have := @recv56_iff S C I HO X _ _ _ _ _ _ _ _ _ s hvw hu h2 as_eb e1 e2 e3 l m hl.
by rewrite ec /= -[sg_aux (ctx v) l]/(sg_aux (ctx l) l).
Qed.

Lemma reject_inv as_eb e1 e2 e3 v s l m err : v \in ids -> l \in ids -> vw s -> s5_ctx s = ctx v ->
  sg_recv56 S X as_eb e1 e2 e3 s l m = Reject (Proto err) ->
  exists wire eb' ok, [/\ m = Msg None (Some wire) None, as_eb wire = Some eb',
    dec_verify S X (e5_dec eb') (about l) (rpr l) (sg_aux (ctx l) l) = Ret ok &
    if ~~ ok then err = e1 else if akeys (e5_psis eb') != without ids l then err = e2 else
    exists j pf, [/\ err = e3 j, aget (e5_psis eb') j = Some pf, j != v &
      aff_gs_verify S X pf (affs l j) (sg_aux (ctx l) l) = Ret false]].
Proof.
move=> hv hl hvw ec; have := @recv56_reject S C I HO X _ _ _ _ _ _ _ _ _ s hvw hu h2 as_eb e1 e2 e3 l m err hl.
by rewrite ec /= -[sg_aux (ctx v) l]/(sg_aux (ctx l) l).
Qed.

(** A dishonest [l] can claim any result. *)
Lemma forged_message l r rnd rnds : l \in ids -> res l = pmul C r base -> error_draws_ok S N ids l rnd rnds ->
  exists eb', [/\ dec_verify S X (e5_dec eb') (about l) (rpr l) (sg_aux (ctx l) l) = Ret true,
    akeys (e5_psis eb') = without ids l &
    forall j pf, aget (e5_psis eb') j = Some pf -> aff_gs_verify S X pf (affs l j) (sg_aux (ctx l) l) = Ret true].
Proof.
move=> hl hres [_ _ l2 f2].
have [rk _ rho _] := do_1 hd hl; have [_ hc _] := ciphP HG hp hl rk rho.
have hkey := pk_key hp hl; have [p0' [q0' [hkg [hsk eN]]]] := hkey; have eN' := eN.
have [_ _ hN] := pN HG hp hl; have [_ hx hxm] := secP HG (hz hl).
have n2 : 2 <= Z.of_nat (size ids) by move/ltP: h2 => ?; lia.
have h40 : Z.of_nat (size ids) <= 2 ^ 40 by apply: Z.le_trans h18 _; apply: Z.pow_le_mono_r; lia.
have h64 : Z.of_nat (size ids) < 2 ^ 64 by apply: Z.le_lt_trans h18 _; apply: Z.pow_lt_mono_r; lia.
have [_ [_ [_ hbig]]] := key_bounds S HG _ _ hkg; rewrite -eN in hbig.
have [hw hy] := product_size S HG _ (N l) (plain z rr l) (conj n2 h40) hbig (plain_size hz hm hr hl).
have [kx [full [rh [a [_ [_ [_ [_ [_ [_ [ur ha]]]]]]]]]]] :=
  full_opened S HG _ _ _ _ _ _ _ _ _ hkey hx rho hc (joined_encrypts hz hm hr hl) hw.
have uK : unit_ok (N l) (K l) by exact: (cipher_gcd _ _ _ _ (proj1 hN) (proj2 rho) hc).
have hcx : pmul C (z l) G = pmul C (val (z l)) G by rewrite -(pmm (val (z l))) hxm.
have [hx1 [hx2 [hx3 hx4]]] := hx.
have habs : Z.abs (plain z rr l) <= p0' * q0' by rewrite -eN; lia.
rewrite {}eN in uK ur ha.
have [y' [_ [_ hf]]] := any_claim S C (seq item) HG HS HC X (about l) (rpr l) (sg_aux (ctx l) l) p0' q0' (val (z l)) (plain z rr l) rh r HXO hkg
  eN' (conj n2 h64) erefl erefl uK ur ha hx4 habs hcx hres.
pose ms := nseq (Z.to_nat (sp_kappa S)) (Lie 0 0 1).
have hpos e : 0 <= e -> Z.abs 0 < 2 ^ e by move=> he; have := Z.pow_pos_nonneg 2 e; lia.
have {}hf : dec_verify S X (forge S X (about l) (rpr l) (sg_aux (ctx l) l) (val (z l)) y' rh ms) (about l) (rpr l) (sg_aux (ctx l) l) = Ret true.
  apply: hf; first by rewrite /ms; elim: (Z.to_nat _) => //= n ->.
  rewrite /ms; elim: (Z.to_nat _) => [|n IH] /=; constructor=> //.
  have ly : 0 <= dec_y_exp S (Z.of_nat (size ids)) + sp_eps S - 2.
    by rewrite /dec_y_exp; have := Z.log2_up_nonneg (Z.of_nat (size ids)); case: HS => *; lia.
  split=> /=; [apply: hpos; case: HS => *; lia|exact: hpos|split; [lia|exact: Z.gcd_1_l]].
pose new j := aff_gs_new S X (AffGStarSecret (sec (z l)) (mt_beta (mm l j)) (mt_s (mm l j)) (mt_r (mm l j))) (affs l j) (sg_aux (ctx l) l) (rnds j).
have gs j : j \in without ids l -> exists pf, new j = Ret pf /\ aff_gs_verify S X pf (affs l j) (sg_aux (ctx l) l) = Ret true.
  move=> hj; have [hji ne] := inw hj; have nlj : l != j by rewrite eq_sym.
  have [[b1 b2 b3 b4 b5] [b6 b7 b8 b9 b10]] := mm_facts hz hm hr hl hji nlj.
  have [_ c1 c2 _ _ _] := hr hl hji nlj; have [_ _ hNj] := pN HG hp hji.
  have [rkj _ rhoj _] := do_1 hd hji; have [_ hcj _] := ciphP HG hp hji rkj rhoj.
  have uj := cipher_gcd _ _ _ _ (proj1 hNj) (proj2 rhoj) hcj.
  apply: (gs_passes S C (seq item) HG HC X (AffGStarSecret (sec (z l)) (mt_beta (mm l j)) (mt_s (mm l j)) (mt_r (mm l j))) (affs l j) (sg_aux (ctx l) l) (rnds j)
    (val (z l)) (ZkSpec.mask (sp_lp S) (mr_beta (rr l j))) HXO hx b1 hNj hN _ _ erefl erefl erefl uj _ _ hcx (l2 _ hj) (f2 _ hj)) => /=; rewrite ?b2 ?b3 //.
exists (R56EB (forge S X (about l) (rpr l) (sg_aux (ctx l) l) (val (z l)) y' rh ms)
  [seq (j, or_else (@AffGStarProof C [::] [::] [::]) (new j)) | j <- without ids l]); split=> //=.
  by rewrite akeys_tab.
by move=> j f; rewrite aget_tab; case: ifP => // hj [<-]; have [g [-> E]] := gs _ hj.
Qed.
End Messages.

(** ** In terms of the messages *)
Lemma sent_d5 j l : l \in ids -> l != j -> d_of false (sg_send2 (s2 j)) l = ct_val (mt_d (mt j l)).
Proof. by move=> hl ne; rewrite /d_of /= -map_comp aget_tab mem_filter ne hl. Qed.
Lemma sent_f5 j l : l \in ids -> l != j -> f_of false (sg_send2 (s2 j)) l = ct_val (mt_f (mt j l)).
Proof. by move=> hl ne; rewrite /f_of /= -map_comp aget_tab mem_filter ne hl. Qed.
Lemma sent_d6 j l : l \in ids -> l != j -> d_of true (sg_send2 (s2 j)) l = ct_val (mt_d (ht j l)).
Proof. by move=> hl ne; rewrite /d_of /= -map_comp aget_tab mem_filter ne hl. Qed.
Lemma sent_f6 j l : l \in ids -> l != j -> f_of true (sg_send2 (s2 j)) l = ct_val (mt_f (ht j l)).
Proof. by move=> hl ne; rewrite /f_of /= -map_comp aget_tab mem_filter ne hl. Qed.
Lemma joint5 l : l \in ids -> joint_ct false (fun j => sg_send2 (s2 j)) ids N l = joined ids N (Dm mt) (Fm mt) l.
Proof.
move=> hl; rewrite /joint_ct /joined /=.
have -> : [seq d_of false (sg_send2 (s2 j)) l | j <- without ids l] = [seq ct_val (mt_d (mt j l)) | j <- without ids l].
  by apply/eq_in_map => j /inw [hj ne]; rewrite sent_d5 // eq_sym.
suff -> : [seq f_of false (sg_send2 (s2 l)) j | j <- without ids l] = [seq ct_val (mt_f (mt l j)) | j <- without ids l] by [].
by apply/eq_in_map => j /inw [hj ne]; rewrite sent_f5.
Qed.
Lemma joint6 l : l \in ids -> joint_ct true (fun j => sg_send2 (s2 j)) ids N l = joined ids N (Dm ht) (Fm ht) l.
Proof.
move=> hl; rewrite /joint_ct /joined /=.
have -> : [seq d_of true (sg_send2 (s2 j)) l | j <- without ids l] = [seq ct_val (mt_d (ht j l)) | j <- without ids l].
  by apply/eq_in_map => j /inw [hj ne]; rewrite sent_d6 // eq_sym.
suff -> : [seq f_of true (sg_send2 (s2 l)) j | j <- without ids l] = [seq ct_val (mt_f (ht l j)) | j <- without ids l] by [].
by apply/eq_in_map => j /inw [hj ne]; rewrite sent_f6.
Qed.
Lemma GamE : Gam = pmul C (joint_gamma p d) G. Proof. by rewrite /SigningHonest.Gam zsum_over. Qed.

Notation m2 := (fun j => sg_send2 (s2 j)).
Notation rpu := (fun j => rp_used (py_rp p j)).

Lemma checked5 v l m3 s m delta cd cs : v \in ids -> l \in ids -> l != v -> until4 v m3 = Accept (ToRound5 s) ->
  carries (m3 l) delta cd cs ->
  (sg_recv5 S X positional s l m = Accept tt <->
   exists eb', says5 positional m eb' /\
     vouched S X false ids N rpu (fun j => e1_k (eb j)) m2 (pmul C (g_ l) G) (pmul C delta G) G (sg_aux (ctx l) l) v l eb').
Proof.
move=> hv hl ne U hca; have [f [_ fr [ec em vw]]] := after3 hv U.
have hlw : l \in without ids v by rewrite mem_filter ne.
have fd : l3_delta (f l) = delta.
  have [n [h1 h2' _ _]] := recv3_inv (fr _ hlw); case: hca => psi E; by move: h1; rewrite E.
apply: (iff_trans (check_iff (z := fun i => g_ i) _ _ _ _ m hv hl vw ec)); split.
- move=> [wire [eb' [-> he h1 h2' h3]]]; exists eb'; split.
    by case: wire he => //= e; [case=> ->; left|case: ifP => // pos [->]; right].
  split=> //; first by move: h1; rewrite /dec_about /= fd joint5.
  move=> j pf hj nj; have [hji njl] : j \in ids /\ j != l by apply: inw; rewrite -h2'; apply: aget_in hj.
  by move: (h3 _ _ hj nj); rewrite /aff_about /= sent_d5 // sent_f5.
move=> [eb' [hsay [h1 h2' h3]]].
have [wire [-> he]] : exists wire, m = Msg None (Some wire) None /\ as_5eb positional wire = Some eb'.
  by case: hsay => [->|[pos ->]]; eexists; split; try reflexivity; rewrite /= ?pos.
exists wire, eb'; split=> //; first by move: h1; rewrite /dec_about /= fd joint5.
move=> j pf hj nj; have [hji njl] : j \in ids /\ j != l by apply: inw; rewrite -h2'; apply: aget_in hj.
by move: (h3 _ _ hj nj); rewrite /aff_about /= sent_d5 // sent_f5.
Qed.

Lemma checked6 v l m3 s m delta cd cs : v \in ids -> l \in ids -> l != v -> until4 v m3 = Accept (ToRound6 s) ->
  carries (m3 l) delta cd cs ->
  (sg_recv6 S X positional s l m = Accept tt <->
   exists eb', says6 positional m eb' /\
     vouched S X true ids N rpu (fun j => e1_k (eb j)) m2 (pmul C (x_ l) G) cs (pmul C (joint_gamma p d) G) (sg_aux (ctx l) l) v l eb').
Proof.
move=> hv hl ne U hca; have [f [_ fr [ec em vw]]] := after3 hv U.
have hlw : l \in without ids v by rewrite mem_filter ne.
have fd : l3_cap_s (f l) = cs.
  have [n [_ h1 _ ->]] := recv3_inv (fr _ hlw); case: hca => psi E; by move: h1; rewrite E => -[<-].
apply: (iff_trans (check_iff (z := x_) _ _ _ _ m hv hl vw ec)); split.
- move=> [wire [eb' [-> he h1 h2' h3]]]; exists eb'; split.
    by case: wire he => //= e; [case: ifP => // pos [->]; right|case=> ->; left].
  split=> //; first by move: h1; rewrite /dec_about /= fd joint6 // -GamE.
  move=> j pf hj nj; have [hji njl] : j \in ids /\ j != l by apply: inw; rewrite -h2'; apply: aget_in hj.
  by move: (h3 _ _ hj nj); rewrite /aff_about /= sent_d6 // sent_f6.
move=> [eb' [hsay [h1 h2' h3]]].
have [wire [-> he]] : exists wire, m = Msg None (Some wire) None /\ as_6eb positional wire = Some eb'.
  by case: hsay => [->|[pos ->]]; eexists; split; try reflexivity; rewrite /= ?pos.
exists wire, eb'; split=> //; first by move: h1; rewrite /dec_about /= fd joint6 // -GamE.
move=> j pf hj nj; have [hji njl] : j \in ids /\ j != l by apply: inw; rewrite -h2'; apply: aget_in hj.
by move: (h3 _ _ hj nj); rewrite /aff_about /= sent_d6 // sent_f6.
Qed.

Lemma rejected5 v l m3 s m delta cd cs err : v \in ids -> l \in ids -> l != v -> until4 v m3 = Accept (ToRound5 s) ->
  carries (m3 l) delta cd cs -> sg_recv5 S X positional s l m = Reject (Proto err) ->
  exists eb', says5 positional m eb' /\
    fault S X false ids N rpu (fun j => e1_k (eb j)) m2 (pmul C (g_ l) G) (pmul C delta G) G (sg_aux (ctx l) l) v l
      R5DecFailed R5WrongIdsPsi (fun j => R5AffGStarFailed j) eb' err.
Proof.
move=> hv hl ne U hca; have [f [_ fr [ec em vw]]] := after3 hv U.
have hlw : l \in without ids v by rewrite mem_filter ne.
have fd : l3_delta (f l) = delta.
  have [n [h1 h2' _ _]] := recv3_inv (fr _ hlw); case: hca => psi E; by move: h1; rewrite E.
case/(reject_inv (z := fun i => g_ i) hv hl vw ec) => wire [eb' [ok [-> he h1 hk]]]; exists eb'; split.
  by case: wire he => //= e; [case=> ->; left|case: ifP => // pos [->]; right].
exists ok; first by move: h1; rewrite /dec_about /= fd joint5.
move: hk; case: ifP => // _; case: eqP => //= hk [j [pf [e1 e2 e3 e4]]]; exists j, pf; split=> //.
have [hji njl] : j \in ids /\ j != l by apply: inw; rewrite -hk; apply: aget_in e2.
by move: e4; rewrite /aff_about /= sent_d5 // sent_f5.
Qed.

Lemma rejected6 v l m3 s m delta cd cs err : v \in ids -> l \in ids -> l != v -> until4 v m3 = Accept (ToRound6 s) ->
  carries (m3 l) delta cd cs -> sg_recv6 S X positional s l m = Reject (Proto err) ->
  exists eb', says6 positional m eb' /\
    fault S X true ids N rpu (fun j => e1_k (eb j)) m2 (pmul C (x_ l) G) cs (pmul C (joint_gamma p d) G) (sg_aux (ctx l) l) v l
      R6DecFailed R6WrongIdsPsi (fun j => R6AffGStarFailed j) eb' err.
Proof.
move=> hv hl ne U hca; have [f [_ fr [ec em vw]]] := after3 hv U.
have hlw : l \in without ids v by rewrite mem_filter ne.
have fd : l3_cap_s (f l) = cs.
  have [n [_ h1 _ ->]] := recv3_inv (fr _ hlw); case: hca => psi E; by move: h1; rewrite E => -[<-].
case/(reject_inv (z := x_) hv hl vw ec) => wire [eb' [ok [-> he h1 hk]]]; exists eb'; split.
  by case: wire he => //= e; [case: ifP => // pos [->]; right|case=> ->; left].
exists ok; first by move: h1; rewrite /dec_about /= fd joint6 // -GamE.
move: hk; case: ifP => // _; case: eqP => //= hk [j [pf [e1 e2 e3 e4]]]; exists j, pf; split=> //.
have [hji njl] : j \in ids /\ j != l by apply: inw; rewrite -hk; apply: aget_in e2.
by move: e4; rewrite /aff_about /= sent_d6 // sent_f6.
Qed.

(** ** Honest messages pass *)
Lemma plain5 l : l \in ids -> pmul C (l3_delta (pl3 l)) G = pmul C (plain (fun i => g_ i) (fun i j => g2_mta (dr_2 d i) j) l) G.
Proof.
move=> hl; rewrite -(pmm (plain _ _ _)) (plain_mod gz (fun i j => erefl) grand hl) /=.
by rewrite pmm.
Qed.
Lemma plain6 l : l \in ids -> l3_cap_s (pl3 l) = pmul C (plain x_ (fun i j => g2_hat (dr_2 d i) j) l) Gam.
Proof.
move=> hl; rewrite -(pmm (plain _ _ _)) (plain_mod xz (fun i j => erefl) xrand hl) /=.
by rewrite pmm.
Qed.

Lemma got_own v l m3 f : v \in ids -> l \in without ids v -> m3 l = sg_send3 (s3 l) -> sg_recv3 X (s3 v) l (m3 l) = Accept (f l) ->
  f l = pl3 l.
Proof.
by move=> hv /inw [hl _] -> ; rewrite (hrecv3 H X scheme HG HC d randomness text hv hl) => -[->].
Qed.

Lemma honest5 l m3 s rnd rnds : l \in ids -> until4 l m3 = Accept (ToRound5 s) -> error_draws_ok S N ids l rnd rnds ->
  exists m, sg_send5 S X s rnd rnds = Accept m /\
    forall v m3' s', v \in ids -> l != v -> until4 v m3' = Accept (ToRound5 s') -> m3' l = sg_send3 (s3 l) ->
      sg_recv5 S X positional s' l m = Accept tt.
Proof.
move=> hl U he; have [f [fl _ [ec em vw]]] := after3 hl U.
have res : pmul C (l3_delta (f l)) G = pmul C (plain (fun i => g_ i) (fun i j => g2_mta (dr_2 d i) j) l) G by rewrite fl plain5.
have [eb' [E h1 h2' h3]] := own_message gz (fun i j => erefl) grand false hl vw ec em res he.
exists (Msg None (Some (S5EB eb')) None); split; first by rewrite /sg_send5 ec E.
move=> v m3' s' hv ne U' hm3; have [f' [_ fr [ec' _ vw']]] := after3 hv U'.
have hlw : l \in without ids v by rewrite mem_filter ne.
apply/(check_iff (z := fun i => g_ i) _ _ _ _ _ hv hl vw' ec').
exists (S5EB eb'), eb'; split=> //; last by move=> j pf hj _; exact: h3 hj.
by move: h1; rewrite /dec_about /= fl (got_own hv hlw hm3 (fr _ hlw)).
Qed.

Lemma honest6 l m3 s rnd rnds : l \in ids -> until4 l m3 = Accept (ToRound6 s) -> error_draws_ok S N ids l rnd rnds ->
  exists m, sg_send6 S X s rnd rnds = Accept m /\
    forall v m3' s', v \in ids -> l != v -> until4 v m3' = Accept (ToRound6 s') -> m3' l = sg_send3 (s3 l) ->
      sg_recv6 S X positional s' l m = Accept tt.
Proof.
move=> hl U he; have [f [fl _ [ec em vw]]] := after3 hl U.
have res : l3_cap_s (f l) = pmul C (plain x_ (fun i j => g2_hat (dr_2 d i) j) l) Gam by rewrite fl plain6.
have [eb' [E h1 h2' h3]] := own_message xz (fun i j => erefl) xrand true hl vw ec em res he.
exists (Msg None (Some (S6EB eb')) None); split.
  by rewrite /sg_send6 ec /= /safe_get (v_pub vw hl) /= E.
move=> v m3' s' hv ne U' hm3; have [f' [_ fr [ec' _ vw']]] := after3 hv U'.
have hlw : l \in without ids v by rewrite mem_filter ne.
apply/(check_iff (z := x_) _ _ _ _ _ hv hl vw' ec').
exists (S6EB eb'), eb'; split=> //; last by move=> j pf hj _; exact: h3 hj.
by move: h1; rewrite /dec_about /= fl (got_own hv hlw hm3 (fr _ hlw)).
Qed.

(** ** A party that lied passes too *)
Lemma forged5 l delta rnd rnds : l \in ids -> error_draws_ok S N ids l rnd rnds ->
  exists m, forall v m3 s, v \in ids -> l != v -> until4 v m3 = Accept (ToRound5 s) -> m3 l = with_delta delta (sg_send3 (s3 l)) ->
    sg_recv5 S X positional s l m = Accept tt.
Proof.
move=> hl he.
have [eb' [h1 h2' h3]] := forged_message (base := G) (res := fun _ => pmul C delta G) gz (fun i j => erefl) grand hl erefl he.
exists (Msg None (Some (S5EB eb')) None) => v m3 s hv ne U hm3; have [f [_ fr [ec _ vw]]] := after3 hv U.
have hlw : l \in without ids v by rewrite mem_filter ne.
apply/(check_iff (z := fun i => g_ i) _ _ _ _ _ hv hl vw ec).
exists (S5EB eb'), eb'; split=> //; last by move=> j pf hj _; exact: h3 hj.
have [n [E _ _ _]] := recv3_inv (fr _ hlw); rewrite hm3 /= in E.
by move: h1; rewrite /dec_about /= E.
Qed.

Lemma forged6 l r rnd rnds : l \in ids -> error_draws_ok S N ids l rnd rnds ->
  exists m, forall v m3 s, v \in ids -> l != v -> until4 v m3 = Accept (ToRound6 s) ->
    m3 l = with_s (pmul C r Gam) (sg_send3 (s3 l)) -> sg_recv6 S X positional s l m = Accept tt.
Proof.
move=> hl he.
have [eb' [h1 h2' h3]] := forged_message (base := Gam) (res := fun _ => pmul C r Gam) xz (fun i j => erefl) xrand hl erefl he.
exists (Msg None (Some (S6EB eb')) None) => v m3 s hv ne U hm3; have [f [_ fr [ec _ vw]]] := after3 hv U.
have hlw : l \in without ids v by rewrite mem_filter ne.
apply/(check_iff (z := x_) _ _ _ _ _ hv hl vw ec).
exists (S6EB eb'), eb'; split=> //; last by move=> j pf hj _; exact: h3 hj.
have [n [_ E1 _ E]] := recv3_inv (fr _ hlw); rewrite hm3 /= in E1.
by move: h1; rewrite /dec_about /= E; case: E1 => <-.
Qed.
End Err.
