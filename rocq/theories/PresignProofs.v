(** * What a presignature that passes round 3 is made of. *)
From Coq Require Import ZArith Znumtheory Lia.
From Verif Require Import Base BaseFacts ModArith EncodingModel PaillierModel ZkBase ZkFacts ZkExtract ZkModel ElogModel ElogProofs.
From mathcomp Require Import all_ssreflect.
From Verif Require Import AlgBase AlgFacts ProtoBase ProtoSpec ProtoFacts AgreeSpec CommitSpec
  AuxGenModel SigningModel SigningSpec SigningAlgebra SigningSums SigningProofs SigningShares SigningMain SigningBranchSpec SigningBranch
  NonceSpec NonceProofs PresignSpec.
Set Implicit Arguments.
Unset Strict Implicit.
Unset Printing Implicit Defensive.

Lemma seq_choice (I : eqType) (B : Type) (b0 : B) (P : I -> B -> Prop) (ids : seq I) :
  {in ids, forall i, exists b, P i b} -> exists f : I -> B, {in ids, forall i, P i (f i)}.
Proof.
elim: ids => [|i ids IH] h; first by exists (fun _ => b0).
have [|f hf] := IH; first by move=> j hj; apply: h; rewrite inE hj orbT.
have [b hb] := h i (mem_head _ _).
exists (fun j => if j == i then b else f j) => j; rewrite inE; case: eqP => [-> _|_ /hf] //.
Qed.

Section Presign.
Variables (S : sparams) (C : curve) (I : eqType) (le : rel I) (HO : eqType).
Notation item := (hitem HO I (pt C)).
Notation q := (sp_q S).
Variables (H : dst -> seq item -> HO) (X : xof (seq item) (pt C)) (scheme : seq item).
Variables (xcoord : pt C -> Z).
Hypothesis HC : curve_ok q C.
Hypothesis Pq : Znumtheory.prime q.
Hypothesis HG : gen C <> p0 C.
Hypothesis HX : xof_ok q X.

Lemma recv3_elog (s : sg_round3 C I HO) from m p : sg_recv3 X s from m = Accept p ->
  exists n3 pl, [/\ m_normal m = Some (S3NB n3), aget (s3_r1 s) from = Some pl &
    elog_verify C _ X (n3_psi n3) (ElogPublic (l1_a1 pl) (l1_a2 pl) (l1_y pl) (n3_delta n3) (s3_gamma s)) (sg_aux (s3_ctx s) from) = true].
Proof.
rewrite /sg_recv3 => U; have [? _ {}U] := vbind_inv U; have [d _ {}U] := vbind_inv U.
have [n E2 {}U] := vbind_inv U; have [pl E3 {}U] := vbind_inv U; have [? E4 {}U] := vbind_inv U.
exists n, pl; split.
- by move: E2; rewrite /deser; case: (m_normal m) => // -[] //= ? [->].
- by move: E3; rewrite /safe_get; case: aget => // ? [->].
- by move: E4; rewrite /require; case: elog_verify.
Qed.

Lemma recv1_echo_a (c : sg_ctx C I HO) from m p : sg_recv1 S X c from m = Accept p ->
  exists e1, [/\ m_echo m = Some (S1EB e1), l1_a1 p = e1_a1 e1, l1_a2 p = e1_a2 e1 & l1_y p = e1_y e1].
Proof.
rewrite /sg_recv1 => U; have [? _ {}U] := vbind_inv U; have [? _ {}U] := vbind_inv U.
have [eb E1 {}U] := vbind_inv U; have [? _ {}U] := vbind_inv U; have [? _ {}U] := vbind_inv U.
have [? _ {}U] := vbind_inv U; have [? _ {}U] := vbind_inv U; have [? _ {}U] := vbind_inv U; have [? _ {}U] := vbind_inv U.
case: U => <-; exists eb; split=> //.
by move: E1; rewrite /deser; case: (m_echo m) => // -[] //= ? [->].
Qed.

Lemma peer_product c e r2 r3 m1 m2 m3 o1 o2 o3 s3 n l :
  sg_until3 S le X c e r2 r3 m1 m2 o1 o2 = Accept s3 ->
  sg_until4 S le X xcoord c e r2 r3 m1 m2 m3 o1 o2 o3 = Accept n ->
  l \in o1 -> l \in o3 -> l != sx_id c -> not_a_guess3 q (m1 l) (s3_gamma s3) (m3 l) ->
  exists e1 n3 v w, [/\ m_echo (m1 l) = Some (S1EB e1), m_normal (m3 l) = Some (S3NB n3), e1_a1 e1 = pmul C v (gen C),
    e1_a2 e1 = padd C (pmul C w (gen C)) (pmul C v (e1_y e1)) & n3_delta n3 = pmul C w (s3_gamma s3)].
Proof.
move=> U3 /until4_inv [s3' [p3 [U3' R3 _]]] h1 h3 nl.
move: U3'; rewrite U3 => -[es]; subst s3'.
have [s2 [p2 [U2 R2 F2]]] := until3_inv U3.
have [_ f2 _ _ _] := finalize2_inv F2.
have [p1 R1 [g1 g2 g3]] := until2_inv U2.
have [_ _ k1] := round_inv R1; have [_ _ k3] := round_inv R3.
have [t1 A1 G1] := k1 l h1; have [t3 A3 _] := k3 l h3.
have [e1 [E1 b1 b2 b3]] := recv1_echo_a A1.
have [n3 [pl [E3 E4 V]]] := recv3_elog A3.
move: E4; rewrite f2 g2 aget_binsert (negbTE nl) G1 => -[es]; rewrite -es b1 b2 b3 in V.
move=> [x1 [x3 [D1 D3 [ch [c1 c2 c3]]]]].
move: D1 D3; rewrite E1 E3 => -[d1] [d3]; subst x1 x3.
have [v [w [o1' o2' o3']]] := opened HC Pq HX V c1 c2 c3.
by exists e1, n3, v, w.
Qed.

Lemma presign_ctx c e r2 r3 m1 m2 m3 o1 o2 o3 s3 n all delta cap_delta cap_s : party_ok c ->
  perm_eq o1 (sx_others c) -> perm_eq o2 (sx_others c) -> perm_eq o3 (sx_others c) ->
  sg_until3 S le X c e r2 r3 m1 m2 o1 o2 = Accept s3 ->
  sg_until4 S le X xcoord c e r2 r3 m1 m2 m3 o1 o2 o3 = Accept n ->
  said (sx_all c) (sx_id c) (sg_send3 s3) m3 all ->
  {in sx_all c, forall l, carries (all l) (delta l) (cap_delta l) (cap_s l)} ->
  {in sx_others c, forall l, not_a_guess q (m1 l) (m2 l) /\ not_a_guess3 q (m1 l) (s3_gamma s3) (m3 l)} ->
  exists k g : I -> Z, let ids := sx_all c in let kg := (over ids k * over ids g)%Z in
   [/\ k (sx_id c) = sx_k c /\ g (sx_id c) = sx_gamma c,
       {in sx_others c, forall l, pledges (m1 l) (k l) (g l)},
       s3_gamma s3 = pmul C (over ids g) (gen C),
       round_of n <> 5%N <-> (over ids delta mod q = kg mod q)%Z &
       round_of n = 4%N -> total [seq cap_s l | l <- ids] = pmul C kg (zs_vkey (sx_share c))].
Proof.
move=> hc h1 h2 h3 U3 U4 hs hca hn.
have q1 : (1 < q)%Z by case: Pq.
have [hu hi ho] := hc; have [uo no] := party_others hc.
pose P l (kg : Z * Z) := [/\ pledges (m1 l) kg.1 kg.2, gamma_of (m_echo (m2 l)) = pmul C kg.2 (gen C) & cap_delta l = pmul C kg.1 (s3_gamma s3)].
have [f hf] : exists f : I -> Z * Z, {in sx_others c, forall l, P l (f l)}.
  apply: (seq_choice (0%Z, 0%Z)) => l hl; have [n2 n3] := hn l hl.
  have nl : l != sx_id c by apply: contraNneq no => <-.
  have la : l \in sx_all c by move: hl; rewrite ho mem_filter => /andP [].
  have [e1 [e2 [v [w [a1 a2 a3 a4 a5]]]]] : exists e1 e2 v w, [/\ m_echo (m1 l) = Some (S1EB e1), m_echo (m2 l) = Some (S2EB e2), e1_b1 e1 = pmul C v (gen C),
    e1_b2 e1 = padd C (pmul C w (gen C)) (pmul C v (e1_y e1)) & e2_gamma e2 = pmul C w (gen C)].
    by apply: (peer_pledge HC Pq HX U3) => //; rewrite ?(perm_mem h1) ?(perm_mem h2).
  have [|//|f1 [nb [x [y [b1 b2 b3 b4 b5]]]]] := peer_product U3 U4 _ _ nl n3; rewrite ?(perm_mem h1) ?(perm_mem h3) //.
  move: b1; rewrite a1 => -[ee]; subst f1.
  exists (y, w); split=> /=.
  - by exists e1, x, v; split.
  - by rewrite a2 /gamma_of /= a5.
  - rewrite -b5; have := hca l la; rewrite -hs // (negbTE nl) => -[psi E].
    by move: b2; rewrite E /= => -[<-].
pose k l := if l == sx_id c then sx_k c else (f l).1.
pose g l := if l == sx_id c then sx_gamma c else (f l).2.
have nid l : l \in sx_others c -> (l == sx_id c) = false by move=> hl; apply/negbTE; apply: contraNneq no => <-.
have EG : s3_gamma s3 = pmul C (over (sx_all c) g) (gen C).
  rewrite (gamma_sum HC hc h2 U3).
  rewrite /over -/(zsum g (sx_all c)) (zsum_without g hu hi) -ho (c_mulDl _ _ HC) {1}/g eqxx; congr (padd C _ _).
  rewrite -(sum_pts_zsum q1 HC); congr sum_pts; apply/eq_in_map => l hl.
  by have [_ -> _] := hf l hl; rewrite /g nid.
have ED : total [seq cap_delta l | l <- sx_all c] = pmul C (over (sx_all c) k * over (sx_all c) g)%Z (gen C).
  rewrite -(c_mulA _ _ HC) -EG /over -/(zsum k (sx_all c)) -(sum_pts_zsum q1 HC) (sum_total HC); congr total.
  apply/eq_in_map => l hl; rewrite /k; case: eqP => [el|/eqP nl].
    have [_ [<- _]] := until3_ctx U3.
    by have := hca l hl; rewrite -hs // el eqxx => -[psi]; rewrite /sg_send3 => -[_ ->].
  by have [_ _ ->] := hf l (others_mem hc hl nl).
have [r5 r6 r4] := branch_rule HC q1 hc h3 U3 U4 hs hca.
have fits : pmul C (over (sx_all c) delta) (gen C) = total [seq cap_delta l | l <- sx_all c] <->
    (over (sx_all c) delta mod q = (over (sx_all c) k * over (sx_all c) g) mod q)%Z.
  rewrite ED; split; first exact: pmul_inj.
  by move=> E; apply: (pmul_eqm q C HC); [lia|exact: E].
exists k, g; split.
- by rewrite /k /g eqxx.
- by move=> l hl; have [h _ _] := hf l hl; rewrite /k /g nid.
- exact: EG.
- rewrite -fits; split; last by move=> h /r5.
  move=> h.
  case E: (peqb C (pmul C (over (sx_all c) delta) (gen C)) (total [seq cap_delta l | l <- sx_all c])); first exact/(c_eqb _ _ HC).
  by case: h; apply/r5 => /(c_eqb _ _ HC); rewrite -/(over (sx_all c) delta) E.
- move=> /r4 [F1 F2]; rewrite F2; apply: (pmul_eqm q C HC); first lia.
  exact: (proj1 fits F1).
Qed.

Lemma presign rnd id entry ra c e r2 r3 m1 m2 m3 o1 o2 o3 s3 n all delta cap_delta cap_s :
  let ids := akeys (zs_public (se_share entry)) in
  let others := without ids id in
  uniq ids -> id \in ids -> sg_start S H scheme rnd id entry ra = Ok (c, e) ->
  perm_eq o1 others -> perm_eq o2 others -> perm_eq o3 others ->
  sg_until3 S le X c e r2 r3 m1 m2 o1 o2 = Accept s3 ->
  sg_until4 S le X xcoord c e r2 r3 m1 m2 m3 o1 o2 o3 = Accept n ->
  said ids id (sg_send3 s3) m3 all ->
  {in ids, forall l, carries (all l) (delta l) (cap_delta l) (cap_s l)} ->
  {in others, forall l, not_a_guess q (m1 l) (m2 l) /\ not_a_guess3 q (m1 l) (s3_gamma s3) (m3 l)} ->
  exists k g : I -> Z, let kg := (over ids k * over ids g)%Z in
   [/\ k id = g1_k ra /\ g id = g1_gamma ra,
       {in others, forall l, pledges (m1 l) (k l) (g l)},
       s3_gamma s3 = pmul C (over ids g) (gen C),
       round_of n <> 5%N <-> (over ids delta mod q = kg mod q)%Z &
       round_of n = 4%N -> total [seq cap_s l | l <- ids] = pmul C kg (total (avals (zs_public (se_share entry))))].
Proof.
move=> ids others hu hi hs; have hp := start_party hu hi hs; have [a1 a2 a3 a4 a5] := start_inv hs.
have o : sx_others c = others by rewrite a3 a2.
have ea : sx_all c = ids by [].
have eg : sx_k c = g1_k ra /\ sx_gamma c = g1_gamma ra.
  by move: hs; rewrite /sg_start; case: ifP => // _; do 5 (case: (of_o _) => //= ?); case=> <- _.
rewrite -(vkey_total HC) -a4 -o -ea -a1 -(proj1 eg) -(proj2 eg); exact: presign_ctx.
Qed.

End Presign.

Section Binds.
Variables (S : sparams) (C : curve) (I : eqType).
Notation q := (sp_q S).
Hypothesis HC : curve_ok q C.
Hypothesis Pq : Znumtheory.prime q.
Hypothesis HG : gen C <> p0 C.
Lemma pledge_binds (w w' : message (sg_wire C I)) k g k' g' : m_echo w = m_echo w' ->
  pledges w k g -> pledges w' k' g' -> (k mod q = k' mod q)%Z /\ (g mod q = g' mod q)%Z.
Proof.
move=> ee [e1 [a [b [Ew [A1 A2 B1 B2]]]]] [e1' [a' [b' []]]]; rewrite -ee Ew => -[<-] [A1' A2' B1' B2'].
have B (l m x : pt C) v u v' u' : l = pmul C v (gen C) -> m = padd C (pmul C u (gen C)) (pmul C v x) ->
    l = pmul C v' (gen C) -> m = padd C (pmul C u' (gen C)) (pmul C v' x) -> (u mod q = u' mod q)%Z.
  move=> E1 E2 E1' E2'; apply: (pmul_inj HC Pq HG); exact: (same_opening HC Pq HG E1 E2 erefl E1' E2' erefl).
by split; [exact: B A1 A2 A1' A2'|exact: B B1 B2 B1' B2'].
Qed.
End Binds.
