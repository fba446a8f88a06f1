(** * Where a signing session goes after round 3: proofs. *)
From Coq Require Import ZArith Znumtheory Lia.
From Verif Require Import Base BaseFacts ModArith EncodingModel PaillierModel ZkBase ZkFacts ZkModel ZkSpec ZkLemmas.
From mathcomp Require Import all_ssreflect.
From Verif Require Import AlgBase AlgFacts ProtoBase ProtoSpec ProtoFacts AuxGenModel SigningModel SigningSpec SigningAlgebra SigningSums
  SigningProofs SigningShares SigningMain SigningHonestSpec SigningHonest SigningHonestMain SigningBranchSpec.
Set Implicit Arguments.
Unset Strict Implicit.
Unset Printing Implicit Defensive.

Section Branch.
Variables (S : sparams) (C : curve) (I : eqType) (le : rel I) (HO : eqType).
Notation item := (hitem HO I (pt C)).
Notation q := (sp_q S).
Variables (H : dst -> seq item -> HO) (X : xof (seq item) (pt C)) (scheme : seq item).
Variables (xcoord : pt C -> Z).
Hypothesis HC : curve_ok q C.
Hypothesis Q1 : (1 < q)%Z.

(** What [sg_finalize3] does with the values [f] of all parties. *)
Lemma finalize3_shape c (s3 : sg_round3 C I HO) p3 (f : I -> r3pl C) : party_ok c -> s3_ctx s3 = c ->
  perm_eq (akeys p3) (sx_others c) ->
  f (sx_id c) = R3Pl (s3_delta s3) (n3_delta (s3_nb s3)) (n3_s (s3_nb s3)) ->
  {in sx_others c, forall l, aget p3 l = Some (f l)} ->
  let d := foldr Z.add 0%Z [seq l3_delta (f l) | l <- sx_all c] in
  exists x5 x6 x4, sg_finalize3 S le xcoord s3 p3 =
    if ~~ peqb C (pmul C d (gen C)) (total [seq l3_cap_delta (f l) | l <- sx_all c]) then Accept (ToRound5 x5)
    else if ~~ peqb C (total [seq l3_cap_s (f l) | l <- sx_all c]) (pmul C d (zs_vkey (sx_share c))) then Accept (ToRound6 x6)
    else if inv_mod q (Z.modulo d q) is Some di then Accept (ToRound4 (x4 di)) else RLocal.
Proof.
move=> hc ec kp fo fp d.
have my : sx_id c \notin akeys p3 by rewrite (perm_mem kp); case: (party_others hc).
set own := R3Pl (s3_delta s3) (n3_delta (s3_nb s3)) (n3_s (s3_nb s3)) in fo.
set pls := binsert le p3 (sx_id c) own.
have kpl : perm_eq (akeys pls) (sx_all c).
  rewrite (perm_trans (perm_binsert _ _ my)) // perm_sym; case: hc => hu' hi ho.
  by rewrite (perm_trans (perm_without hu' hi)) // perm_cons -ho perm_sym.
have upl : uniq (akeys pls) by rewrite (perm_uniq kpl); case: hc.
have mp (A : Type) (g : r3pl C -> A) : [seq g x.2 | x <- pls] = [seq g (f l) | l <- akeys pls].
  rewrite (avals_fun g own upl); apply/eq_in_map => l.
  rewrite (perm_mem kpl) => hl; rewrite aget_binsert; case: eqP => [->|/eqP ne]; first by rewrite fo.
  by rewrite fp // others_mem.
rewrite /sg_finalize3 /= ec -/own -/pls !mp /=.
rewrite (sum_scs_perm Q1 _ kpl) !(sum_pts_perm HC _ kpl) !(sum_total HC) (sum_scsE Q1).
rewrite (pmul_modq HC Q1) !(pmul_modq HC Q1).
have -> : zsum (fun l => l3_delta (f l)) (sx_all c) = d by [].
by do 3 eexists; case: ifP => // _; case: ifP => // _; case: (inv_mod _ _) => // di; reflexivity.
Qed.

Lemma branch_rule c e r2 r3 m1 m2 m3 o1 o2 o3 s3 n all delta cap_delta cap_s : party_ok c ->
  perm_eq o3 (sx_others c) ->
  sg_until3 S le X c e r2 r3 m1 m2 o1 o2 = Accept s3 ->
  sg_until4 S le X xcoord c e r2 r3 m1 m2 m3 o1 o2 o3 = Accept n ->
  said (sx_all c) (sx_id c) (sg_send3 s3) m3 all ->
  {in sx_all c, forall l, carries (all l) (delta l) (cap_delta l) (cap_s l)} ->
  called_for (zs_vkey (sx_share c)) (sx_all c) delta cap_delta cap_s (round_of n).
Proof.
move=> hc ho3 U3 U4 hs hca.
have [s3' [p3 [U3' R3 F3]]] := until4_inv U4.
move: U3'; rewrite U3 => -[es]; rewrite -{s3'}es in R3 F3.
have [ec _] := until3_ctx U3.
have kp : perm_eq (akeys p3) (sx_others c) by exact: perm_trans (round_keys R3) ho3.
pose f l := R3Pl (delta l) (cap_delta l) (cap_s l).
have hi : sx_id c \in sx_all c by case: hc.
have fo : f (sx_id c) = R3Pl (s3_delta s3) (n3_delta (s3_nb s3)) (n3_s (s3_nb s3)).
  have := hca _ hi; rewrite -hs // eqxx /f => -[psi].
  by rewrite /sg_send3; case: (s3_nb s3) => d ps s [-> -> _ ->].
have fp : {in sx_others c, forall l, aget p3 l = Some (f l)}.
  move=> l hl; have hl' : l \in sx_all c by case: hc hl => _ _ ->; rewrite mem_filter => /andP [].
  have ne : l != sx_id c by case: hc hl => _ _ ->; rewrite mem_filter => /andP [].
  have [psi em] := hca _ hl'; move: em; rewrite -hs // (negbTE ne) => em.
  have [_ _ /(_ l)] := round_inv R3; rewrite (perm_mem ho3) => /(_ hl) [pl hr ->].
  have [nn [h1 h2 h3 h4]] := recv3_inv hr; rewrite em /= in h1 h2; case: h2 => h2.
  by rewrite /f; case: pl {hr} h1 h3 h4 => a b c' /= -> -> ->; rewrite -h2.
have [x5 [x6 [x4 E]]] := finalize3_shape hc ec kp fo fp; move: F3; rewrite {}E /called_for /=.
set d := foldr _ _ _; set D := total [seq cap_delta l | l <- _]; set T := total [seq cap_s l | l <- _].
case E1: (peqb C _ D) => /=; last first.
  have ne : pmul C d (gen C) <> D by move/(c_eqb _ _ HC); rewrite E1.
  by case=> <- /=; split; split=> // -[].
move/(c_eqb _ _ HC): E1 => E1.
case E2: (peqb C T _) => /=; last first.
  have ne : T <> pmul C d (zs_vkey (sx_share c)) by move/(c_eqb _ _ HC); rewrite E2.
  by case=> <- /=; split; split=> // -[].
move/(c_eqb _ _ HC): E2 => E2.
by case: (inv_mod _ _) => // di [<-] /=; split; split=> // -[].
Qed.

(** An accepted round 3 message has the three parts [carries] names. *)
Lemma recv3_carries (s : sg_round3 C I HO) from m p : sg_recv3 X s from m = Accept p ->
  carries m (l3_delta p) (l3_cap_delta p) (l3_cap_s p).
Proof.
rewrite /sg_recv3 => U; have [? E0 {}U] := vbind_inv U; have [d E1 {}U] := vbind_inv U.
have [n E2 {}U] := vbind_inv U; have [? _ {}U] := vbind_inv U; have [? _ {}U] := vbind_inv U.
case: U => <- /=; case: m E0 E1 E2 => [[d0|] [e0|] [n0|]] //= _.
rewrite /deser; case: e0 => //= d' [->]; case: n0 => //= n' [->].
by exists (n3_psi n); case: (n).
Qed.

Lemma all_carry c e r2 r3 m1 m2 m3 o1 o2 o3 s3 n all : party_ok c -> perm_eq o3 (sx_others c) ->
  sg_until3 S le X c e r2 r3 m1 m2 o1 o2 = Accept s3 ->
  sg_until4 S le X xcoord c e r2 r3 m1 m2 m3 o1 o2 o3 = Accept n ->
  said (sx_all c) (sx_id c) (sg_send3 s3) m3 all ->
  exists f : I -> r3pl C, {in sx_all c, forall l, carries (all l) (l3_delta (f l)) (l3_cap_delta (f l)) (l3_cap_s (f l))}.
Proof.
move=> hc ho3 U3 U4 hs; have [s3' [p3 [U3' R3 F3]]] := until4_inv U4.
move: U3'; rewrite U3 => -[es]; rewrite -{s3'}es in R3 F3.
set own := R3Pl (s3_delta s3) (n3_delta (s3_nb s3)) (n3_s (s3_nb s3)).
exists (fun l => if l == sx_id c then own else odflt own (aget p3 l)) => l hl; rewrite -hs //.
case: eqP => [_|/eqP ne]; first by exists (n3_psi (s3_nb s3)); rewrite /sg_send3 /own; case: (s3_nb s3).
have [_ _ /(_ l)] := round_inv R3.
by rewrite (perm_mem ho3) => /(_ (others_mem hc hl ne)) [pl hr ->]; exact: recv3_carries hr.
Qed.

Lemma called_once (vk : pt C) (ids : seq I) delta cap_delta cap_s (n n' : sg_next C I HO) :
  called_for vk ids delta cap_delta cap_s (round_of n) -> called_for vk ids delta cap_delta cap_s (round_of n') ->
  round_of n = round_of n'.
Proof.
case=> a5 a6 a4 [b5 b6 b4]; case: n a5 a6 a4 => ? /= a5 a6 a4; symmetry.
- by apply/b4/a4.
- by apply/b5/a5.
- by apply/b6/a6.
Qed.

Lemma same_branch rnd rnd' id id' entry entry' ra ra' c c' e e' r2 r2' r3 r3' m1 m2 m3 m1' m2' m3'
    o1 o2 o3 o1' o2' o3' s3 s3' n n' all :
  let ids := akeys (zs_public (se_share entry)) in
  uniq ids -> id \in ids -> id' \in ids ->
  zs_public (se_share entry) = zs_public (se_share entry') ->
  sg_start S H scheme rnd id entry ra = Ok (c, e) -> sg_start S H scheme rnd' id' entry' ra' = Ok (c', e') ->
  perm_eq o3 (without ids id) -> perm_eq o3' (without ids id') ->
  sg_until3 S le X c e r2 r3 m1 m2 o1 o2 = Accept s3 -> sg_until3 S le X c' e' r2' r3' m1' m2' o1' o2' = Accept s3' ->
  sg_until4 S le X xcoord c e r2 r3 m1 m2 m3 o1 o2 o3 = Accept n ->
  sg_until4 S le X xcoord c' e' r2' r3' m1' m2' m3' o1' o2' o3' = Accept n' ->
  said ids id (sg_send3 s3) m3 all -> said ids id' (sg_send3 s3') m3' all ->
  round_of n = round_of n'.
Proof.
move=> ids hu hi hi' ep hs hs'.
have hp := start_party hu hi hs; have [a1 a2 a3 a4 a5] := start_inv hs.
have hu' : uniq (akeys (zs_public (se_share entry'))) by rewrite -ep.
have hi2 : id' \in akeys (zs_public (se_share entry')) by rewrite -ep.
have hp' := start_party hu' hi2 hs'; have [b1 b2 b3 b4 b5] := start_inv hs'.
have o : sx_others c = without ids id by rewrite a3 a2.
have o' : sx_others c' = without ids id' by rewrite b3 b2 -ep.
have ea : sx_all c = ids by []. have ea' : sx_all c' = ids by rewrite b2 -ep.
rewrite -o -o' -a1 -b1 -{1}ea -{1}ea' => p3 p3' u3 u3' u4 u4' h h'.
have [f hf] := all_carry hp p3 u3 u4 h.
have R := branch_rule hp p3 u3 u4 h hf.
have hf' : {in sx_all c', forall l, carries (all l) (l3_delta (f l)) (l3_cap_delta (f l)) (l3_cap_s (f l))}.
  by rewrite ea' -ea.
have R' := branch_rule hp' p3' u3' u4' h' hf'.
move: R R'; rewrite ea ea' a4 b4 /zs_vkey ep; exact: called_once.
Qed.

Lemma branch_rule_start rnd id entry ra c e r2 r3 m1 m2 m3 o1 o2 o3 s3 n all delta cap_delta cap_s :
  let ids := akeys (zs_public (se_share entry)) in
  uniq ids -> id \in ids -> sg_start S H scheme rnd id entry ra = Ok (c, e) -> perm_eq o3 (without ids id) ->
  sg_until3 S le X c e r2 r3 m1 m2 o1 o2 = Accept s3 ->
  sg_until4 S le X xcoord c e r2 r3 m1 m2 m3 o1 o2 o3 = Accept n ->
  said ids id (sg_send3 s3) m3 all ->
  {in ids, forall l, carries (all l) (delta l) (cap_delta l) (cap_s l)} ->
  called_for (total (avals (zs_public (se_share entry)))) ids delta cap_delta cap_s (round_of n).
Proof.
move=> ids hu hi hs; have hp := start_party hu hi hs; have [a1 a2 a3 a4 a5] := start_inv hs.
have o : sx_others c = without ids id by rewrite a3 a2.
have ea : sx_all c = ids by [].
rewrite -(vkey_total HC) -a4 -o -ea -a1 => p3 u3 u4 h; exact: (branch_rule hp p3 u3 u4 h).
Qed.

(** ** One different S is enough. *)
Lemma recv3_with_s (s : sg_round3 C I HO) from m p t : sg_recv3 X s from m = Accept p ->
  sg_recv3 X s from (with_s t m) = Accept (R3Pl (l3_delta p) (l3_cap_delta p) t).
Proof.
rewrite /sg_recv3 => U; have [? E0 {}U] := vbind_inv U; have [d E1 {}U] := vbind_inv U.
have [n E2 {}U] := vbind_inv U; have [? E3 {}U] := vbind_inv U; have [? E4 {}U] := vbind_inv U.
rewrite /= E0 /= E1 /=; case: U => <- /=.
move: E2; rewrite /deser; case: (m_normal m) => // -[] //= n' [->] /=.
by rewrite E3 /= E4.
Qed.

Lemma total_one (ids : seq I) l (f g : I -> pt C) : uniq ids -> l \in ids ->
  {in ids, forall j, j != l -> f j = g j} -> total [seq f j | j <- ids] = total [seq g j | j <- ids] -> f l = g l.
Proof.
have canc a b c : padd C a b = padd C a c -> b = c.
  move=> h; have : padd C (popp C a) (padd C a b) = padd C (popp C a) (padd C a c) by rewrite h.
  by rewrite !(c_addA _ _ HC) (c_addC _ _ HC _ a) (c_addN _ _ HC) !(c_addC _ _ HC (p0 C)) !(c_add0 _ _ HC).
elim: ids => [|i ids IH] //= /andP [ni hu]; rewrite inE; case: eqP => [-> _|/eqP ne /= hl] h; last first.
  rewrite h ?mem_head // 1?eq_sym // => /canc; apply: IH => // j hj; apply: h; by rewrite inE hj orbT.
rewrite (_ : [seq f j | j <- ids] = [seq g j | j <- ids]).
  by rewrite !(c_addC _ _ HC _ (total _)) => /canc.
apply/eq_in_map => j hj; apply: h; first by rewrite inE hj orbT.
by apply: contraNneq ni => <-.
Qed.

(** A party about to sign goes to round 6 instead if one other party gives it
    another S. *)
Lemma one_lie c e r2 r3 m1 m2 m3 o1 o2 o3 t4 l dl cdl cs t : party_ok c -> perm_eq o3 (sx_others c) ->
  sg_until4 S le X xcoord c e r2 r3 m1 m2 m3 o1 o2 o3 = Accept (ToRound4 t4) ->
  l \in sx_others c -> carries (m3 l) dl cdl cs -> t <> cs ->
  exists t6, sg_until4 S le X xcoord c e r2 r3 m1 m2 (fun j => if j == l then with_s t (m3 j) else m3 j) o1 o2 o3
    = Accept (ToRound6 t6).
Proof.
move=> hc ho3 U4 hl hca ne; have [s3 [p3 [U3 R3 F3]]] := until4_inv U4; have [ec _] := until3_ctx U3.
have hp : forall j, j \in sx_others c -> j \in sx_all c /\ j != sx_id c.
  by case: hc => _ _ -> j; rewrite mem_filter => /andP [].
have kp : perm_eq (akeys p3) (sx_others c) by exact: perm_trans (round_keys R3) ho3.
set own := R3Pl (s3_delta s3) (n3_delta (s3_nb s3)) (n3_s (s3_nb s3)).
pose f j := if j == sx_id c then own else odflt own (aget p3 j).
pose f' j := if j == l then R3Pl (l3_delta (f j)) (l3_cap_delta (f j)) t else f j.
have ge j : j \in sx_others c -> sg_recv3 X s3 j (m3 j) = Accept (f j) /\ aget p3 j = Some (f j).
  move=> hj; have [_ _ /(_ j)] := round_inv R3; rewrite (perm_mem ho3) => /(_ hj) [pl hr ea].
  by rewrite /f; have [_ /negbTE ->] := hp _ hj; rewrite ea.
have R' : receive_all (fun j => sg_recv3 X s3 j (if j == l then with_s t (m3 j) else m3 j)) o3 = Accept [seq (j, f' j) | j <- o3].
  apply: receive_all_ok => j; rewrite (perm_mem ho3) => /ge [hj _]; rewrite /f'; case: ifP => // _.
  exact: recv3_with_s hj.
rewrite /sg_until4 U3 /= /round_payloads R' /=; set p3' := btree _ _.
have kp' : perm_eq (akeys p3') (sx_others c).
  by rewrite /p3' akeys_btree perm_sort /akeys -map_comp map_id.
have nl : sx_id c != l by rewrite eq_sym; case: (hp _ hl).
have fo' : f' (sx_id c) = own by rewrite /f' (negbTE nl) /f eqxx.
have fo : f (sx_id c) = own by rewrite /f eqxx.
have fp : {in sx_others c, forall j, aget p3 j = Some (f j)} by move=> j /ge [].
have fp' : {in sx_others c, forall j, aget p3' j = Some (f' j)}.
  by move=> j hj; rewrite /p3' aget_btree aget_map_tab (perm_mem ho3) hj.
have [x5 [x6 [x4 E]]] := finalize3_shape hc ec kp fo fp.
have [y5 [y6 [y4 ->]]] := finalize3_shape hc ec kp' fo' fp'.
have fd : [seq l3_delta (f' j) | j <- sx_all c] = [seq l3_delta (f j) | j <- sx_all c].
  by apply/eq_map => j; rewrite /f'; case: ifP.
have fD : [seq l3_cap_delta (f' j) | j <- sx_all c] = [seq l3_cap_delta (f j) | j <- sx_all c].
  by apply/eq_map => j; rewrite /f'; case: ifP.
move: F3; rewrite {}E fd fD /=; case: ifP => // _; case: ifP => // /negbT; rewrite negbK => /(c_eqb _ _ HC) ET _.
case E2: (peqb C _ _) => /=; last by exists y6.
case: ne; move/(c_eqb _ _ HC): E2; rewrite -ET.
have [hla _] := hp _ hl; have hu : uniq (sx_all c) by case: hc.
have hn : {in sx_all c, forall j, j != l -> l3_cap_s (f' j) = l3_cap_s (f j)}.
  by move=> j _ /negbTE nj; rewrite /f' nj.
move/(total_one (f := fun j => l3_cap_s (f' j)) (g := fun j => l3_cap_s (f j)) hu hla hn).
rewrite /f' eqxx /= => ->.
have [hr _] := ge _ hl; have [nn [_ h2 _ ->]] := recv3_inv hr.
by case: hca => psi em; move: h2; rewrite em => -[<-].
Qed.
End Branch.

(** The honest session of C50, with one lie told to one party. *)
Section Split.
Variables (S : sparams) (C : curve) (I : eqType) (le : rel I) (HO : eqType).
Notation item := (hitem HO I (pt C)).
Notation q := (sp_q S).
Variables (H : dst -> seq item -> HO) (X : xof (seq item) (pt C)) (scheme : seq item).
Variables (xcoord : pt C -> Z) (lift_x : nat -> Z -> option (pt C)) (positional : bool).
Hypothesis (HG : good_params S) (HC : curve_ok q C) (HXO : xof_ok q X) (ho : total_order le).
Variables (p : parties I) (d : draws I) (randomness text : seq Z) (o : arrivals I).
Hypotheses (hp : parties_ok S le p) (hd : draws_ok S p d) (har : arrivals_ok p o).
Hypotheses (Pq : Znumtheory.prime q).
Notation ids := (py_ids p).

Lemma split_session v l : v \in ids -> l \in ids -> l != v -> Z.modulo (joint_k p d * joint_gamma p d) q <> Z0 ->
  exists c e m1 s2 s3 s4, [/\ session S le H X scheme p d randomness text o c e m1 s2 s3,
    {in ids, forall i,
      sg_until4 S le X xcoord (c i) (e i) (dr_2 d i) (dr_3 d i) (m1 i) (fun j => sg_send2 (s2 j)) (fun j => sg_send3 (s3 j))
        (ar_1 o i) (ar_2 o i) (ar_3 o i) = Accept (ToRound4 (s4 i))} &
    forall t, t <> n3_s (s3_nb (s3 l)) ->
      let m3 j := if j == l then with_s t (sg_send3 (s3 j)) else sg_send3 (s3 j) in
      (exists s6, sg_until4 S le X xcoord (c v) (e v) (dr_2 d v) (dr_3 d v) (m1 v) (fun j => sg_send2 (s2 j)) m3
        (ar_1 o v) (ar_2 o v) (ar_3 o v) = Accept (ToRound6 s6)) /\
      forall m4 o4 sig, sg_run S le X xcoord lift_x positional (c v) (e v) (dr_2 d v) (dr_3 d v) (m1 v)
        (fun j => sg_send2 (s2 j)) m3 m4 (ar_1 o v) (ar_2 o v) (ar_3 o v) o4 <> Accept sig].
Proof.
move=> hv hl ne hn.
have [c [e [m1 [s2 [s3 [hses _ /(_ hn) [s4 [h4 _]]]]]]]] :=
  session_full H scheme xcoord lift_x positional HG HC HXO ho randomness text hp hd har Pq.
exists c, e, m1, s2, s3, s4; split=> // t ht m3.
have Q1 : (1 < q)%Z by exact: (proj1 (q_le S HG)).
have hst := se_start hses hv; have [a1 a2 a3 _ _] := start_inv hst.
have ek : akeys (zs_public (se_share (entry_of C p text v))) = ids.
  by rewrite /= /akeys -map_comp map_id.
have hu : uniq ids by case: hp.
have hpo : party_ok (c v) by apply: start_party hst; rewrite ek.
have [_ _ p3 _] := har hv.
have oth : sx_others (c v) = without ids v by rewrite a3 a2 ek.
have hca : carries (sg_send3 (s3 l)) (s3_delta (s3 l)) (n3_delta (s3_nb (s3 l))) (n3_s (s3_nb (s3 l))).
  by exists (n3_psi (s3_nb (s3 l))); rewrite /sg_send3; case: (s3_nb _).
have [] := one_lie (l := l) HC Q1 hpo _ (h4 _ hv) _ hca ht; rewrite ?oth ?mem_filter ?hl ?andbT //.
move=> s6 E6; split; first by exists s6.
move=> m4 o4 sig; rewrite /sg_run {1}/m3 E6 /=.
by case: (round_payloads _ _ _).
Qed.
End Split.
