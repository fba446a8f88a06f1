(** * The error rounds of signing: sessions. *)
From Coq Require Import ZArith Lia.
From Verif Require Import Base BaseFacts ModArith EncodingModel PaillierModel PaillierSpec ZkBase ZkFacts ZkModel ZkSpec ZkLemmas.
From mathcomp Require Import all_ssreflect.
From Verif Require Import AlgBase AlgFacts ProtoBase ProtoSpec ProtoFacts AuxGenModel SigningModel SigningSpec SigningAlgebra SigningSums
  SigningProofs SigningShares SigningMain SigningHonestSpec SigningHonest SigningHonestMain SigningBranchSpec SigningBranch SigningErrorSpec
  SigningError.
Set Implicit Arguments.
Unset Strict Implicit.
Unset Printing Implicit Defensive.

Section Lie.
Variables (S : sparams) (C : curve) (I : eqType) (le : rel I) (HO : eqType).
Notation item := (hitem HO I (pt C)).
Notation q := (sp_q S).
Variables (H : dst -> seq item -> HO) (X : xof (seq item) (pt C)) (scheme : seq item).
Variables (xcoord : pt C -> Z).
Hypothesis HC : curve_ok q C.
Hypothesis Q1 : (1 < q)%Z.

Lemma recv3_with_delta (s : sg_round3 C I HO) from m p t : sg_recv3 X s from m = Accept p ->
  sg_recv3 X s from (with_delta t m) = Accept (R3Pl t (l3_cap_delta p) (l3_cap_s p)).
Proof.
rewrite /sg_recv3 => U; have [? E0 {}U] := vbind_inv U; have [d E1 {}U] := vbind_inv U.
have [n E2 {}U] := vbind_inv U; have [? E3 {}U] := vbind_inv U; have [? E4 {}U] := vbind_inv U.
by rewrite /= E0 /= E2 /=; case: U => <- /=; rewrite E3 /= E4.
Qed.

Lemma pmul_total (f : I -> Z) ids : pmul C (foldr Z.add Z0 [seq f j | j <- ids]) (gen C) = total [seq pmul C (f j) (gen C) | j <- ids].
Proof.
elim: ids => [|i ids IH] /=; first exact: (pmul_0 _ _ HC).
by rewrite (c_mulDl _ _ HC) IH.
Qed.

(** A party about to sign goes to round 5 instead if one other party gives it
    another delta. *)
Lemma one_delta c e r2 r3 m1 m2 m3 o1 o2 o3 t4 l dl cdl cs t : party_ok c -> perm_eq o3 (sx_others c) ->
  sg_until4 S le X xcoord c e r2 r3 m1 m2 m3 o1 o2 o3 = Accept (ToRound4 t4) ->
  l \in sx_others c -> carries (m3 l) dl cdl cs -> pmul C t (gen C) <> pmul C dl (gen C) ->
  exists t5, sg_until4 S le X xcoord c e r2 r3 m1 m2 (fun j => if j == l then with_delta t (m3 j) else m3 j) o1 o2 o3
    = Accept (ToRound5 t5).
Proof.
move=> hc ho3 U4 hl hca ne; have [s3 [p3 [U3 R3 F3]]] := until4_inv U4; have [ec _] := until3_ctx U3.
have hp : forall j, j \in sx_others c -> j \in sx_all c /\ j != sx_id c.
  by case: hc => _ _ -> j; rewrite mem_filter => /andP [].
have kp : perm_eq (akeys p3) (sx_others c) by exact: perm_trans (round_keys R3) ho3.
set own := R3Pl (s3_delta s3) (n3_delta (s3_nb s3)) (n3_s (s3_nb s3)).
pose f j := if j == sx_id c then own else odflt own (aget p3 j).
pose f' j := if j == l then R3Pl t (l3_cap_delta (f j)) (l3_cap_s (f j)) else f j.
have ge j : j \in sx_others c -> sg_recv3 X s3 j (m3 j) = Accept (f j) /\ aget p3 j = Some (f j).
  move=> hj; have [_ _ /(_ j)] := round_inv R3; rewrite (perm_mem ho3) => /(_ hj) [pl hr ea].
  by rewrite /f; have [_ /negbTE ->] := hp _ hj; rewrite ea.
have R' : receive_all (fun j => sg_recv3 X s3 j (if j == l then with_delta t (m3 j) else m3 j)) o3 = Accept [seq (j, f' j) | j <- o3].
  apply: receive_all_ok => j; rewrite (perm_mem ho3) => /ge [hj _]; rewrite /f'; case: ifP => // _.
  exact: recv3_with_delta hj.
rewrite /sg_until4 U3 /= /round_payloads R' /=; set p3' := btree _ _.
have kp' : perm_eq (akeys p3') (sx_others c).
  by rewrite /p3' akeys_btree perm_sort /akeys -map_comp map_id.
have nl : sx_id c != l by rewrite eq_sym; case: (hp _ hl).
have fo' : f' (sx_id c) = own by rewrite /f' (negbTE nl) /f eqxx.
have fo : f (sx_id c) = own by rewrite /f eqxx.
have fp : {in sx_others c, forall j, aget p3 j = Some (f j)} by move=> j /ge [].
have fp' : {in sx_others c, forall j, aget p3' j = Some (f' j)}.
  by move=> j hj; rewrite /p3' aget_btree aget_map_tab (perm_mem ho3) hj.
have [x5 [x6 [x4 E]]] := finalize3_shape le xcoord HC Q1 hc ec kp fo fp.
have [y5 [y6 [y4 ->]]] := finalize3_shape le xcoord HC Q1 hc ec kp' fo' fp'.
have fD : [seq l3_cap_delta (f' j) | j <- sx_all c] = [seq l3_cap_delta (f j) | j <- sx_all c].
  by apply/eq_map => j; rewrite /f'; case: ifP.
move: F3; rewrite {}E fD /=; case: ifP => // /negbT; rewrite negbK => /(c_eqb _ _ HC) ET _.
case E2: (peqb C _ _) => /=; last by exists y5.
case: ne; move/(c_eqb _ _ HC): E2; rewrite -ET !pmul_total.
have [hla _] := hp _ hl; have hu : uniq (sx_all c) by case: hc.
have hn : {in sx_all c, forall j, j != l -> pmul C (l3_delta (f' j)) (gen C) = pmul C (l3_delta (f j)) (gen C)}.
  by move=> j _ /negbTE nj; rewrite /f' nj.
move/(total_one (f := fun j => pmul C (l3_delta (f' j)) (gen C)) (g := fun j => pmul C (l3_delta (f j)) (gen C)) HC hu hla hn).
rewrite /f' eqxx /= => ->.
have [hr _] := ge _ hl; have [nn [-> _ _ _]] := recv3_inv hr.
by case: hca => psi ->.
Qed.
End Lie.

Section Main.
Variables (S : sparams) (C : curve) (I : eqType) (le : rel I) (HO : eqType).
Notation item := (hitem HO I (pt C)).
Notation q := (sp_q S).
Notation G := (gen C).
Variables (H : dst -> seq item -> HO) (X : xof (seq item) (pt C)) (scheme : seq item).
Variables (xcoord : pt C -> Z) (lift_x : nat -> Z -> option (pt C)) (positional : bool).
Hypothesis (HG : good_params S) (HC : curve_ok q C) (HXO : xof_ok q X) (ho : total_order le).
Variables (p : parties I) (d : draws I) (randomness text : seq Z) (o : arrivals I).
Hypotheses (hp : parties_ok S le p) (hd : draws_ok S p d) (har : arrivals_ok p o).
Hypotheses (h2 : (1 < size (py_ids p))%N) (h18 : Z.le (Z.of_nat (size (py_ids p))) (Z.pow 2 18)).
Notation ids := (py_ids p).
Notation N := (py_N p).

Notation cc := (ctx S H scheme p d randomness text).
Notation ee := (eb S C p d).
Notation mm := (m1 S H X scheme p d randomness text).
Notation ss2 := (s2 S H X scheme p d randomness text).
Notation ss3 := (s3 S H X scheme p d randomness text).
Notation until4 v m3 := (sg_until4 S le X xcoord (cc v) (ee v) (dr_2 d v) (dr_3 d v) (mm v) (fun j => sg_send2 (ss2 j)) m3 (ar_1 o v) (ar_2 o v) (ar_3 o v)).

Lemma the : session S le H X scheme p d randomness text o cc ee mm ss2 ss3.
Proof.
split.
- by move=> i hi; apply: (hstart H scheme HG randomness text hp hd hi).
- by move=> i j hi hj ne; apply: (hsend1 H scheme HG HC HXO randomness text hp hd hi hj ne).
- by move=> i hi; apply: (huntil2 H scheme HG HC HXO ho randomness text hp hd har hi).
- by move=> i hi; apply: (huntil3 H scheme HG HC HXO ho randomness text hp hd har hi).
Qed.
Let ord : {in ids, forall i, [/\ perm_eq (ar_1 o i) (without ids i), perm_eq (ar_2 o i) (without ids i),
    perm_eq (ar_3 o i) (without ids i) & perm_eq (ar_4 o i) (without ids i)]} := har.

(** What an error round checks. *)
Lemma session_checks : exists c e m1 s2 s3, session S le H X scheme p d randomness text o c e m1 s2 s3 /\
  forall v l m3 m delta cd cs, v \in ids -> l \in ids -> l != v -> carries (m3 l) delta cd cs ->
  let until4 := sg_until4 S le X xcoord (c v) (e v) (dr_2 d v) (dr_3 d v) (m1 v) (fun j => sg_send2 (s2 j)) m3
    (ar_1 o v) (ar_2 o v) (ar_3 o v) in
  let about hat x res base := vouched S X hat ids N (fun j => rp_used (py_rp p j)) (fun j => e1_k (e j)) (fun j => sg_send2 (s2 j))
    (pmul C x G) res base (sg_aux (c l) l) v l in
  (forall s, until4 = Accept (ToRound5 s) ->
    (sg_recv5 S X positional s l m = Accept tt <->
     exists eb, says5 positional m eb /\ about false (g1_gamma (dr_1 d l)) (pmul C delta G) G eb)) /\
  (forall s, until4 = Accept (ToRound6 s) ->
    (sg_recv6 S X positional s l m = Accept tt <->
     exists eb, says6 positional m eb /\ about true (py_secret p l) cs (pmul C (joint_gamma p d) G) eb)).
Proof.
exists cc, ee, mm, ss2, ss3; split; first exact: the.
move=> v l m3 m delta cd cs hv hl ne hca /=; split=> s U.
- exact: (checked5 positional HG HC HXO ho hp hd h2 ord m hv hl ne U hca).
- exact: (checked6 positional HG HC HXO ho hp hd h2 ord m hv hl ne U hca).
Qed.

(** What it reports. *)
Lemma session_faults : exists c e m1 s2 s3, session S le H X scheme p d randomness text o c e m1 s2 s3 /\
  forall v l m3 m delta cd cs err, v \in ids -> l \in ids -> l != v -> carries (m3 l) delta cd cs ->
  let until4 := sg_until4 S le X xcoord (c v) (e v) (dr_2 d v) (dr_3 d v) (m1 v) (fun j => sg_send2 (s2 j)) m3
    (ar_1 o v) (ar_2 o v) (ar_3 o v) in
  let about hat x res base := fault S X hat ids N (fun j => rp_used (py_rp p j)) (fun j => e1_k (e j)) (fun j => sg_send2 (s2 j))
    (pmul C x G) res base (sg_aux (c l) l) v l in
  (forall s, until4 = Accept (ToRound5 s) -> sg_recv5 S X positional s l m = Reject (Proto err) ->
     exists eb, says5 positional m eb /\ about false (g1_gamma (dr_1 d l)) (pmul C delta G) G
       R5DecFailed R5WrongIdsPsi (fun j => R5AffGStarFailed j) eb err) /\
  (forall s, until4 = Accept (ToRound6 s) -> sg_recv6 S X positional s l m = Reject (Proto err) ->
     exists eb, says6 positional m eb /\ about true (py_secret p l) cs (pmul C (joint_gamma p d) G)
       R6DecFailed R6WrongIdsPsi (fun j => R6AffGStarFailed j) eb err).
Proof.
exists cc, ee, mm, ss2, ss3; split; first exact: the.
move=> v l m3 m delta cd cs err hv hl ne hca /=; split=> s U.
- exact: (rejected5 HG HC HXO ho hp hd h2 ord hv hl ne U hca).
- exact: (rejected6 HG HC HXO ho hp hd h2 ord hv hl ne U hca).
Qed.

(** The message of an honest party passes the checks of every other party that
    got its round 3 message, whatever anybody else sent. *)
Lemma session_passes : exists c e m1 s2 s3, session S le H X scheme p d randomness text o c e m1 s2 s3 /\
  let until4 v m3 := sg_until4 S le X xcoord (c v) (e v) (dr_2 d v) (dr_3 d v) (m1 v) (fun j => sg_send2 (s2 j)) m3
    (ar_1 o v) (ar_2 o v) (ar_3 o v) in
  forall l rnd rnds, l \in ids -> error_draws_ok S N ids l rnd rnds ->
  (forall m3 s, until4 l m3 = Accept (ToRound5 s) ->
    exists m, sg_send5 S X s rnd rnds = Accept m /\
      forall v m3' s', v \in ids -> l != v -> until4 v m3' = Accept (ToRound5 s') -> m3' l = sg_send3 (s3 l) ->
        sg_recv5 S X positional s' l m = Accept tt) /\
  (forall m3 s, until4 l m3 = Accept (ToRound6 s) ->
    exists m, sg_send6 S X s rnd rnds = Accept m /\
      forall v m3' s', v \in ids -> l != v -> until4 v m3' = Accept (ToRound6 s') -> m3' l = sg_send3 (s3 l) ->
        sg_recv6 S X positional s' l m = Accept tt).
Proof.
exists cc, ee, mm, ss2, ss3; split; first exact: the.
move=> /= l rnd rnds hl he; split=> m3 s U.
- exact: (honest5 positional HG HC HXO ho hp hd h2 h18 ord hl U he).
- exact: (honest6 positional HG HC HXO ho hp hd h2 h18 ord hl U he).
Qed.

Hypothesis Pq : Znumtheory.prime q.
Hypothesis hn : Z.modulo (joint_k p d * joint_gamma p d) q <> Z0.
Let q1 : Z.lt 1 q. Proof. exact: (proj1 (q_le S HG)). Qed.

Lemma ready v : v \in ids -> exists s4, until4 v (fun j => sg_send3 (ss3 j)) = Accept (ToRound4 s4).
Proof.
move=> hv; rewrite (huntil4 H scheme xcoord HG HC HXO ho randomness text hp hd har hv) !zsum_over.
have hr : (0 < Z.modulo (joint_k p d * joint_gamma p d) q < q)%Z.
  by have := Z.mod_pos_bound (joint_k p d * joint_gamma p d) q; lia.
by have [di -> _] := inv_mod_prime Pq hr; eexists.
Qed.

Let sent l : carries (sg_send3 (ss3 l)) (s3_delta (ss3 l)) (n3_delta (s3_nb (ss3 l))) (n3_s (s3_nb (ss3 l))).
Proof. by exists (n3_psi (s3_nb (ss3 l))); rewrite /sg_send3; case: (s3_nb _). Qed.
Let pok v : v \in ids -> party_ok (cc v).
Proof.
move=> hv; have hst := se_start the hv.
have ek : akeys (zs_public (se_share (entry_of C p text v))) = ids by rewrite /= /akeys -map_comp map_id.
by apply: (start_party _ _ hst); rewrite ek //; exact: (pk_uniq hp).
Qed.

(** A party that lies about its delta. *)
Definition lied (delta : Z) (l j : I) := if j == l then with_delta delta (sg_send3 (ss3 j)) else sg_send3 (ss3 j).
Lemma lie5 v l delta : v \in ids -> l \in ids -> l != v -> pmul C delta G <> pmul C (s3_delta (ss3 l)) G ->
  exists s, until4 v (lied delta l) = Accept (ToRound5 s).
Proof.
move=> hv hl ne hdl; have [s4 U4] := ready hv; have [_ _ p3 _] := har hv.
by apply: (one_delta HC q1 (pok hv) _ U4 _ (sent l) hdl) => //=; rewrite mem_filter ne.
Qed.
Definition lied6 (t : pt C) (l j : I) := if j == l then with_s t (sg_send3 (ss3 j)) else sg_send3 (ss3 j).
Lemma lie6 v l t : v \in ids -> l \in ids -> l != v -> t <> n3_s (s3_nb (ss3 l)) ->
  exists s, until4 v (lied6 t l) = Accept (ToRound6 s).
Proof.
move=> hv hl ne hdl; have [s4 U4] := ready hv; have [_ _ p3 _] := har hv.
by apply: (one_lie HC q1 (pok hv) _ U4 _ (sent l) hdl) => //=; rewrite mem_filter ne.
Qed.

Lemma no_blame5 l delta (rnd : I -> seq dec_rand) (rnds : I -> I -> seq aff_gs_rand) :
  l \in ids -> {in ids, forall j, error_draws_ok S N ids j (rnd j) (rnds j)} ->
  pmul C delta G <> pmul C (s3_delta (ss3 l)) G ->
  exists m4, forall v, v \in ids -> l != v -> exists s,
    [/\ until4 v (lied delta l) = Accept (ToRound5 s), sg_send5 S X s (rnd v) (rnds v) = Accept (m4 v) &
     sg_run S le X xcoord lift_x positional (cc v) (ee v) (dr_2 d v) (dr_3 d v) (mm v) (fun j => sg_send2 (ss2 j)) (lied delta l) m4
       (ar_1 o v) (ar_2 o v) (ar_3 o v) (ar_4 o v) = RLocal].
Proof.
move=> hl he hdl.
have [ml hml] := forged5 H scheme xcoord positional HG HC HXO ho randomness text hp hd h2 h18 ord delta hl (he _ hl).
pose m4 j := if j == l then ml else
  if until4 j (lied delta l) is Accept (ToRound5 s) then
    if sg_send5 S X s (rnd j) (rnds j) is Accept m then m else ml
  else ml.
exists m4 => v hv ne; have [s U] := lie5 hv hl ne hdl; exists s.
have good j : j \in ids -> l != j -> forall s', until4 j (lied delta l) = Accept (ToRound5 s') ->
   sg_send5 S X s' (rnd j) (rnds j) = Accept (m4 j) /\
   forall w s'', w \in ids -> j != w -> until4 w (lied delta l) = Accept (ToRound5 s'') -> sg_recv5 S X positional s'' j (m4 j) = Accept tt.
  move=> hj nj s' U'; have [m [E1 E2]] := honest5 positional HG HC HXO ho hp hd h2 h18 ord hj U' (he _ hj).
  have -> : m4 j = m by rewrite /m4 eq_sym (negbTE nj) U' E1.
  split=> // w s'' hw njw Uw; apply: (E2 w _ _ hw njw Uw).
  by rewrite /lied eq_sym (negbTE nj).
have [E1 _] := good _ hv ne _ U; split=> //.
rewrite /sg_run U /=; have [_ _ _ p4] := har hv.
rewrite /round_payloads (@receive_all_ok _ _ _ _ (fun _ => tt)) //.
move=> j; rewrite (perm_mem p4) mem_filter => /andP [njv hj].
have [->|nj] := eqVneq j l.
  by rewrite /m4 eqxx; apply: (hml v _ _ hv ne U); rewrite /lied eqxx.
have nlj : l != j by rewrite eq_sym.
have [s' U'] := lie5 hj hl nlj hdl; have [_ h] := good _ hj nlj _ U'; exact: h hv njv U.
Qed.

Lemma no_blame6 l r (rnd : I -> seq dec_rand) (rnds : I -> I -> seq aff_gs_rand) :
  l \in ids -> {in ids, forall j, error_draws_ok S N ids j (rnd j) (rnds j)} ->
  let t := pmul C r (pmul C (joint_gamma p d) G) in
  t <> n3_s (s3_nb (ss3 l)) ->
  exists m4, forall v, v \in ids -> l != v -> exists s,
    [/\ until4 v (lied6 t l) = Accept (ToRound6 s), sg_send6 S X s (rnd v) (rnds v) = Accept (m4 v) &
     sg_run S le X xcoord lift_x positional (cc v) (ee v) (dr_2 d v) (dr_3 d v) (mm v) (fun j => sg_send2 (ss2 j)) (lied6 t l) m4
       (ar_1 o v) (ar_2 o v) (ar_3 o v) (ar_4 o v) = RLocal].
Proof.
move=> hl he t hdl.
have [ml hml] := forged6 H scheme xcoord positional HG HC HXO ho randomness text hp hd h2 h18 ord r hl (he _ hl).
pose m4 j := if j == l then ml else
  if until4 j (lied6 t l) is Accept (ToRound6 s) then
    if sg_send6 S X s (rnd j) (rnds j) is Accept m then m else ml
  else ml.
exists m4 => v hv ne; have [s U] := lie6 hv hl ne hdl; exists s.
have good j : j \in ids -> l != j -> forall s', until4 j (lied6 t l) = Accept (ToRound6 s') ->
   sg_send6 S X s' (rnd j) (rnds j) = Accept (m4 j) /\
   forall w s'', w \in ids -> j != w -> until4 w (lied6 t l) = Accept (ToRound6 s'') -> sg_recv6 S X positional s'' j (m4 j) = Accept tt.
  move=> hj nj s' U'; have [m [E1 E2]] := honest6 positional HG HC HXO ho hp hd h2 h18 ord hj U' (he _ hj).
  have -> : m4 j = m by rewrite /m4 eq_sym (negbTE nj) U' E1.
  split=> // w s'' hw njw Uw; apply: (E2 w _ _ hw njw Uw).
  by rewrite /lied6 eq_sym (negbTE nj).
have [E1 _] := good _ hv ne _ U; split=> //.
rewrite /sg_run U /=; have [_ _ _ p4] := har hv.
rewrite /round_payloads (@receive_all_ok _ _ _ _ (fun _ => tt)) //.
move=> j; rewrite (perm_mem p4) mem_filter => /andP [njv hj].
have [->|nj] := eqVneq j l.
  by rewrite /m4 eqxx; apply: (hml v _ _ hv ne U); rewrite /lied6 eqxx /t (GamE C p d).
have nlj : l != j by rewrite eq_sym.
have [s' U'] := lie6 hj hl nlj hdl; have [_ h] := good _ hj nlj _ U'; exact: h hv njv U.
Qed.

Lemma session_no_blame5 : exists c e m1 s2 s3, session S le H X scheme p d randomness text o c e m1 s2 s3 /\
  forall l delta rnd rnds, l \in ids -> {in ids, forall j, error_draws_ok S N ids j (rnd j) (rnds j)} ->
  pmul C delta G <> pmul C (s3_delta (s3 l)) G ->
  let m3 j := if j == l then with_delta delta (sg_send3 (s3 j)) else sg_send3 (s3 j) in
  exists m4, {in ids, forall v, l != v -> exists s,
    [/\ sg_until4 S le X xcoord (c v) (e v) (dr_2 d v) (dr_3 d v) (m1 v) (fun j => sg_send2 (s2 j)) m3 (ar_1 o v) (ar_2 o v) (ar_3 o v)
          = Accept (ToRound5 s),
        sg_send5 S X s (rnd v) (rnds v) = Accept (m4 v) &
        sg_run S le X xcoord lift_x positional (c v) (e v) (dr_2 d v) (dr_3 d v) (m1 v) (fun j => sg_send2 (s2 j)) m3 m4
          (ar_1 o v) (ar_2 o v) (ar_3 o v) (ar_4 o v) = RLocal]}.
Proof.
exists cc, ee, mm, ss2, ss3; split; first exact: the.
by move=> l delta rnd rnds hl he hdl m3; have [m4 h] := no_blame5 hl he hdl; exists m4 => v hv; exact: h.
Qed.
Lemma session_no_blame6 : exists c e m1 s2 s3, session S le H X scheme p d randomness text o c e m1 s2 s3 /\
  forall l r rnd rnds, l \in ids -> {in ids, forall j, error_draws_ok S N ids j (rnd j) (rnds j)} ->
  let t := pmul C r (pmul C (joint_gamma p d) G) in
  t <> n3_s (s3_nb (s3 l)) ->
  let m3 j := if j == l then with_s t (sg_send3 (s3 j)) else sg_send3 (s3 j) in
  exists m4, {in ids, forall v, l != v -> exists s,
    [/\ sg_until4 S le X xcoord (c v) (e v) (dr_2 d v) (dr_3 d v) (m1 v) (fun j => sg_send2 (s2 j)) m3 (ar_1 o v) (ar_2 o v) (ar_3 o v)
          = Accept (ToRound6 s),
        sg_send6 S X s (rnd v) (rnds v) = Accept (m4 v) &
        sg_run S le X xcoord lift_x positional (c v) (e v) (dr_2 d v) (dr_3 d v) (m1 v) (fun j => sg_send2 (s2 j)) m3 m4
          (ar_1 o v) (ar_2 o v) (ar_3 o v) (ar_4 o v) = RLocal]}.
Proof.
exists cc, ee, mm, ss2, ss3; split; first exact: the.
by move=> l r rnd rnds hl he t hdl m3; have [m4 h] := no_blame6 hl he hdl; exists m4 => v hv; exact: h.
Qed.
End Main.
