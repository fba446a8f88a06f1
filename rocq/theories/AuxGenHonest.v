(** * An honest AuxGen run. *)
From Coq Require Import ZArith Lia.
From Verif Require Import Base BaseFacts EncodingModel SignedModel PaillierModel ZkBase ZkModel ZkSpec.
From mathcomp Require Import all_ssreflect.
From Verif Require Import AlgBase AlgFacts
  ProtoBase ProtoSpec ProtoFacts KeyInitProofs AuxGenModel AuxGenSpec AuxGenProofs AuxHonestSpec AuxHonestProofs.
Set Implicit Arguments.
Unset Strict Implicit.
Unset Printing Implicit Defensive.

Section Honest.
Variables (S : sparams) (C : curve) (I : eqType) (le : rel I) (HO : eqType).
Notation item := (hitem HO I (pt C)).
Notation P := (sp_pail S).
Variables (H : dst -> seq item -> HO) (X : xof (seq item) (pt C)) (scheme : seq item).
Notation start := (ag_start S H X scheme).
Notation until3 := (ag_until3 S le H X).
Notation run := (ag_run S le H X).
Hypothesis (HG : good_params S) (HX : xof_ok (sp_q S) X).

Lemma ag_start_succeeds ids sr id r com : id \in ids -> honest_keys S r com ->
  exists c d, start ids sr id r = Ok (c, d).
Proof.
move=> hid hk; rewrite /ag_start hid /=.
have [sec [rp [psi [sk [[-> [E2 [E3 E4]]] [[-> [-> _]] _]]]]]] :=
  @honest_start S C (seq item) X HG r com hk [:: HOut (sid_new H scheme sr ids); HId id].
by rewrite /= E2 /= E3 /=; eexists; eexists.
Qed.

Lemma ag_start_honest ids sr id r com c d : honest_keys S r com ->
  start ids sr id r = Ok (c, d) ->
  [/\ ap_pk d = Z.mul (ar_p r) (ar_q r), skey_new P (ar_p r) (ar_q r) = Ret (ax_sk c),
      prm_verify S X (ap_psi d) (ap_rp d) [:: HOut (sid_new H scheme sr ids); HId id] = Ret true &
      rp_n (ap_rp d) = Z.mul (ar_rp_p r) (ar_rp_q r)] /\
  [/\ big_enough S (ap_pk d), big_enough S (rp_n (ap_rp d)), reduced (ap_rp d) = ap_rp d, setup_ok S (ap_rp d) &
      Z.odd (ap_pk d) /\ Z.odd (rp_n (ap_rp d))].
Proof.
move=> hk; rewrite /ag_start; case: ifP => // _.
have [sec [rp [psi [sk [[-> [E2 [E3 E4]]] [[-> [-> [Esk _]]] [[b1 b2] [En [Er [Es [o1 o2]]]]]]]]]]] :=
  @honest_start S C (seq item) X HG r com hk [:: HOut (sid_new H scheme sr ids); HId id].
rewrite /= E2 /= E3 /= => -[<- <-] /=.
by split; split.
Qed.

Variables (ids : seq I) (sr : seq Z) (r : I -> ag_rand) (com : I -> Z).
Variables (rnd : I -> I -> fac_rand) (n : nat) (c : I -> ag_ctx I HO) (d : I -> ag_public) (o1 o2 o3 : I -> seq I).
Hypotheses (ho : total_order le) (hs : sorted le ids) (hu : uniq ids).
Hypothesis HD : detects_composites X.
Hypothesis HW : Z.lt (Z.add (Z.add (Z.add (Z.mul 2 (modulus_bits P)) (sp_l S)) (sp_eps S)) 1) (sp_xw S).
Hypothesis hk : {in ids, forall i, honest_keys S (r i) (com i)}.
Hypothesis hm : {in ids &, forall i j, i != j -> honest_masks S (r i) (Z.mul (ar_rp_p (r j)) (ar_rp_q (r j))) (rnd i j)}.
Hypothesis hn : {in ids, forall i, size (ar_rid (r i)) = n}.
Hypothesis hc : {in ids, forall i, start ids sr i (r i) = Ok (c i, d i)}.
Hypothesis ho1 : {in ids, forall i, perm_eq (o1 i) (without ids i)}.
Hypothesis ho2 : {in ids, forall i, perm_eq (o2 i) (without ids i)}.
Hypothesis ho3 : {in ids, forall i, perm_eq (o3 i) (without ids i)}.
Notation sid := (sid_new H scheme sr ids).
Notation haux i R := (ag_aux C sid i R).
Notation pay d := (AgPayload (ap_pk d) (ap_rp d) (ap_rid d)).

Definition apsi R (i : I) : mod_proof :=
  if mod_new S X (ax_sk (c i)) (haux i R) (com i) is Ret p then p else ModProof Z0 [::] [::].
Definition ast R (i : I) : ag_round3 I HO := AgRound3 (c i) R [seq (j, pay (d j)) | j <- ids] (apsi R i).

Lemma amod R i : i \in ids ->
  mod_new S X (ax_sk (c i)) (haux i R) (com i) = Ret (apsi R i) /\
  mod_verify S X (apsi R i) (ap_pk (d i)) (haux i R) = Ret true.
Proof.
move=> hi; have [[-> es _ _] _] := ag_start_honest (hk hi) (hc hi).
have [pf [E1 E2]] := @honest_mod S C (seq item) X HG HX _ _ (hk hi) _ (haux i R) HD es.
by rewrite /apsi E1.
Qed.

Lemma auntil3 R i : combined [seq ar_rid (r i) | i <- ids] R -> i \in ids ->
  until3 (c i) (d i) (com i) (fun j => ag_send1 H (c j) (d j)) (fun j => ag_send2 HO (d j)) (o1 i) (o2 i) = Accept (ast R i).
Proof.
move=> hR hi; rewrite /ag_until3.
have so : sorted le (without ids i) by exact: sorted_without.
have inw j : j \in without ids i -> j \in ids by rewrite mem_filter => /andP [].
rewrite (round_ok (p := fun j => ag_hash H (d j) (ax_sid (c j)) (ax_id (c j))) ho so (ho1 hi)) //=.
have [_ ei1 ei2 ei3 [ei4 ei5 ei6 _]] := ag_start_inv (hc hi).
rewrite (round_ok (p := fun j => pay (d j)) ho so (ho2 hi)) /=; last first.
  move=> j hj; have jin := inw _ hj; apply/recv2_ok.
  have [_ ej1 ej2 ej3 _] := ag_start_inv (hc jin).
  have [[q1 q2 q3 q4] [q5 q6 q7 q8 q9]] := ag_start_honest (hk jin) (hc jin).
  exists (ap_rid (d j)), (ap_rp (d j)), (ap_pk (d j)), (ap_psi (d j)), (ap_u (d j)); rewrite q7; split=> //.
  - by rewrite aget_tab hj /ag_hash ej3 ei3 ej1.
  - by rewrite ei3.
rewrite /ag_finalize2.
have -> : [seq al_rid q.2 | q <- [seq (j, pay (d j)) | j <- without ids i]] = [seq ar_rid (r j) | j <- without ids i].
  by rewrite -map_comp; apply/eq_in_map => j /inw hj /=; have [_ _ _ _ [-> _ _ _]] := ag_start_inv (hc hj).
rewrite ei4.
have /xor_allP -> /= : combined (ar_rid (r i) :: [seq ar_rid (r j) | j <- without ids i]) R.
  by apply: combined_perm hR; rewrite (perm_map (fun i => ar_rid (r i)) (perm_without hu hi)).
rewrite ei3 ei1 (proj1 (amod R hi)) /=.
congr (Accept (AgRound3 _ _ _ _)).
rewrite -ei4; exact: (binsert_tab ho (fun j => pay (d j)) hs hu hi).
Qed.

Definition afac R (to from : I) : fac_proof :=
  if fac_new S X (ax_sk (c from)) (ap_rp (d to)) (haux from R) (rnd from to) is Ret p then p
  else FacProof (mkS Z0 Z0) Z0 Z0 Z0 Z0 Z0 (mkS Z0 Z0) (mkS Z0 Z0) (mkS Z0 Z0) (mkS Z0 Z0) (mkS Z0 Z0).
Definition am3 R (to from : I) : message (ag_wire HO) :=
  Msg (Some (A3DM (afac R to from))) None (Some (A3NB (apsi R from))).

Lemma afacE R to from : to \in ids -> from \in ids -> from != to ->
  fac_new S X (ax_sk (c from)) (ap_rp (d to)) (haux from R) (rnd from to) = Ret (afac R to from) /\
  fac_verify S X (afac R to from) (ap_pk (d from)) (ap_rp (d to)) (haux from R) = Ret true.
Proof.
move=> ht hf ne.
have [[-> es _ _] _] := ag_start_honest (hk hf) (hc hf).
have [[_ _ _ en] [_ _ _ su _]] := ag_start_honest (hk ht) (hc ht).
have hm' := hm hf ht ne; rewrite -en in hm'.
have [pf [E1 E2]] := @honest_fac S C (seq item) X HG HX _ _ (hk hf) _ _ (haux from R) _ es su hm' HW.
by rewrite /afac E1.
Qed.

Lemma ag_honest : exists R : seq bool,
  combined [seq ar_rid (r i) | i <- ids] R /\
  exists s m3 a,
  [/\ {in ids, forall i, until3 (c i) (d i) (com i) (fun j => ag_send1 H (c j) (d j)) (fun j => ag_send2 HO (d j))
        (o1 i) (o2 i) = Accept (s i) /\ a3_rid (s i) = R},
      {in ids &, forall i j, j != i -> ag_send3 S X (s j) (rnd j i) i = Accept (m3 i j)},
      {in ids, forall i, run (c i) (d i) (com i) (fun j => ag_send1 H (c j) (d j)) (fun j => ag_send2 HO (d j)) (m3 i)
        (o1 i) (o2 i) (o3 i) = Accept (a i)} &
      {in ids, forall i, [/\ ai_owner (a i) = i, ai_sk (a i) = ax_sk (c i) &
         ai_public (a i) = [seq (j, (Z.mul (ar_p (r j)) (ar_q (r j)), ap_rp (d j))) | j <- ids]]}].
Proof.
have [R hR] : exists R, combined [seq ar_rid (r i) | i <- ids] R.
  move: hn; case: (ids) => [|i l] h; first by exists [::].
  case Ex: (xor_all (ar_rid (r i)) [seq ar_rid (r j) | j <- l]) => [R|]; first by exists R; apply/xor_allP.
  move/xor_all_panics: Ex; case/allPn=> b /mapP [j hj ->].
  by rewrite !h ?mem_head ?eqxx // inE hj orbT.
exists R; split=> //; exists (ast R), (am3 R), (fun i => AuxInfo i (ax_sk (c i)) [seq (j, (Z.mul (ar_p (r j)) (ar_q (r j)), ap_rp (d j))) | j <- ids]); split.
- by move=> i hi; split=> //; exact: auntil3.
- move=> i j hi hj ne; rewrite /ag_send3 /safe_get /= aget_tab hi /=.
  have [_ e1 _ e3 _] := ag_start_inv (hc hj).
  by rewrite e3 e1 (proj1 (afacE R hi hj ne)).
- move=> i hi; rewrite /ag_run (auntil3 hR hi) /=.
  have so : sorted le (without ids i) by exact: sorted_without.
  have [_ e1 _ e3 [_ e5 _ _]] := ag_start_inv (hc hi).
  rewrite (round_ok (p := fun j => tt) ho so (ho3 hi)) /=; last first.
    move=> j; rewrite mem_filter => /andP [ne hj].
    rewrite /ag_recv3 /deser /assert_none /= /safe_get aget_tab hj /= e3 (proj2 (amod R hj)) /= -e5.
    by rewrite (proj2 (afacE R hi hj ne)).
  rewrite /ag_finalize3 /= e1; congr (Accept (AuxInfo _ _ _)).
  rewrite -map_comp; apply/eq_in_map => j hj /=.
  by have [[-> _ _ _] _] := ag_start_honest (hk hj) (hc hj).
- by [].
Qed.
End Honest.
