(** * AuxGen honest runs: the form used in the theorem, and a concrete case. *)
From Coq Require Import ZArith.
From Verif Require Import Base EncodingModel SignedModel PaillierModel ZkBase ZkModel ZkSpec ZkToy.
From mathcomp Require Import all_ssreflect.
From Verif Require Import AlgBase ProtoBase ProtoSpec AuxGenModel AuxGenSpec AuxGenToy AuxGenHonest AuxHonestSpec AuxHonestToy.
Set Implicit Arguments.
Unset Strict Implicit.
Unset Printing Implicit Defensive.

Lemma aux_honest_run (S : sparams) (C : curve) (I : eqType) (le : rel I) (HO : eqType)
    (H : dst -> seq (hitem HO I (pt C)) -> HO) (X : xof (seq (hitem HO I (pt C))) (pt C)) (scheme : seq (hitem HO I (pt C)))
    (ids : seq I) sr (r : I -> ag_rand) (com : I -> Z) (rnd : I -> I -> fac_rand) (n : nat)
    (c : I -> ag_ctx I HO) (d : I -> ag_public) (o1 o2 o3 : I -> seq I) :
  good_params S -> xof_ok (sp_q S) X -> detects_composites X ->
  (2 * modulus_bits (sp_pail S) + sp_l S + sp_eps S + 1 < sp_xw S)%Z ->
  total_order le -> sorted le ids -> uniq ids ->
  {in ids, forall i, honest_keys S (r i) (com i)} ->
  {in ids &, forall i j, i != j -> honest_masks S (r i) (ar_rp_p (r j) * ar_rp_q (r j)) (rnd i j)} ->
  {in ids, forall i, size (ar_rid (r i)) = n} ->
  {in ids, forall i, ag_start S H X scheme ids sr i (r i) = Ok (c i, d i)} ->
  {in ids, forall i, [/\ perm_eq (o1 i) (without ids i), perm_eq (o2 i) (without ids i) & perm_eq (o3 i) (without ids i)]} ->
  let m1 j := ag_send1 H (c j) (d j) in let m2 j := ag_send2 HO (d j) in
  exists rid_c : seq bool, combined [seq ar_rid (r i) | i <- ids] rid_c /\
  exists s m3 a,
  [/\ {in ids, forall i, ag_until3 S le H X (c i) (d i) (com i) m1 m2 (o1 i) (o2 i) = Accept (s i) /\ a3_rid (s i) = rid_c},
      {in ids &, forall i j, j != i -> ag_send3 S X (s j) (rnd j i) i = Accept (m3 i j)},
      {in ids, forall i, ag_run S le H X (c i) (d i) (com i) m1 m2 (m3 i) (o1 i) (o2 i) (o3 i) = Accept (a i)} &
      {in ids, forall i, [/\ ai_owner (a i) = i, ai_sk (a i) = ax_sk (c i) &
         ai_public (a i) = [seq (j, (ar_p (r j) * ar_q (r j), ap_rp (d j))%Z) | j <- ids]]}].
Proof.
move=> HG HX HD HW ho hs hu hk hm hn hc hord /=.
have h1 : {in ids, forall i, perm_eq (o1 i) (without ids i)} by move=> i /hord [].
have h2 : {in ids, forall i, perm_eq (o2 i) (without ids i)} by move=> i /hord [].
have h3 : {in ids, forall i, perm_eq (o3 i) (without ids i)} by move=> i /hord [].
exact: (ag_honest HG HX ho hs hu HD HW hk hm hn hc h1 h2 h3).
Qed.

Lemma aux_honest_case : let X : xof (seq itemA) (pt curve7) := const_xof 5 true 0 in
  [/\ good_params wide_params, xof_ok (sp_q wide_params) X, detects_composites X &
      (2 * modulus_bits (sp_pail wide_params) + sp_l wide_params + sp_eps wide_params + 1 < sp_xw wide_params)%Z] /\
  exists com c d,
  [/\ {in [:: 0; 1]%N, forall i, honest_keys wide_params (randW i) (com i)},
      {in [:: 0; 1]%N &, forall i j, i != j ->
        honest_masks wide_params (randW i) (ar_rp_p (randW j) * ar_rp_q (randW j)) maskW},
      {in [:: 0; 1]%N, forall i, size (ar_rid (randW i)) = 2%N} &
      {in [:: 0; 1]%N, forall i, ag_start wide_params HA X [::] [:: 0; 1]%N [::] i (randW i) = Ok (c i, d i)}].
Proof.
move=> X; have XE : xof_ok (sp_q wide_params) X by apply: const_xof_ok.
split; first by split; [exact: wide_params_ok|exact: XE|exact: detectsW|exact: honest_roomW].
have [com hcom] := honest_keysW.
pose st i := ag_start wide_params HA X [::] [:: 0; 1]%N [::] i (randW i).
have hst i : i \in [:: 0; 1]%N -> exists cd, st i = Ok cd.
  by move=> hi; have [c [d E]] := ag_start_succeeds HA X [::] wide_params_ok [::] hi (hcom i); exists (c, d).
have [cd0 E0] := hst 0%N isT; have [cd1 E1] := hst 1%N isT.
exists com, (fun i => if i == 0%N then cd0.1 else cd1.1), (fun i => if i == 0%N then cd0.2 else cd1.2); split.
- by move=> i _; exact: hcom.
- by move=> i j _ _ _; exact: honest_masksW.
- by move=> [|i] _.
- move=> i; rewrite !inE => /orP [] /eqP -> /=.
    by rewrite -surjective_pairing; exact: E0.
  by rewrite -surjective_pairing; exact: E1.
Qed.
