(** * Property C66: where a signing session goes after round 3.

    After round 3 a party either signs (round 4) or collects proofs about the
    products behind the nonce (round 5) or behind the key (round 6).  Messages are
    arbitrary; [said] lists for one party what everybody said in round 3, its own
    message included. *)
From Coq Require Import ZArith Znumtheory.
From Verif Require Import Base SignedModel PaillierModel ZkBase ZkModel ZkSpec ZkToy.
From mathcomp Require Import all_ssreflect.
From Verif Require Import AlgBase ProtoBase ProtoSpec AuxGenModel AuxGenToy SigningSpec SigningModel SigningToy SigningWitness
  SigningProofs EntryWitness MtaSpec SigningHonestSpec SigningHonestWitness SigningBranchSpec SigningBranch SigningBranchToy.
Set Implicit Arguments.
Unset Strict Implicit.
Unset Printing Implicit Defensive.
Local Open Scope Z_scope.

(** The round is decided by the values in the messages of round 3 alone: round 5
    if the deltas do not fit the Deltas, otherwise round 6 if the S do not fit
    delta times the verifying key, otherwise round 4. *)
Theorem C66_branch_rule (S : sparams) (C : curve) (I : eqType) (le : rel I) (HO : eqType)
    (H : dst -> seq (hitem HO I (pt C)) -> HO) (X : xof (seq (hitem HO I (pt C))) (pt C)) (scheme : seq (hitem HO I (pt C)))
    (xcoord : pt C -> Z) rnd id entry ra c eb r2 r3 m1 m2 m3 o1 o2 o3 s3 n all delta cap_delta cap_s :
  curve_ok (sp_q S) C -> 1 < sp_q S ->
  let ids := akeys (zs_public (se_share entry)) in
  uniq ids -> id \in ids -> sg_start S H scheme rnd id entry ra = Ok (c, eb) -> perm_eq o3 (without ids id) ->
  sg_until3 S le X c eb r2 r3 m1 m2 o1 o2 = Accept s3 ->
  sg_until4 S le X xcoord c eb r2 r3 m1 m2 m3 o1 o2 o3 = Accept n ->
  said ids id (sg_send3 s3) m3 all ->
  {in ids, forall l, carries (all l) (delta l) (cap_delta l) (cap_s l)} ->
  called_for (total (avals (zs_public (se_share entry)))) ids delta cap_delta cap_s (round_of n).
Proof. move=> HC Q1; exact: (branch_rule_start HC Q1). Qed.
Print Assumptions C66_branch_rule.

(** Hence parties who saw the same messages go to the same round. *)
Theorem C66_same_messages_same_round (S : sparams) (C : curve) (I : eqType) (le : rel I) (HO : eqType)
    (H : dst -> seq (hitem HO I (pt C)) -> HO) (X : xof (seq (hitem HO I (pt C))) (pt C)) (scheme : seq (hitem HO I (pt C)))
    (xcoord : pt C -> Z)
    rnd id entry ra c eb r2 r3 m1 m2 m3 o1 o2 o3 s3 n
    rnd' id' entry' ra' c' eb' r2' r3' m1' m2' m3' o1' o2' o3' s3' n' all :
  curve_ok (sp_q S) C -> 1 < sp_q S ->
  let ids := akeys (zs_public (se_share entry)) in
  uniq ids -> id \in ids -> id' \in ids ->
  zs_public (se_share entry) = zs_public (se_share entry') ->
  sg_start S H scheme rnd id entry ra = Ok (c, eb) -> sg_start S H scheme rnd' id' entry' ra' = Ok (c', eb') ->
  perm_eq o3 (without ids id) -> perm_eq o3' (without ids id') ->
  sg_until3 S le X c eb r2 r3 m1 m2 o1 o2 = Accept s3 -> sg_until3 S le X c' eb' r2' r3' m1' m2' o1' o2' = Accept s3' ->
  sg_until4 S le X xcoord c eb r2 r3 m1 m2 m3 o1 o2 o3 = Accept n ->
  sg_until4 S le X xcoord c' eb' r2' r3' m1' m2' m3' o1' o2' o3' = Accept n' ->
  said ids id (sg_send3 s3) m3 all -> said ids id' (sg_send3 s3') m3' all ->
  round_of n = round_of n'.
Proof. move=> HC Q1; exact: same_branch. Qed.
Print Assumptions C66_same_messages_same_round.

(** The toy session: with the messages of all parties, with another S from party
    2, with another delta from party 2; all three rounds occur, and parties 0 and 1
    agree. *)
Example C66_case :
  [seq (nextS sent3S i, nextS other_s i, nextS other_delta i) | i <- [:: 0; 1]%N]
    = [:: (Some 4%N, Some 6%N, Some 5%N); (Some 4%N, Some 6%N, Some 5%N)] /\
  {in [:: 0; 1]%N, forall i, until3S i = Accept (s3_of i) /\ said idsS i (sg_send3 (s3_of i)) sent3S sent3S}.
Proof. by split; [exact: branches|exact: said_case]. Qed.

(** Without that the parties can be split.  In the honest session of C50, in
    which everybody reaches round 4, let one party [l] give one other party [v] any
    other point S.  S travels in the normal broadcast and carries no proof, so [v]
    accepts it, goes to round 6 while the others go to round 4, and never obtains a
    signature. *)
Theorem C66_one_party_splits_session (S : sparams) (C : curve) (I : eqType) (le : rel I) (HO : eqType)
    (H : dst -> seq (hitem HO I (pt C)) -> HO) (X : xof (seq (hitem HO I (pt C))) (pt C)) (scheme : seq (hitem HO I (pt C)))
    (xcoord : pt C -> Z) (lift_x : nat -> Z -> option (pt C)) (positional : bool) :
  good_params S -> curve_ok (sp_q S) C -> xof_ok (sp_q S) X -> total_order le ->
  forall (p : parties I) (d : draws I) (randomness text : seq Z) (o : arrivals I),
  parties_ok S le p -> draws_ok S p d -> arrivals_ok p o -> Znumtheory.prime (sp_q S) ->
  forall v l, v \in py_ids p -> l \in py_ids p -> l != v -> (joint_k p d * joint_gamma p d) mod sp_q S <> 0 ->
  exists c e m1 s2 s3 s4, [/\ session S le H X scheme p d randomness text o c e m1 s2 s3,
    {in py_ids p, forall i,
      sg_until4 S le X xcoord (c i) (e i) (dr_2 d i) (dr_3 d i) (m1 i) (fun j => sg_send2 (s2 j)) (fun j => sg_send3 (s3 j))
        (ar_1 o i) (ar_2 o i) (ar_3 o i) = Accept (ToRound4 (s4 i))} &
    forall t, t <> n3_s (s3_nb (s3 l)) ->
      let m3 j := if j == l then with_s t (sg_send3 (s3 j)) else sg_send3 (s3 j) in
      (exists s6, sg_until4 S le X xcoord (c v) (e v) (dr_2 d v) (dr_3 d v) (m1 v) (fun j => sg_send2 (s2 j)) m3
        (ar_1 o v) (ar_2 o v) (ar_3 o v) = Accept (ToRound6 s6)) /\
      forall m4 o4 sig, sg_run S le X xcoord lift_x positional (c v) (e v) (dr_2 d v) (dr_3 d v) (m1 v)
        (fun j => sg_send2 (s2 j)) m3 m4 (ar_1 o v) (ar_2 o v) (ar_3 o v) o4 <> Accept sig].
Proof. exact: split_session. Qed.
Print Assumptions C66_one_party_splits_session.

(** The parties of the case of C50, party 2 lying to party 0. *)
Example C66_one_party_splits_session_case :
  [/\ good_params toy_S, curve_ok (sp_q toy_S) curve7, xof_ok (sp_q toy_S) XS & total_order leq] /\
  [/\ parties_ok toy_S leq partiesH, draws_ok toy_S partiesH drawsH, arrivals_ok partiesH arrivalsH & Znumtheory.prime (sp_q toy_S)] /\
  [/\ 0%N \in py_ids partiesH, 2%N \in py_ids partiesH & (joint_k partiesH drawsH * joint_gamma partiesH drawsH) mod 7 = 3].
Proof.
split; [split; [exact: toy_S_ok|exact: zq_curve_ok|exact: xof_okS|exact: leq_order]|].
split; [split; [exact: partiesH_ok|exact: drawsH_ok|exact: arrivalsH_ok|exact: prime7]|].
by split; vm_compute.
Qed.
