(** * Property C68: the error rounds of signing find no liar.

    Sessions of C50 whose first two rounds were honest.  The messages of round 3
    are arbitrary unless restricted; [error_draws_ok] is about the random draws of
    a party for the proofs of an error round. *)
From Coq Require Import ZArith Znumtheory.
From Verif Require Import Base SignedModel PaillierModel ZkBase ZkModel ZkSpec ZkToy.
From mathcomp Require Import all_ssreflect.
From Verif Require Import AlgBase ProtoBase ProtoSpec AuxGenModel AuxGenToy SigningSpec SigningModel SigningToy SigningWitness
  EntryWitness MtaSpec SigningHonestSpec SigningHonestWitness SigningBranchSpec SigningErrorSpec SigningErrorMain SigningErrorToy
  SigningEvidenceToy ErrorNamesToy.
Set Implicit Arguments.
Unset Strict Implicit.
Unset Printing Implicit Defensive.
Local Open Scope Z_scope.

(** What a party in an error round checks in a message, exactly: the parts, one
    decryption proof about the product of the sender's round 2 ciphertexts and the
    announced result, a list of proofs for precisely the other parties, and each of
    these except the one for the checking party itself. *)
Theorem C68_error_round_checks (S : sparams) (C : curve) (I : eqType) (le : rel I) (HO : eqType)
    (H : dst -> seq (hitem HO I (pt C)) -> HO) (X : xof (seq (hitem HO I (pt C))) (pt C)) (scheme : seq (hitem HO I (pt C)))
    (xcoord : pt C -> Z) (positional : bool) :
  good_params S -> curve_ok (sp_q S) C -> xof_ok (sp_q S) X -> total_order le ->
  forall (p : parties I) (d : draws I) (randomness text : seq Z) (o : arrivals I),
  parties_ok S le p -> draws_ok S p d -> arrivals_ok p o -> (1 < size (py_ids p))%N ->
  let ids := py_ids p in
  exists c e m1 s2 s3, session S le H X scheme p d randomness text o c e m1 s2 s3 /\
  forall v l m3 m delta cd cs, v \in ids -> l \in ids -> l != v -> carries (m3 l) delta cd cs ->
  let until4 := sg_until4 S le X xcoord (c v) (e v) (dr_2 d v) (dr_3 d v) (m1 v) (fun j => sg_send2 (s2 j)) m3
    (ar_1 o v) (ar_2 o v) (ar_3 o v) in
  let about hat x res base := vouched S X hat ids (py_N p) (fun j => rp_used (py_rp p j)) (fun j => e1_k (e j)) (fun j => sg_send2 (s2 j))
    (pmul C x (gen C)) res base (sg_aux (c l) l) v l in
  (forall s, until4 = Accept (ToRound5 s) ->
    (sg_recv5 S X positional s l m = Accept tt <->
     exists eb, says5 positional m eb /\ about false (g1_gamma (dr_1 d l)) (pmul C delta (gen C)) (gen C) eb)) /\
  (forall s, until4 = Accept (ToRound6 s) ->
    (sg_recv6 S X positional s l m = Accept tt <->
     exists eb, says6 positional m eb /\ about true (py_secret p l) cs (pmul C (joint_gamma p d) (gen C)) eb)).
Proof. exact: session_checks. Qed.
Print Assumptions C68_error_round_checks.

(** And what it reports, exactly: the error of this round for the first of these
    checks that fails. *)
Theorem C68_reported_fault (S : sparams) (C : curve) (I : eqType) (le : rel I) (HO : eqType)
    (H : dst -> seq (hitem HO I (pt C)) -> HO) (X : xof (seq (hitem HO I (pt C))) (pt C)) (scheme : seq (hitem HO I (pt C)))
    (xcoord : pt C -> Z) (positional : bool) :
  good_params S -> curve_ok (sp_q S) C -> xof_ok (sp_q S) X -> total_order le ->
  forall (p : parties I) (d : draws I) (randomness text : seq Z) (o : arrivals I),
  parties_ok S le p -> draws_ok S p d -> arrivals_ok p o -> (1 < size (py_ids p))%N ->
  let ids := py_ids p in
  exists c e m1 s2 s3, session S le H X scheme p d randomness text o c e m1 s2 s3 /\
  forall v l m3 m delta cd cs err, v \in ids -> l \in ids -> l != v -> carries (m3 l) delta cd cs ->
  let until4 := sg_until4 S le X xcoord (c v) (e v) (dr_2 d v) (dr_3 d v) (m1 v) (fun j => sg_send2 (s2 j)) m3
    (ar_1 o v) (ar_2 o v) (ar_3 o v) in
  let about hat x res base := fault S X hat ids (py_N p) (fun j => rp_used (py_rp p j)) (fun j => e1_k (e j)) (fun j => sg_send2 (s2 j))
    (pmul C x (gen C)) res base (sg_aux (c l) l) v l in
  (forall s, until4 = Accept (ToRound5 s) -> sg_recv5 S X positional s l m = Reject (Proto err) ->
     exists eb, says5 positional m eb /\ about false (g1_gamma (dr_1 d l)) (pmul C delta (gen C)) (gen C)
       R5DecFailed R5WrongIdsPsi (fun j => R5AffGStarFailed j) eb err) /\
  (forall s, until4 = Accept (ToRound6 s) -> sg_recv6 S X positional s l m = Reject (Proto err) ->
     exists eb, says6 positional m eb /\ about true (py_secret p l) cs (pmul C (joint_gamma p d) (gen C))
       R6DecFailed R6WrongIdsPsi (fun j => R6AffGStarFailed j) eb err).
Proof. exact: session_faults. Qed.
Print Assumptions C68_reported_fault.

(** All six errors occur: in the session of the case of C55 party 1 sends the
    prescribed message with the decryption proof of the other error round, without
    the other proofs, or with other proofs of no repetitions at all. *)
Example C68_reported_fault_case :
  [/\ sg_recv5 SA XS true st50 1%N (swap_dec m51 m61) = Reject (Proto R5DecFailed),
      sg_recv5 SA XS true st50 1%N (edit no_psis m51) = Reject (Proto R5WrongIdsPsi) &
      sg_recv5 SA XS true st50 1%N (edit null_psis m51) = Reject (Proto (R5AffGStarFailed 2%N))] /\
  [/\ sg_recv6 SA XS true st60 1%N (swap_dec m61 m51) = Reject (Proto R6DecFailed),
      sg_recv6 SA XS true st60 1%N (edit no_psis m61) = Reject (Proto R6WrongIdsPsi) &
      sg_recv6 SA XS true st60 1%N (edit null_psis m61) = Reject (Proto (R6AffGStarFailed 2%N))].
Proof. exact: faults_case. Qed.

(** Nobody honest is blamed: with at most 2^18 parties, the message of a party
    that followed the protocol passes the checks of every party that got its round
    3 message, whatever the other messages of round 3 were. *)
Theorem C68_honest_message_passes (S : sparams) (C : curve) (I : eqType) (le : rel I) (HO : eqType)
    (H : dst -> seq (hitem HO I (pt C)) -> HO) (X : xof (seq (hitem HO I (pt C))) (pt C)) (scheme : seq (hitem HO I (pt C)))
    (xcoord : pt C -> Z) (positional : bool) :
  good_params S -> curve_ok (sp_q S) C -> xof_ok (sp_q S) X -> total_order le ->
  forall (p : parties I) (d : draws I) (randomness text : seq Z) (o : arrivals I),
  parties_ok S le p -> draws_ok S p d -> arrivals_ok p o -> (1 < size (py_ids p))%N -> Z.of_nat (size (py_ids p)) <= 2 ^ 18 ->
  let ids := py_ids p in
  exists c e m1 s2 s3, session S le H X scheme p d randomness text o c e m1 s2 s3 /\
  let until4 v m3 := sg_until4 S le X xcoord (c v) (e v) (dr_2 d v) (dr_3 d v) (m1 v) (fun j => sg_send2 (s2 j)) m3
    (ar_1 o v) (ar_2 o v) (ar_3 o v) in
  forall l rnd rnds, l \in ids -> error_draws_ok S (py_N p) ids l rnd rnds ->
  (forall m3 s, until4 l m3 = Accept (ToRound5 s) ->
    exists m, sg_send5 S X s rnd rnds = Accept m /\
      forall v m3' s', v \in ids -> l != v -> until4 v m3' = Accept (ToRound5 s') -> m3' l = sg_send3 (s3 l) ->
        sg_recv5 S X positional s' l m = Accept tt) /\
  (forall m3 s, until4 l m3 = Accept (ToRound6 s) ->
    exists m, sg_send6 S X s rnd rnds = Accept m /\
      forall v m3' s', v \in ids -> l != v -> until4 v m3' = Accept (ToRound6 s') -> m3' l = sg_send3 (s3 l) ->
        sg_recv6 S X positional s' l m = Accept tt).
Proof. exact: session_passes. Qed.
Print Assumptions C68_honest_message_passes.

(** But a liar is not blamed either.  Let one party [l] announce to everybody
    another delta in round 3, any one that changes the point.  Everybody else goes
    to round 5 and sends the prescribed message; there is a message of [l] that all
    of them accept, and each stops with a local error that names nobody. *)
Theorem C68_wrong_delta_unattributed (S : sparams) (C : curve) (I : eqType) (le : rel I) (HO : eqType)
    (H : dst -> seq (hitem HO I (pt C)) -> HO) (X : xof (seq (hitem HO I (pt C))) (pt C)) (scheme : seq (hitem HO I (pt C)))
    (xcoord : pt C -> Z) (lift_x : nat -> Z -> option (pt C)) (positional : bool) :
  good_params S -> curve_ok (sp_q S) C -> xof_ok (sp_q S) X -> total_order le ->
  forall (p : parties I) (d : draws I) (randomness text : seq Z) (o : arrivals I),
  parties_ok S le p -> draws_ok S p d -> arrivals_ok p o -> (1 < size (py_ids p))%N -> Z.of_nat (size (py_ids p)) <= 2 ^ 18 ->
  Znumtheory.prime (sp_q S) -> (joint_k p d * joint_gamma p d) mod sp_q S <> 0 ->
  let ids := py_ids p in
  exists c e m1 s2 s3, session S le H X scheme p d randomness text o c e m1 s2 s3 /\
  forall l delta rnd rnds, l \in ids -> {in ids, forall j, error_draws_ok S (py_N p) ids j (rnd j) (rnds j)} ->
  pmul C delta (gen C) <> pmul C (s3_delta (s3 l)) (gen C) ->
  let m3 j := if j == l then with_delta delta (sg_send3 (s3 j)) else sg_send3 (s3 j) in
  exists m4, {in ids, forall v, l != v -> exists s,
    [/\ sg_until4 S le X xcoord (c v) (e v) (dr_2 d v) (dr_3 d v) (m1 v) (fun j => sg_send2 (s2 j)) m3 (ar_1 o v) (ar_2 o v) (ar_3 o v)
          = Accept (ToRound5 s),
        sg_send5 S X s (rnd v) (rnds v) = Accept (m4 v) &
        sg_run S le X xcoord lift_x positional (c v) (e v) (dr_2 d v) (dr_3 d v) (m1 v) (fun j => sg_send2 (s2 j)) m3 m4
          (ar_1 o v) (ar_2 o v) (ar_3 o v) (ar_4 o v) = RLocal]}.
Proof. exact: session_no_blame5. Qed.
Print Assumptions C68_wrong_delta_unattributed.

(** The same for a wrong S, any multiple of Gamma, and round 6. *)
Theorem C68_wrong_s_unattributed (S : sparams) (C : curve) (I : eqType) (le : rel I) (HO : eqType)
    (H : dst -> seq (hitem HO I (pt C)) -> HO) (X : xof (seq (hitem HO I (pt C))) (pt C)) (scheme : seq (hitem HO I (pt C)))
    (xcoord : pt C -> Z) (lift_x : nat -> Z -> option (pt C)) (positional : bool) :
  good_params S -> curve_ok (sp_q S) C -> xof_ok (sp_q S) X -> total_order le ->
  forall (p : parties I) (d : draws I) (randomness text : seq Z) (o : arrivals I),
  parties_ok S le p -> draws_ok S p d -> arrivals_ok p o -> (1 < size (py_ids p))%N -> Z.of_nat (size (py_ids p)) <= 2 ^ 18 ->
  Znumtheory.prime (sp_q S) -> (joint_k p d * joint_gamma p d) mod sp_q S <> 0 ->
  let ids := py_ids p in
  exists c e m1 s2 s3, session S le H X scheme p d randomness text o c e m1 s2 s3 /\
  forall l r rnd rnds, l \in ids -> {in ids, forall j, error_draws_ok S (py_N p) ids j (rnd j) (rnds j)} ->
  let t := pmul C r (pmul C (joint_gamma p d) (gen C)) in
  t <> n3_s (s3_nb (s3 l)) ->
  let m3 j := if j == l then with_s t (sg_send3 (s3 j)) else sg_send3 (s3 j) in
  exists m4, {in ids, forall v, l != v -> exists s,
    [/\ sg_until4 S le X xcoord (c v) (e v) (dr_2 d v) (dr_3 d v) (m1 v) (fun j => sg_send2 (s2 j)) m3 (ar_1 o v) (ar_2 o v) (ar_3 o v)
          = Accept (ToRound6 s),
        sg_send6 S X s (rnd v) (rnds v) = Accept (m4 v) &
        sg_run S le X xcoord lift_x positional (c v) (e v) (dr_2 d v) (dr_3 d v) (m1 v) (fun j => sg_send2 (s2 j)) m3 m4
          (ar_1 o v) (ar_2 o v) (ar_3 o v) (ar_4 o v) = RLocal]}.
Proof. exact: session_no_blame6. Qed.
Print Assumptions C68_wrong_s_unattributed.

(** The hypotheses hold for the session of the case of C50, and whatever party 2
    computed there are other values it can announce; so by the last two theorems
    both error rounds are reached. *)
Example C68_case :
  [/\ good_params toy_S, curve_ok (sp_q toy_S) curve7, xof_ok (sp_q toy_S) XS & total_order leq] /\
  [/\ parties_ok toy_S leq partiesH, draws_ok toy_S partiesH drawsH, arrivals_ok partiesH arrivalsH & Znumtheory.prime (sp_q toy_S)] /\
  [/\ size (py_ids partiesH) = 3%N, 2%N \in py_ids partiesH & (joint_k partiesH drawsH * joint_gamma partiesH drawsH) mod 7 = 3] /\
  {in py_ids partiesH, forall i, error_draws_ok toy_S (py_N partiesH) (py_ids partiesH) i (decE i) (gsE i)} /\
  forall P : pt curve7, (exists delta, pmul curve7 delta (gen curve7) <> P) /\
    (exists r, pmul curve7 r (pmul curve7 (joint_gamma partiesH drawsH) (gen curve7)) <> P).
Proof.
split; [split; [exact: toy_S_ok|exact: zq_curve_ok|exact: xof_okS|exact: leq_order]|].
split; [split; [exact: partiesH_ok|exact: drawsH_ok|exact: arrivalsH_ok|exact: prime7]|].
by split; [split; vm_compute|split; [exact: drawsE_ok|exact: otherE]].
Qed.
