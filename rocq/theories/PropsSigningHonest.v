(** * Property C50: an honest signing session ends with a valid signature.

    [S] is any set of scheme parameters the crate accepts, [C] any group of prime
    order, [I] any type of party ids ordered by [le], [HO] the type of hash
    outputs, [H] and [X] any hash functions; [xcoord] and [lift_x] are the curve
    backend's x coordinate and point recovery.  [p] are any parties with their key
    shares, Paillier keys and ring-Pedersen parameters, [d] all their draws, [o]
    the orders in which everybody's messages arrive. *)
From Coq Require Import ZArith Znumtheory.
From Verif Require Import Base SignedModel PaillierModel ZkBase ZkModel ZkSpec ZkToy.
From mathcomp Require Import all_ssreflect.
From Verif Require Import AlgBase ProtoBase ProtoSpec AuxGenModel AuxGenToy SigningSpec SigningModel SigningToy SigningWitness
  EntryWitness MtaSpec SigningHonestSpec SigningHonestMain SigningHonestWitness.
Set Implicit Arguments.
Unset Strict Implicit.
Unset Printing Implicit Defensive.
Local Open Scope Z_scope.

(** Unless the joint values are degenerate, all parties end with the same
    signature: it is valid for the joint key, its [r] belongs to the joint nonce
    point and its [s] is the lower of the two. *)
Theorem C50_honest_session_signs : forall (S : sparams) (C : curve) (I : eqType) (le : rel I) (HO : eqType)
    (H : dst -> seq (hitem HO I (pt C)) -> HO) (X : xof (seq (hitem HO I (pt C))) (pt C)) (scheme : seq (hitem HO I (pt C)))
    (xcoord : pt C -> Z) (lift_x : nat -> Z -> option (pt C)) (positional : bool),
  good_params S -> curve_ok (sp_q S) C -> xof_ok (sp_q S) X -> total_order le ->
  forall (p : parties I) (d : draws I) (randomness text : seq Z) (o : arrivals I),
  parties_ok S le p -> draws_ok S p d -> arrivals_ok p o ->
  Znumtheory.prime (sp_q S) -> Z.odd (sp_q S) = true -> xcoord_ok (sp_q S) xcoord -> lift_ok xcoord lift_x ->
  let r := xcoord (pmul C (joint_gamma p d) (gen C)) in
  let m := scalar_of_bytes S text in
  let vk := pmul C (joint_key p) (gen C) in
  (joint_k p d * joint_gamma p d) mod sp_q S <> 0 -> r <> 0 -> (m + joint_key p * r) mod sp_q S <> 0 -> vk <> p0 C ->
  exists c e m1 s2 s3 s4 sig, [/\ session S le H X scheme p d randomness text o c e m1 s2 s3,
    {in py_ids p, forall i,
      sg_until4 S le X xcoord (c i) (e i) (dr_2 d i) (dr_3 d i) (m1 i) (fun j => sg_send2 (s2 j)) (fun j => sg_send3 (s3 j))
        (ar_1 o i) (ar_2 o i) (ar_3 o i) = Accept (ToRound4 (s4 i))},
    {in py_ids p, forall i,
      sg_run S le X xcoord lift_x positional (c i) (e i) (dr_2 d i) (dr_3 d i) (m1 i) (fun j => sg_send2 (s2 j))
        (fun j => sg_send3 (s3 j)) (fun j => sg_send4 (s4 j)) (ar_1 o i) (ar_2 o i) (ar_3 o i) (ar_4 o i) = Accept sig} &
    [/\ sig_r sig = r, 0 < sig_s sig <= (sp_q S - 1) / 2 & ecdsa_valid (sp_q S) xcoord vk m (sig_r sig) (sig_s sig)]].
Proof. exact honest_signature. Qed.
Print Assumptions C50_honest_session_signs.

(** Three parties with 66-bit primes and a group of order 7: joint key 4, joint
    [k] 2, joint gamma 5, message 2. *)
Example C50_honest_session_signs_case : let text := [:: 77; 3; 130] in
  [/\ good_params toy_S, curve_ok (sp_q toy_S) curve7, xof_ok (sp_q toy_S) XS & total_order leq] /\
  [/\ parties_ok toy_S leq partiesH, draws_ok toy_S partiesH drawsH & arrivals_ok partiesH arrivalsH] /\
  [/\ Znumtheory.prime (sp_q toy_S), Z.odd (sp_q toy_S) = true, xcoord_ok (sp_q toy_S) xcoordS & lift_ok xcoordS lift_xS] /\
  let r := xcoordS (pmul curve7 (joint_gamma partiesH drawsH) (gen curve7)) in
  let m := scalar_of_bytes toy_S text in
  [/\ (joint_k partiesH drawsH * joint_gamma partiesH drawsH) mod 7 = 3, r = 2, m = 2,
      (m + joint_key partiesH * r) mod 7 = 3 & pmul curve7 (joint_key partiesH) (gen curve7) <> p0 curve7].
Proof.
split; [split; [exact: toy_S_ok|exact: zq_curve_ok|exact: xof_okS|exact: leq_order]|].
split; [split; [exact: partiesH_ok|exact: drawsH_ok|exact: arrivalsH_ok]|].
split; [split; [exact: prime7|by []|exact: xcoord_okS|exact: lift_okS]|].
by split; vm_compute; [..|case].
Qed.

(** In the degenerate cases every party stops with a local error: nobody gets a
    signature and nobody is accused. *)
Theorem C50_degenerate_session_stops : forall (S : sparams) (C : curve) (I : eqType) (le : rel I) (HO : eqType)
    (H : dst -> seq (hitem HO I (pt C)) -> HO) (X : xof (seq (hitem HO I (pt C))) (pt C)) (scheme : seq (hitem HO I (pt C)))
    (xcoord : pt C -> Z) (lift_x : nat -> Z -> option (pt C)) (positional : bool),
  good_params S -> curve_ok (sp_q S) C -> xof_ok (sp_q S) X -> total_order le ->
  forall (p : parties I) (d : draws I) (randomness text : seq Z) (o : arrivals I),
  parties_ok S le p -> draws_ok S p d -> arrivals_ok p o -> Znumtheory.prime (sp_q S) ->
  let r := xcoord (pmul C (joint_gamma p d) (gen C)) in
  let m := scalar_of_bytes S text in
  let vk := pmul C (joint_key p) (gen C) in
  exists c e m1 s2 s3, [/\ session S le H X scheme p d randomness text o c e m1 s2 s3,
    (joint_k p d * joint_gamma p d) mod sp_q S = 0 -> {in py_ids p, forall i,
      sg_until4 S le X xcoord (c i) (e i) (dr_2 d i) (dr_3 d i) (m1 i) (fun j => sg_send2 (s2 j)) (fun j => sg_send3 (s3 j))
        (ar_1 o i) (ar_2 o i) (ar_3 o i) = RLocal} &
    (joint_k p d * joint_gamma p d) mod sp_q S <> 0 -> r = 0 \/ (m + joint_key p * r) mod sp_q S = 0 \/ vk = p0 C ->
    exists s4,
      {in py_ids p, forall i,
        sg_until4 S le X xcoord (c i) (e i) (dr_2 d i) (dr_3 d i) (m1 i) (fun j => sg_send2 (s2 j)) (fun j => sg_send3 (s3 j))
          (ar_1 o i) (ar_2 o i) (ar_3 o i) = Accept (ToRound4 (s4 i))} /\
      {in py_ids p, forall i,
        sg_run S le X xcoord lift_x positional (c i) (e i) (dr_2 d i) (dr_3 d i) (m1 i) (fun j => sg_send2 (s2 j))
          (fun j => sg_send3 (s3 j)) (fun j => sg_send4 (s4 j)) (ar_1 o i) (ar_2 o i) (ar_3 o i) (ar_4 o i) = RLocal}].
Proof. exact honest_degenerate. Qed.
Print Assumptions C50_degenerate_session_stops.

(** The gammas of [drawsZ] cancel; with the draws of the first case the message 6
    gives [s = 0]. *)
Example C50_degenerate_session_stops_case :
  [/\ draws_ok toy_S partiesH drawsZ, (joint_k partiesH drawsZ * joint_gamma partiesH drawsZ) mod sp_q toy_S = 0,
      scalar_of_bytes toy_S [:: 6] = 6 &
      (6 + joint_key partiesH * xcoordS (pmul curve7 (joint_gamma partiesH drawsH) (gen curve7))) mod sp_q toy_S = 0].
Proof. split; [exact: drawsZ_ok|by vm_compute..]. Qed.
