(** * Properties C51, C52 and C57: the result of interactive signing.

    [S] is any set of scheme parameters, [C] any group of prime order, [I] any
    type of party ids ordered by [le], [HO] the type of hash outputs, [H] and [X]
    any hash functions, [scheme] whatever identifies the scheme parameters;
    [xcoord] and [lift_x] are the curve backend's x coordinate and point recovery.
    A run takes arbitrary messages [m1 .. m4] from the other parties, delivered in
    arbitrary orders [o1 .. o4]. *)
From Coq Require Import ZArith Znumtheory Lia.
From Verif Require Import Base EncodingModel SignedModel PaillierModel ZkBase ZkModel ElogModel ZkToy.
From mathcomp Require Import all_ssreflect.
From Verif Require Import AlgBase ProtoBase ProtoSpec AuxGenModel AuxGenToy SigningModel SigningSpec SigningAlgebra SigningProofs
  SigningShares SigningMain SigningToy SigningWitness KeyRefreshToy.
Set Implicit Arguments.
Unset Strict Implicit.
Unset Printing Implicit Defensive.

(** ** C57 *)

(** What is returned is an ECDSA signature with the given [r], low [s] equal to
    the given one up to sign, and a recovery id that identifies its nonce point. *)
Theorem C57_assembled_signature_valid (S : sparams) (C : curve) (xcoord : pt C -> Z) (lift_x : nat -> Z -> option (pt C))
    r s vk m sig :
  curve_ok (sp_q S) C -> Znumtheory.prime (sp_q S) -> Z.odd (sp_q S) = true -> lift_ok xcoord lift_x ->
  Z.le 0 r /\ Z.lt r (sp_q S) -> Z.le 0 s /\ Z.lt s (sp_q S) ->
  from_scalars S xcoord lift_x r s vk m = Some sig ->
  [/\ sig_r sig = r, (0 < sig_s sig <= (sp_q S - 1) / 2)%Z, sig_s sig = s \/ sig_s sig = (sp_q S - s)%Z,
      ecdsa_valid (sp_q S) xcoord vk m r (sig_s sig) &
      exists2 R, lift_x (sig_id sig) r = Some R & nonce_point xcoord vk m r (sig_s sig) R].
Proof. move=> HC Pq Oq HL; exact: from_scalars_sound. Qed.
Print Assumptions C57_assembled_signature_valid.

(** A valid pair is always assembled, an invalid one never: not with a zero
    component, nor for the point at infinity as the key. *)
Theorem C57_valid_pair_assembled (S : sparams) (C : curve) (xcoord : pt C -> Z) (lift_x : nat -> Z -> option (pt C)) r s vk m :
  curve_ok (sp_q S) C -> Znumtheory.prime (sp_q S) -> Z.odd (sp_q S) = true -> xcoord_ok (sp_q S) xcoord -> lift_ok xcoord lift_x ->
  Z.le 0 r /\ Z.lt r (sp_q S) -> Z.le 0 s /\ Z.lt s (sp_q S) ->
  ((exists sig, from_scalars S xcoord lift_x r s vk m = Some sig) <-> vk <> p0 C /\ ecdsa_valid (sp_q S) xcoord vk m r s).
Proof. move=> HC Pq Oq HX HL; exact: from_scalars_iff. Qed.
Print Assumptions C57_valid_pair_assembled.

(** Negating [s] keeps a signature valid. *)
Theorem C57_normalisation_keeps_validity (S : sparams) (C : curve) (xcoord : pt C -> Z) vk m r s :
  curve_ok (sp_q S) C -> Znumtheory.prime (sp_q S) -> xcoord_ok (sp_q S) xcoord ->
  (ecdsa_valid (sp_q S) xcoord vk m r s <-> ecdsa_valid (sp_q S) xcoord vk m r (sp_q S - s)).
Proof. move=> HC Pq HX; exact: valid_opp_iff. Qed.
Print Assumptions C57_normalisation_keeps_validity.

(** The toy group satisfies the hypotheses.  [(2, 5)] is a signature of 2 under
    the key 4 G; it is assembled with its [s] replaced by [-5 = 2]; [(2, 4)] is
    not, nor are zero components. *)
Example C57_case :
  [/\ curve_ok (sp_q SA) curve7, Znumtheory.prime (sp_q SA), Z.odd (sp_q SA) = true, xcoord_ok (sp_q SA) xcoordS & lift_ok xcoordS lift_xS] /\
  [/\ from_scalars SA xcoordS lift_xS 2 5 (pt7 4) 2 = Some (Signature 2 2 1),
      from_scalars SA xcoordS lift_xS 2 4 (pt7 4) 2 = None,
      from_scalars SA xcoordS lift_xS 0 4 (pt7 4) 2 = None & from_scalars SA xcoordS lift_xS 2 0 (pt7 4) 2 = None].
Proof. split; [exact: toy_backend|by split; vm_compute]. Qed.

(** ** C51 *)

(** Whatever the others send in the four rounds: a party that outputs something
    outputs an ECDSA signature of its message under the joint key. *)
Theorem C51_output_is_valid (S : sparams) (C : curve) (I : eqType) (le : rel I) (HO : eqType)
    (H : dst -> seq (hitem HO I (pt C)) -> HO) (X : xof (seq (hitem HO I (pt C))) (pt C)) (scheme : seq (hitem HO I (pt C)))
    (xcoord : pt C -> Z) (lift_x : nat -> Z -> option (pt C)) positional
    randomness id entry r1 c eb r2 r3 m1 m2 m3 m4 o1 o2 o3 o4 sig :
  curve_ok (sp_q S) C -> Znumtheory.prime (sp_q S) -> Z.odd (sp_q S) = true -> xcoord_ok (sp_q S) xcoord -> lift_ok xcoord lift_x ->
  let ids := akeys (zs_public (se_share entry)) in
  let vk := total (avals (zs_public (se_share entry))) in
  let m := (be_value (se_message entry) mod sp_q S)%Z in
  uniq ids -> id \in ids ->
  sg_start S H scheme randomness id entry r1 = Ok (c, eb) ->
  perm_eq o3 (without ids id) -> perm_eq o4 (without ids id) ->
  sg_run S le X xcoord lift_x positional c eb r2 r3 m1 m2 m3 m4 o1 o2 o3 o4 = Accept sig ->
  [/\ ecdsa_valid (sp_q S) xcoord vk m (sig_r sig) (sig_s sig), (sig_s sig <= (sp_q S - 1) / 2)%Z &
      exists2 R, lift_x (sig_id sig) (sig_r sig) = Some R & nonce_point xcoord vk m (sig_r sig) (sig_s sig) R].
Proof. move=> HC Pq Oq HX HL ids vk m hu hi hs; exact: (signing_output_valid HC Pq Oq HX HL hu hi hs). Qed.
Print Assumptions C51_output_is_valid.

(** Whatever the others send: once the presigning checks have passed and all
    signature shares have been accepted, the shares add up to the [s] of a
    signature with the nonce point the parties agreed on, and that signature is
    output unless a component is zero or the joint key is the point at infinity. *)
Theorem C51_accepted_shares_suffice (S : sparams) (C : curve) (I : eqType) (le : rel I) (HO : eqType)
    (H : dst -> seq (hitem HO I (pt C)) -> HO) (X : xof (seq (hitem HO I (pt C))) (pt C)) (scheme : seq (hitem HO I (pt C)))
    (xcoord : pt C -> Z) (lift_x : nat -> Z -> option (pt C)) positional
    randomness id entry r1 c eb r2 r3 m1 m2 m3 m4 o1 o2 o3 o4 t :
  curve_ok (sp_q S) C -> Znumtheory.prime (sp_q S) -> Z.odd (sp_q S) = true -> xcoord_ok (sp_q S) xcoord -> lift_ok xcoord lift_x ->
  let ids := akeys (zs_public (se_share entry)) in
  let vk := total (avals (zs_public (se_share entry))) in
  let m := (be_value (se_message entry) mod sp_q S)%Z in
  let run := sg_run S le X xcoord lift_x positional c eb r2 r3 m1 m2 m3 m4 o1 o2 o3 o4 in
  let r := xcoord (s4_gamma t) in
  uniq ids -> id \in ids ->
  sg_start S H scheme randomness id entry r1 = Ok (c, eb) ->
  perm_eq o3 (without ids id) -> perm_eq o4 (without ids id) ->
  sg_until4 S le X xcoord c eb r2 r3 m1 m2 m3 o1 o2 o3 = Accept (ToRound4 t) ->
  (forall i, i \in without ids id -> exists z, sg_recv4 xcoord t i (m4 i) = Accept z) ->
  exists z, [/\ (0 <= z < sp_q S)%Z, nonce_point xcoord vk m r z (s4_gamma t) &
    (r = 0%Z \/ z = 0%Z \/ vk = p0 C) /\ run = RLocal \/
    exists2 sig, run = Accept sig &
      [/\ sig_r sig = r, sig_s sig = z \/ sig_s sig = (sp_q S - z)%Z & ecdsa_valid (sp_q S) xcoord vk m (sig_r sig) (sig_s sig)]].
Proof.
move=> HC Pq Oq HX HL ids vk m run r hu hi hs p3 p4 U hz.
exact: (signing_shares_suffice positional HC Pq Oq HX HL hu hi hs p3 p4 U hz).
Qed.
Print Assumptions C51_accepted_shares_suffice.

(** Three parties sign; all of them output the same signature.  With one share
    changed, party 0 reports its sender and outputs nothing. *)
Definition bad4S (j : nat) : msgS := if j == 1%N then Msg None None (Some (S4NB 4)) else sent4S j.
Example C51_case :
  [/\ akeys (zs_public (se_share (entryS 0))) = idsS,
      startS 0 = Ok (c_of 0, e_of 0), startS 1 = Ok (c_of 1, e_of 1) & startS 2 = Ok (c_of 2, e_of 2)] /\
  [/\ until4S 0 = Accept (ToRound4 (s4_of 0)),
      sg_recv4 xcoordS (s4_of 0) 1%N (sent4S 1) = Accept (Zpos 3),
      runS 0 sent4S = Accept (Signature 2 2 1), runS 1 sent4S = Accept (Signature 2 2 1) &
      runS 2 sent4S = Accept (Signature 2 2 1)] /\
  runS 0 bad4S = Reject (Proto R4InvalidSignatureShare).
Proof.
refine (conj _ (conj _ _)).
- split; [by []|evaluates (Ok (c_of 0, e_of 0))|evaluates (Ok (c_of 1, e_of 1))|evaluates (Ok (c_of 2, e_of 2))].
- split; [evaluates st40|..]; by vm_compute.
- by vm_compute.
Qed.

(** ** C52 *)

(** [i] and [j] have both passed the presigning checks and saw the same echo
    broadcasts in rounds 2 and 3; the others may do anything.  [i] accepts the
    share [j] computed. *)
Theorem C52_own_share_accepted (S : sparams) (C : curve) (I : eqType) (le : rel I) (HO : eqType)
    (X : xof (seq (hitem HO I (pt C))) (pt C)) (xcoord : pt C -> Z) (vi vj : seen C I HO) :
  curve_ok (sp_q S) C -> Znumtheory.prime (sp_q S) ->
  reached4 S le X xcoord vi -> reached4 S le X xcoord vj -> same_session vi vj -> sx_id (v_ctx vi) != sx_id (v_ctx vj) ->
  sg_recv4 xcoord (v_s4 vi) (sx_id (v_ctx vj)) (sg_send4 (v_s4 vj)) = Accept (s4_sigma (v_s4 vj)).
Proof. move=> HC Pq; exact: own_share_accepted. Qed.
Print Assumptions C52_own_share_accepted.

(** And no other: [i] reports [j] exactly when the share it receives is not the
    one [j]'s published values determine. *)
Theorem C52_only_own_share_accepted (S : sparams) (C : curve) (I : eqType) (le : rel I) (HO : eqType)
    (X : xof (seq (hitem HO I (pt C))) (pt C)) (xcoord : pt C -> Z) (vi vj : seen C I HO) z :
  curve_ok (sp_q S) C -> Znumtheory.prime (sp_q S) ->
  reached4 S le X xcoord vi -> reached4 S le X xcoord vj -> same_session vi vj -> sx_id (v_ctx vi) != sx_id (v_ctx vj) ->
  s4_gamma (v_s4 vi) <> p0 C ->
  let got := sg_recv4 xcoord (v_s4 vi) (sx_id (v_ctx vj)) (Msg None None (Some (S4NB z))) in
  (got = Accept z <-> (z mod sp_q S = s4_sigma (v_s4 vj))%Z) /\
  (got = Reject (Proto R4InvalidSignatureShare) <-> (z mod sp_q S <> s4_sigma (v_s4 vj))%Z).
Proof. move=> HC Pq; exact: share_accepted. Qed.
Print Assumptions C52_only_own_share_accepted.

(** Parties 0 and 1 of the toy session, while party 2 sends wrong results to
    party 1 only in round 4 (which does not concern the pair). *)
Example C52_case :
  [/\ reached4 SA leq XS xcoordS (seenS 0), reached4 SA leq XS xcoordS (seenS 1), same_session (seenS 0) (seenS 1),
      s4_gamma (v_s4 (seenS 0)) <> p0 curve7 & s4_sigma (v_s4 (seenS 1)) = Zpos 3].
Proof. exact: seen_pair. Qed.
