(** * Where a signing session goes after round 3 (property C66): vocabulary. *)
From Coq Require Import ZArith.
From Verif Require Import Base ZkBase.
From mathcomp Require Import all_ssreflect.
From Verif Require Import AlgBase ProtoBase SigningModel SigningSpec.
Set Implicit Arguments.
Unset Strict Implicit.
Unset Printing Implicit Defensive.

Section Branch.
Variables (C : curve) (I : eqType) (HO : eqType).

(** The number of the round a party goes to. *)
Definition round_of (n : sg_next C I HO) : nat :=
  match n with ToRound4 _ => 4%N | ToRound5 _ => 5%N | ToRound6 _ => 6%N end.

(** Party [id], having sent [own] and received [got], got or sent [said] in a
    round, all parts included. *)
Definition said {W : Type} (ids : seq I) (id : I) (own : message W) (got all : I -> message W) : Prop :=
  {in ids, forall l, (if l == id then own else got l) = all l}.

(** What a round 3 message carries: delta, Delta and S. *)
Definition carries (m : message (sg_wire C I)) (delta : Z) (cap_delta cap_s : pt C) : Prop :=
  exists psi, m = Msg None (Some (S3EB delta)) (Some (S3NB (R3NB cap_delta psi cap_s))).

(** The round that the values of all parties call for: round 5 if the deltas do
    not fit the Deltas, otherwise round 6 if the S do not fit delta times the key,
    otherwise round 4. *)
Definition called_for (vk : pt C) (ids : seq I) (delta : I -> Z) (cap_delta cap_s : I -> pt C) (r : nat) : Prop :=
  let d := foldr Z.add 0%Z [seq delta l | l <- ids] in
  let fits1 := pmul C d (gen C) = total [seq cap_delta l | l <- ids] in
  let fits2 := total [seq cap_s l | l <- ids] = pmul C d vk in
  [/\ r = 5%N <-> ~ fits1, r = 6%N <-> fits1 /\ ~ fits2 & r = 4%N <-> fits1 /\ fits2].

(** The message [m] with the point S replaced. *)
Definition with_s (t : pt C) (m : message (sg_wire C I)) : message (sg_wire C I) :=
  Msg (m_direct m) (m_echo m)
    (if m_normal m is Some (S3NB n) then Some (S3NB (R3NB (n3_delta n) (n3_psi n) t)) else m_normal m).
End Branch.
