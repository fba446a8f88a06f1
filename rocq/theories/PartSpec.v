(** * Rules about the parts of a message (property C58). *)
From mathcomp Require Import all_ssreflect.
From Verif Require Import ProtoBase.
Set Implicit Arguments.
Unset Strict Implicit.
Unset Printing Implicit Defensive.

(** The receipt of a message [m] and the three checks by which a judge confirms
    that a part of it is malformed agree: what the receiver complains about is
    confirmed, and a message with a part that would be confirmed as malformed is
    refused because of one of its parts. *)
Record part_rules (E W A : Type) (receive : message W -> recv E A) (direct echo normal : option W -> evid unit) (m : message W) : Prop :=
  PartRules {
    pr_direct : receive m = Reject BadDirect -> direct (m_direct m) = EvOk tt;
    pr_echo : receive m = Reject BadEcho -> echo (m_echo m) = EvOk tt;
    pr_normal : receive m = Reject BadNormal -> normal (m_normal m) = EvOk tt;
    pr_refused : direct (m_direct m) = EvOk tt \/ echo (m_echo m) = EvOk tt \/ normal (m_normal m) = EvOk tt ->
      receive m = Reject BadDirect \/ receive m = Reject BadEcho \/ receive m = Reject BadNormal;
    pr_total : direct (m_direct m) <> EvPanic /\ echo (m_echo m) <> EvPanic /\ normal (m_normal m) <> EvPanic }.

(** No part of a message of that round is confirmed as malformed. *)
Definition no_parts (W : Type) (direct echo normal : option W -> evid unit) : Prop :=
  forall p, direct p = EvInvalid /\ echo p = EvInvalid /\ normal p = EvInvalid.
