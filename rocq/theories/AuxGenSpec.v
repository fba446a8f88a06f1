(** * Vocabulary for the AuxGen properties. *)
From Coq Require Import ZArith.
From Verif Require Import Base SignedModel PaillierModel ZkBase.
From mathcomp Require Import all_ssreflect.
From Verif Require Import ProtoBase AuxGenModel.
Set Implicit Arguments.
Unset Strict Implicit.
Unset Printing Implicit Defensive.

(** A modulus with at least [k] binary digits. *)
Definition at_least_bits (k N : Z) : Prop := (2 ^ (k - 1) <= N)%Z.

(** Ring-Pedersen parameters with reduced bases. *)
Definition reduced (w : rpparams) : rpparams := RP (rp_n w) (rp_t w mod rp_n w) (rp_s w mod rp_n w).

(** Evidence that is confirmed. *)
Definition confirmed_ev (r : evid unit) : bool := if r is EvOk _ then true else false.

(** The first of some checks that a judge confirms to have failed. *)
Definition first_confirmed {E} (ev : E -> evid unit) (es : seq E) : option E :=
  ohead [seq e <- es | confirmed_ev (ev e)].

(** The checks of rounds 2 and 3 in the order in which the receiver makes them. *)
Definition ag_checks2 {I : eqType} : seq (ag_error I) :=
  [:: AgHashMismatch; AgPaillierTooSmall; AgRPTooSmall; AgPrmFailed].
Definition ag_checks3 {I : eqType} (me : I) : seq (ag_error I) := [:: AgModFailed; AgFacFailed me].
