(** * Specification vocabulary for the protocols. *)
From mathcomp Require Import all_ssreflect.
Set Implicit Arguments.
Unset Strict Implicit.
Unset Printing Implicit Defensive.

(** [r] is the bitwise parity of the given equally long contributions. *)
Definition combined (rhos : seq (seq bool)) (r : seq bool) : Prop :=
  all (fun b => size b == size r) rhos /\
  forall k, k < size r -> nth false r k = foldr addb false [seq nth false b k | b <- rhos].

(** A total order on the party ids (the [Ord] of Rust's maps). *)
Definition total_order (I : eqType) (le : rel I) : Prop :=
  [/\ total le, transitive le & antisymmetric le].
