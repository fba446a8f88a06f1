(** * Fresh shares (property C72): one party's draws replaced. *)
From mathcomp Require Import all_ssreflect.
Set Implicit Arguments.
Unset Strict Implicit.
Unset Printing Implicit Defensive.

(** [f], but [a] for the party [i]. *)
Definition at_party (I : eqType) (A : Type) (f : I -> A) (i : I) (a : A) : I -> A := fun j => if j == i then a else f j.
