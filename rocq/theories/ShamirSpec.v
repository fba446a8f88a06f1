(** * Specification vocabulary for secret sharing, independent of the model. *)
From mathcomp Require Import all_ssreflect all_algebra.
Set Implicit Arguments.
Unset Strict Implicit.
Unset Printing Implicit Defensive.
Import GRing.Theory.
Local Open Scope ring_scope.

Section Spec.
Variables (F : fieldType) (V : lmodType F).

(** Value at [x] of the polynomial with the listed coefficients (constant term first). *)
Definition peval (cs : seq F) (x : F) : F := \sum_(i < size cs) cs`_i * x ^+ i.

(** The same with coefficients in the group. *)
Definition gpeval (cs : seq V) (x : F) : V := \sum_(i < size cs) x ^+ i *: cs`_i.

(** The field is large enough to number [n] parties. *)
Definition big_field (n : nat) : Prop := forall k, (0 < k <= n)%N -> k%:R != 0 :> F.

(** The Lagrange basis value at 0 for node [x] among [xs]. *)
Definition lagrange0 (xs : seq F) (x : F) : F := \prod_(y <- xs | y != x) (y / (y - x)).

End Spec.
