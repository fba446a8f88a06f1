(** * Specification vocabulary for bounded signed integers (independent of the
    model's functions). *)
From Coq Require Import ZArith Bool.
From Verif Require Import Base SignedModel.
Open Scope Z_scope.

(** The integer denoted by a [w]-bit two's-complement word. *)
Definition twos (w u : Z) : Z := if u <? 2 ^ (w - 1) then u else u - 2 ^ w.

(** The integer denoted by a signed value. *)
Definition sval (w : Z) (x : signed) : Z := twos w (word x).

(** A value is well formed when its word fits the width, its declared bound is
    below the width, and the bound holds: [|value| < 2^bound]. *)
Definition wf (w : Z) (x : signed) : Prop :=
  0 <= word x < 2 ^ w /\ 0 <= bound x < w /\ Z.abs (sval w x) < 2 ^ bound x.

(** The paper's interval written "plus-minus 2^e" (Section 3). *)
Definition pm_interval (e v : Z) : Prop := - 2 ^ (e - 1) + 1 <= v <= 2 ^ (e - 1).
