(** * Words of properties C60 and C63. *)
From Coq Require Import ZArith.
From Verif Require Import Base PaillierModel ZkBase ZkModel.
From mathcomp Require Import all_ssreflect.
From Verif Require Import AlgBase ProtoBase SigningModel.
Set Implicit Arguments.
Unset Strict Implicit.
Unset Printing Implicit Defensive.

(** Two given inputs are a collision of a function.  (Collisions of a hash
    function always exist; the theorems exhibit which inputs collide.) *)
Definition collision {X Y : Type} (h : X -> Y) (a b : X) : Prop := a <> b /\ h a = h b.

(** Two outcomes are the same as far as [f] shows. *)
Definition same_upto {E T U : Type} (f : T -> U) (x y : recv E T) : Prop :=
  match x, y with
  | Accept a, Accept b => f a = f b
  | Reject a, Reject b => a = b
  | RLocal, RLocal => True
  | RPanic, RPanic => True
  | _, _ => False
  end.

(** What a party's state after round 3 of signing holds, apart from its own
    context, message and signature share. *)
Definition next_view {C : curve} {I HO : eqType} (n : sg_next C I HO) :=
  match n with
  | ToRound4 s => (4%N, s4_gamma s, s4_deltas s, s4_ss s, [::])
  | ToRound5 s => (5%N, s5_base s, s5_pub s, s5_res s, s5_df s)
  | ToRound6 s => (6%N, s5_base s, s5_pub s, s5_res s, s5_df s)
  end.
