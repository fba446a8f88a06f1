(** * Base: outcomes of Rust computations and machine-word arithmetic.

    Everything here is a definition; lemmas are in [BaseFacts.v]. *)
From Coq Require Import ZArith List Bool.
Import ListNotations.
Open Scope Z_scope.

(** A Rust computation either returns or panics ([expect] on [None],
    [assert!], arithmetic overflow of an index, [unimplemented!]).
    [CtOption]/[Option]/[Result] return values stay data inside [Ret]. *)
Inductive outcome (A : Type) : Type :=
| Ret (a : A)
| Panic.
Arguments Ret {A} a.
Arguments Panic {A}.

Definition obind {A B} (x : outcome A) (f : A -> outcome B) : outcome B :=
  match x with Ret a => f a | Panic => Panic end.
Notation "x <~ e ;; k" := (obind e (fun x => k))
  (at level 100, e at next level, right associativity).

(** [Option::expect] / [CtOption::expect]: panics on [None]. *)
Definition oexpect {A} (x : option A) : outcome A :=
  match x with Some a => Ret a | None => Panic end.

(** [assert!(b)]. *)
Definition oassert (b : bool) : outcome unit := if b then Ret tt else Panic.

(** Bit length of an unsigned integer: [Uint::bits], [bits_vartime]
    (crypto-bigint; external, taken at its documented meaning). *)
Definition bits (x : Z) : Z := if x <=? 0 then 0 else Z.log2 x + 1.

(** Wrapping operations of a [w]-bit [Uint] (crypto-bigint). *)
Definition wadd (w a b : Z) : Z := (a + b) mod 2 ^ w.
Definition wsub (w a b : Z) : Z := (a - b) mod 2 ^ w.
Definition wmul (w a b : Z) : Z := (a * b) mod 2 ^ w.
Definition wneg (w a : Z) : Z := (- a) mod 2 ^ w.
(** [wrapping_shl]: shifts by the width or more give zero. *)
Definition wshl (w a s : Z) : Z := if s <? w then (a * 2 ^ s) mod 2 ^ w else 0.
(** [wrapping_shr_vartime]. *)
Definition wshr (w a s : Z) : Z := if s <? w then a / 2 ^ s else 0.
(** [overflowing_shl_vartime]: [None] only when the shift is at least the
    width; bits shifted out are lost. *)
Definition oshl (w a s : Z) : option Z := if s <? w then Some ((a * 2 ^ s) mod 2 ^ w) else None.
(** [checked_sub] of unsigned words. *)
Definition csub (a b : Z) : option Z := if b <=? a then Some (a - b) else None.
(** The most significant bit, [bit_vartime(T::BITS - 1)]. *)
Definition msb (w a : Z) : bool := Z.testbit a (w - 1).

(** Modular inverse by the extended Euclidean algorithm: the meaning of
    [Invert::invert] on Montgomery forms and of [inv_mod]/[inv_odd_mod]
    (crypto-bigint, external).  [egcd] keeps [r = s*a mod m]. *)
Fixpoint egcd (fuel : nat) (r0 r1 s0 s1 : Z) : Z * Z :=
  match fuel with
  | O => (r0, s0)
  | S f => if r1 =? 0 then (r0, s0)
           else egcd f r1 (r0 mod r1) s1 (s0 - (r0 / r1) * s1)
  end.

Definition inv_mod (m a : Z) : option Z :=
  let a' := a mod m in
  let fuel := Z.to_nat (2 * bits m + 2) in
  let '(g, s) := egcd fuel m a' 0 1 in
  if g =? 1 then Some (s mod m) else None.

(** Modular exponentiation by squaring; [a^e mod m] for every [m]
    (BaseFacts.powm_eq). *)
Fixpoint powm_pos (m a : Z) (e : positive) : Z :=
  match e with
  | xH => a mod m
  | xO e' => let b := powm_pos m a e' in (b * b) mod m
  | xI e' => let b := powm_pos m a e' in (((b * b) mod m) * a) mod m
  end.
Definition powm (m a e : Z) : Z :=
  match e with Z0 => 1 mod m | Zpos p => powm_pos m a p | Zneg _ => 0 end.

(** [PowBoundedExp::pow_bounded_exp(base, exp, exp_bits)] on residues modulo
    [m]: only the low [eb] bits of the exponent are used (crypto-bigint). *)
Definition pow_bounded (m b e eb : Z) : Z := powm m b (e mod 2 ^ eb).
