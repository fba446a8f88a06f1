(** * The Schnorr proof: transcription of src/zk/sch.rs, over the algebraic
    layer (scalars are a field, points a module over it).  Definitions only. *)
From Coq Require Import ZArith.
From mathcomp Require Import all_ssreflect all_algebra.
From Verif Require Import AlgBase ZkBase.
Set Implicit Arguments.
Unset Strict Implicit.
Unset Printing Implicit Defensive.
Import GRing.Theory.
Local Open Scope ring_scope.

(** The scalar a hash output stands for (curve/arithmetic.rs:87-109: the bytes
    read are reduced modulo the order). *)
Definition zf {F : ringType} (z : Z) : F :=
  match z with
  | Z0 => 0
  | Zpos p => (Pos.to_nat p)%:R
  | Zneg p => - (Pos.to_nat p)%:R
  end.

Section Sch.
Variables (F : fieldType) (V : lmodType F) (g : V) (A : Type) (X : xof A V).

(** zk/sch.rs:58-64 *)
Record sch_proof := SchProof { sch_challenge : F; sch_response : F }.

(** zk/sch.rs:37-41: the commitment of a secret [alpha] (21-30). *)
Definition sch_commitment (alpha : F) : V := alpha *: g.

(** zk/sch.rs:47-56: context, statement, commitment, in this order. *)
Definition sch_challenge_of (P com : V) (aux : A) : F :=
  zf (x_scalar X Tsch [:: IA aux; IP P; IP com]).

(** zk/sch.rs:67-77 *)
Definition sch_new (alpha x : F) (com P : V) (aux : A) : sch_proof :=
  let e := sch_challenge_of P com aux in
  SchProof e (alpha + x * e).

(** zk/sch.rs:79-82 *)
Definition sch_verify (pf : sch_proof) (com P : V) (aux : A) : bool :=
  let e := sch_challenge_of P com aux in
  (e == sch_challenge pf) && (com + e *: P == sch_response pf *: g).

End Sch.
