(** * Property C69: proofs reveal nothing (the Schnorr proof).

    For a statement [x *: g], the commitments and proofs the verifier accepts
    are exactly those of the honest prover, each for exactly one nonce. *)
From Coq Require Import ZArith.
From mathcomp Require Import all_ssreflect all_algebra.
From Verif Require Import AlgBase ZkBase ZkToy SchModel SchProofs PropsShare PropsSch.
Set Implicit Arguments.
Unset Strict Implicit.
Unset Printing Implicit Defensive.
Import GRing.Theory.
Local Open Scope ring_scope.

Theorem C69_sch (F : fieldType) (V : lmodType F) (g : V) (A : Type) (X : xof A V) (x : F) (com : V) (aux : A)
    (pf : sch_proof F) :
  sch_verify g X pf com (x *: g) aux <->
  exists! alpha, sch_commitment g alpha = com /\ sch_new X alpha x com (x *: g) aux = pf.
Proof. exact: sch_hides. Qed.
Print Assumptions C69_sch.

(** The statement [5 = 4 * 3] of C32's case.  A proof made without the secret
    [4]: answer [6], challenge [5], commitment [6 * 3 - 5 * 5 = 0].  The honest
    prover outputs it when its nonce is [0]; with answer [1] the nonce is [2]. *)
Example C69_sch_case :
  [/\ (5%:R : V7) == (4%:R : F7) *: g7,
      sch_verify g7 (X7 (Zpos 5)) (SchProof (5%:R : F7) 6%:R) ((6%:R : F7) *: g7 - (5%:R : F7) *: (5%:R : V7)) (5%:R : F7) 1%N,
      sch_verify g7 (X7 (Zpos 5)) (SchProof (5%:R : F7) 3%:R) ((3%:R : F7) *: g7 - (5%:R : F7) *: (5%:R : V7)) (5%:R : F7) 1%N &
      sch_commitment g7 (4%:R : F7) == (3%:R : F7) *: g7 - (5%:R : F7) *: (5%:R : V7)].
Proof. by vm_compute. Qed.
