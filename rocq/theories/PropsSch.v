(** * Property C32: Schnorr proofs.

    [F] is any field (the scalars), [V] any vector space over it (the curve
    group), [g] the generator, [A] the type of contexts, [X] the hash. *)
From Coq Require Import ZArith.
From mathcomp Require Import all_ssreflect all_algebra.
From Verif Require Import AlgBase ZkBase ZkToy SchModel SchProofs PropsShare.
Set Implicit Arguments.
Unset Strict Implicit.
Unset Printing Implicit Defensive.
Import GRing.Theory.
Local Open Scope ring_scope.

Theorem C32_honest (F : fieldType) (V : lmodType F) (g : V) (A : Type) (X : xof A V) (alpha x : F) (aux : A) :
  sch_verify g X (sch_new X alpha x (alpha *: g) (x *: g) aux) (alpha *: g) (x *: g) aux.
Proof. exact: sch_run. Qed.
Print Assumptions C32_honest.

(** A hash returning 5, and one returning 6. *)
Definition X7 (z : Z) : xof nat V7 := const_xof z true Z0.
Example C32_honest_case :
  sch_new (X7 (Zpos 5)) (2%:R : F7) (4%:R : F7) (6%:R : F7) (5%:R : F7) 1%N = SchProof 5%:R 1%:R /\
  sch_verify g7 (X7 (Zpos 5)) (SchProof (5%:R : F7) 1%:R) (6%:R : F7) (5%:R : F7) 1%N.
Proof. by split; [congr SchProof; apply/eqP; vm_compute|vm_compute]. Qed.

(** Acceptance is exactly: the challenge is the hash of context, statement and
    commitment in this order, and the response satisfies the group equation. *)
Theorem C32_acceptance (F : fieldType) (V : lmodType F) (g : V) (A : Type) (X : xof A V) (pf : sch_proof F)
    (com P : V) (aux : A) :
  sch_verify g X pf com P aux <->
  sch_challenge pf = zf (x_scalar X Tsch [:: IA aux; IP P; IP com]) /\
  sch_response pf *: g = com + sch_challenge pf *: P.
Proof. exact: sch_accept. Qed.
Print Assumptions C32_acceptance.

Example C32_acceptance_case :
  sch_verify g7 (X7 (Zpos 5)) (SchProof (5%:R : F7) 1%:R) (6%:R : F7) (5%:R : F7) 1%N /\
  ~~ sch_verify g7 (X7 (Zpos 5)) (SchProof (5%:R : F7) 2%:R) (6%:R : F7) (5%:R : F7) 1%N /\
  ~~ sch_verify g7 (X7 (Zpos 6)) (SchProof (5%:R : F7) 1%:R) (6%:R : F7) (5%:R : F7) 1%N.
Proof. by vm_compute. Qed.

(** A prover that does not use the discrete logarithm of the statement is rejected. *)
Theorem C32_wrong_secret (F : fieldType) (V : lmodType F) (g : V) (A : Type) (X : xof A V) (alpha x : F) (P : V) (aux : A) :
  zf (x_scalar X Tsch [:: IA aux; IP P; IP (alpha *: g)]) != 0 :> F -> P != x *: g ->
  sch_verify g X (sch_new X alpha x (alpha *: g) P aux) (alpha *: g) P aux = false.
Proof. exact: sch_wrong. Qed.
Print Assumptions C32_wrong_secret.

Example C32_wrong_secret_case :
  (zf (x_scalar (X7 (Zpos 5)) Tsch [:: IA 1%N; IP (4%:R : V7); IP ((2%:R : F7) *: g7)]) != 0 :> F7) /\
  (4%:R : V7) != (4%:R : F7) *: g7.
Proof. by vm_compute. Qed.

(** Two accepting answers to different challenges for one commitment reveal
    the discrete logarithm. *)
Theorem C32_extraction (F : fieldType) (V : lmodType F) (g : V) (A : Type) (X1 X2 : xof A V) (pf1 pf2 : sch_proof F)
    (com P : V) (aux1 aux2 : A) :
  sch_challenge pf1 != sch_challenge pf2 ->
  sch_verify g X1 pf1 com P aux1 -> sch_verify g X2 pf2 com P aux2 ->
  P = ((sch_response pf1 - sch_response pf2) / (sch_challenge pf1 - sch_challenge pf2)) *: g.
Proof. exact: sch_extract. Qed.
Print Assumptions C32_extraction.

(** The secret [4] behind the statement [4 * 3 = 5] is recovered from the
    responses [1] and [5] to the challenges [5] and [6]. *)
Example C32_extraction_case :
  sch_verify g7 (X7 (Zpos 5)) (SchProof (5%:R : F7) 1%:R) (6%:R : F7) (5%:R : F7) 1%N /\
  sch_verify g7 (X7 (Zpos 6)) (SchProof (6%:R : F7) 5%:R) (6%:R : F7) (5%:R : F7) 1%N /\
  ((1%:R - 5%:R) / (5%:R - 6%:R) : F7) = 4%:R.
Proof. by split; [|split; [|apply/eqP]]; vm_compute. Qed.
