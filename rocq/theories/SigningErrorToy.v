(** * Draws for the error rounds of the session of C50. *)
From Coq Require Import ZArith Znumtheory Lia.
From Verif Require Import Base SignedModel PaillierModel ZkBase ZkModel ZkSpec ZkToy ZkTranscripts.
From mathcomp Require Import all_ssreflect.
From Verif Require Import AlgBase ProtoBase ProtoSpec AuxGenModel AuxGenToy SigningSpec SigningModel SigningToy SigningWitness
  EntryWitness MtaSpec SigningHonestSpec SigningHonestWitness SigningErrorSpec.
Set Implicit Arguments.
Unset Strict Implicit.
Unset Printing Implicit Defensive.
Local Open Scope Z_scope.

Definition decE (i : nat) : seq dec_rand :=
  [:: DecRand (2 ^ 44 + Z.of_nat i) (2 ^ 137 + 3) 3; DecRand (2 ^ 43 + 5) (2 ^ 136 + Z.of_nat i) 7; DecRand (2 ^ 20) (2 ^ 113) 1].
Definition gsE (i j : nat) : seq aff_gs_rand :=
  [:: AffGStarRand (2 ^ 44 + Z.of_nat i) (2 ^ 110 + Z.of_nat j) 3 7; AffGStarRand (2 ^ 20) (2 ^ 86) 11 1;
      AffGStarRand (2 ^ 43 + 17) (2 ^ 109 + Z.of_nat i) 1 3].

Lemma decE_ok i N : i \in idsS -> (N = toy_N0 \/ N = toy_N1) -> List.Forall (dec_draw_ok toy_S N 3) (decE i).
Proof.
move=> hi hN; move: i hi; apply: in_idsS; case: hN => ->; rewrite /decE;
  do 3 (apply: List.Forall_cons; first by (split; [split|split]; unfold safe_bit, unit_ok; toy_case)); exact: List.Forall_nil.
Qed.
Lemma gsE_ok i j N0 N1 : i \in idsS -> j \in idsS -> (N0 = toy_N0 \/ N0 = toy_N1) -> (N1 = toy_N0 \/ N1 = toy_N1) ->
  List.Forall (gs_draw_ok toy_S N0 N1) (gsE i j).
Proof.
move=> hi hj h0 h1; move: i hi; apply: in_idsS; move: j hj; apply: in_idsS; case: h0 => ->; case: h1 => ->; rewrite /gsE;
  do 3 (apply: List.Forall_cons; first by (split; [split|split]; unfold safe_bit, unit_ok; toy_case)); exact: List.Forall_nil.
Qed.
Lemma drawsE_ok : {in idsS, forall i, error_draws_ok toy_S (py_N partiesH) idsS i (decE i) (gsE i)}.
Proof.
move=> i hi.
have hN j : py_N partiesH j = toy_N0 \/ py_N partiesH j = toy_N1 by rewrite /=; case: eqP => _; [right|left].
split.
- exact: erefl.
- exact: (decE_ok hi (hN i)).
- by move=> j _; exact: erefl.
- by move=> j; rewrite mem_filter => /andP [_ hj]; exact: (gsE_ok hi hj (hN j) (hN i)).
Qed.

(** No point is the only multiple of the generator, or of Gamma. *)
Lemma otherE (P : pt curve7) : (exists delta, pmul curve7 delta (gen curve7) <> P) /\
  (exists r, pmul curve7 r (pmul curve7 (joint_gamma partiesH drawsH) (gen curve7)) <> P).
Proof.
have h (Q : pt curve7) : pmul curve7 1 Q <> pmul curve7 0 Q -> exists a, pmul curve7 a Q <> P.
  move=> ne; case E: (peqb curve7 (pmul curve7 0 Q) P).
    by move/(c_eqb _ _ (zq_curve_ok 7)): E => <-; exists 1.
  by exists 0 => /(c_eqb _ _ (zq_curve_ok 7)); rewrite E.
by split; apply: h; vm_compute.
Qed.
