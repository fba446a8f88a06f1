(** * Facts about the Schnorr proof. *)
From Coq Require Import ZArith.
From mathcomp Require Import all_ssreflect all_algebra.
From Verif Require Import AlgBase ZkBase SchModel.
Set Implicit Arguments.
Unset Strict Implicit.
Unset Printing Implicit Defensive.
Import GRing.Theory.
Local Open Scope ring_scope.

Section Sch.
Variables (F : fieldType) (V : lmodType F) (g : V) (A : Type).

Lemma sch_accept (X : xof A V) (pf : sch_proof F) com P aux :
  sch_verify g X pf com P aux <->
  sch_challenge pf = zf (x_scalar X Tsch [:: IA aux; IP P; IP com]) /\
  sch_response pf *: g = com + sch_challenge pf *: P.
Proof.
rewrite /sch_verify /sch_challenge_of; split.
- by case/andP=> /eqP <- /eqP ->.
- by case=> <- ->; rewrite !eqxx.
Qed.

Lemma sch_run (X : xof A V) alpha x aux :
  sch_verify g X (sch_new X alpha x (sch_commitment g alpha) (x *: g) aux) (sch_commitment g alpha) (x *: g) aux.
Proof.
apply/sch_accept; rewrite /sch_new /sch_commitment /=; split=> //.
by rewrite scalerDl scalerA mulrC.
Qed.

(** The proof only speaks about the statement: a prover that runs [new] with
    a secret that is not the discrete logarithm is rejected, unless the
    challenge is zero. *)
Lemma sch_wrong (X : xof A V) alpha x P aux :
  sch_challenge_of X P (sch_commitment g alpha) aux != 0 -> P != x *: g ->
  sch_verify g X (sch_new X alpha x (sch_commitment g alpha) P aux) (sch_commitment g alpha) P aux = false.
Proof.
move=> He HP; apply/negP => /sch_accept []; rewrite /sch_new /sch_commitment /= => _.
rewrite scalerDl => /addrI; rewrite mulrC -scalerA => /(scalerI He) H.
by rewrite H eqxx in HP.
Qed.

Lemma sch_extract (X1 X2 : xof A V) (pf1 pf2 : sch_proof F) com P aux1 aux2 :
  sch_challenge pf1 != sch_challenge pf2 ->
  sch_verify g X1 pf1 com P aux1 -> sch_verify g X2 pf2 com P aux2 ->
  P = ((sch_response pf1 - sch_response pf2) / (sch_challenge pf1 - sch_challenge pf2)) *: g.
Proof.
rewrite -subr_eq0 => Hne /sch_accept [_ H1] /sch_accept [_ H2].
rewrite mulrC -scalerA scalerBl H1 H2 opprD addrACA subrr add0r -scalerBl scalerA mulVf //.
by rewrite scale1r.
Qed.

(** Accepted proofs are the honest ones, each for one nonce. *)
Lemma sch_hides (X : xof A V) (x : F) com aux (pf : sch_proof F) :
  sch_verify g X pf com (x *: g) aux <->
  exists! alpha, sch_commitment g alpha = com /\ sch_new X alpha x com (x *: g) aux = pf.
Proof.
rewrite /sch_commitment; split; last by case=> alpha [[<- <-] _]; apply: sch_run.
case: pf => e z /sch_accept /= [He Hz]; exists (z - x * e); split.
  split; last by rewrite /sch_new /sch_challenge_of -He subrK.
  by rewrite scalerBl Hz mulrC -scalerA addrK.
by move=> alpha [_ []]; rewrite /sch_challenge_of -He => _ <-; rewrite addrK.
Qed.
End Sch.
