(** * The toy signing session: the proofs of round 3 are not guesses. *)
From Coq Require Import ZArith Znumtheory Lia.
From Verif Require Import Base EncodingModel SignedModel PaillierModel ZkBase ZkModel ElogModel ZkToy.
From mathcomp Require Import all_ssreflect.
From Verif Require Import AlgBase ProtoBase ProtoSpec AuxGenModel AuxGenToy KeyRefreshToy SigningModel SigningSpec SigningToy SigningWitness
  SigningBranchSpec SigningBranchToy NonceSpec NonceToy PresignSpec.
Set Implicit Arguments.
Unset Strict Implicit.
Unset Printing Implicit Defensive.
Local Open Scope Z_scope.

Ltac other_challenge3 z u :=
  do 2 eexists; split; [reflexivity|reflexivity|];
  exists 1; split; [by vm_compute|by vm_compute|]; exists z, u; split; apply: eq7; by vm_compute.

Lemma honest_products : {in othersS 0, forall l, not_a_guess3 7 (m1S 0 l) (s3_gamma (s3_of 0)) (sent3S l) /\
  not_a_guess3 7 (m1S 0 l) (s3_gamma (s3_of 0)) (other_delta l)}.
Proof.
move=> l; rewrite !inE => /orP [] /eqP ->; split.
- other_challenge3 (3 + 4) (5 + 3).
- other_challenge3 (3 + 4) (5 + 3).
- other_challenge3 (4 + 5) (4 + 5).
- other_challenge3 (4 + 5) (4 + 5).
Qed.

Lemma presign_case :
  [/\ until3S 0 = Accept (s3_of 0), nextS sent3S 0 = Some 4%N, nextS other_delta 0 = Some 5%N & said idsS 0%N (sg_send3 (s3_of 0)) sent3S sent3S] /\
  [/\ {in othersS 0, forall l, not_a_guess 7 (m1S 0 l) (sent2S l) /\ not_a_guess3 7 (m1S 0 l) (s3_gamma (s3_of 0)) (sent3S l)},
      {in othersS 0, forall l, not_a_guess3 7 (m1S 0 l) (s3_gamma (s3_of 0)) (other_delta l)},
      [seq g1_k (rnd1S l) | l <- idsS] = [:: 1; 3; 5] /\ [seq g1_gamma (rnd1S l) | l <- idsS] = [:: 2; 6; 4],
      [seq m_echo (sent3S l) | l <- idsS] = [seq Some (@S3EB curve7 nat_eqType d) | d <- [:: 2; 1; 0]] /\
      [seq m_echo (other_delta l) | l <- idsS] = [seq Some (@S3EB curve7 nat_eqType d) | d <- [:: 2; 1; 1]] &
      (2 + 1 + 0) mod 7 = ((1 + 3 + 5) * (2 + 6 + 4)) mod 7 /\ (2 + 1 + 1) mod 7 <> ((1 + 3 + 5) * (2 + 6 + 4)) mod 7].
Proof.
have [E3 hs] := said_case (mem_head 0%N [:: 1%N]).
split; first by split; [exact: E3|evaluates (Some 4%N)|evaluates (Some 5%N)|exact: hs].
split.
- by move=> l hl; split; [case: (honest_proofs hl)|case: (honest_products hl)].
- by move=> l hl; case: (honest_products hl).
- by split; [evaluates [:: 1; 3; 5]|evaluates [:: 2; 6; 4]].
- by split; [evaluates [seq Some (@S3EB curve7 nat_eqType d) | d <- [:: 2; 1; 0]]|evaluates [seq Some (@S3EB curve7 nat_eqType d) | d <- [:: 2; 1; 1]]].
- by split; vm_compute.
Qed.

Lemma pledge_case : pledges (m1S 0 1) 3 6 /\ pledges (m1S 0 1) 10 13.
Proof.
split; eexists; exists 4, 5; (split; first reflexivity); split; apply: eq7.
- by vm_compute.
- by vm_compute.
- by vm_compute.
- by vm_compute.
- by vm_compute.
- by vm_compute.
- by vm_compute.
- by vm_compute.
Qed.
