(** * The toy signing session after round 3. *)
From Coq Require Import ZArith.
From Verif Require Import Base ZkBase ZkToy.
From mathcomp Require Import all_ssreflect.
From Verif Require Import AlgBase ProtoBase SigningModel SigningSpec AuxGenToy KeyRefreshToy SigningToy SigningWitness SigningBranchSpec.
Set Implicit Arguments.
Unset Strict Implicit.
Unset Printing Implicit Defensive.
Local Open Scope Z_scope.

(** Where party [i] goes with the round 3 messages [m3]. *)
Definition nextS (m3 : nat -> msgS) (i : nat) : option nat :=
  if startedS i is Ok (c, e) then
    if sg_until4 SA leq XS xcoordS c e (rnd2S i) (rnd3S i) (m1S i) sent2S m3 (othersS i) (rev (othersS i)) (othersS i) is Accept n
    then Some (round_of n) else None
  else None.
(** Party 2 sends another S, another delta. *)
Definition other_s (j : nat) : msgS := if j == 2%N then with_s (pt7 1) (sent3S j) else sent3S j.
Definition other_delta (j : nat) : msgS :=
  if j == 2%N then Msg None (if m_echo (sent3S j) is Some (S3EB x) then Some (S3EB (x + 1)) else None) (m_normal (sent3S j)) else sent3S j.

Lemma branches : [seq (nextS sent3S i, nextS other_s i, nextS other_delta i) | i <- [:: 0; 1]%N]
  = [:: (Some 4%N, Some 6%N, Some 5%N); (Some 4%N, Some 6%N, Some 5%N)].
Proof. by vm_compute. Qed.
Lemma said_case i : i \in [:: 0; 1]%N -> until3S i = Accept (s3_of i) /\ said idsS i (sg_send3 (s3_of i)) sent3S sent3S.
Proof.
rewrite !inE => /orP [] /eqP ->; split; [evaluates st30| |evaluates st31|].
- by move=> l; rewrite !inE => /or3P [] /eqP ->; [evaluates m30| |].
- by move=> l; rewrite !inE => /or3P [] /eqP ->; [|evaluates m31|].
Qed.
