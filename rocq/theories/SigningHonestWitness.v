(** * A concrete honest signing session: three parties at the toy parameters. *)
From Coq Require Import ZArith Znumtheory Lia.
From Verif Require Import Base SignedModel PaillierModel ZkBase ZkModel ZkSpec ZkToy ZkTranscripts.
From mathcomp Require Import all_ssreflect.
From Verif Require Import AlgBase ProtoBase ProtoSpec AuxGenModel AuxGenToy SigningSpec SigningModel SigningToy SigningWitness
  EntryWitness MtaSpec SigningHonestSpec.
Set Implicit Arguments.
Unset Strict Implicit.
Unset Printing Implicit Defensive.
Local Open Scope Z_scope.

Lemma xof_okS : xof_ok 7 XS.
Proof.
split.
- by move=> t l; apply: Z.mod_pos_bound.
- by move=> t l n; rewrite /= -[length _]/(size _) size_map size_iota.
- by move=> t l n hn /=; split=> //; apply: Z.pow_pos_nonneg.
- move=> t l N n hN; rewrite /= -[length _]/(size _) size_nseq; split=> //.
  elim: n => [|n IH] /=; constructor=> //; split; last exact: Z.gcd_1_l.
  have h : 0 < bits N by rewrite /bits; case: Z.leb_spec; have := Z.log2_nonneg N; lia.
  by split=> //; apply/Z.pow_gt_1; lia.
Qed.

Definition skO : skey := if skey_new (sp_pail toy_S) toy_p0 toy_q0 is Ret k then k else no_sk.
Definition skI : skey := if skey_new (sp_pail toy_S) toy_p1 toy_q1 is Ret k then k else no_sk.
Definition partiesH : parties nat_eqType :=
  Parties idsS secretS (fun i => if i == 1%N then skI else skO) (fun i => if i == 1%N then toy_N1 else toy_N0)
    (fun i => if i == 1%N then RP toy_N0 9 81 else toy_rp).
Definition eeH (i j : nat) : enc_elg_rand :=
  EncElgRand (2 ^ 44 + 77 * Z.of_nat i) (2 ^ 130 + Z.of_nat j) 3 2 (2 ^ 150 + Z.of_nat i).
Definition mtH (i j : nat) : mta_rand :=
  MtaRand (2 ^ 86 + 99 * Z.of_nat i + Z.of_nat j) 7 11
    (AffGRand (2 ^ 44 + 2 ^ 40 + Z.of_nat i) (2 ^ 110 - 2 ^ 105 + Z.of_nat j) 3 2 123456789 1001 987654321 77).
Definition draws_with (r1 : nat -> sg_rand1) : draws nat_eqType :=
  Draws (I := nat_eqType) r1 (fun i j => (eeH i j, eeH j i)) (fun i => SgRand2 3 4 (fun j : nat_eqType => mtH i j) (fun j : nat_eqType => mtH j i)) (fun i => (5, 6)).
Definition drawsH : draws nat_eqType := draws_with rnd1S.
(** The last gamma changed so that they add up to a multiple of the order. *)
Definition drawsZ : draws nat_eqType := draws_with (fun i => if i == 2%N then SgRand1 5 6 10 3 4 5 4 else rnd1S i).
Definition arrivalsH : arrivals nat_eqType := Arrivals (I := nat_eqType) othersS (rev \o othersS) othersS (rev \o othersS).

Lemma in_idsS (P : nat -> Prop) : P 0%N -> P 1%N -> P 2%N -> {in idsS, forall i, P i}.
Proof. by move=> h0 h1 h2 i; rewrite !inE => /or3P [] /eqP ->. Qed.

Lemma skO_ok : key_of toy_S skO toy_N0.
Proof. exists toy_p0, toy_q0; split; [exact: toy_keygen0|split; vm_compute; reflexivity]. Qed.
Lemma skI_ok : key_of toy_S skI toy_N1.
Proof. exists toy_p1, toy_q1; split; [exact: toy_keygen1|split; vm_compute; reflexivity]. Qed.

Lemma partiesH_ok : parties_ok toy_S leq partiesH.
Proof.
split=> //.
- by apply: in_idsS; rewrite /=; split; vm_compute; congruence.
- by apply: in_idsS => /=; [exact: skO_ok|exact: skI_ok|exact: skO_ok].
- by apply: in_idsS => /=; (split; last by vm_compute); toy_case.
Qed.

Ltac draw := split; try (unfold safe_draw, unit_ok; toy_case).
Lemma eeH_ok i j (N n : Z) : i \in idsS -> j \in idsS -> (N = toy_N0 \/ N = toy_N1) -> (n = toy_N0 \/ n = toy_N1) ->
  elg_rand_ok toy_S N n (eeH i j).
Proof.
move=> hi hj hN hn; move: i hi; apply: in_idsS; move: j hj; apply: in_idsS; case: hN => ->; case: hn => ->; split; draw.
Qed.
Lemma mtH_ok i j (N0 N1 n : Z) : i \in idsS -> j \in idsS -> (N0 = toy_N0 \/ N0 = toy_N1) -> (N1 = toy_N0 \/ N1 = toy_N1) ->
  (n = toy_N0 \/ n = toy_N1) -> mta_rand_ok toy_S N0 N1 n (mtH i j).
Proof.
move=> hi hj h0 h1 hn; move: i hi; apply: in_idsS; move: j hj; apply: in_idsS; case: h0 => ->; case: h1 => ->; case: hn => ->;
  draw; draw.
Qed.
Lemma draws_with_ok r1 : {in idsS, forall i, round1_ok toy_S (py_N partiesH i) (r1 i)} -> draws_ok toy_S partiesH (draws_with r1).
Proof.
move=> h1.
have hN i : py_N partiesH i = toy_N0 \/ py_N partiesH i = toy_N1 by rewrite /=; case: eqP => _; [right|left].
have hn i : rp_n (py_rp partiesH i) = toy_N0 \/ rp_n (py_rp partiesH i) = toy_N1 by rewrite /=; case: eqP => _; [left|right].
split.
- exact: h1.
- by move=> i j hi hj _; split; apply: eeH_ok.
- by move=> i j hi hj _; split; apply: mtH_ok.
Qed.
Lemma drawsH_ok : draws_ok toy_S partiesH drawsH.
Proof. by apply: draws_with_ok; apply: in_idsS; draw. Qed.
Lemma drawsZ_ok : draws_ok toy_S partiesH drawsZ.
Proof. by apply: draws_with_ok; apply: in_idsS; draw. Qed.
Lemma arrivalsH_ok : arrivals_ok partiesH arrivalsH.
Proof. by move=> i hi /=; rewrite !perm_rev; split. Qed.
