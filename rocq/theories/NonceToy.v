(** * A second signing session used beside the theorems about the nonce: party
    0 of SigningToy.v draws another part of the nonce, everything its peers
    send it in round 1 is the same.  Definitions and evaluations only. *)
From Coq Require Import ZArith Znumtheory Lia.
From Verif Require Import Base EncodingModel SignedModel PaillierModel ZkBase ZkModel ElogModel ZkToy.
From mathcomp Require Import all_ssreflect.
From Verif Require Import AlgBase ProtoBase ProtoSpec AuxGenModel AuxGenToy KeyRefreshToy CommitSpec SigningModel SigningToy NonceSpec.
Set Implicit Arguments.
Unset Strict Implicit.
Unset Printing Implicit Defensive.
Local Open Scope Z_scope.

Definition rnd1N (i : nat) : sg_rand1 :=
  let r := rnd1S i in
  if i is 0%N then SgRand1 (g1_k r) 3 (g1_nu r) (g1_rho r) (g1_y r) (g1_a r) (g1_b r) else r.
Definition startN (i : nat) : result (sg_ctx curve7 nat_eqType nat_eqType * r1eb curve7) :=
  sg_start SA HS [::] [:: 9; 9] i (entryS i) (rnd1N i).
Definition start0N := Eval vm_compute in startN 0.
Definition startedN (i : nat) := if i is 0%N then start0N else startedS i.
Definition send1N (to from : nat) : msgS :=
  if startedN from is Ok (c, e) then
    if sg_send1 SA XS c e to (eeS from to, eeS to from) is Accept m then m else noneS
  else noneS.
Definition n110 := Eval vm_compute in send1N 1 0.
Definition n120 := Eval vm_compute in send1N 2 0.
Definition m1N (to from : nat) : msgS :=
  match to, from with 1, 0 => n110 | 2, 0 => n120 | _, _ => m1S to from end%N.
Definition until2N (i : nat) : recvS (sg_round2 curve7 nat_eqType nat_eqType) :=
  if startedN i is Ok (c, e) then sg_until2 SA leq XS c e (rnd2S i) (m1N i) (othersS i) else RLocal.
Definition su20 := Eval vm_compute in until2N 0.
Definition su21 := Eval vm_compute in until2N 1.
Definition su22 := Eval vm_compute in until2N 2.
Definition m2N (from : nat) : msgS :=
  if match from with 0%N => su20 | 1%N => su21 | _ => su22 end is Accept s then sg_send2 s else noneS.
Definition n20 := Eval vm_compute in m2N 0.
Definition n21 := Eval vm_compute in m2N 1.
Definition n22 := Eval vm_compute in m2N 2.
Definition sent2N (from : nat) : msgS := match from with 0%N => n20 | 1%N => n21 | _ => n22 end.
Definition until3N (i : nat) : recvS (sg_round3 curve7 nat_eqType nat_eqType) :=
  if startedN i is Ok (c, e) then
    sg_until3 SA leq XS c e (rnd2S i) (rnd3S i) (m1N i) sent2N (othersS i) (rev (othersS i))
  else RLocal.
Definition su30 := Eval vm_compute in until3N 0.
Definition su31 := Eval vm_compute in until3N 1.
Definition su32 := Eval vm_compute in until3N 2.
Definition m3N (from : nat) : msgS :=
  if match from with 0%N => su30 | 1%N => su31 | _ => su32 end is Accept s then sg_send3 s else noneS.
Definition n30 := Eval vm_compute in m3N 0.
Definition n31 := Eval vm_compute in m3N 1.
Definition n32 := Eval vm_compute in m3N 2.
Definition sent3N (from : nat) : msgS := match from with 0%N => n30 | 1%N => n31 | _ => n32 end.
Definition until4N (i : nat) : recvS (sg_next curve7 nat_eqType nat_eqType) :=
  if startedN i is Ok (c, e) then
    sg_until4 SA leq XS xcoordS c e (rnd2S i) (rnd3S i) (m1N i) sent2N sent3N (othersS i) (rev (othersS i)) (othersS i)
  else RLocal.
Definition su41 := Eval vm_compute in until4N 1.
Definition su42 := Eval vm_compute in until4N 2.
Definition m4N (from : nat) : msgS :=
  if match from with 1%N => su41 | _ => su42 end is Accept (ToRound4 s) then sg_send4 s else noneS.
Definition n41 := Eval vm_compute in m4N 1.
Definition n42 := Eval vm_compute in m4N 2.
Definition sent4N (from : nat) : msgS := match from with 1%N => n41 | _ => n42 end.
Definition runN (i : nat) : recvS signature :=
  if startedN i is Ok (c, e) then
    sg_run SA leq XS xcoordS lift_xS true c e (rnd2S i) (rnd3S i) (m1N i) sent2N sent3N sent4N
      (othersS i) (rev (othersS i)) (othersS i) (rev (othersS i))
  else RLocal.

Lemma eq7 (x y : pt curve7) : peqb curve7 x y = true -> x = y.
Proof. by move/(c_eqb _ _ (zq_curve_ok 7)). Qed.

(** Answers to challenge 1. *)
Ltac other_challenge z u :=
  do 3 eexists; split; [reflexivity|reflexivity|reflexivity|];
  exists 1; split; [by vm_compute|by vm_compute|]; exists z, u; split; apply: eq7; by vm_compute.

Lemma honest_proofs : {in othersS 0, forall l,
  not_a_guess 7 (m1S 0 l) (sent2S l) /\ not_a_guess 7 (m1N 0 l) (sent2N l)}.
Proof.
move=> l; rewrite !inE => /orP [] /eqP ->; split.
- other_challenge (2 + 5) (3 + 6).
- other_challenge (2 + 5) (3 + 6).
- other_challenge (3 + 4) (4 + 4).
- other_challenge (3 + 4) (4 + 4).
Qed.

Lemma nonce_case :
  [/\ runS 0 sent4S = Accept (Signature 2 2 1), runN 0 = Accept (Signature 1 1 1),
      g1_gamma (rnd1S 0) = 2 & g1_gamma (rnd1N 0) = 3] /\
  [/\ gen curve7 <> p0 curve7, same_echoes idsS 0%N (m1S 0) (m1N 0),
      {in othersS 0, forall l, not_a_guess 7 (m1S 0 l) (sent2S l) /\ not_a_guess 7 (m1N 0 l) (sent2N l)},
      xcoordS (padd curve7 (pt7 3) (pmul curve7 2 (gen curve7))) = 2 &
      xcoordS (padd curve7 (pt7 3) (pmul curve7 3 (gen curve7))) = 1].
Proof.
split; first by split; [evaluates (@Accept (sg_error nat_eqType) _ (Signature 2 2 1))|evaluates (@Accept (sg_error nat_eqType) _ (Signature 1 1 1))|by []|by []].
split; [| |exact: honest_proofs|by vm_compute|by vm_compute].
- by move=> E; have := f_equal num7 E; vm_compute.
- by move=> l; rewrite !inE => /orP [] /eqP ->.
Qed.
