(** * A concrete AuxGen run used beside the theorems: three parties, five-bit
    primes, a hash that depends on its whole input.  Definitions only. *)
From Coq Require Import ZArith.
From Verif Require Import Base EncodingModel SignedModel PaillierModel ZkBase ZkModel ZkToy.
From mathcomp Require Import all_ssreflect.
From Verif Require Import AlgBase ProtoBase AuxGenModel AuxGenSpec.
Set Implicit Arguments.
Unset Strict Implicit.
Unset Printing Implicit Defensive.
Local Open Scope Z_scope.

Notation curve7 := (zq_curve 7).
Notation itemA := (hitem nat nat (pt curve7)).
Fixpoint codeA (x : itemA) : nat :=
  match x with
  | HOut h => h
  | HId i => i.+1
  | HPt P => 5
  | HBits b => foldl (fun n (c : bool) => n.*2 + c) 1 b
  | HNum z => Z.to_nat (z mod 97)
  | HBytes b => size b
  | HSeq l => foldl (fun n y => (3 * n + codeA y) %% 97) 1 l
  end%N.
Definition HA (d : dst) (l : seq itemA) : nat := foldl (fun n y => (3 * n + codeA y) %% 97)%N 1%N l.
Definition XA : xof (seq itemA) (pt curve7) := const_xof 1 true 12.

Definition SA : sparams := SParams (PParams 5 10 32 64 128) 192 7 3 1 1 2 2 3 3 14 4.
Definition idsA : seq nat := [:: 0; 1; 2]%N.
(** Per party: Paillier primes, ring-Pedersen primes, [lambda], [t] (a square). *)
Definition randA (i : nat) : ag_rand :=
  match i with
  | 0%N => AgRand 19 23 11 31 7 4 [:: 7; 100] [:: true; false] [:: true]
  | 1%N => AgRand 11 19 23 31 9 25 [:: 3; 17] [:: true; true] [:: false]
  | _ => AgRand 31 19 11 23 3 36 [:: 30; 2] [:: false; false] [:: true]
  end.
Definition no_sk : skey := SKey (Primes 0 0 0) 0 (mkU 0 0) 0 0 0.
Definition startA (i : nat) : ag_ctx nat_eqType nat_eqType * ag_public :=
  if ag_start SA HA XA [::] idsA [::] i (randA i) is Ok cd then cd
  else (AgCtx no_sk (RP 0 0 0) 0%N [::] 0%N, AgPublic 0 (RP 0 0 0) (PrmProof [::] [::] [::]) [::] [::]).
Definition m1A (j : nat) := ag_send1 HA (startA j).1 (startA j).2.
Definition m2A (j : nat) := ag_send2 nat_eqType (startA j).2.
(** The non-square used by party [i]'s modulus proof. *)
Definition comA (i : nat) : Z := nonsquare_residue (ax_sk (startA i).1) 4 true.
Definition stateA (i : nat) : recv (ag_error nat_eqType) (ag_round3 nat_eqType nat_eqType) :=
  ag_until3 SA leq HA XA (startA i).1 (startA i).2 (comA i) m1A m2A (without idsA i) (rev (without idsA i)).
Definition stA (i : nat) : ag_round3 nat_eqType nat_eqType :=
  if stateA i is Accept s then s else AgRound3 (startA i).1 [::] [::] (ModProof 0 [::] [::]).
(** Masks: the middle of every range except for a few small values. *)
Definition facA (N0 hatN : Z) : fac_rand :=
  FacRand (2 ^ 6 * 8 + 2) (2 ^ 6 * 8 - 1) (2 ^ 2 * hatN - 1) (2 ^ 2 * hatN) (2 ^ 6 * (N0 * hatN) - 1) (2 ^ 6 * hatN - 1)
    (2 ^ 6 * hatN + 1).
Definition m3A (to from : nat) : message (ag_wire nat_eqType) :=
  let s := stA from in
  let hatN := rp_n (ax_rp (startA to).1) in
  if ag_send3 SA XA s (facA (sk_pk (ax_sk (a3_ctx s))) hatN) to is Accept m then m else Msg None None None.
Definition runA (i : nat) : recv (ag_error nat_eqType) (aux_info nat_eqType) :=
  ag_run SA leq HA XA (startA i).1 (startA i).2 (comA i) m1A m2A (m3A i) (without idsA i) (rev (without idsA i)) (without idsA i).

(** The same run evaluated: what the parties send to party 1, and party 1's own
    state. *)
Definition start1 := Eval vm_compute in startA 1.
Definition state0 := Eval vm_compute in stA 0.
Definition state1 := Eval vm_compute in stA 1.
Definition sent1_0 := Eval vm_compute in m1A 0.
Definition sent1_2 := Eval vm_compute in m1A 2.
Definition sent2_0 := Eval vm_compute in m2A 0.
Definition sent2_2 := Eval vm_compute in m2A 2.
Definition sent3_0 := Eval vm_compute in m3A 1 0.
Definition sent3_2 := Eval vm_compute in m3A 1 2.
Definition com1 := Eval vm_compute in comA 1.
Definition in1 (j : nat) := if j == 0%N then sent1_0 else sent1_2.
Definition in2 (j : nat) := if j == 0%N then sent2_0 else sent2_2.
Definition in3 (j : nat) := if j == 0%N then sent3_0 else sent3_2.
(** Everything party 0 sent, and the round 2 echoes of the other two. *)
Definition hist0 (r : nat) := match r with 1 => sent1_0 | 2 => sent2_0 | _ => sent3_0 end%N.
Definition echos0 (r : nat) : seq (nat * ag_wire nat_eqType) :=
  if r == 2%N then pmap (fun p : nat * option (ag_wire nat_eqType) => omap (pair p.1) p.2)
    [:: (1%N, m_echo (ag_send2 nat_eqType start1.2)); (2%N, m_echo sent2_2)] else [::].
