(** * A concrete KeyRefresh run used beside the theorems: three parties, the field
    with seven elements, five-bit primes, hashes that depend on their whole
    input.  Definitions only. *)
From Coq Require Import ZArith.
From Verif Require Import Base EncodingModel SignedModel PaillierModel ZkBase ZkModel ZkToy.
From mathcomp Require Import all_ssreflect all_algebra.
From Verif Require Import AlgBase ThresholdModel SchModel ProtoBase AuxGenModel AuxGenSpec AuxGenToy KeyRefreshModel PropsShare.
Set Implicit Arguments.
Unset Strict Implicit.
Unset Printing Implicit Defensive.
Import GRing.Theory.
Local Open Scope ring_scope.

Notation itemR := (hitem nat nat V7).
Fixpoint codeR (x : itemR) : nat :=
  match x with
  | HOut h => h
  | HId i => i.+1
  | HPt P => val P + 11
  | HBits b => foldl (fun n (c : bool) => n.*2 + c) 1 b
  | HNum z => Z.to_nat (Z.modulo z 97)
  | HBytes b => size b
  | HSeq l => foldl (fun n y => (3 * n + codeR y) %% 97) 1 l
  end%N.
Definition HR (d : dst) (l : seq itemR) : nat := foldl (fun n y => (3 * n + codeR y) %% 97)%N 1%N l.
Definition HsR (d : dst) (l : seq itemR) : F7 := (HR d l)%:R.
Definition XR : xof (seq itemR) V7 := const_xof 1 true 12.

(** One scalar per pair of parties. *)
Definition yR (i j : nat) : F7 := (3 * i + j + 1)%:R.
Definition tauR (i j : nat) : F7 := (2 * i + 5 * j + 3)%:R.
Definition splitR (i k : nat) : F7 := (i + 2 * k + 1)%:R.
Definition startR (i : nat) : kr_ctx F7 nat_eqType nat_eqType * kr_public V7 nat_eqType :=
  if kr_start SA g7 HR XR [::] idsA [::] i (randA i) (yR i) (tauR i) (splitR i) is Ok cd then cd
  else (KrCtx no_sk (RP 0 0 0) [::] [::] [::] 0%N [::] [::] 0%N,
        KrPublic [::] [::] [::] 0 (RP 0 0 0) (PrmProof [::] [::] [::]) [::] [::]).
Definition m1R (j : nat) := kr_send1 g7 HR (startR j).1 (startR j).2.
Definition m2R (j : nat) := kr_send2 nat_eqType (startR j).2.
Definition comR (i : nat) : Z := nonsquare_residue (kx_sk (startR i).1) 4 true.
Definition stateR (i : nat) :=
  kr_until3 SA g7 leq HR XR (startR i).1 (startR i).2 (comR i) m1R m2R (without idsA i) (rev (without idsA i)).
Definition stR (i : nat) : kr_round3 V7 nat_eqType nat_eqType :=
  if stateR i is Accept s then s else KrRound3 (startR i).1 [::] [::] (ModProof 0 [::] [::]) [::].
Definition m3R (to from : nat) : message (kr_wire V7 nat_eqType nat_eqType) :=
  let s := stR from in
  let hatN := rp_n (kx_rp (startR to).1) in
  if kr_send3 SA g7 XR HsR s (facA (sk_pk (kx_sk (k3_ctx s))) hatN) to is Accept m then m else Msg None None None.
Definition runR (i : nat) :=
  kr_run SA g7 leq HR XR HsR (startR i).1 (startR i).2 (comR i) m1R m2R (m3R i) (without idsA i) (rev (without idsA i)) (without idsA i).
Definition isacc {E T} (r : recv E T) : bool := if r is Accept _ then true else false.

(** The same run evaluated: what the parties send to party 1, and the state of
    parties 0 and 1. *)
Definition r_start0 := Eval vm_compute in startR 0.
Definition r_start1 := Eval vm_compute in startR 1.
Definition r_com0 := Eval vm_compute in comR 0.
Definition r_com1 := Eval vm_compute in comR 1.
Definition r_state0 := Eval vm_compute in stR 0.
Definition r_state1 := Eval vm_compute in stR 1.
Definition r_sent1_0 := Eval vm_compute in m1R 0.
Definition r_sent1_2 := Eval vm_compute in m1R 2.
Definition r_sent2_0 := Eval vm_compute in m2R 0.
Definition r_sent2_2 := Eval vm_compute in m2R 2.
Definition r_sent3_0 := Eval vm_compute in m3R 1 0.
Definition r_sent3_2 := Eval vm_compute in m3R 1 2.
Definition r_in1 (j : nat) := if j == 0%N then r_sent1_0 else r_sent1_2.
Definition r_in2 (j : nat) := if j == 0%N then r_sent2_0 else r_sent2_2.
Definition r_in3 (j : nat) := if j == 0%N then r_sent3_0 else r_sent3_2.
(** Everything party 0 sent, and the round 2 echoes of the other two. *)
Definition r_hist0 (r : nat) := match r with 1 => r_sent1_0 | 2 => r_sent2_0 | _ => r_sent3_0 end%N.
Definition r_echos0 (r : nat) : seq (nat * kr_wire V7 nat_eqType nat_eqType) :=
  if r == 2%N then pmap (fun p : nat * option (kr_wire V7 nat_eqType nat_eqType) => omap (pair p.1) p.2)
    [:: (1%N, m_echo (kr_send2 nat_eqType r_start1.2)); (2%N, m_echo r_sent2_2)] else [::].
(** All parties' messages of rounds 1 and 2. *)
Definition r_all1 (j : nat) := if j == 1%N then kr_send1 g7 HR r_start1.1 r_start1.2 else r_in1 j.
Definition r_all2 (j : nat) := if j == 1%N then kr_send2 nat_eqType r_start1.2 else r_in2 j.
(** The share change party 1 obtains from party 0. *)
Definition r_got0 : F7 := Eval vm_compute in if kr_recv3 SA g7 leq XR HsR r_state1 0%N r_sent3_0 is Accept x then x else 0.

(** Equalities decided by evaluating the left-hand side; [x] is the result. *)
Ltac evaluates x := match goal with |- ?G => exact (erefl x <: G) end.
