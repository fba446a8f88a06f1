(** * A concrete signing session used beside the theorems: three parties,
    five-bit primes, a group of order 7, hashes that depend on their input.  Definitions
    only. *)
From Coq Require Import ZArith.
From Verif Require Import Base EncodingModel SignedModel PaillierModel ZkBase ZkModel ElogModel ZkToy.
From mathcomp Require Import all_ssreflect.
From Verif Require Import AlgBase ProtoBase AuxGenModel SigningModel AuxGenToy.
Set Implicit Arguments.
Unset Strict Implicit.
Unset Printing Implicit Defensive.
Local Open Scope Z_scope.

Notation itemS := (hitem nat nat (pt curve7)).
Definition num7 (p : pt curve7) : Z := proj1_sig p.
Definition pt7 (z : Z) : pt curve7 := zq_mk 7 z.
Fixpoint codeS (x : itemS) : nat :=
  match x with
  | HOut h => h
  | HId i => i.+1
  | HPt p => 11 + Z.to_nat (num7 p)
  | HBits b => foldl (fun n (c : bool) => n.*2 + c) 1 b
  | HNum z => Z.to_nat (z mod 97)
  | HBytes b => foldl (fun n z => (3 * n + Z.to_nat (z mod 97)) %% 97) 2 b
  | HSeq l => foldl (fun n y => (3 * n + codeS y) %% 97) 1 l
  end%N.
Definition HS (d : dst) (l : seq itemS) : nat := foldl (fun n y => (3 * n + codeS y) %% 97)%N 1%N l.
Fixpoint codeX (x : item (seq itemS) (pt curve7)) : nat :=
  match x with
  | IZ z => Z.to_nat (z mod 89)
  | IP p => 5 + Z.to_nat (num7 p)
  | IA a => HS DSid a
  | IL l => foldl (fun n y => (3 * n + codeX y) %% 89) 1 l
  end%N.
Definition codesX (l : seq (item (seq itemS) (pt curve7))) : nat := foldl (fun n y => (3 * n + codeX y) %% 89)%N 1%N l.
Definition XS : xof (seq itemS) (pt curve7) :=
  {| x_scalar := fun _ l => Z.of_nat (codesX l) mod 7;
     x_bits := fun _ l n => [seq odd (codesX l + i) | i <- iota 0 n]%N;
     x_uint := fun _ _ n => 0; x_residues := fun _ _ _ n => nseq n 1; x_is_prime := fun _ _ _ => false |}.

(** The toy x coordinate identifies a point with its negative. *)
Definition xcoordS (p : pt curve7) : Z := Z.min (num7 p) ((7 - num7 p) mod 7).
Definition lift_xS (id : nat) (r : Z) : option (pt curve7) :=
  if (0 <? r) && (r <=? 3) then
    match id with 0%N => Some (pt7 r) | 1%N => Some (pt7 (- r)) | _ => None end
  else None.

Definition idsS : seq nat := [:: 0; 1; 2]%N.
Definition othersS (i : nat) : seq nat := without idsS i.
Definition primesS (i : nat) : Z * Z := match i with 0%N => (19, 23) | 1%N => (11, 19) | _ => (31, 19) end.
Definition skS (i : nat) : skey := if skey_new (sp_pail SA) (primesS i).1 (primesS i).2 is Ret k then k else no_sk.
Definition sk0S : skey := Eval vm_compute in skS 0.
Definition sk1S : skey := Eval vm_compute in skS 1.
Definition sk2S : skey := Eval vm_compute in skS 2.
Definition sksS (i : nat) : skey := match i with 0%N => sk0S | 1%N => sk1S | _ => sk2S end.
Definition auxS : seq (nat * (Z * rpparams)) :=
  [seq (i, (sk_pk (sksS i), RP (match i with 0%N => 341 | 1%N => 713 | _ => 253 end) 4 16)) | i <- idsS]%N.
Definition secretS (i : nat) : Z := match i with 0%N => 3 | 1%N => 5 | _ => 3 end.
Definition shareS (i : nat) : zshare curve7 nat_eqType := ZShare i (secretS i) [seq (j, pt7 (secretS j)) | j <- idsS].
Definition entryS (i : nat) : sg_entry curve7 nat_eqType :=
  SgEntry (shareS i) (AuxInfo i (sksS i) auxS) [:: 77; 3; 130].
(** Scalars and masks: everything depends on the party. *)
Definition rnd1S (i : nat) : sg_rand1 :=
  let z := Z.of_nat i in SgRand1 (1 + 2 * z) (2 + 4 * z - 3 * z * (z - 1)) (8 + z) (5 - z) (z + 2) (3 + z) (6 - z).
Definition startS (i : nat) : result (sg_ctx curve7 nat_eqType nat_eqType * r1eb curve7) :=
  sg_start SA HS [::] [:: 9; 9] i (entryS i) (rnd1S i).
Notation msgS := (message (sg_wire curve7 nat_eqType)).
Notation recvS := (recv (sg_error nat_eqType)).
Definition noneS : msgS := Msg None None None.
(** Masks near the middle of their ranges. *)
Definition eeS (i j : nat) : enc_elg_rand :=
  let z := Z.of_nat i in let y := Z.of_nat j in
  EncElgRand (2 ^ 6 + z - 5 * y) (2 ^ 9 + z) (1 + z + y) (1 + y) (2 ^ 13 + y).
Definition agS (i j : nat) : aff_g_rand :=
  let z := Z.of_nat i in let y := Z.of_nat j in
  AffGRand (2 ^ 6 + 3 * z + y) (2 ^ 17 - 17 * z + y) (1 + z) (3 + y) (2 ^ 13 + z) (2 ^ 9 + y) (2 ^ 13 + z * y) (2 ^ 9).
Definition rnd2S (i : nat) : sg_rand2 nat_eqType :=
  let z := Z.of_nat i in
  SgRand2 (1 + z) (2 + z)
    (fun j => MtaRand (2 ^ 13 + 5 * z - 10 * Z.of_nat j) (2 + z) (3 + Z.of_nat j) (agS i j))
    (fun j => MtaRand (2 ^ 13 - 8 * z + 12 * Z.of_nat j) (4 + z) (5 + Z.of_nat j) (agS j i)).
Definition rnd3S (i : nat) : Z * Z := (Z.of_nat i + 2, 6 - Z.of_nat i).
Definition start0S := Eval vm_compute in startS 0.
Definition start1S := Eval vm_compute in startS 1.
Definition start2S := Eval vm_compute in startS 2.
Definition startedS (i : nat) := match i with 0%N => start0S | 1%N => start1S | _ => start2S end.
(** Round 1: what [from] sends to [to]. *)
Definition send1S (to from : nat) : msgS :=
  if startedS from is Ok (c, e) then
    if sg_send1 SA XS c e to (eeS from to, eeS to from) is Accept m then m else noneS
  else noneS.
Definition m101 := Eval vm_compute in send1S 0 1.
Definition m102 := Eval vm_compute in send1S 0 2.
Definition m110 := Eval vm_compute in send1S 1 0.
Definition m112 := Eval vm_compute in send1S 1 2.
Definition m120 := Eval vm_compute in send1S 2 0.
Definition m121 := Eval vm_compute in send1S 2 1.
Definition m1S (to from : nat) : msgS :=
  match to, from with
  | 0, 1 => m101 | 0, 2 => m102 | 1, 0 => m110 | 1, 2 => m112 | 2, 0 => m120 | 2, 1 => m121 | _, _ => noneS
  end%N.
Definition until2S (i : nat) : recvS (sg_round2 curve7 nat_eqType nat_eqType) :=
  if startedS i is Ok (c, e) then sg_until2 SA leq XS c e (rnd2S i) (m1S i) (othersS i) else RLocal.
Definition st20 := Eval vm_compute in until2S 0.
Definition st21 := Eval vm_compute in until2S 1.
Definition st22 := Eval vm_compute in until2S 2.
Definition m2S (from : nat) : msgS :=
  if match from with 0%N => st20 | 1%N => st21 | _ => st22 end is Accept s then sg_send2 s else noneS.
Definition m20 := Eval vm_compute in m2S 0.
Definition m21 := Eval vm_compute in m2S 1.
Definition m22 := Eval vm_compute in m2S 2.
Definition sent2S (from : nat) : msgS := match from with 0%N => m20 | 1%N => m21 | _ => m22 end.
Definition until3S (i : nat) : recvS (sg_round3 curve7 nat_eqType nat_eqType) :=
  if startedS i is Ok (c, e) then
    sg_until3 SA leq XS c e (rnd2S i) (rnd3S i) (m1S i) sent2S (othersS i) (rev (othersS i))
  else RLocal.
Definition st30 := Eval vm_compute in until3S 0.
Definition st31 := Eval vm_compute in until3S 1.
Definition st32 := Eval vm_compute in until3S 2.
Definition m3S (from : nat) : msgS :=
  if match from with 0%N => st30 | 1%N => st31 | _ => st32 end is Accept s then sg_send3 s else noneS.
Definition m30 := Eval vm_compute in m3S 0.
Definition m31 := Eval vm_compute in m3S 1.
Definition m32 := Eval vm_compute in m3S 2.
Definition sent3S (from : nat) : msgS := match from with 0%N => m30 | 1%N => m31 | _ => m32 end.
Definition until4S (i : nat) : recvS (sg_next curve7 nat_eqType nat_eqType) :=
  if startedS i is Ok (c, e) then
    sg_until4 SA leq XS xcoordS c e (rnd2S i) (rnd3S i) (m1S i) sent2S sent3S (othersS i) (rev (othersS i)) (othersS i)
  else RLocal.
Definition st40 := Eval vm_compute in until4S 0.
Definition st41 := Eval vm_compute in until4S 1.
Definition st42 := Eval vm_compute in until4S 2.
Definition m4S (from : nat) : msgS :=
  if match from with 0%N => st40 | 1%N => st41 | _ => st42 end is Accept (ToRound4 s) then sg_send4 s else noneS.
Definition m40 := Eval vm_compute in m4S 0.
Definition m41 := Eval vm_compute in m4S 1.
Definition m42 := Eval vm_compute in m4S 2.
Definition sent4S (from : nat) : msgS := match from with 0%N => m40 | 1%N => m41 | _ => m42 end.
Definition runS (i : nat) (m4 : nat -> msgS) : recvS signature :=
  if startedS i is Ok (c, e) then
    sg_run SA leq XS xcoordS lift_xS true c e (rnd2S i) (rnd3S i) (m1S i) sent2S sent3S m4
      (othersS i) (rev (othersS i)) (othersS i) (rev (othersS i))
  else RLocal.
