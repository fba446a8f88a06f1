(** * Evidence in the toy signing session: party 0 reports party 1, party 2 may
    cheat.  Definitions only. *)
From Coq Require Import ZArith.
From Verif Require Import Base EncodingModel SignedModel PaillierModel ZkBase ZkModel ElogModel ZkToy.
From mathcomp Require Import all_ssreflect.
From Verif Require Import AlgBase ProtoBase AuxGenModel SigningModel AuxGenToy SigningToy SigningShares SigningWitness SigningEvidenceSpec.
Set Implicit Arguments.
Unset Strict Implicit.
Unset Printing Implicit Defensive.
Local Open Scope Z_scope.

(** Party 1's messages as party 0 has them, and the echoes of the others. *)
Definition hist1S (n : nat) : msgS := match n with 1%N => m101 | 2%N => m21 | 3%N => m31 | _ => noneS end.
Definition echo_list (ids : seq nat) (f : nat -> option (sg_wire curve7 nat_eqType)) : seq (nat * sg_wire curve7 nat_eqType) :=
  pmap (fun j => ssrfun.omap (pair j) (f j)) ids.
Definition saw1S (j : nat) := if j == 0%N then Some (S1EB (e_of 0)) else m_echo (m1S 0 j).
Definition echos1_1 := Eval vm_compute in echo_list (othersS 1) saw1S.
Definition echos1_2 := Eval vm_compute in echo_list (othersS 1) (fun j => m_echo (sent2S j)).
Definition echos1_3 := Eval vm_compute in echo_list (othersS 1) (fun j => m_echo (sent3S j)).
Definition echos1S (n : nat) := match n with 1%N => echos1_1 | 2%N => echos1_2 | 3%N => echos1_3 | _ => [::] end.
Definition judgeS (positional : bool) (echos : nat -> seq (nat * sg_wire curve7 nat_eqType)) (m : msgS) (err : sg_error nat_eqType)
    : evid unit :=
  sg_evidence SA HS XS [::] xcoordS positional [:: 9; 9] (assoc_of (entryS 0)) 1%N err (assemble (sg_required err) m hist1S echos).

(** Tampered versions of party 1's message of round 2. *)
Definition alter2 (fe : r2eb curve7 nat_eqType -> r2eb curve7 nat_eqType) (fn : r2nb curve7 nat_eqType -> r2nb curve7 nat_eqType) : msgS :=
  if m21 is Msg d (Some (S2EB e)) (Some (S2NB n)) then Msg d (Some (S2EB (fe e))) (Some (S2NB (fn n))) else noneS.
Definition elog0S : elog_proof curve7 := if m20 is Msg _ _ (Some (S2NB n)) then n2_elog n else el_null.
Definition swap02 A (l : seq (nat * A)) : seq (nat * A) :=
  if l is [:: (i, x); (j, y)] then [:: (i, y); (j, x)] else l.
Definition bad_ds := Eval vm_compute in alter2 id (fun n => R2NB (behead (n2_ds n)) (n2_hat_ds n) (n2_elog n) (n2_psis n) (n2_hat_psis n)).
Definition bad_fs := Eval vm_compute in alter2 (fun e => R2EB (e2_gamma e) (behead (e2_fs e)) (e2_hat_fs e)) id.
Definition bad_psis := Eval vm_compute in alter2 id (fun n => R2NB (n2_ds n) (n2_hat_ds n) (n2_elog n) (behead (n2_psis n)) (n2_hat_psis n)).
Definition bad_aff := Eval vm_compute in alter2 id (fun n => R2NB (n2_ds n) (n2_hat_ds n) (n2_elog n) (swap02 (n2_psis n)) (n2_hat_psis n)).
Definition bad_elog := Eval vm_compute in alter2 id (fun n => R2NB (n2_ds n) (n2_hat_ds n) elog0S (n2_psis n) (n2_hat_psis n)).
(** Without the entry for party [j] in the second family of proofs. *)
Definition no_hat (j : nat) := alter2 id (fun n => R2NB (n2_ds n) (n2_hat_ds n) (n2_elog n) (n2_psis n)
  [seq p <- n2_hat_psis n | p.1 != j]).

(** Party 1 proves the statements of round 1 for its own ring-Pedersen
    parameters instead of those of the receiver. *)
Definition self_made := Eval vm_compute in
  if startedS 1 is Ok (c, e) then if sg_send1 SA XS c e 1%N (eeS 1 0, eeS 0 1) is Accept m then m else noneS else noneS.

(** Sessions that end in an error round because of party 2: a wrong scalar, resp.
    a wrong point in its message of round 3. *)
Definition m32d : msgS := Eval vm_compute in
  if m32 is Msg a (Some (S3EB d)) b then Msg a (Some (S3EB ((d + 1) mod 7))) b else noneS.
Definition m32s : msgS := Eval vm_compute in
  if m32 is Msg a b (Some (S3NB n)) then Msg a b (Some (S3NB (R3NB (n3_delta n) (n3_psi n) (pt7 (num7 (n3_s n) + 1))))) else noneS.
Definition sent3X (m : msgS) (j : nat) : msgS := if j == 2%N then m else sent3S j.
Definition until4X (m : msgS) (i : nat) : recvS (sg_next curve7 nat_eqType nat_eqType) :=
  sg_until4 SA leq XS xcoordS (c_of i) (e_of i) (rnd2S i) (rnd3S i) (m1S i) sent2S (sent3X m) (othersS i) (rev (othersS i)) (othersS i).
Definition s56_null : sg_round56 curve7 nat_eqType nat_eqType := SgRound56 sx_nullS (pt7 0) [::] [::] [::] [::] [::].
Definition st50 := Eval vm_compute in if until4X m32d 0 is Accept (ToRound5 s) then s else s56_null.
Definition st51 := Eval vm_compute in if until4X m32d 1 is Accept (ToRound5 s) then s else s56_null.
Definition st60 := Eval vm_compute in if until4X m32s 0 is Accept (ToRound6 s) then s else s56_null.
Definition st61 := Eval vm_compute in if until4X m32s 1 is Accept (ToRound6 s) then s else s56_null.
Definition decS : seq dec_rand := nseq 3 (DecRand (2 ^ 6 + 3) (2 ^ 18 + 5) 3).
Definition gsS (i : nat) : seq aff_gs_rand := nseq 3 (AffGStarRand (2 ^ 6 + 3) (2 ^ 16 + 1) 3 5).
Definition m51 : msgS := Eval vm_compute in if sg_send5 SA XS st51 decS gsS is Accept m then m else noneS.
Definition m61 : msgS := Eval vm_compute in if sg_send6 SA XS st61 decS gsS is Accept m then m else noneS.
Definition echosX (m : msgS) (n : nat) := match n with
  | 1%N => echos1_1 | 2%N => echos1_2 | 3%N => echo_list (othersS 1) (fun j => m_echo (sent3X m j)) | _ => [::] end.
Definition p1_01 := Eval vm_compute in if sg_recv1 SA XS (c_of 0) 1%N m101 is Accept p then Some p else None.
Definition p2_01 := Eval vm_compute in if sg_recv2 SA XS (s2_of 0) 1%N m21 is Accept p then Some p else None.
Definition p3_01 := Eval vm_compute in if sg_recv3 XS (s3_of 0) 1%N m31 is Accept p then Some p else None.
