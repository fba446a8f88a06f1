(** * An honest signing session (property C50): what the parties hold and
    draw. *)
From Coq Require Import ZArith.
From Verif Require Import Base SignedModel PaillierModel ZkBase ZkModel ZkSpec.
From mathcomp Require Import all_ssreflect.
From Verif Require Import AlgBase ProtoBase ProtoSpec AuxGenModel SigningModel MtaSpec.
Set Implicit Arguments.
Unset Strict Implicit.
Unset Printing Implicit Defensive.
Local Open Scope Z_scope.

Section Spec.
Variables (S : sparams) (C : curve) (I : eqType) (le : rel I).

(** The parties with their key shares, Paillier keys and ring-Pedersen
    parameters. *)
Record parties := Parties {
  py_ids : seq I;
  py_secret : I -> Z;
  py_sk : I -> skey;
  py_N : I -> Z;
  py_rp : I -> rpparams }.
Record parties_ok (p : parties) : Prop := PartiesOk {
  pk_uniq : uniq (py_ids p);
  pk_sorted : sorted le (py_ids p);
  pk_secret : {in py_ids p, forall i, 0 <= py_secret p i < sp_q S};
  pk_key : {in py_ids p, forall i, key_of S (py_sk p i) (py_N p i)};
  pk_rp : {in py_ids p, forall i, setup_ok S (py_rp p i) /\ Z.odd (rp_n (py_rp p i)) = true} }.

(** What party [i] passes to the protocol: its own secrets and the public data of
    everybody. *)
Definition entry_of (p : parties) (message : seq Z) (i : I) : sg_entry C I :=
  SgEntry (ZShare i (py_secret p i) [seq (j, pmul C (py_secret p j) (gen C)) | j <- py_ids p])
          (AuxInfo i (py_sk p i) [seq (j, (py_N p j, py_rp p j)) | j <- py_ids p]) message.

(** All draws of all parties. *)
Record draws := Draws {
  dr_1 : I -> sg_rand1;
  dr_elg : I -> I -> enc_elg_rand * enc_elg_rand;  (* prover, verifier *)
  dr_2 : I -> sg_rand2 I;
  dr_3 : I -> Z * Z }.
Record draws_ok (p : parties) (d : draws) : Prop := DrawsOk {
  do_1 : {in py_ids p, forall i, round1_ok S (py_N p i) (dr_1 d i)};
  do_elg : {in py_ids p &, forall i j, i != j ->
    elg_rand_ok S (py_N p i) (rp_n (py_rp p j)) (dr_elg d i j).1 /\
    elg_rand_ok S (py_N p i) (rp_n (py_rp p j)) (dr_elg d i j).2};
  do_mta : {in py_ids p &, forall i j, i != j ->
    mta_rand_ok S (py_N p j) (py_N p i) (rp_n (py_rp p j)) (g2_mta (dr_2 d i) j) /\
    mta_rand_ok S (py_N p j) (py_N p i) (rp_n (py_rp p j)) (g2_hat (dr_2 d i) j)} }.

(** The joint secrets: each is the sum of the parties' values. *)
Definition sum_over (s : seq I) (f : I -> Z) : Z := foldr (fun i n => f i + n) 0 s.
Definition joint_key (p : parties) : Z := sum_over (py_ids p) (py_secret p).
Definition joint_k (p : parties) (d : draws) : Z := sum_over (py_ids p) (fun i => g1_k (dr_1 d i)).
Definition joint_gamma (p : parties) (d : draws) : Z := sum_over (py_ids p) (fun i => g1_gamma (dr_1 d i)).
End Spec.

(** An honest session: every party starts from its own entry, sends everybody
    its round 1 message, and handles the messages of all others, in any order,
    up to round 3.  [c], [e], [s2], [s3] are the parties' states, [m1 i j] is
    what [i] gets from [j] in round 1. *)
Section Session.
Variables (S : sparams) (C : curve) (I : eqType) (le : rel I) (HO : eqType).
Variables (H : dst -> seq (hitem HO I (pt C)) -> HO) (X : xof (seq (hitem HO I (pt C))) (pt C)) (scheme : seq (hitem HO I (pt C))).
Variables (p : parties I) (d : draws I) (randomness text : seq Z).
Record arrivals := Arrivals { ar_1 : I -> seq I; ar_2 : I -> seq I; ar_3 : I -> seq I; ar_4 : I -> seq I }.
Variable o : arrivals.
Definition arrivals_ok : Prop := {in py_ids p, forall i,
  [/\ perm_eq (ar_1 o i) (without (py_ids p) i), perm_eq (ar_2 o i) (without (py_ids p) i),
      perm_eq (ar_3 o i) (without (py_ids p) i) & perm_eq (ar_4 o i) (without (py_ids p) i)]}.
Record session (c : I -> sg_ctx C I HO) (e : I -> r1eb C) (m1 : I -> I -> message (sg_wire C I))
    (s2 : I -> sg_round2 C I HO) (s3 : I -> sg_round3 C I HO) : Prop := Session {
  se_start : {in py_ids p, forall i, sg_start S H scheme randomness i (entry_of C p text i) (dr_1 d i) = Ok (c i, e i)};
  se_send1 : {in py_ids p &, forall i j, i != j -> sg_send1 S X (c i) (e i) j (dr_elg d i j) = Accept (m1 j i)};
  se_until2 : {in py_ids p, forall i, sg_until2 S le X (c i) (e i) (dr_2 d i) (m1 i) (ar_1 o i) = Accept (s2 i)};
  se_until3 : {in py_ids p, forall i,
    sg_until3 S le X (c i) (e i) (dr_2 d i) (dr_3 d i) (m1 i) (fun j => sg_send2 (s2 j)) (ar_1 o i) (ar_2 o i) = Accept (s3 i)} }.
End Session.
