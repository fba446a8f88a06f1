(** * The toy signing session meets the hypotheses of the theorems. *)
From Coq Require Import ZArith Znumtheory Lia.
From Verif Require Import Base EncodingModel SignedModel PaillierModel ZkBase ZkModel ElogModel ZkToy.
From mathcomp Require Import all_ssreflect.
From Verif Require Import AlgBase ProtoBase ProtoSpec AuxGenModel AuxGenToy SigningModel SigningSpec SigningAlgebra SigningProofs
  SigningShares SigningToy KeyRefreshToy.
Set Implicit Arguments.
Unset Strict Implicit.
Unset Printing Implicit Defensive.
Local Open Scope Z_scope.

Lemma cases7 (p : pt curve7) : [\/ num7 p = 0, num7 p = 1, num7 p = 2 | num7 p = 3] \/ [\/ num7 p = 4, num7 p = 5 | num7 p = 6].
Proof.
have := Z.mod_pos_bound (num7 p) 7; rewrite (proj2_sig p) -/(num7 p) => h.
have {}h : 0 <= num7 p < 7 by lia.
have [?|?] := Z.eq_dec (num7 p) 0; first by left; constructor 1.
have [?|?] := Z.eq_dec (num7 p) 1; first by left; constructor 2.
have [?|?] := Z.eq_dec (num7 p) 2; first by left; constructor 3.
have [?|?] := Z.eq_dec (num7 p) 3; first by left; constructor 4.
have [?|?] := Z.eq_dec (num7 p) 4; first by right; constructor 1.
have [?|?] := Z.eq_dec (num7 p) 5; first by right; constructor 2.
by right; constructor 3; lia.
Qed.

Lemma eq7 (p r : pt curve7) : num7 p = num7 r -> p = r.
Proof. exact: zq_eq. Qed.

Lemma num_opp7 (p : pt curve7) : num7 (popp curve7 p) = (- num7 p) mod 7.
Proof. by []. Qed.

Lemma xcoord_okS : xcoord_ok 7 xcoordS.
Proof.
split.
- by move=> p; rewrite /xcoordS; case: (cases7 p) => -[] ->.
- by move=> p; rewrite /xcoordS num_opp7; case: (cases7 p) => -[] ->.
- by [].
Qed.

Lemma lift_okS : lift_ok xcoordS lift_xS.
Proof.
split.
- move=> id r p; rewrite /lift_xS; case: ifP => // /andP [/Z.ltb_lt h1 /Z.leb_le h2].
  have E : [\/ r = 1, r = 2 | r = 3].
    have [?|?] := Z.eq_dec r 1; first by constructor 1.
    by have [?|?] := Z.eq_dec r 2; [constructor 2|constructor 3; lia].
  by case: E => ->; case: id => [|[|id]] // -[<-]; vm_compute.
- move=> p hp; have : num7 p <> 0 by move=> E; apply: hp; apply: eq7.
  rewrite /xcoordS => h0; case: (cases7 p) => -[] E; rewrite E; first by case: h0.
  1,2,3: by exists 0%N; split=> //; congr Some; apply: eq7; rewrite E.
  all: by exists 1%N; split=> //; congr Some; apply: eq7; rewrite E.
Qed.

Lemma prime7 : Znumtheory.prime 7.
Proof. by apply: (@trial_prime 3); vm_compute. Qed.

Lemma toy_backend :
  [/\ curve_ok (sp_q SA) curve7, Znumtheory.prime (sp_q SA), Z.odd (sp_q SA) = true, xcoord_ok (sp_q SA) xcoordS & lift_ok xcoordS lift_xS].
Proof. split; [exact: zq_curve_ok|exact: prime7|by []|exact: xcoord_okS|exact: lift_okS]. Qed.

Definition sx_nullS : sg_ctx curve7 nat_eqType nat_eqType :=
  SgCtx 0 0%N 0%N [::] [::] (ZShare 0%N 0 [::]) no_sk [::] 0 0 0 0 0 0.
Definition eb_nullS : r1eb curve7 := R1EB 0 0 (pt7 0) (pt7 0) (pt7 0) (pt7 0) (pt7 0).
Definition c_of (i : nat) := if startedS i is Ok (c, _) then c else sx_nullS.
Definition e_of (i : nat) := if startedS i is Ok (_, e) then e else eb_nullS.
Definition s4_null : sg_round4 curve7 nat_eqType nat_eqType := SgRound4 sx_nullS (pt7 0) [::] [::] 0.
Definition s4_of (i : nat) := if match i with 0%N => st40 | 1%N => st41 | _ => st42 end is Accept (ToRound4 s) then s else s4_null.
Definition el_null : elog_proof curve7 := ElogProof 0 (pt7 0) (pt7 0) (pt7 0) 0 0.
Definition s3_null : sg_round3 curve7 nat_eqType nat_eqType :=
  SgRound3 sx_nullS (Ct 0 0) (pt7 0) 0 [::] [::] [::] [::] 0 (R3NB (pt7 0) el_null (pt7 0)) [::] [::].
Definition s3_of (i : nat) := if match i with 0%N => st30 | 1%N => st31 | _ => st32 end is Accept s then s else s3_null.
Definition s2_null : sg_round2 curve7 nat_eqType nat_eqType := SgRound2 sx_nullS [::] [::] [::] (Ct 0 0) (pt7 0) el_null.
Definition s2_of (i : nat) := if match i with 0%N => st20 | 1%N => st21 | _ => st22 end is Accept s then s else s2_null.
Definition seenS (i : nat) : seen curve7 nat_eqType nat_eqType :=
  Seen (c_of i) (e_of i) (rnd2S i) (rnd3S i) (m1S i) sent2S sent3S (othersS i) (rev (othersS i)) (othersS i)
    (s2_of i) (s3_of i) (s4_of i).

Lemma seen_reached i : i \in [:: 0; 1]%N -> reached4 SA leq XS xcoordS (seenS i).
Proof.
rewrite !inE => /orP [] /eqP ->.
- split; [by split; vm_compute|by vm_compute|by vm_compute|evaluates st20|evaluates st30|evaluates st40].
- split; [by split; vm_compute|by vm_compute|by vm_compute|evaluates st21|evaluates st31|evaluates st41].
Qed.

Lemma seen_pair :
  [/\ reached4 SA leq XS xcoordS (seenS 0), reached4 SA leq XS xcoordS (seenS 1), same_session (seenS 0) (seenS 1),
      s4_gamma (v_s4 (seenS 0)) <> p0 curve7 & s4_sigma (v_s4 (seenS 1)) = 3].
Proof.
split; [exact: seen_reached|exact: seen_reached| | |by []].
- split; try by [].
  + by move=> k; rewrite !inE => /or3P [] /eqP ->; [evaluates (m_echo m20)|evaluates (m_echo m21)|evaluates (m_echo m22)].
  + by move=> k; rewrite !inE => /or3P [] /eqP ->; [evaluates (m_echo m30)|evaluates (m_echo m31)|evaluates (m_echo m32)].
- by move/(congr1 num7).
Qed.
