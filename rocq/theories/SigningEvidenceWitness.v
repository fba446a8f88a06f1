(** * The toy session meets the hypotheses of the properties about evidence. *)
From Coq Require Import ZArith Lia.
From Verif Require Import Base EncodingModel SignedModel PaillierModel ZkBase ZkModel ElogModel ZkToy.
From mathcomp Require Import all_ssreflect.
From Verif Require Import AlgBase ProtoBase ProtoSpec AuxGenModel AuxGenToy SigningModel SigningSpec SigningProofs
  SigningShares SigningToy KeyRefreshToy SigningWitness SigningEvidenceSpec SigningEvidenceToy.
Set Implicit Arguments.
Unset Strict Implicit.
Unset Printing Implicit Defensive.
Local Open Scope Z_scope.

Lemma entry_okS : entry_ok 0%N (entryS 0).
Proof. by split; [vm_compute|vm_compute|exists (RP 341 4 16); vm_compute]. Qed.

Lemma start_okS : sg_start SA HS [::] [:: 9; 9] 0%N (entryS 0) (rnd1S 0) = Ok (c_of 0, e_of 0).
Proof. evaluates start0S. Qed.

Lemma until2_okS : sg_until2 SA leq XS (c_of 0) (e_of 0) (rnd2S 0) (m1S 0) (othersS 0) = Accept (s2_of 0).
Proof. evaluates st20. Qed.

Lemma echoes1_okS : echoes_as idsS 1%N (fun j => if j == 0%N then Some (S1EB (e_of 0)) else m_echo (m1S 0 j)) (echos1S 1).
Proof. by split=> // j; rewrite !inE => /orP [] /eqP ->; [evaluates (saw1S 0)|evaluates (saw1S 2)]. Qed.
Lemma echoes2_okS : echoes_as idsS 1%N (echo2 (seenS 0)) (echos1S 2).
Proof. by split=> // j; rewrite !inE => /orP [] /eqP ->; [evaluates (m_echo m20)|evaluates (m_echo m22)]. Qed.
Lemma echoes3_okS : echoes_as idsS 1%N (echo3 (seenS 0)) (echos1S 3).
Proof. by split=> // j; rewrite !inE => /orP [] /eqP ->; [evaluates (m_echo m30)|evaluates (m_echo m32)]. Qed.

Definition verdict2 (m : msgS) : option (reject (sg_error nat_eqType)) :=
  if sg_recv2 SA XS (s2_of 0) 1%N m is Reject e then Some e else None.
Lemma verdict2_reject m e : verdict2 m = Some e -> sg_recv2 SA XS (s2_of 0) 1%N m = Reject e.
Proof. by rewrite /verdict2; case: sg_recv2 => // ? [->]. Qed.

Definition accepted2 (m : msgS) : bool := if sg_recv2 SA XS (s2_of 0) 1%N m is Accept _ then true else false.
Lemma accepted2_ok m : accepted2 m -> exists p, sg_recv2 SA XS (s2_of 0) 1%N m = Accept p.
Proof. by rewrite /accepted2; case: sg_recv2 => // p _; exists p. Qed.

Lemma entry_ok1 : entry_ok 1%N (entryS 1).
Proof. by split; [vm_compute|vm_compute|exists (RP 713 4 16); vm_compute]. Qed.
Lemma follows1 : follows SA leq HS XS [::] [:: 9; 9] 1%N 0%N (entryS 1) (rnd1S 1) (c_of 1) (e_of 1) (rnd2S 1) (rnd3S 1) (m1S 1) sent2S
  (othersS 1) (rev (othersS 1)) hist1S (s3_of 1).
Proof.
refine (And5 entry_ok1 _ _ _ _).
- evaluates start1S.
- exists (eeS 1 0, eeS 0 1); evaluates (sg_send1 SA XS (c_of 1) (e_of 1) 0%N (eeS 1 0, eeS 0 1)).
- exists (s2_of 1); [evaluates st21|evaluates m21].
- by refine (conj _ _); [evaluates st31|evaluates m31].
Qed.

Lemma framed_session :
  exists (S : sparams) (C : curve) (I HO : eqType) (le : rel I) (H : dst -> seq (hitem HO I (pt C)) -> HO)
    (X : xof (seq (hitem HO I (pt C))) (pt C)) scheme xcoord randomness (me guilty : I) (e : sg_entry C I) r1 c eb m1 p1 s2 p2 s3 p3 hist echos,
  [/\ entry_ok me e, sg_start S H scheme randomness me e r1 = Ok (c, eb) & guilty != me] /\
  (exists e' r1' c' eb' r2' r3' m1' m2' o1' o2' s3',
     [/\ follows S le H X scheme randomness guilty me e' r1' c' eb' r2' r3' m1' m2' o1' o2' hist s3' & assoc_of e' = assoc_of e]) /\
  [/\ sg_recv1 S X c guilty (hist 1%N) = Accept p1, hist 1%N = m1 guilty,
      sg_recv2 S X s2 guilty (hist 2%N) = Accept p2 & sg_recv3 X s3 guilty (hist 3%N) = Accept p3] /\
  (exists r2 r3 m2 o1 o2, sg_until2 S le X c eb r2 m1 o1 = Accept s2 /\ sg_until3 S le X c eb r2 r3 m1 m2 o1 o2 = Accept s3) /\
  let judge n err := sg_evidence S H X scheme xcoord true randomness (assoc_of e) guilty err
    (assemble (@sg_required I err) (hist n) hist echos) in
  [/\ judge 1%N R1EncElg0Failed = EvOk tt, judge 1%N R1EncElg1Failed = EvOk tt,
      judge 2%N (R2AffGHatPsiFailed me) = EvOk tt & judge 3%N R3ElogFailed = EvOk tt].
Proof.
case E1: p1_01 => [p1|]; last by discriminate E1. case E2: p2_01 => [p2|]; last by discriminate E2.
case E3: p3_01 => [p3|]; last by discriminate E3.
case: E1 => E1; case: E2 => E2; case: E3 => E3.
exists SA, curve7, nat_eqType, nat_eqType, leq, HS, XS, [::], xcoordS, [:: 9; 9], 0%N, 1%N, (entryS 0), (rnd1S 0), (c_of 0), (e_of 0),
  (m1S 0), p1, (s2_of 0), p2, (s3_of 0), p3, hist1S, echos1S.
refine (conj (And3 entry_okS start_okS isT) (conj _ (conj (And4 _ (erefl _) _ _) (conj _ _)))).
- exists (entryS 1), (rnd1S 1), (c_of 1), (e_of 1), (rnd2S 1), (rnd3S 1), (m1S 1), sent2S, (othersS 1), (rev (othersS 1)), (s3_of 1).
  exact (conj follows1 (erefl _)).
- rewrite -E1; evaluates (sg_recv1 SA XS (c_of 0) 1%N m101).
- rewrite -E2; evaluates (sg_recv2 SA XS (s2_of 0) 1%N m21).
- rewrite -E3; evaluates (sg_recv3 XS (s3_of 0) 1%N m31).
- exists (rnd2S 0), (rnd3S 0), sent2S, (othersS 0), (rev (othersS 0)); split; [exact: until2_okS|evaluates st30].
- by split; vm_compute.
Qed.

Lemma framed_errors :
  exists (S : sparams) (C : curve) (I HO : eqType) (le : rel I) (H : dst -> seq (hitem HO I (pt C)) -> HO)
    (X : xof (seq (hitem HO I (pt C))) (pt C)) scheme xcoord randomness (me guilty : I) (e : sg_entry C I) r1 c eb s5 s6 m5 m6 hist echos5 echos6,
  [/\ entry_ok me e, sg_start S H scheme randomness me e r1 = Ok (c, eb) & guilty != me] /\
  (exists r2 r3 m1 m2 m3 m3' o1 o2 o3,
     sg_until4 S le X xcoord c eb r2 r3 m1 m2 m3 o1 o2 o3 = Accept (ToRound5 s5) /\
     sg_until4 S le X xcoord c eb r2 r3 m1 m2 m3' o1 o2 o3 = Accept (ToRound6 s6)) /\
  (exists e' r1' c' eb' r2' r3' m1' m2' m3' m3'' o1' o2' o3' s3' s5' s6' rnd rnds,
     [/\ follows S le H X scheme randomness guilty me e' r1' c' eb' r2' r3' m1' m2' o1' o2' hist s3' /\ assoc_of e' = assoc_of e,
         sg_until4 S le X xcoord c' eb' r2' r3' m1' m2' m3' o1' o2' o3' = Accept (ToRound5 s5'),
         sg_send5 S X s5' rnd rnds = Accept m5,
         sg_until4 S le X xcoord c' eb' r2' r3' m1' m2' m3'' o1' o2' o3' = Accept (ToRound6 s6') &
         sg_send6 S X s6' rnd rnds = Accept m6]) /\
  sg_recv5 S X true s5 guilty m5 = Accept tt /\ sg_recv6 S X true s6 guilty m6 = Accept tt /\
  sg_evidence S H X scheme xcoord true randomness (assoc_of e) guilty R5DecFailed
    (assemble (@sg_required I R5DecFailed) m5 hist echos5) = EvOk tt /\
  sg_evidence S H X scheme xcoord true randomness (assoc_of e) guilty R6DecFailed
    (assemble (@sg_required I R6DecFailed) m6 hist echos6) = EvOk tt.
Proof.
exists SA, curve7, nat_eqType, nat_eqType, leq, HS, XS, [::], xcoordS, [:: 9; 9], 0%N, 1%N, (entryS 0), (rnd1S 0), (c_of 0), (e_of 0),
  st50, st60, m51, m61, hist1S, (echosX m32d), (echosX m32s).
refine (conj (And3 entry_okS start_okS isT) (conj _ _)).
  exists (rnd2S 0), (rnd3S 0), (m1S 0), sent2S, (sent3X m32d), (sent3X m32s), (othersS 0), (rev (othersS 0)), (othersS 0).
  by split; [evaluates (until4X m32d 0)|evaluates (until4X m32s 0)].
refine (conj _ (conj _ (conj _ (conj _ _)))); [|by vm_compute|by vm_compute|by vm_compute|by vm_compute].
exists (entryS 1), (rnd1S 1), (c_of 1), (e_of 1), (rnd2S 1), (rnd3S 1), (m1S 1), sent2S, (sent3X m32d), (sent3X m32s),
  (othersS 1), (rev (othersS 1)), (othersS 1), (s3_of 1), st51, st61, decS, gsS.
refine (And5 (conj follows1 (erefl _)) _ _ _ _).
- evaluates (until4X m32d 1).
- evaluates (sg_send5 SA XS st51 decS gsS).
- evaluates (until4X m32s 1).
- evaluates (sg_send6 SA XS st61 decS gsS).
Qed.

Lemma escaping_cheater :
  exists (S : sparams) (C : curve) (I HO : eqType) (H : dst -> seq (hitem HO I (pt C)) -> HO)
    (X : xof (seq (hitem HO I (pt C))) (pt C)) scheme xcoord randomness (me guilty : I) (e : sg_entry C I) r1 c eb m,
  entry_ok me e /\ sg_start S H scheme randomness me e r1 = Ok (c, eb) /\
  sg_recv1 S X c guilty m = Reject (Proto R1EncElg0Failed) /\
  forall hist echos, sg_evidence S H X scheme xcoord true randomness (assoc_of e) guilty R1EncElg0Failed
    (assemble (@sg_required I R1EncElg0Failed) m hist echos) = EvInvalid.
Proof.
exists SA, curve7, nat_eqType, nat_eqType, HS, XS, [::], xcoordS, [:: 9; 9], 0%N, 1%N, (entryS 0), (rnd1S 0), (c_of 0), (e_of 0), self_made.
refine (conj entry_okS (conj start_okS (conj _ _))); by vm_compute.
Qed.
