(** * Properties C54, C55 and C56: evidence of misbehaviour in signing.

    [S], [C], [I], [HO], [H], [X], [scheme] and [xcoord] as for C51.  A party
    [me] with the inputs [e] runs the protocol against arbitrary messages, and
    reports what [guilty] sent: [m] in the round of the error, [hist n] in the
    earlier rounds [n]; [echos n] are the echo broadcasts of round [n] of everybody
    else.  Of these manul hands to the judge what [sg_required] asks for. *)
From Coq Require Import ZArith Lia.
From Verif Require Import Base EncodingModel SignedModel PaillierModel ZkBase ZkModel ElogModel ZkToy.
From mathcomp Require Import all_ssreflect.
From Verif Require Import AlgBase ProtoBase ProtoSpec AuxGenModel AuxGenToy SigningModel SigningSpec SigningAlgebra SigningProofs
  SigningShares SigningToy KeyRefreshToy SigningWitness SigningEvidenceSpec SigningEvidence SigningEvidenceGaps SigningEvidenceToy
  SigningEvidenceWitness.
Set Implicit Arguments.
Unset Strict Implicit.
Unset Printing Implicit Defensive.

(** ** C54 *)

(** A fault the receiver found in a message of round 2 is confirmed. *)
Theorem C54_round2_fault_confirmed (S : sparams) (C : curve) (I : eqType) (le : rel I) (HO : eqType)
    (H : dst -> seq (hitem HO I (pt C)) -> HO) (X : xof (seq (hitem HO I (pt C))) (pt C)) scheme xcoord positional
    randomness me (e : sg_entry C I) r1 c eb r2 m1 o1 s guilty hist echos m err :
  let ids := akeys (zs_public (se_share e)) in
  entry_ok me e -> sg_start S H scheme randomness me e r1 = Ok (c, eb) ->
  perm_eq o1 (without ids me) -> sg_until2 S le X c eb r2 m1 o1 = Accept s ->
  guilty \in without ids me -> hist 1%N = m1 guilty ->
  echoes_as ids guilty (fun j => if j == me then Some (S1EB eb) else m_echo (m1 j)) (echos 1%N) ->
  provable2 err -> sg_recv2 S X s guilty m = Reject (Proto err) ->
  sg_evidence S H X scheme xcoord positional randomness (assoc_of e) guilty err (assemble (sg_required err) m hist echos) = EvOk tt.
Proof. move=> ids h1 h2 h3 h4 h5 h6 h7; exact: (recv2_reject xcoord positional h1 h2 h3 h4 h5 h6 h7). Qed.
Print Assumptions C54_round2_fault_confirmed.

(** A message of round 2 that the receiver accepts is not evidence of any of
    these faults. *)
Theorem C54_round2_no_false_evidence (S : sparams) (C : curve) (I : eqType) (le : rel I) (HO : eqType)
    (H : dst -> seq (hitem HO I (pt C)) -> HO) (X : xof (seq (hitem HO I (pt C))) (pt C)) scheme xcoord positional
    randomness me (e : sg_entry C I) r1 c eb r2 m1 o1 s guilty hist echos m err pl :
  let ids := akeys (zs_public (se_share e)) in
  entry_ok me e -> sg_start S H scheme randomness me e r1 = Ok (c, eb) ->
  perm_eq o1 (without ids me) -> sg_until2 S le X c eb r2 m1 o1 = Accept s ->
  guilty \in without ids me -> hist 1%N = m1 guilty ->
  echoes_as ids guilty (fun j => if j == me then Some (S1EB eb) else m_echo (m1 j)) (echos 1%N) ->
  provable2 err -> sg_recv2 S X s guilty m = Accept pl ->
  sg_evidence S H X scheme xcoord positional randomness (assoc_of e) guilty err (assemble (sg_required err) m hist echos) = EvInvalid.
Proof. move=> ids h1 h2 h3 h4 h5 h6 h7; exact: (recv2_accept xcoord positional h1 h2 h3 h4 h5 h6 h7). Qed.
Print Assumptions C54_round2_no_false_evidence.

(** Party 0 of the toy session, party 1's message tampered with in five ways. *)
Example C54_round2_case :
  [/\ entry_ok 0%N (entryS 0), sg_start SA HS [::] [:: 9; 9]%Z 0%N (entryS 0) (rnd1S 0) = Ok (c_of 0, e_of 0),
      perm_eq (othersS 0) (without idsS 0%N) & sg_until2 SA leq XS (c_of 0) (e_of 0) (rnd2S 0) (m1S 0) (othersS 0) = Accept (s2_of 0)] /\
  [/\ 1%N \in without idsS 0%N, hist1S 1%N = m1S 0%N 1%N &
      echoes_as idsS 1%N (fun j => if j == 0%N then Some (S1EB (e_of 0)) else m_echo (m1S 0 j)) (echos1S 1%N)] /\
  [/\ sg_recv2 SA XS (s2_of 0) 1%N bad_ds = Reject (Proto R2WrongIdsD),
      sg_recv2 SA XS (s2_of 0) 1%N bad_fs = Reject (Proto R2WrongIdsF),
      sg_recv2 SA XS (s2_of 0) 1%N bad_psis = Reject (Proto R2WrongIdsPsi),
      sg_recv2 SA XS (s2_of 0) 1%N bad_aff = Reject (Proto (R2AffGPsiFailed 0%N)) &
      sg_recv2 SA XS (s2_of 0) 1%N bad_elog = Reject (Proto R2ElogFailed)] /\
  exists p, sg_recv2 SA XS (s2_of 0) 1%N m21 = Accept p.
Proof.
refine (conj (And4 entry_okS start_okS isT until2_okS) (conj (And3 isT (erefl _) echoes1_okS) (conj _ _))).
- by split; apply: verdict2_reject; vm_compute.
- by apply: accepted2_ok; vm_compute.
Qed.

(** A rejected signature share is confirmed as a fault, an accepted one is not. *)
Theorem C54_invalid_share_confirmed (S : sparams) (C : curve) (I : eqType) (le : rel I) (HO : eqType)
    (H : dst -> seq (hitem HO I (pt C)) -> HO) (X : xof (seq (hitem HO I (pt C))) (pt C)) scheme xcoord positional
    randomness me (e : sg_entry C I) r1 (v : seen C I HO) guilty (hist : nat -> message (sg_wire C I)) (echos : nat -> seq (I * sg_wire C I)) m :
  let ids := akeys (zs_public (se_share e)) in
  curve_ok (sp_q S) C -> Znumtheory.prime (sp_q S) ->
  entry_ok me e -> sg_start S H scheme randomness me e r1 = Ok (v_ctx v, v_eb v) -> reached4 S le X xcoord v ->
  guilty \in without ids me -> hist 2%N = v_m2 v guilty -> hist 3%N = v_m3 v guilty ->
  echoes_as ids guilty (echo2 v) (echos 2%N) -> echoes_as ids guilty (echo3 v) (echos 3%N) ->
  let verdict := sg_evidence S H X scheme xcoord positional randomness (assoc_of e) guilty R4InvalidSignatureShare
                   (assemble (@sg_required I R4InvalidSignatureShare) m hist echos) in
  (sg_recv4 xcoord (v_s4 v) guilty m = Reject (Proto R4InvalidSignatureShare) -> verdict = EvOk tt) /\
  (forall z, sg_recv4 xcoord (v_s4 v) guilty m = Accept z -> verdict = EvInvalid).
Proof.
move=> ids HC Pq h1 h2 h3 h4 h5 h6 h7 h8.
by split=> [|z]; [apply: (recv4_reject HC Pq positional h1 h2 h3)|apply: (recv4_accept HC Pq positional h1 h2 h3)].
Qed.
Print Assumptions C54_invalid_share_confirmed.

Example C54_invalid_share_case :
  entry_ok 0%N (entryS 0) /\ sg_start SA HS [::] [:: 9; 9]%Z 0%N (entryS 0) (rnd1S 0) = Ok (v_ctx (seenS 0), v_eb (seenS 0)) /\
  reached4 SA leq XS xcoordS (seenS 0) /\ hist1S 2%N = v_m2 (seenS 0) 1%N /\ hist1S 3%N = v_m3 (seenS 0) 1%N /\
  echoes_as idsS 1%N (echo2 (seenS 0)) (echos1S 2%N) /\ echoes_as idsS 1%N (echo3 (seenS 0)) (echos1S 3%N) /\
  sg_recv4 xcoordS (v_s4 (seenS 0)) 1%N (Msg None None (Some (S4NB 4%Z))) = Reject (Proto R4InvalidSignatureShare) /\
  sg_recv4 xcoordS (v_s4 (seenS 0)) 1%N m41 = Accept 3%Z.
Proof.
refine (conj entry_okS (conj start_okS (conj (@seen_reached 0%N isT) (conj (erefl _) (conj (erefl _) (conj echoes2_okS (conj echoes3_okS (conj _ _)))))))); by vm_compute.
Qed.

(** ** C55 *)

(** Messages that follow the protocol and that every receiver accepts are
    nevertheless confirmed as faults: evidence is evaluated against other data
    than the receiver's check (the ring-Pedersen parameters of the accused instead
    of the receiver's; the key share of the receiver instead of the accused; the
    nonce share of the accused instead of the combined nonce; products and
    points of other parties in the two error rounds). *)
Theorem C55_honest_party_framed_refuted :
  exists (S : sparams) (C : curve) (I HO : eqType) (le : rel I) (H : dst -> seq (hitem HO I (pt C)) -> HO)
    (X : xof (seq (hitem HO I (pt C))) (pt C)) scheme xcoord randomness (me guilty : I) (e : sg_entry C I) r1 c eb m1 p1 s2 p2 s3 p3 hist echos,
  [/\ entry_ok me e, sg_start S H scheme randomness me e r1 = Ok (c, eb) & guilty != me] /\
  (exists e' r1' c' eb' r2' r3' m1' m2' o1' o2' s3',
     [/\ follows S le H X scheme randomness guilty me e' r1' c' eb' r2' r3' m1' m2' o1' o2' hist s3' & assoc_of e' = assoc_of e]) /\
  [/\ sg_recv1 S X c guilty (hist 1%N) = Accept p1, hist 1%N = m1 guilty,
      sg_recv2 S X s2 guilty (hist 2%N) = Accept p2 & sg_recv3 X s3 guilty (hist 3%N) = Accept p3] /\
  (exists r2 r3 m2 o1 o2, sg_until2 S le X c eb r2 m1 o1 = Accept s2 /\ sg_until3 S le X c eb r2 r3 m1 m2 o1 o2 = Accept s3) /\
  let judge n err := sg_evidence S H X scheme xcoord true randomness (assoc_of e) guilty err
    (assemble (@sg_required I err) (hist n) hist echos) in
  [/\ judge 1%N R1EncElg0Failed = EvOk tt, judge 1%N R1EncElg1Failed = EvOk tt,
      judge 2%N (R2AffGHatPsiFailed me) = EvOk tt & judge 3%N R3ElogFailed = EvOk tt].
Proof. exact framed_session. Qed.
Print Assumptions C55_honest_party_framed_refuted.

(** The same in the error rounds; party 2 of the session cheated in round 3,
    party 1 is accused. *)
Theorem C55_framed_in_error_rounds_refuted :
  exists (S : sparams) (C : curve) (I HO : eqType) (le : rel I) (H : dst -> seq (hitem HO I (pt C)) -> HO)
    (X : xof (seq (hitem HO I (pt C))) (pt C)) scheme xcoord randomness (me guilty : I) (e : sg_entry C I) r1 c eb s5 s6 m5 m6 hist echos5 echos6,
  [/\ entry_ok me e, sg_start S H scheme randomness me e r1 = Ok (c, eb) & guilty != me] /\
  (exists r2 r3 m1 m2 m3 m3' o1 o2 o3,
     sg_until4 S le X xcoord c eb r2 r3 m1 m2 m3 o1 o2 o3 = Accept (ToRound5 s5) /\
     sg_until4 S le X xcoord c eb r2 r3 m1 m2 m3' o1 o2 o3 = Accept (ToRound6 s6)) /\
  (exists e' r1' c' eb' r2' r3' m1' m2' m3' m3'' o1' o2' o3' s3' s5' s6' rnd rnds,
     [/\ follows S le H X scheme randomness guilty me e' r1' c' eb' r2' r3' m1' m2' o1' o2' hist s3' /\ assoc_of e' = assoc_of e,
         sg_until4 S le X xcoord c' eb' r2' r3' m1' m2' m3' o1' o2' o3' = Accept (ToRound5 s5'),
         sg_send5 S X s5' rnd rnds = Accept m5,
         sg_until4 S le X xcoord c' eb' r2' r3' m1' m2' m3'' o1' o2' o3' = Accept (ToRound6 s6') &
         sg_send6 S X s6' rnd rnds = Accept m6]) /\
  sg_recv5 S X true s5 guilty m5 = Accept tt /\ sg_recv6 S X true s6 guilty m6 = Accept tt /\
  sg_evidence S H X scheme xcoord true randomness (assoc_of e) guilty R5DecFailed
    (assemble (@sg_required I R5DecFailed) m5 hist echos5) = EvOk tt /\
  sg_evidence S H X scheme xcoord true randomness (assoc_of e) guilty R6DecFailed
    (assemble (@sg_required I R6DecFailed) m6 hist echos6) = EvOk tt.
Proof. exact framed_errors. Qed.
Print Assumptions C55_framed_in_error_rounds_refuted.

(** Conversely, a faulty message that the receiver rejects need not be
    confirmed: a proof made for the wrong ring-Pedersen parameters. *)
Theorem C55_cheater_escapes_refuted :
  exists (S : sparams) (C : curve) (I HO : eqType) (H : dst -> seq (hitem HO I (pt C)) -> HO)
    (X : xof (seq (hitem HO I (pt C))) (pt C)) scheme xcoord randomness (me guilty : I) (e : sg_entry C I) r1 c eb m,
  entry_ok me e /\ sg_start S H scheme randomness me e r1 = Ok (c, eb) /\
  sg_recv1 S X c guilty m = Reject (Proto R1EncElg0Failed) /\
  forall hist echos, sg_evidence S H X scheme xcoord true randomness (assoc_of e) guilty R1EncElg0Failed
    (assemble (@sg_required I R1EncElg0Failed) m hist echos) = EvInvalid.
Proof. exact escaping_cheater. Qed.
Print Assumptions C55_cheater_escapes_refuted.

(** Evidence of wrong ids in an error round, and of a wrong affine proof in
    round 6, is never confirmed, whatever was sent. *)
Theorem C55_never_confirmed (S : sparams) (C : curve) (I HO : eqType) (H : dst -> seq (hitem HO I (pt C)) -> HO)
    (X : xof (seq (hitem HO I (pt C))) (pt C)) scheme xcoord positional randomness (a : sg_assoc C I) guilty hist echos m j err :
  [\/ err = R5WrongIdsPsi, err = R6WrongIdsPsi | err = R6AffGStarFailed j] ->
  sg_evidence S H X scheme xcoord positional randomness a guilty err (assemble (sg_required err) m hist echos) = EvInvalid.
Proof.
by case=> ->; [apply: (proj1 (wrong_ids_unprovable _ _ _ _ _ _ _ _ _ _ _ _))
  |apply: (proj2 (wrong_ids_unprovable _ _ _ _ _ _ _ _ _ _ _ _))|apply: r6_aff_unprovable].
Qed.
Print Assumptions C55_never_confirmed.

(** Evidence of a wrong affine proof in round 5 is never confirmed either if
    the two parties have different Paillier moduli, ... *)
Theorem C55_round5_affine_never_confirmed (S : sparams) (C : curve) (I HO : eqType) (H : dst -> seq (hitem HO I (pt C)) -> HO)
    (X : xof (seq (hitem HO I (pt C))) (pt C)) scheme xcoord positional randomness (a : sg_assoc C I) guilty hist echos m j n1 rp1 n2 rp2 :
  aget (sa_aux a) guilty = Some (n1, rp1) -> aget (sa_aux a) j = Some (n2, rp2) -> n1 <> n2 ->
  sg_evidence S H X scheme xcoord positional randomness a guilty (R5AffGStarFailed j)
    (assemble (sg_required (R5AffGStarFailed j)) m hist echos) <> EvOk tt.
Proof. exact: r5_aff_unprovable. Qed.
Print Assumptions C55_round5_affine_never_confirmed.

(** ... the judge panics instead: here on a message with every expected field. *)
Example C55_round5_affine_case :
  aget (sa_aux (assoc_of (entryS 0))) 1%N = Some (209%Z, RP 713 4 16) /\
  aget (sa_aux (assoc_of (entryS 0))) 2%N = Some (589%Z, RP 253 4 16) /\
  judgeS true (echosX m32d) m51 (R5AffGStarFailed 2%N) = EvPanic.
Proof. by do 2 (split; first by []); vm_compute. Qed.

(** ** C56 *)

(** Leaving entries out of the second family of proofs of a message of round 2
    that would be accepted never makes the receiver report the sender: without its
    own entry the receiver stops with an error that names nobody, and otherwise it
    accepts the message and keeps nothing for the parties left out. *)
Theorem C56_missing_proofs_unattributable (S : sparams) (C : curve) (I HO : eqType) (X : xof (seq (hitem HO I (pt C))) (pt C))
    (s : sg_round2 C I HO) from m p (keep : pred I) :
  sg_recv2 S X s from m = Accept p ->
  sg_recv2 S X s from (thin_hat keep m) = if keep (sx_id (s2_ctx s)) then Accept (thin_payload keep p) else RLocal.
Proof. exact: thin_received. Qed.
Print Assumptions C56_missing_proofs_unattributable.

Example C56_missing_proofs_case :
  (exists p, sg_recv2 SA XS (s2_of 0) 1%N m21 = Accept p /\ size (l2_hat_df p) = 2%N /\
     size (l2_hat_df (thin_payload (predC1 2%N) p)) = 1%N) /\
  sg_recv2 SA XS (s2_of 0) 1%N (thin_hat (predC1 0%N) m21) = RLocal.
Proof.
split; first by eexists; split; [vm_compute; reflexivity|vm_compute].
by vm_compute.
Qed.
