(** * Property C55, continued: evidence of a wrong decryption in signing.

    [ev] is any evidence, whoever assembled it. *)
From Coq Require Import ZArith.
From Verif Require Import Base SignedModel PaillierModel ZkBase ZkModel.
From mathcomp Require Import all_ssreflect.
From Verif Require Import AlgBase ProtoBase ProtoSpec AuxGenModel SigningModel SigningSpec SigningToy AuxGenToy SigningEvidenceSpec
  SigningWitness SigningEvidenceToy DecEvidence.
Set Implicit Arguments.
Unset Strict Implicit.
Unset Printing Implicit Defensive.

(** Confirmed evidence of a wrong decryption of round 5 says that the proof of
    the accused fails for the share [gamma] it announced and the share of [delta]
    it sent in round 3, ... *)
Theorem C55_round5_decryption_evidence (S : sparams) (C : curve) (I HO : eqType) (H : dst -> seq (hitem HO I (pt C)) -> HO)
    (X : xof (seq (hitem HO I (pt C))) (pt C)) scheme xcoord positional randomness (a : sg_assoc C I) guilty ev :
  sg_evidence S H X scheme xcoord positional randomness a guilty R5DecFailed ev = EvOk tt ->
  exists e1 e2s n2 e2 n3 e5,
  [/\ ev_prev_echo (@as_1eb C I) ev 1 = EvOk e1, ev_echo_all (@as_2eb C I) ev 2 = EvOk e2s,
      ev_prev_normal (@as_2nb C I) ev 2 = EvOk n2 & ev_prev_echo (@as_2eb C I) ev 2 = EvOk e2] /\
  [/\ ev_prev_normal (@as_3nb C I) ev 3 = EvOk n3, ev_deser (as_5eb positional) (m_echo (ev_message ev)) = EvOk e5 &
      decryption_fails S X a guilty [:: HOut (sg_epid H scheme randomness a); HId guilty] (e5_dec e5) (e1_k e1)
        (e2_gamma e2) (n3_delta n3) (gen C)
        (aget (n2_ds n2)) (fun j => ssrfun.obind (fun e => aget (e2_fs e) guilty) (aget e2s j))].
Proof. exact: round5_evidence. Qed.
Print Assumptions C55_round5_decryption_evidence.

(** ... and of round 6, that it fails for its share of the secret key and its
    point [S] of round 3, to the base [Gamma]. *)
Theorem C55_round6_decryption_evidence (S : sparams) (C : curve) (I HO : eqType) (H : dst -> seq (hitem HO I (pt C)) -> HO)
    (X : xof (seq (hitem HO I (pt C))) (pt C)) scheme xcoord positional randomness (a : sg_assoc C I) guilty ev :
  sg_evidence S H X scheme xcoord positional randomness a guilty R6DecFailed ev = EvOk tt ->
  exists e1 e2s n2 e2 n3 e5 share,
  [/\ ev_prev_echo (@as_1eb C I) ev 1 = EvOk e1, ev_echo_all (@as_2eb C I) ev 2 = EvOk e2s,
      ev_prev_normal (@as_2nb C I) ev 2 = EvOk n2 & ev_prev_echo (@as_2eb C I) ev 2 = EvOk e2] /\
  [/\ ev_prev_normal (@as_3nb C I) ev 3 = EvOk n3, ev_deser (as_5eb positional) (m_echo (ev_message ev)) = EvOk e5,
      aget (sa_shares a) guilty = Some share &
      decryption_fails S X a guilty [:: HOut (sg_epid H scheme randomness a); HId guilty] (e5_dec e5) (e1_k e1)
        share (n3_s n3) (padd C (e2_gamma e2) (sum_pts [seq e2_gamma p.2 | p <- e2s]))
        (aget (n2_hat_ds n2)) (fun j => ssrfun.obind (fun e => aget (e2_hat_fs e) guilty) (aget e2s j))].
Proof. exact: round6_evidence. Qed.
Print Assumptions C55_round6_decryption_evidence.

(** In a session of one party there is no such evidence, and no panic. *)
Theorem C55_no_decryption_evidence_alone (S : sparams) (C : curve) (I HO : eqType) (H : dst -> seq (hitem HO I (pt C)) -> HO)
    (X : xof (seq (hitem HO I (pt C))) (pt C)) scheme xcoord positional randomness (a : sg_assoc C I) guilty ev N rp :
  sa_aux a = [:: (guilty, (N, rp))] -> Z.odd N -> Z.odd (rp_n rp) ->
  sg_evidence S H X scheme xcoord positional randomness a guilty R5DecFailed ev = EvInvalid /\
  sg_evidence S H X scheme xcoord positional randomness a guilty R6DecFailed ev = EvInvalid.
Proof. exact: alone_evidence. Qed.
Print Assumptions C55_no_decryption_evidence_alone.

(** Such evidence exists (the message is the one of
    [C55_framed_in_error_rounds_refuted]); with the auxiliary data of the accused
    alone the judge refuses the same evidence. *)
Example C55_decryption_evidence_case :
  judgeS true (echosX m32d) m51 R5DecFailed = EvOk tt /\ judgeS true (echosX m32s) m61 R6DecFailed = EvOk tt /\
  let a := assoc_of (entryS 0) in
  let alone := SgAssoc (sa_shares a) [:: (1%N, (Zpos 209, RP (Zpos 713) (Zpos 4) (Zpos 16)))] (sa_message a) in
  sg_evidence SA HS XS [::] xcoordS true [:: Zpos 9; Zpos 9] alone 1%N (@R5DecFailed nat_eqType)
    (assemble (sg_required (@R5DecFailed nat_eqType)) m51 hist1S (echosX m32d)) = EvInvalid.
Proof. split; last split; by vm_compute. Qed.
