(** * Signing evidence that cannot be confirmed, and unattributable aborts
    (properties C55, C56). *)
From Coq Require Import ZArith Lia.
From Verif Require Import Base BaseFacts EncodingModel SignedModel PaillierModel ZkBase ZkModel ElogModel.
From mathcomp Require Import all_ssreflect.
From Verif Require Import AlgBase AlgFacts ProtoBase ProtoSpec ProtoFacts AuxGenModel SigningModel SigningSpec SigningAlgebra SigningProofs
  SigningShares SigningEvidenceSpec SigningEvidence.
Set Implicit Arguments.
Unset Strict Implicit.
Unset Printing Implicit Defensive.

Lemma ev_all_np (I : Type) W T (as_t : W -> option T) (l : seq (I * W)) : ev_all as_t l <> EvPanic.
Proof. by elim: l => [|[k w] l IH] //=; case: (as_t w) => // t; case: (ev_all as_t l) IH. Qed.

Section Gaps.
Variables (S : sparams) (C : curve) (I : eqType) (le : rel I) (HO : eqType).
Notation item := (hitem HO I (pt C)).
Variables (H : dst -> seq item -> HO) (X : xof (seq item) (pt C)) (scheme : seq item).
Variables (xcoord : pt C -> Z) (positional : bool).
Notation msg := (message (sg_wire C I)).
Variables (randomness : seq Z) (a : sg_assoc C I) (guilty : I) (hist : nat -> msg) (echos : nat -> seq (I * sg_wire C I)).
Notation judge m err := (sg_evidence S H X scheme xcoord positional randomness a guilty err
  (assemble (@sg_required I err) m hist echos)).

Lemma wrong_ids_unprovable m : judge m R5WrongIdsPsi = EvInvalid /\ judge m R6WrongIdsPsi = EvInvalid.
Proof. by []. Qed.

Lemma r6_aff_unprovable m j : judge m (R6AffGStarFailed j) = EvInvalid.
Proof.
rewrite /sg_evidence /ev_aff_gs /= /ev_echo_all /= /try_get /=.
case E1: (ev_all _ _) => [l1||] //=; last by case: (ev_all_np E1).
by case E2: (ev_all _ _) => [l2||] //=; case: (ev_all_np E2).
Qed.

Lemma r5_aff_unprovable m j n1 rp1 n2 rp2 : aget (sa_aux a) guilty = Some (n1, rp1) -> aget (sa_aux a) j = Some (n2, rp2) -> n1 <> n2 ->
  judge m (R5AffGStarFailed j) <> EvOk tt.
Proof.
move=> h1 h2 ne.
rewrite /sg_evidence /ev_aff_gs /= /ev_echo_all /= /try_get /=.
case: (ev_all _ _) => [l1||] //=; case: (ev_all _ _) => [l2||] //=.
case: (ev_prev_normal _ _ _) => [w2||] //=; case: (ev_deser _ _) => [e5||] //=.
rewrite /ev_pk /try_get h1 h2 /= /public_key_new.
case: ifP => // _ /=; case: ifP => // _ /=.
case: (ev_prev_echo _ _ _) => [x||] //=.
do 5 (match goal with |- context [aget ?u ?k] => case: (aget u k) => [?|] //= end).
rewrite /aff_gs_verify /= (_ : Z.eqb n2 n1 = false) //.
by apply/negP => /Z.eqb_eq e; apply: ne.
Qed.
End Gaps.

Section Hats.
Variables (S : sparams) (C : curve) (I : eqType) (HO : eqType).
Variables (X : xof (seq (hitem HO I (pt C))) (pt C)).

Lemma mapV_filter E (K : eqType) A B (f : K * A -> recv E (K * B)) (l : seq (K * A)) bs (keep : pred K) :
  (forall p b, f p = Accept b -> b.1 = p.1) -> mapV f l = Accept bs ->
  mapV f [seq p <- l | keep p.1] = Accept [seq b <- bs | keep b.1].
Proof.
move=> hf; elim: l bs => [|p l IH] bs /=; first by case=> <-.
move=> U; have [b E1 {}U] := vbind_inv U; have [bs' E2 {}U] := vbind_inv U; case: U => <- /=.
by rewrite (hf _ _ E1); case: (keep p.1) => /=; rewrite ?E1 /= (IH _ E2).
Qed.

Lemma aget_filter (K : eqType) A (l : seq (K * A)) (keep : pred K) k :
  aget [seq p <- l | keep p.1] k = if keep k then aget l k else None.
Proof.
elim: l => [|[k' x] l IH] /=; first by case: ifP.
case hk: (keep k') => /=; case: eqP => [e|_]; rewrite ?IH ?e ?hk //.

Qed.

Lemma thin_received (s : sg_round2 C I HO) from m p (keep : pred I) : sg_recv2 S X s from m = Accept p ->
  sg_recv2 S X s from (thin_hat keep m) = if keep (sx_id (s2_ctx s)) then Accept (thin_payload keep p) else RLocal.
Proof.
rewrite /sg_recv2 => U.
have [b Eb {}U] := vbind_inv U; have [nb En {}U] := vbind_inv U; have [? Ed {}U] := vbind_inv U.
have [y Ey {}U] := vbind_inv U; have [? E1 {}U] := vbind_inv U; have [? E2 {}U] := vbind_inv U; have [? E3 {}U] := vbind_inv U.
have [snd Es {}U] := vbind_inv U; have [df Edf {}U] := vbind_inv U; have [hdf Eh {}U] := vbind_inv U; have [? El {}U] := vbind_inv U.
have [mi Em {}U] := vbind_inv U; have [al Ea {}U] := vbind_inv U; have [hm Ehm {}U] := vbind_inv U; have [hal Eha {}U] := vbind_inv U.
have [al' Ea' {}U] := vbind_inv U; have [hal' Eha' {}U] := vbind_inv U; case: U => <-.
have hn : m_normal m = Some (S2NB nb) by have := deser_ok En; case: (m_normal m) => //= -[] //= ? [->].
rewrite /thin_hat hn /= Eb /= Ed /= Ey /= E1 /= E2 /= E3 /= Es /= Edf /=.
have -> : sg_check_psis S X s from y.1 (n2_hat_ds nb) (e2_hat_fs b) (safe_get (zs_public (sx_share (s2_ctx s))) from)
   (R2AffGHatPsiFailed (I:=I)) [seq p0 <- n2_hat_psis nb | keep p0.1] = Accept [seq x <- hdf | keep x.1].
  apply: mapV_filter Eh => -[j pf] bb V.
  have [? _ {}V] := vbind_inv V; have [? _ {}V] := vbind_inv V; have [? _ {}V] := vbind_inv V; have [? _ {}V] := vbind_inv V.
  by have [? _ {}V] := vbind_inv V; have [? _ {}V] := vbind_inv V; have [? _ {}V] := vbind_inv V; case: V => <-.
rewrite /= El /= Em /= Ea /= /safe_get aget_filter (safe_get_ok Ehm).
by case: (keep _) => //=; rewrite Eha /= Ea' /= Eha'.
Qed.
End Hats.
