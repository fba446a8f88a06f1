(** * Vocabulary for agreement between parties (C62).

    What two parties of a session share is only what the echo mechanism of the
    session layer guarantees: the echo parts of a round.  Everything else may have
    been sent differently to each of them. *)
From Coq Require Import ZArith.
From Verif Require Import Base EncodingModel SignedModel PaillierModel ZkBase ZkModel.
From mathcomp Require Import all_ssreflect all_algebra.
From Verif Require Import AlgBase SchModel ProtoBase KeyInitModel AuxGenModel AuxGenSpec KeyRefreshModel KeyRefreshSpec.
Set Implicit Arguments.
Unset Strict Implicit.
Unset Printing Implicit Defensive.
Import GRing.Theory.

(** Party [id], having sent [own] and received [got], knows [e] as the echo parts
    of a round. *)
Definition heard {I : eqType} {W : Type} (ids : seq I) (id : I) (own : message W) (got : I -> message W) (e : I -> option W) : Prop :=
  {in ids, forall l, m_echo (if l == id then own else got l) = e l}.

(** No two of the given transcripts of one party have the same hash without being
    the same: [T l t] means that [t] is what one receiver got opened from [l]. *)
Definition no_collision {I : eqType} {A HO : Type} (h : seq A -> HO) (ids : seq I) (T T' : I -> seq A -> Prop) : Prop :=
  {in ids, forall l t t', T l t -> T' l t' -> h t = h t' -> t = t'}.

Section Opened.
Variables (F : fieldType) (V : lmodType F) (I : eqType) (le : rel I) (HO : eqType).

(** KeyInit: the round 2 message [m] of [l] opens the transcript [t]. *)
Definition ki_opens (sid : HO) (l : I) (m : message (ki_wire V HO)) (t : seq (hitem HO I V)) : Prop :=
  exists x a rho u, m = Msg None (Some (W2EB V HO rho)) (Some (W2NB HO x a u)) /\
    t = [:: HOut sid; HId l; HPt x; HPt a; HBits rho; HBits u].

(** KeyRefresh: the data [d] of [l] as a transcript, and a message opening it. *)
Definition kr_transcript (sid : HO) (l : I) (d : kr_public V I) : seq (hitem HO I V) :=
  let pts (m : seq (I * V)) : hitem HO I V := HSeq [seq HSeq [:: HId p.1; HPt p.2] | p <- m] in
  let nums (l : seq Z) : hitem HO I V := HSeq [seq HNum z | z <- l] in
  [:: HOut sid; HId l; pts (kp_xs d); pts (kp_ys d); pts (kp_as d); HNum (kp_pk d);
    HSeq [:: HNum (rp_n (kp_rp d)); HNum (rp_t (kp_rp d)); HNum (rp_s (kp_rp d))];
    HSeq [:: nums (prm_commitment (kp_psi d)); HBits (prm_challenge (kp_psi d)); nums (prm_elems (kp_psi d))];
    HBits (kp_rid d); HBits (KeyRefreshModel.kp_u d)].
Definition kr_opens (sid : HO) (l : I) (m : message (kr_wire V I HO)) (t : seq (hitem HO I V)) : Prop :=
  exists2 d, reveals le m d & t = kr_transcript sid l d.

(** What party [id] holds as the opened data of [l]: its own if [l] is itself. *)
Definition ki_seen (sid : HO) (id : I) (c : ki_ctx V I HO) (m2 : I -> message (ki_wire V HO)) (l : I) : seq (hitem HO I V) -> Prop :=
  ki_opens sid l (if l == id then ki_send2 c else m2 l).
Definition kr_seen (sid : HO) (id : I) (d : kr_public V I) (m2 : I -> message (kr_wire V I HO)) (l : I) (t : seq (hitem HO I V)) : Prop :=
  if l == id then t = kr_transcript sid id d else kr_opens sid l (m2 l) t.
End Opened.

Section OpenedAux.
Variables (C : curve) (I : eqType) (HO : eqType).
(** AuxGen. *)
Definition ag_transcript (sid : HO) (l : I) (pk : Z) (rp : rpparams) (psi : prm_proof) (rid u : seq bool) : seq (hitem HO I (pt C)) :=
  [:: HOut sid; HId l; HNum pk; HSeq [:: HNum (rp_n rp); HNum (rp_t rp); HNum (rp_s rp)];
      HSeq [:: HSeq [seq HNum z | z <- prm_commitment psi]; HBits (prm_challenge psi); HSeq [seq HNum z | z <- prm_elems psi]];
      HBits rid; HBits u].
Definition ag_opens (sid : HO) (l : I) (m : message (ag_wire HO)) (t : seq (hitem HO I (pt C))) : Prop :=
  exists rid rpw pk psi u, m = Msg None (Some (A2EB rid rpw)) (Some (A2NB pk psi u)) /\
    t = ag_transcript sid l pk (reduced rpw) psi rid u.
Definition ag_seen (sid : HO) (id : I) (d : ag_public) (m2 : I -> message (ag_wire HO)) (l : I) (t : seq (hitem HO I (pt C))) : Prop :=
  if l == id then t = ag_transcript sid id (ap_pk d) (ap_rp d) (ap_psi d) (ap_rid d) (ap_u d) else ag_opens sid l (m2 l) t.
End OpenedAux.
