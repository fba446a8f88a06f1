(** * The setting of the properties about signing evidence (C54, C55). *)
From Coq Require Import ZArith.
From Verif Require Import Base PaillierModel ZkBase ZkModel.
From mathcomp Require Import all_ssreflect.
From Verif Require Import AlgBase ProtoBase ProtoSpec AuxGenModel SigningModel.
Set Implicit Arguments.
Unset Strict Implicit.
Unset Printing Implicit Defensive.

(** The echo broadcasts of one round of everybody but the guilty party, as
    evidence carries them: a map over these parties whose entries are what the
    reporting party itself saw. *)
Definition echoes_as (I : eqType) (W : Type) (ids : seq I) (guilty : I) (saw : I -> option W) (l : seq (I * W)) : Prop :=
  akeys l = without ids guilty /\ {in without ids guilty, forall j, aget l j = saw j}.

(** The public data of a session that a judge is given. *)
Definition assoc_of (C : curve) (I : eqType) (e : sg_entry C I) : sg_assoc C I :=
  SgAssoc (zs_public (se_share e)) (ai_public (se_aux e)) (se_message e).

(** The entry is consistent: one set of parties, and the published Paillier key
    of its owner is that of its secret key. *)
Record entry_ok (C : curve) (I : eqType) (me : I) (e : sg_entry C I) : Prop := EntryOk {
  en_keys : akeys (ai_public (se_aux e)) = akeys (zs_public (se_share e));
  en_uniq : uniq (akeys (zs_public (se_share e)));
  en_own : exists rp, aget (ai_public (se_aux e)) me = Some (sk_pk (ai_sk (se_aux e)), rp) }.

(** The errors of round 2 whose evidence is about the receiver's check. *)
Definition provable2 (I : eqType) (e : sg_error I) : Prop :=
  e = R2WrongIdsD \/ e = R2WrongIdsF \/ e = R2WrongIdsPsi \/ (exists j, e = R2AffGPsiFailed j) \/ e = R2ElogFailed.

(** A round 2 message whose second family of proofs keeps only the entries of
    the parties in [keep]. *)
Definition thin_hat (C : curve) (I : eqType) (keep : pred I) (m : message (sg_wire C I)) : message (sg_wire C I) :=
  Msg (m_direct m) (m_echo m)
    (if m_normal m is Some (S2NB n) then
       Some (S2NB (R2NB (n2_ds n) (n2_hat_ds n) (n2_elog n) (n2_psis n) [seq p <- n2_hat_psis n | keep p.1]))
     else m_normal m).

(** What the receiver keeps of such a message. *)
Definition thin_payload (C : curve) (I : eqType) (keep : pred I) (p : r2pl C I) : r2pl C I :=
  R2Pl (l2_gamma p) (l2_alpha p) (l2_hat_alpha p) (l2_df p) [seq x <- l2_hat_df p | keep x.1].

(** [who] follows the protocol up to round 3, whatever the others send: [hist]
    are its messages, those of round 1 as sent to [to]; [s3] its state in round
    3. *)
Definition follows (S : sparams) (C : curve) (I HO : eqType) (le : rel I) (H : dst -> seq (hitem HO I (pt C)) -> HO)
    (X : xof (seq (hitem HO I (pt C))) (pt C)) scheme randomness (who to : I) (e : sg_entry C I) r1 c eb r2 r3 m1 m2 o1 o2
    (hist : nat -> message (sg_wire C I)) (s3 : sg_round3 C I HO) : Prop :=
  [/\ entry_ok who e, sg_start S H scheme randomness who e r1 = Ok (c, eb),
      exists rnd, sg_send1 S X c eb to rnd = Accept (hist 1%N),
      exists2 s2, sg_until2 S le X c eb r2 m1 o1 = Accept s2 & hist 2%N = sg_send2 s2 &
      sg_until3 S le X c eb r2 r3 m1 m2 o1 o2 = Accept s3 /\ hist 3%N = sg_send3 s3].
