(** * Property C58: the rules about the parts of a message.

    A message has a direct part, an echoed part and a normal part, each of them
    possibly absent.  Receipt of a message and the three checks by which a third
    party confirms that a part is malformed agree in every round of the four
    protocols that support evidence, for every state of the receiver and every
    message.  When two parts are malformed the receiver names one of them.  In
    KeyResharing the three checks are [unimplemented!()]. *)
From Coq Require Import ZArith.
From Verif Require Import Base EncodingModel SignedModel PaillierModel ZkBase ZkModel ElogModel ZkToy.
From mathcomp Require Import all_ssreflect all_algebra.
From Verif Require Import AlgBase ProtoBase ProtoSpec ProtoFacts KeyInitModel PropsShare PropsKeyInit AuxGenModel AuxGenToy KeyRefreshModel KeyRefreshToy
  SigningModel SigningToy PartSpec PartProofs.
Set Implicit Arguments.
Unset Strict Implicit.
Unset Printing Implicit Defensive.

Theorem C58_key_init : forall (F : fieldType) (V : lmodType F) (g : V) (I HO : eqType) (H : dst -> seq (hitem HO I V) -> HO)
    (X : xof (seq (hitem HO I V)) V),
  let rules r A (receive : message (ki_wire V HO) -> recv ki_error A) :=
    forall m, part_rules receive (@ki_direct_invalid F V HO r) (@ki_echo_invalid F V HO r) (@ki_normal_invalid F V HO r) m in
  [/\ rules 1%N _ (@ki_recv1 F V HO), forall c cap_vs from, rules 2%N _ (ki_recv2 H c cap_vs from),
      forall s from, rules 3%N _ (ki_recv3 g X s from) &
      forall r, r \notin [:: 1; 2; 3]%N -> no_parts (@ki_direct_invalid F V HO r) (@ki_echo_invalid F V HO r) (@ki_normal_invalid F V HO r)].
Proof.
split; [exact: ki_rules1|move=> c v i m; exact: ki_rules2|move=> s i m; exact: ki_rules3|exact: ki_rules_other].
Qed.
Print Assumptions C58_key_init.

Theorem C58_aux_gen : forall (S : sparams) (C : curve) (I HO : eqType) (H : dst -> seq (hitem HO I (pt C)) -> HO)
    (X : xof (seq (hitem HO I (pt C))) (pt C)),
  let rules r A (receive : message (ag_wire HO) -> recv (ag_error I) A) :=
    forall m, part_rules receive (@ag_direct_invalid HO r) (@ag_echo_invalid HO r) (@ag_normal_invalid HO r) m in
  [/\ rules 1%N _ (@ag_recv1 I HO), forall c cap_vs from, rules 2%N _ (@ag_recv2 S C I HO H X c cap_vs from),
      forall s from, rules 3%N _ (@ag_recv3 S C I HO X s from) &
      forall r, r \notin [:: 1; 2; 3]%N -> no_parts (@ag_direct_invalid HO r) (@ag_echo_invalid HO r) (@ag_normal_invalid HO r)].
Proof.
split; [exact: ag_rules1|move=> c v i m; exact: ag_rules2|move=> s i m; exact: ag_rules3|exact: ag_rules_other].
Qed.
Print Assumptions C58_aux_gen.

Theorem C58_key_refresh : forall (S : sparams) (F : fieldType) (V : lmodType F) (g : V) (I : eqType) (le : rel I) (HO : eqType)
    (H : dst -> seq (hitem HO I V) -> HO) (X : xof (seq (hitem HO I V)) V) (Hs : dst -> seq (hitem HO I V) -> F),
  let rules r A (receive : message (kr_wire V I HO) -> recv (kr_error F I) A) :=
    forall m, part_rules receive (@kr_direct_invalid F V I HO r) (@kr_echo_invalid F V I le HO r) (@kr_normal_invalid F V I le HO r) m in
  [/\ rules 1%N _ (@kr_recv1 F V I HO), forall c cap_vs from, rules 2%N _ (kr_recv2 S g le H X c cap_vs from),
      forall s from, rules 3%N _ (kr_recv3 S g le X Hs s from) &
      forall r, r \notin [:: 1; 2; 3]%N ->
        no_parts (@kr_direct_invalid F V I HO r) (@kr_echo_invalid F V I le HO r) (@kr_normal_invalid F V I le HO r)].
Proof.
split; [exact: kr_rules1|move=> c v i m; exact: kr_rules2|move=> s i m; exact: kr_rules3|exact: kr_rules_other].
Qed.
Print Assumptions C58_key_refresh.

Theorem C58_signing : forall (S : sparams) (C : curve) (I HO : eqType) (X : xof (seq (hitem HO I (pt C))) (pt C))
    (xcoord : pt C -> Z) (positional : bool),
  let rules r A (receive : message (sg_wire C I) -> recv (sg_error I) A) :=
    forall m, part_rules receive (@sg_direct_invalid C I r) (@sg_echo_invalid C I positional r) (@sg_normal_invalid C I r) m in
  [/\ forall c from, rules 1%N _ (@sg_recv1 S C I HO X c from), forall s from, rules 2%N _ (@sg_recv2 S C I HO X s from),
      forall s from, rules 3%N _ (@sg_recv3 C I HO X s from) & forall s from, rules 4%N _ (@sg_recv4 C I HO xcoord s from)] /\
  [/\ forall s from, rules 5%N _ (@sg_recv5 S C I HO X positional s from), forall s from, rules 6%N _ (@sg_recv6 S C I HO X positional s from) &
      forall r, r \notin [:: 1; 2; 3; 4; 5; 6]%N ->
        no_parts (@sg_direct_invalid C I r) (@sg_echo_invalid C I positional r) (@sg_normal_invalid C I r)].
Proof.
split; split; [move=> c i m; exact: sg_rules1|move=> s i m; exact: sg_rules2|move=> s i m; exact: sg_rules3|move=> s i m; exact: sg_rules4
  |move=> s i m; exact: sg_rules5|move=> s i m; exact: sg_rules6|exact: sg_rules_other].
Qed.
Print Assumptions C58_signing.

(** A commitment with an unexpected normal part, and with both other parts wrong:
    the part named first is confirmed, and so is the other one. *)
Example C58_key_init_case :
  let m : message (ki_wire V7 nat_eqType) := Msg None (Some (W2EB _ _ [:: true])) (Some (W1EB _ 5%N)) in
  let fine : message (ki_wire V7 nat_eqType) := Msg None (Some (W1EB _ 5%N)) None in
  [/\ ki_recv1 m = Reject BadNormal, ki_normal_invalid 1%N (m_normal m) = EvOk tt, ki_echo_invalid 1%N (m_echo m) = EvOk tt &
      ki_direct_invalid 1%N (m_direct m) = EvInvalid] /\
  [/\ ki_recv1 fine = Accept 5%N, ki_normal_invalid 1%N (m_normal fine) = EvInvalid & ki_echo_invalid 1%N (m_echo fine) = EvInvalid].
Proof. by []. Qed.

(** A round 3 message of AuxGen without its direct part. *)
Example C58_aux_gen_case : forall s p,
  let m : message (ag_wire nat_eqType) := Msg None None (Some (A3NB p)) in
  [/\ ag_recv3 SA XA s 1%N m = Reject BadDirect, ag_direct_invalid 3%N (m_direct m) = EvOk tt,
      ag_normal_invalid 3%N (m_normal m) = EvInvalid & ag_echo_invalid 3%N (m_echo m) = EvInvalid].
Proof. by []. Qed.

(** An honest round 3 message of KeyRefresh, and the same with its echoed part
    replaced by that of another round. *)
Example C58_key_refresh_case :
  let m := Msg (m_direct r_sent3_0) (m_echo r_sent2_0) (m_normal r_sent3_0) in
  [/\ kr_recv3 SA g7 leq XR HsR r_state1 0%N r_sent3_0 = Accept r_got0, kr_echo_invalid leq 3%N (m_echo r_sent3_0) = EvInvalid,
      kr_recv3 SA g7 leq XR HsR r_state1 0%N m = Reject BadEcho & kr_echo_invalid leq 3%N (m_echo m) = EvOk tt].
Proof.
split; [evaluates (@Accept (kr_error F7 nat_eqType) _ r_got0)|by []|by []|by []].
Qed.

(** The echoed part of the second error round in place of the first: malformed in
    a self-describing format, well-formed in a positional one. *)
Example C58_signing_case : forall s e,
  let m : message (sg_wire curve7 nat_eqType) := Msg None (Some (S6EB e)) None in
  [/\ sg_recv5 SA XS false s 1%N m = Reject BadEcho, sg_echo_invalid false 5%N (m_echo m) = EvOk tt,
      sg_recv5 SA XS true s 1%N m <> Reject BadEcho & sg_echo_invalid true 5%N (m_echo m) = EvInvalid].
Proof.
move=> s e m; have [_ [h _ _]] := C58_signing SA XS xcoordS true; have {}h := h s 1%N m.
by split=> // hb; have := pr_echo h hb.
Qed.
