(** * Receiving messages, with the serialisation of points made explicit.

    In the other models a hash takes points as they are.  The code feeds a hash
    the serialised form of its input (tools/hashing.rs:86-101), and serialising a
    point can panic ([point_encode]).  Here are the three receiving functions that
    first meet a peer's points, and the matching evidence, with that step.
    Definitions only. *)
From Coq Require Import ZArith.
From Verif Require Import Base EncodingModel SignedModel PaillierModel ZkBase ZkModel.
From mathcomp Require Import all_ssreflect all_algebra.
From Verif Require Import AlgBase ShamirModel ThresholdModel SchModel ProtoBase KeyInitModel AuxGenModel KeyRefreshModel SigningModel.
Set Implicit Arguments.
Unset Strict Implicit.
Unset Printing Implicit Defensive.
Import GRing.Theory.

(** The points in a hashed item, in order. *)
Fixpoint points_of {HO I V : Type} (x : hitem HO I V) : seq V :=
  match x with
  | HPt p => [:: p]
  | HSeq l => flatten [seq points_of y | y <- l]
  | _ => [::]
  end.

Section Serialised.
(** Serialisation of points (curve/arithmetic.rs:300-307). *)
Variables (V0 : Type) (enc : V0 -> outcome (seq Z)).
Definition serialises (ps : seq V0) : bool := all (fun p => if enc p is Ret _ then true else false) ps.
(** tools/hashing.rs:25-27, 86-101: every item is serialised and absorbed. *)
Definition hash_ser {HO I : Type} (H : dst -> seq (hitem HO I V0) -> HO) (d : dst) (l : seq (hitem HO I V0)) : outcome HO :=
  if serialises (flatten [seq points_of x | x <- l]) then Ret (H d l) else Panic.
End Serialised.

Section KeyInitSer.
Variables (F : fieldType) (V : lmodType F) (g : V) (I : eqType) (HO : eqType) (enc : V -> outcome (seq Z)).
Variables (H : dst -> seq (hitem HO I V) -> HO) (scheme : seq (hitem HO I V)).
(** key_init.rs:209-218 *)
Definition ki_hash_ser (d : ki_public V) (sid : HO) (id : I) : outcome HO :=
  hash_ser enc H DKeyInit [:: HOut sid; HId id; HPt (KeyInitModel.kp_x d); HPt (KeyInitModel.kp_a d); HBits (KeyInitModel.kp_rho d); HBits (KeyInitModel.kp_u d)].
(** key_init.rs:427-456 *)
Definition ki_recv2_ser (c : ki_ctx V I HO) (cap_vs : seq (I * HO)) (from : I) (m : message (ki_wire V HO))
    : recv ki_error (V * V * seq bool) :=
  _ <!- assert_none BadDirect (m_direct m) ;;
  nb <!- deser BadNormal (@KeyInitModel.as_2nb _ _ _) (m_normal m) ;;
  rho <!- deser BadEcho (@KeyInitModel.as_2eb _ _ _) (m_echo m) ;;
  cap_v <!- safe_get cap_vs from ;;
  let '(cap_x, cap_a, u) := nb in
  h <!- lift_o (ki_hash_ser (KiPublic cap_x cap_a rho u) (KeyInitModel.kx_sid c) from) ;;
  _ <!- require (h == cap_v) KeyInitModel.R2HashMismatch ;;
  Accept (cap_x, cap_a, rho).
(** key_init.rs:139-194, the first error. *)
Definition ki_evidence2_ser (ids : seq I) (randomness : seq Z) (guilty : I) (ev : evidence I (ki_wire V HO)) : evid unit :=
  let sid := sid_new H scheme randomness ids in
  r1 <%- try_get (ev_previous ev) 1%N ;;
  cap_v <%- ev_deser (@KeyInitModel.as_1eb _ _ _) (m_echo r1) ;;
  nb <%- ev_deser (@KeyInitModel.as_2nb _ _ _) (m_normal (ev_message ev)) ;;
  rho <%- ev_deser (@KeyInitModel.as_2eb _ _ _) (m_echo (ev_message ev)) ;;
  let '(cap_x, cap_a, u) := nb in
  h <%- ev_o (ki_hash_ser (KiPublic cap_x cap_a rho u) sid guilty) ;;
  verify_that (h != cap_v).
End KeyInitSer.

Section KeyRefreshSer.
Variables (S : sparams) (F : fieldType) (V : lmodType F) (g : V) (I : eqType) (le : rel I) (HO : eqType) (enc : V -> outcome (seq Z)).
Variables (H : dst -> seq (hitem HO I V) -> HO) (X : xof (seq (hitem HO I V)) V).
(** key_refresh.rs:454-467 *)
Definition kr_hash_ser (d : kr_public V I) (sid : HO) (id : I) : outcome HO :=
  hash_ser enc H DKeyInit
    [:: HOut sid; HId id; h_map HO (kp_xs d); h_map HO (kp_ys d); h_map HO (kp_as d); HNum (kp_pk d);
        h_rp (curveV g) I HO (kp_rp d); h_prm (curveV g) I HO (kp_psi d); HBits (kp_rid d); HBits (KeyRefreshModel.kp_u d)].
(** key_refresh.rs:738-808 *)
Definition kr_recv2_ser (c : kr_ctx F I HO) (cap_vs : seq (I * HO)) (from : I) (m : message (kr_wire V I HO))
    : recv (kr_error F I) (kr_payload V I) :=
  _ <!- assert_none BadDirect (m_direct m) ;;
  eb <!- deser BadEcho (as_k2eb le (HO:=HO)) (m_echo m) ;;
  nb <!- deser BadNormal (as_k2nb le (HO:=HO)) (m_normal m) ;;
  let '(rpw, ys, rid) := eb in
  let '(xs, cas, pkw, psi, u) := nb in
  pk <!- lift_o (public_key_new pkw) ;;
  rp <!- lift_o (rp_pre rpw) ;;
  let d := KrPublic xs ys cas pk rp psi rid u in
  cap_v <!- safe_get cap_vs from ;;
  h <!- lift_o (kr_hash_ser d (KeyRefreshModel.kx_sid c) from) ;;
  _ <!- require (h == cap_v) (@KrHashMismatch F I) ;;
  _ <!- require (perm_eq (akeys xs) (KeyRefreshModel.kx_ids c)) (@KrWrongIdsX F I) ;;
  _ <!- require (perm_eq (akeys ys) (KeyRefreshModel.kx_ids c)) (@KrWrongIdsY F I) ;;
  _ <!- require (perm_eq (akeys cas) (KeyRefreshModel.kx_ids c)) (@KrWrongIdsA F I) ;;
  _ <!- require (big_enough S pk) (@KrPaillierTooSmall F I) ;;
  _ <!- require (big_enough S (rp_n rp)) (@KrRPTooSmall F I) ;;
  _ <!- require (psum (avals xs) == 0%R) (@KrNonZeroSum F I) ;;
  ok <!- lift_o (@prm_verify S (curveV g) _ X psi rp [:: HOut (KeyRefreshModel.kx_sid c); HId from]) ;;
  _ <!- require ok (@KrPrmFailed F I) ;;
  Accept (KrPayload xs cas ys pk rp rid).
End KeyRefreshSer.

Section SigningSer.
Variables (S : sparams) (C : curve) (I : eqType) (HO : eqType) (enc : pt C -> outcome (seq Z)).
Variables (X : xof (seq (hitem HO I (pt C))) (pt C)).
(** zk/enc_elg.rs:125-190: the assertion, then the challenge is hashed from the
    points of the proof and of the statement, then the rest. *)
Definition enc_elg_verify_ser {A : Type} (X : xof A (pt C)) (pf : enc_elg_proof C) (pub : enc_elg_public C) (setup : rpparams) (aux : A)
    : outcome bool :=
  Base.obind (oassert (Z.eqb (ct_pk (ep_cap_c pub)) (ep_pk0 pub))) (fun _ =>
  if serialises enc [:: ee_y pf; ee_z pf; ep_cap_a pub; ep_cap_b pub; ep_cap_x pub]
  then enc_elg_verify S X pf pub setup aux else Panic).
(** interactive_signing.rs:1207-1263 *)
Definition sg_recv1_ser (c : sg_ctx C I HO) (from : I) (m : message (sg_wire C I)) : recv (sg_error I) (r1pl C) :=
  _ <!- assert_none BadNormal (m_normal m) ;;
  dm <!- deser BadDirect (@as_1dm C I) (m_direct m) ;;
  eb <!- deser BadEcho (@SigningModel.as_1eb C I) (m_echo m) ;;
  mine <!- safe_get (sx_aux c) (sx_id c) ;;
  theirs <!- safe_get (sx_aux c) from ;;
  let pk := theirs.1 in
  ok <!- lift_o (enc_elg_verify_ser X dm.1 (elg0_public pk eb) mine.2 (sg_aux c from)) ;;
  _ <!- require ok (@R1EncElg0Failed I) ;;
  ok' <!- lift_o (enc_elg_verify_ser X dm.2 (elg1_public pk eb) mine.2 (sg_aux c from)) ;;
  _ <!- require ok' (@R1EncElg1Failed I) ;;
  Accept (r1_payload pk eb).
End SigningSer.
