(** * Model of src/protocols/aux_gen.rs.  Definitions only. *)
From Coq Require Import ZArith.
From Verif Require Import Base EncodingModel SignedModel PaillierModel ZkBase ZkModel.
From mathcomp Require Import all_ssreflect.
From Verif Require Import AlgBase ProtoBase.
Set Implicit Arguments.
Unset Strict Implicit.
Unset Printing Implicit Defensive.

(** A panic of the integer layer inside a function returning [Result]. *)
Definition of_o {T} (r : outcome T) : result T :=
  match r with Ret a => Ok a | Panic => Panicked end.

(** ring_pedersen.rs:178-187 on the wire form (the record holds the raw
    values). *)
Definition rp_pre (w : rpparams) : outcome rpparams := rp_to_precomputed (rp_n w) (rp_t w) (rp_s w).

Section AuxGen.
Variables (S : sparams) (C : curve) (I : eqType) (le : rel I) (HO : eqType).
Notation item := (hitem HO I (pt C)).
Notation P := (sp_pail S).
(** The hash, with a fixed-size output and as the source of the challenges;
    [scheme] as in [sid_new]. *)
Variables (H : dst -> seq item -> HO) (X : xof (seq item) (pt C)) (scheme : seq item).

(** aux_gen.rs:282-289 [PublicData] *)
Record ag_public := AgPublic {
  ap_pk : Z;
  ap_rp : rpparams;
  ap_psi : prm_proof;
  ap_rid : seq bool;
  ap_u : seq bool }.

(** [PrmProof] as hashed (prm.rs:61-68, a serialized structure). *)
Definition h_prm (p : prm_proof) : item :=
  HSeq [:: HSeq [seq HNum z | z <- prm_commitment p]; HBits (prm_challenge p); HSeq [seq HNum z | z <- prm_elems p]].
Definition h_rp (r : rpparams) : item := HSeq [:: HNum (rp_n r); HNum (rp_t r); HNum (rp_s r)].

(** aux_gen.rs:291-303 [PublicData::hash] *)
Definition ag_hash (d : ag_public) (sid : HO) (id : I) : HO :=
  H DKeyInit [:: HOut sid; HId id; HNum (ap_pk d); h_rp (ap_rp d); h_prm (ap_psi d); HBits (ap_rid d); HBits (ap_u d)].

(** aux_gen.rs:122-132 *)
Inductive ag_error :=
| AgHashMismatch | AgPaillierTooSmall | AgRPTooSmall | AgPrmFailed | AgModFailed | AgFacFailed (reported_by : I).

(** The message types (402-405, 473-485, 622-631), and undecodable bytes.  A
    Paillier key is its modulus. *)
Inductive ag_wire :=
| A1EB (cap_v : HO)
| A2EB (rid : seq bool) (rp : rpparams)
| A2NB (pk : Z) (psi : prm_proof) (u : seq bool)
| A3NB (psi_prime : mod_proof)
| A3DM (psi : fac_proof)
| AJunk.
Definition as_a1eb (w : ag_wire) : option HO := if w is A1EB h then Some h else None.
Definition as_a2eb (w : ag_wire) : option (seq bool * rpparams) := if w is A2EB r p then Some (r, p) else None.
Definition as_a2nb (w : ag_wire) : option (Z * prm_proof * seq bool) := if w is A2NB k p u then Some (k, p, u) else None.
Definition as_a3nb (w : ag_wire) : option mod_proof := if w is A3NB p then Some p else None.
Definition as_a3dm (w : ag_wire) : option fac_proof := if w is A3DM p then Some p else None.
Notation msg := (message ag_wire).

(** aux_gen.rs:387-394 [Context] *)
Record ag_ctx := AgCtx {
  ax_sk : skey;
  ax_rp : rpparams;
  ax_id : I;
  ax_others : seq I;
  ax_sid : HO }.

(** aux_gen.rs:334-384 [make_round].  [p], [q] are the Paillier primes,
    [rp_p], [rp_q], [lambda], [t] the draws behind the ring-Pedersen parameters,
    [draws] those of the proof. *)
Record ag_rand := AgRand {
  ar_p : Z; ar_q : Z; ar_rp_p : Z; ar_rp_q : Z; ar_lambda : Z; ar_t : Z; ar_draws : seq Z;
  ar_rid : seq bool; ar_u : seq bool }.
Definition ag_start (ids : seq I) (randomness : seq Z) (id : I) (r : ag_rand) : result (ag_ctx * ag_public) :=
  if id \notin ids then LocalErr else
  let sid := sid_new H scheme randomness ids in
  sec <?- of_o (rp_secret_new P (ar_rp_p r) (ar_rp_q r) (ar_lambda r)) ;;
  rp <?- of_o (rp_with_secret sec (ar_t r)) ;;
  psi <?- of_o (prm_new S X sec rp [:: HOut sid; HId id] (ar_draws r)) ;;
  pk <?- of_o (public_key_new (ar_p r * ar_q r)) ;;
  sk <?- of_o (skey_new P (ar_p r) (ar_q r)) ;;
  Ok (AgCtx sk rp id (without ids id) sid, AgPublic pk rp psi (ar_rid r) (ar_u r)).

(** ** Round 1 *)

(** aux_gen.rs:422-431 *)
Definition ag_send1 (c : ag_ctx) (d : ag_public) : msg := Msg None (Some (A1EB (ag_hash d (ax_sid c) (ax_id c)))) None.
(** aux_gen.rs:433-446 *)
Definition ag_recv1 (m : msg) : recv ag_error HO :=
  _ <!- assert_none BadNormal (m_normal m) ;;
  _ <!- assert_none BadDirect (m_direct m) ;;
  deser BadEcho as_a1eb (m_echo m).

(** ** Round 2 *)

(** aux_gen.rs:504-527 *)
Definition ag_send2 (d : ag_public) : msg :=
  Msg None (Some (A2EB (ap_rid d) (ap_rp d))) (Some (A2NB (ap_pk d) (ap_psi d) (ap_u d))).

(** The size demanded of a received modulus (aux_gen.rs:555, 559). *)
Definition big_enough (N : Z) : bool := negb (bits N <? modulus_bits P - 2)%Z.

(** aux_gen.rs:486-491 [Round2Payload] *)
Record ag_payload := AgPayload { al_pk : Z; al_rp : rpparams; al_rid : seq bool }.
(** aux_gen.rs:529-575 *)
Definition ag_recv2 (c : ag_ctx) (cap_vs : seq (I * HO)) (from : I) (m : msg) : recv ag_error ag_payload :=
  _ <!- assert_none BadDirect (m_direct m) ;;
  eb <!- deser BadEcho as_a2eb (m_echo m) ;;
  nb <!- deser BadNormal as_a2nb (m_normal m) ;;
  let '(rid, rpw) := eb in
  let '(pkw, psi, u) := nb in
  pk <!- lift_o (public_key_new pkw) ;;
  rp <!- lift_o (rp_pre rpw) ;;
  let d := AgPublic pk rp psi rid u in
  cap_v <!- safe_get cap_vs from ;;
  _ <!- require (ag_hash d (ax_sid c) from == cap_v) AgHashMismatch ;;
  _ <!- require (big_enough pk) AgPaillierTooSmall ;;
  _ <!- require (big_enough (rp_n rp)) AgRPTooSmall ;;
  ok <!- lift_o (prm_verify S X psi rp [:: HOut (ax_sid c); HId from]) ;;
  _ <!- require ok AgPrmFailed ;;
  Accept (AgPayload pk rp rid).

(** The context of the round 3 proofs (aux_gen.rs:591, 662, 689). *)
Definition ag_aux (sid : HO) (id : I) (rid : seq bool) : seq item := [:: HOut sid; HId id; HBits rid].

(** aux_gen.rs:613-619 [Round3] *)
Record ag_round3 := AgRound3 {
  a3_ctx : ag_ctx;
  a3_rid : seq bool;
  a3_payloads : seq (I * ag_payload);
  a3_psi_prime : mod_proof }.
(** aux_gen.rs:577-610; [com] is the non-square drawn by [ModProof::new]. *)
Definition ag_finalize2 (c : ag_ctx) (d : ag_public) (com : Z) (payloads : seq (I * ag_payload)) : outcome ag_round3 :=
  rid <~ xor_all (ap_rid d) [seq al_rid p.2 | p <- payloads] ;;
  psi' <~ mod_new S X (ax_sk c) (ag_aux (ax_sid c) (ax_id c) rid) com ;;
  Ret (AgRound3 c rid (binsert le payloads (ax_id c) (AgPayload (ap_pk d) (ap_rp d) (ap_rid d))) psi').

(** ** Round 3 *)

(** aux_gen.rs:644-671: to each destination its own message. *)
Definition ag_send3 (s : ag_round3) (rnd : fac_rand) (dest : I) : recv ag_error msg :=
  let c := a3_ctx s in
  pl <!- safe_get (a3_payloads s) dest ;;
  psi <!- lift_o (fac_new S X (ax_sk c) (al_rp pl) (ag_aux (ax_sid c) (ax_id c) (a3_rid s)) rnd) ;;
  Accept (Msg (Some (A3DM psi)) None (Some (A3NB (a3_psi_prime s)))).
(** aux_gen.rs:673-707 *)
Definition ag_recv3 (s : ag_round3) (from : I) (m : msg) : recv ag_error unit :=
  _ <!- assert_none BadEcho (m_echo m) ;;
  psi' <!- deser BadNormal as_a3nb (m_normal m) ;;
  psi <!- deser BadDirect as_a3dm (m_direct m) ;;
  let c := a3_ctx s in
  pl <!- safe_get (a3_payloads s) from ;;
  let aux := ag_aux (ax_sid c) from (a3_rid s) in
  ok <!- lift_o (mod_verify S X psi' (al_pk pl) aux) ;;
  _ <!- require ok AgModFailed ;;
  ok' <!- lift_o (fac_verify S X psi (al_pk pl) (ax_rp c) aux) ;;
  require ok' (AgFacFailed (ax_id c)).

(** entities/full.rs [AuxInfo]: owner, own Paillier key, and for every party its
    Paillier modulus and ring-Pedersen parameters. *)
Record aux_info := AuxInfo {
  ai_owner : I;
  ai_sk : skey;
  ai_public : seq (I * (Z * rpparams)) }.
(** aux_gen.rs:709-733 *)
Definition ag_finalize3 (s : ag_round3) : aux_info :=
  AuxInfo (ax_id (a3_ctx s)) (ax_sk (a3_ctx s)) [seq (p.1, (al_pk p.2, al_rp p.2)) | p <- a3_payloads s].

(** ** One party's run against arbitrary messages *)
Definition ag_until3 (c : ag_ctx) (d : ag_public) (com : Z) (m1 m2 : I -> msg) (o1 o2 : seq I) : recv ag_error ag_round3 :=
  cap_vs <!- round_payloads le (fun i => ag_recv1 (m1 i)) o1 ;;
  payloads <!- round_payloads le (fun i => ag_recv2 c cap_vs i (m2 i)) o2 ;;
  lift_o (ag_finalize2 c d com payloads).
Definition ag_run (c : ag_ctx) (d : ag_public) (com : Z) (m1 m2 m3 : I -> msg) (o1 o2 o3 : seq I) : recv ag_error aux_info :=
  s <!- ag_until3 c d com m1 m2 o1 o2 ;;
  _ <!- round_payloads le (fun i => ag_recv3 s i (m3 i)) o3 ;;
  Accept (ag_finalize3 s).

(** ** Evidence *)

(** aux_gen.rs:164-191 *)
Definition ag_required (e : ag_error) : required :=
  match e with
  | AgHashMismatch => Required (Parts false true true) [:: (1%N, Parts false true false)] [::]
  | AgPaillierTooSmall => Required (Parts false false true) [::] [::]
  | AgRPTooSmall => Required (Parts false true false) [::] [::]
  | AgPrmFailed => Required (Parts false true true) [::] [::]
  | AgModFailed => Required (Parts false false true) [:: (2%N, Parts false true true)] [:: 2%N]
  | AgFacFailed _ => Required (Parts true false false) [:: (2%N, Parts false true true)] [:: 2%N]
  end.

(** aux_gen.rs:134-152 [reconstruct_rid] *)
Definition ag_reconstruct_rid (ev : evidence I ag_wire) : evid (seq bool) :=
  es <%- try_get (ev_echos ev) 2%N ;;
  ebs <%- ev_all as_a2eb es ;;
  r2 <%- try_get (ev_previous ev) 2%N ;;
  eb <%- ev_deser as_a2eb (m_echo r2) ;;
  ev_o (xor_all eb.1 [seq p.2.1 | p <- ebs]).

(** aux_gen.rs:193-279 *)
Definition ag_evidence (ids : seq I) (randomness : seq Z) (guilty : I) (e : ag_error) (ev : evidence I ag_wire) : evid unit :=
  let sid := sid_new H scheme randomness ids in
  match e with
  | AgHashMismatch =>
      r1 <%- try_get (ev_previous ev) 1%N ;;
      cap_v <%- ev_deser as_a1eb (m_echo r1) ;;
      nb <%- ev_deser as_a2nb (m_normal (ev_message ev)) ;;
      eb <%- ev_deser as_a2eb (m_echo (ev_message ev)) ;;
      let '(pkw, psi, u) := nb in
      pk <%- ev_o (public_key_new pkw) ;;
      rp <%- ev_o (rp_pre eb.2) ;;
      verify_that (ag_hash (AgPublic pk rp psi eb.1 u) sid guilty != cap_v)
  | AgPaillierTooSmall =>
      nb <%- ev_deser as_a2nb (m_normal (ev_message ev)) ;;
      verify_that (bits nb.1.1 <? modulus_bits P - 2)%Z
  | AgRPTooSmall =>
      eb <%- ev_deser as_a2eb (m_echo (ev_message ev)) ;;
      verify_that (bits (rp_n eb.2) <? modulus_bits P - 2)%Z
  | AgPrmFailed =>
      eb <%- ev_deser as_a2eb (m_echo (ev_message ev)) ;;
      nb <%- ev_deser as_a2nb (m_normal (ev_message ev)) ;;
      rp <%- ev_o (rp_pre eb.2) ;;
      ok <%- ev_o (prm_verify S X nb.1.2 rp [:: HOut sid; HId guilty]) ;;
      verify_that (~~ ok)
  | AgModFailed =>
      rid <%- ag_reconstruct_rid ev ;;
      r2 <%- try_get (ev_previous ev) 2%N ;;
      nb <%- ev_deser as_a2nb (m_normal r2) ;;
      psi' <%- ev_deser as_a3nb (m_normal (ev_message ev)) ;;
      pk <%- ev_o (public_key_new nb.1.1) ;;
      ok <%- ev_o (mod_verify S X psi' pk (ag_aux sid guilty rid)) ;;
      verify_that (~~ ok)
  | AgFacFailed reported_by =>
      rid <%- ag_reconstruct_rid ev ;;
      es <%- try_get (ev_echos ev) 2%N ;;
      w <%- try_get es reported_by ;;
      eb <%- ev_deser as_a2eb (Some w) ;;
      r2 <%- try_get (ev_previous ev) 2%N ;;
      nb <%- ev_deser as_a2nb (m_normal r2) ;;
      psi <%- ev_deser as_a3dm (m_direct (ev_message ev)) ;;
      pk <%- ev_o (public_key_new nb.1.1) ;;
      rp <%- ev_o (rp_pre eb.2) ;;
      ok <%- ev_o (fac_verify S X psi pk rp (ag_aux sid guilty rid)) ;;
      verify_that (~~ ok)
  end.

(** ** Malformed parts (aux_gen.rs:43-85) *)
Definition ag_direct_invalid (round : nat) (p : option ag_wire) : evid unit :=
  match round with
  | 1 | 2 => verify_is_some p
  | 3 => verify_is_not as_a3dm p
  | _ => EvInvalid
  end%N.
Definition ag_echo_invalid (round : nat) (p : option ag_wire) : evid unit :=
  match round with
  | 1 => verify_is_not as_a1eb p
  | 2 => verify_is_not as_a2eb p
  | 3 => verify_is_some p
  | _ => EvInvalid
  end%N.
Definition ag_normal_invalid (round : nat) (p : option ag_wire) : evid unit :=
  match round with
  | 1 => verify_is_some p
  | 2 => verify_is_not as_a2nb p
  | 3 => verify_is_not as_a3nb p
  | _ => EvInvalid
  end%N.

End AuxGen.
Arguments AgHashMismatch {I}. Arguments AgPaillierTooSmall {I}. Arguments AgRPTooSmall {I}.
Arguments AgPrmFailed {I}. Arguments AgModFailed {I}.
Arguments A1EB {HO}. Arguments A2EB {HO}. Arguments A2NB {HO}. Arguments A3NB {HO}. Arguments A3DM {HO}. Arguments AJunk {HO}.
