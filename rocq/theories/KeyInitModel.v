(** * Model of src/protocols/key_init.rs.  Definitions only. *)
From Coq Require Import ZArith.
From Verif Require Import Base EncodingModel.
From mathcomp Require Import all_ssreflect all_algebra.
From Verif Require Import AlgBase ThresholdModel ZkBase SchModel ProtoBase.
Set Implicit Arguments.
Unset Strict Implicit.
Unset Printing Implicit Defensive.
Import GRing.Theory.
Local Open Scope ring_scope.

Section KeyInit.
Variables (F : fieldType) (V : lmodType F) (g : V) (I : eqType) (le : rel I) (HO : eqType).
Notation item := (hitem HO I V).
(** The hash, once with a fixed-size output (tools/hashing.rs:64-69) and once
    as the source of the Schnorr challenges; [scheme] as in [sid_new]. *)
Variables (H : dst -> seq item -> HO) (X : xof (seq item) V) (scheme : seq item).

(** key_init.rs:197-203 [PublicData] *)
Record ki_public := KiPublic {
  kp_x : V;
  kp_a : V;
  kp_rho : seq bool;
  kp_u : seq bool }.

(** key_init.rs:209-218 [PublicData::hash] *)
Definition ki_hash (d : ki_public) (sid : HO) (id : I) : HO :=
  H DKeyInit [:: HOut sid; HId id; HPt (kp_x d); HPt (kp_a d); HBits (kp_rho d); HBits (kp_u d)].

(** key_init.rs:106-112 *)
Inductive ki_error := R2HashMismatch | R3InvalidSchProof.

(** The message types (300-303, 369-372, 375-380, 494-497), and undecodable bytes. *)
Inductive ki_wire :=
| W1EB (cap_v : HO)
| W2EB (rho : seq bool)
| W2NB (cap_x : V) (cap_a : V) (u : seq bool)
| W3NB (psi : sch_proof F)
| WJunk.
Definition as_1eb (w : ki_wire) : option HO := if w is W1EB h then Some h else None.
Definition as_2eb (w : ki_wire) : option (seq bool) := if w is W2EB r then Some r else None.
Definition as_2nb (w : ki_wire) : option (V * V * seq bool) := if w is W2NB x a u then Some (x, a, u) else None.
Definition as_3nb (w : ki_wire) : option (sch_proof F) := if w is W3NB p then Some p else None.
Notation msg := (message ki_wire).

(** key_init.rs:285-293 [Context] *)
Record ki_ctx := KiCtx {
  kx_others : seq I;
  kx_id : I;
  kx_x : F;
  kx_tau : F;
  kx_public : ki_public;
  kx_sid : HO }.

(** key_init.rs:246-282 [make_round]; the random values are arguments. *)
Definition ki_start (ids : seq I) (randomness : seq Z) (id : I) (x tau : F) (rho u : seq bool) : result ki_ctx :=
  if id \notin ids then LocalErr else
  Ok (KiCtx (without ids id) id x tau (KiPublic (x *: g) (sch_commitment g tau) rho u)
        (sid_new H scheme randomness ids)).

(** ** Round 1 *)

(** key_init.rs:324-331 *)
Definition ki_send1 (c : ki_ctx) : msg := Msg None (Some (W1EB (ki_hash (kx_public c) (kx_sid c) (kx_id c)))) None.
(** key_init.rs:333-345 *)
Definition ki_recv1 (m : msg) : recv ki_error HO :=
  _ <!- assert_none BadNormal (m_normal m) ;;
  _ <!- assert_none BadDirect (m_direct m) ;;
  deser BadEcho as_1eb (m_echo m).

(** ** Round 2 (its state is the context and the map of commitments, 363-367) *)

(** key_init.rs:399-425 *)
Definition ki_send2 (c : ki_ctx) : msg :=
  Msg None (Some (W2EB (kp_rho (kx_public c))))
    (Some (W2NB (kp_x (kx_public c)) (kp_a (kx_public c)) (kp_u (kx_public c)))).
(** key_init.rs:427-456 *)
Definition ki_recv2 (c : ki_ctx) (cap_vs : seq (I * HO)) (from : I) (m : msg) : recv ki_error (V * V * seq bool) :=
  _ <!- assert_none BadDirect (m_direct m) ;;
  nb <!- deser BadNormal as_2nb (m_normal m) ;;
  rho <!- deser BadEcho as_2eb (m_echo m) ;;
  cap_v <!- safe_get cap_vs from ;;
  let '(cap_x, cap_a, u) := nb in
  _ <!- require (ki_hash (KiPublic cap_x cap_a rho u) (kx_sid c) from == cap_v) R2HashMismatch ;;
  Accept (cap_x, cap_a, rho).

(** key_init.rs:485-491 [Round3] *)
Record ki_round3 := KiRound3 {
  k3_ctx : ki_ctx;
  k3_xs : seq (I * V);
  k3_as : seq (I * V);
  k3_rho : seq bool }.
(** key_init.rs:458-482 *)
Definition ki_finalize2 (c : ki_ctx) (payloads : seq (I * (V * V * seq bool))) : outcome ki_round3 :=
  match xor_all (kp_rho (kx_public c)) [seq p.2.2 | p <- payloads] with
  | Panic => Panic
  | Ret rho =>
      Ret (KiRound3 c [seq (p.1, p.2.1.1) | p <- payloads] [seq (p.1, p.2.1.2) | p <- payloads] rho)
  end.

(** ** Round 3 *)

(** key_init.rs:510-524 *)
Definition ki_aux (sid : HO) (id : I) (rho : seq bool) : seq item := [:: HOut sid; HId id; HBits rho].
Definition ki_send3 (s : ki_round3) : msg :=
  let c := k3_ctx s in
  let psi := sch_new X (kx_tau c) (kx_x c) (kp_a (kx_public c)) (kp_x (kx_public c))
               (ki_aux (kx_sid c) (kx_id c) (k3_rho s)) in
  Msg None None (Some (W3NB psi)).
(** key_init.rs:526-546 *)
Definition ki_recv3 (s : ki_round3) (from : I) (m : msg) : recv ki_error unit :=
  _ <!- assert_none BadEcho (m_echo m) ;;
  _ <!- assert_none BadDirect (m_direct m) ;;
  psi <!- deser BadNormal as_3nb (m_normal m) ;;
  cap_a <!- safe_get (k3_as s) from ;;
  cap_x <!- safe_get (k3_xs s) from ;;
  require (sch_verify g X psi cap_a cap_x (ki_aux (kx_sid (k3_ctx s)) from (k3_rho s))) R3InvalidSchProof.
(** key_init.rs:548-564 *)
Definition ki_finalize3 (s : ki_round3) : result (kshare V I) :=
  let c := k3_ctx s in
  ks_new (kx_id c) (kx_x c) (binsert le (k3_xs s) (kx_id c) (kp_x (kx_public c))).

(** ** One party's run against arbitrary messages *)

(** [m1], [m2], [m3] are what arrives from each peer in each round, [o1], [o2],
    [o3] the delivery orders. *)
Definition ki_until3 (c : ki_ctx) (m1 m2 : I -> msg) (o1 o2 : seq I) : recv ki_error ki_round3 :=
  cap_vs <!- round_payloads le (fun i => ki_recv1 (m1 i)) o1 ;;
  payloads <!- round_payloads le (fun i => ki_recv2 c cap_vs i (m2 i)) o2 ;;
  lift_o (ki_finalize2 c payloads).
Definition ki_run (c : ki_ctx) (m1 m2 m3 : I -> msg) (o1 o2 o3 : seq I) : recv ki_error (kshare V I) :=
  s <!- ki_until3 c m1 m2 o1 o2 ;;
  _ <!- round_payloads le (fun i => ki_recv3 s i (m3 i)) o3 ;;
  lift (ki_finalize3 s).

(** ** Evidence *)

(** key_init.rs:124-137 *)
Definition ki_required (e : ki_error) : required :=
  match e with
  | R2HashMismatch => Required (Parts false true true) [:: (1%N, Parts false true false)] [::]
  | R3InvalidSchProof => Required (Parts false false true) [:: (2, Parts false true true)]%N [:: 2%N]
  end.

(** key_init.rs:139-194 *)
Definition ki_evidence (ids : seq I) (randomness : seq Z) (guilty : I) (e : ki_error) (ev : evidence I ki_wire) : evid unit :=
  let sid := sid_new H scheme randomness ids in
  match e with
  | R2HashMismatch =>
      r1 <%- try_get (ev_previous ev) 1%N ;;
      cap_v <%- ev_deser as_1eb (m_echo r1) ;;
      nb <%- ev_deser as_2nb (m_normal (ev_message ev)) ;;
      rho <%- ev_deser as_2eb (m_echo (ev_message ev)) ;;
      let '(cap_x, cap_a, u) := nb in
      verify_that (ki_hash (KiPublic cap_x cap_a rho u) sid guilty != cap_v)
  | R3InvalidSchProof =>
      es <%- try_get (ev_echos ev) 2%N ;;
      ebs <%- ev_all as_2eb es ;;
      r2 <%- try_get (ev_previous ev) 2%N ;;
      nb <%- ev_deser as_2nb (m_normal r2) ;;
      eb <%- ev_deser as_2eb (m_echo r2) ;;
      psi <%- ev_deser as_3nb (m_normal (ev_message ev)) ;;
      rho <%- ev_o (xor_all eb (avals ebs)) ;;
      let '(cap_x, cap_a, u) := nb in
      verify_that (~~ sch_verify g X psi cap_a cap_x (ki_aux sid guilty rho))
  end.

(** ** Malformed parts (key_init.rs:40-82) *)

Definition ki_direct_invalid (round : nat) (p : option ki_wire) : evid unit :=
  match round with 1 | 2 | 3 => verify_is_some p | _ => EvInvalid end%N.
Definition ki_echo_invalid (round : nat) (p : option ki_wire) : evid unit :=
  match round with
  | 1 => verify_is_not as_1eb p
  | 2 => verify_is_not as_2eb p
  | 3 => verify_is_some p
  | _ => EvInvalid
  end%N.
Definition ki_normal_invalid (round : nat) (p : option ki_wire) : evid unit :=
  match round with
  | 1 => verify_is_some p
  | 2 => verify_is_not as_2nb p
  | 3 => verify_is_not as_3nb p
  | _ => EvInvalid
  end%N.

End KeyInit.
