(** * Model of src/protocols/key_refresh.rs.  Definitions only. *)
From Coq Require Import ZArith.
From Verif Require Import Base EncodingModel SignedModel PaillierModel ZkBase ZkModel.
From mathcomp Require Import all_ssreflect all_algebra.
From Verif Require Import AlgBase ShamirModel ThresholdModel SchModel ProtoBase AuxGenModel.
Set Implicit Arguments.
Unset Strict Implicit.
Unset Printing Implicit Defensive.
Import GRing.Theory.
Local Open Scope ring_scope.

(** The curve group of the algebraic layer as the proofs about integers take it
    (they only use the type of points). *)
Definition curveV (F : fieldType) (V : lmodType F) (g : V) : curve :=
  @Curve V 0 (fun a b => a + b) (fun a => - a) (fun z P => zf z *: P) (fun a b => a == b) g.

Section KeyRefresh.
Variables (S : sparams) (F : fieldType) (V : lmodType F) (g : V) (I : eqType) (le : rel I) (HO : eqType).
Notation item := (hitem HO I V).
Notation P := (sp_pail S).
(** The hash: with a fixed-size output, as the source of the challenges, and as
    the source of one scalar; [scheme] as in [sid_new]. *)
Variables (H : dst -> seq item -> HO) (X : xof (seq item) V) (Hs : dst -> seq item -> F) (scheme : seq item).
Notation prm_ok := (@prm_verify S (curveV g) (seq item) X).
Notation mod_ok := (@mod_verify S (curveV g) (seq item) X).
Notation fac_ok := (@fac_verify S (curveV g) (seq item) X).

(** key_refresh.rs:441-451 [PublicData] *)
Record kr_public := KrPublic {
  kp_xs : seq (I * V);
  kp_ys : seq (I * V);
  kp_as : seq (I * V);
  kp_pk : Z;
  kp_rp : rpparams;
  kp_psi : prm_proof;
  kp_rid : seq bool;
  kp_u : seq bool }.

(** A map from ids to points as hashed. *)
Definition h_map (m : seq (I * V)) : item := HSeq [seq HSeq [:: HId p.1; HPt p.2] | p <- m].

(** key_refresh.rs:454-467 [PublicData::hash] *)
Definition kr_hash (d : kr_public) (sid : HO) (id : I) : HO :=
  H DKeyInit [:: HOut sid; HId id; h_map (kp_xs d); h_map (kp_ys d); h_map (kp_as d); HNum (kp_pk d);
                 h_rp (curveV g) I HO (kp_rp d); h_prm (curveV g) I HO (kp_psi d); HBits (kp_rid d); HBits (kp_u d)].

(** key_refresh.rs:147-180 *)
Inductive kr_error :=
| KrHashMismatch | KrWrongIdsX | KrWrongIdsY | KrWrongIdsA | KrPaillierTooSmall | KrRPTooSmall
| KrNonZeroSum | KrPrmFailed
| KrShareMismatch (reported_by : I) (y : F) | KrModFailed | KrFacFailed (reported_by : I)
| KrWrongIdsHatPsi | KrSchFailed (failed_for : I).

(** The message types (601-604, 672-688, 870-886), and undecodable bytes. *)
Inductive kr_wire :=
| K1EB (cap_v : HO)
| K2EB (rp : rpparams) (cap_ys : seq (I * V)) (rid : seq bool)
| K2NB (cap_xs cap_as : seq (I * V)) (pk : Z) (psi : prm_proof) (u : seq bool)
| K3EB (hat_psis : seq (I * sch_proof F))
| K3NB (psi_prime : mod_proof)
| K3DM (psi : fac_proof) (cap_c : F)
| KJunk.
(** A decoded map is a [BTreeMap]: one entry per key, in key order. *)
Definition dmap {A} (m : seq (I * A)) : seq (I * A) := btree le (acollect m).
Definition as_k1eb (w : kr_wire) : option HO := if w is K1EB h then Some h else None.
Definition as_k2eb (w : kr_wire) : option (rpparams * seq (I * V) * seq bool) :=
  if w is K2EB p ys r then Some (p, dmap ys, r) else None.
Definition as_k2nb (w : kr_wire) : option (seq (I * V) * seq (I * V) * Z * prm_proof * seq bool) :=
  if w is K2NB xs cs k p u then Some (dmap xs, dmap cs, k, p, u) else None.
Definition as_k3eb (w : kr_wire) : option (seq (I * sch_proof F)) := if w is K3EB m then Some (dmap m) else None.
Definition as_k3nb (w : kr_wire) : option mod_proof := if w is K3NB p then Some p else None.
Definition as_k3dm (w : kr_wire) : option (fac_proof * F) := if w is K3DM p c then Some (p, c) else None.
Notation msg := (message kr_wire).

(** key_refresh.rs:582-593 [Context] *)
Record kr_ctx := KrCtx {
  kx_sk : skey;
  kx_rp : rpparams;
  kx_xs : seq (I * F);
  kx_ys : seq (I * F);
  kx_taus : seq (I * F);
  kx_id : I;
  kx_others : seq I;
  kx_ids : seq I;
  kx_sid : HO }.

(** key_refresh.rs:495-579 [make_round].  [r] are the draws shared with
    aux_gen.rs; [y], [tau] one scalar per party; [split] those of
    [secret_split]. *)
Definition kr_start (ids : seq I) (randomness : seq Z) (id : I) (r : ag_rand) (y tau : I -> F) (split : nat -> F)
    : result (kr_ctx * kr_public) :=
  if id \notin ids then LocalErr else
  let sid := sid_new H scheme randomness ids in
  sec <?- of_o (rp_secret_new P (ar_rp_p r) (ar_rp_q r) (ar_lambda r)) ;;
  rp <?- of_o (rp_with_secret sec (ar_t r)) ;;
  psi <?- of_o (@prm_new S (curveV g) (seq item) X sec rp [:: HOut sid; HId id] (ar_draws r)) ;;
  let ys := [seq (j, y j) | j <- ids] in
  parts <?- secret_split 0 (size ids) split ;;
  let xs := zip ids parts in
  let taus := [seq (j, tau j) | j <- ids] in
  pk <?- of_o (public_key_new (ar_p r * ar_q r)) ;;
  sk <?- of_o (skey_new P (ar_p r) (ar_q r)) ;;
  let pub := [seq (p.1, p.2 *: g) | p <- xs] in
  Ok (KrCtx sk rp xs ys taus id (without ids id) ids sid,
      KrPublic pub [seq (p.1, p.2 *: g) | p <- ys] [seq (p.1, sch_commitment g p.2) | p <- taus] pk rp psi
        (ar_rid r) (ar_u r)).

(** ** Round 1 *)

(** key_refresh.rs:621-630 *)
Definition kr_send1 (c : kr_ctx) (d : kr_public) : msg := Msg None (Some (K1EB (kr_hash d (kx_sid c) (kx_id c)))) None.
(** key_refresh.rs:632-645 *)
Definition kr_recv1 (m : msg) : recv kr_error HO :=
  _ <!- assert_none BadNormal (m_normal m) ;;
  _ <!- assert_none BadDirect (m_direct m) ;;
  deser BadEcho as_k1eb (m_echo m).

(** ** Round 2 *)

(** key_refresh.rs:710-736 *)
Definition kr_send2 (d : kr_public) : msg :=
  Msg None (Some (K2EB (kp_rp d) (kp_ys d) (kp_rid d))) (Some (K2NB (kp_xs d) (kp_as d) (kp_pk d) (kp_psi d) (kp_u d))).

(** key_refresh.rs:689-697 [Round2Payload] *)
Record kr_payload := KrPayload {
  kl_xs : seq (I * V); kl_as : seq (I * V); kl_ys : seq (I * V); kl_pk : Z; kl_rp : rpparams; kl_rid : seq bool }.
(** key_refresh.rs:738-808; sets of ids are compared as sets. *)
Definition kr_recv2 (c : kr_ctx) (cap_vs : seq (I * HO)) (from : I) (m : msg) : recv kr_error kr_payload :=
  _ <!- assert_none BadDirect (m_direct m) ;;
  eb <!- deser BadEcho as_k2eb (m_echo m) ;;
  nb <!- deser BadNormal as_k2nb (m_normal m) ;;
  let '(rpw, ys, rid) := eb in
  let '(xs, cas, pkw, psi, u) := nb in
  pk <!- lift_o (public_key_new pkw) ;;
  rp <!- lift_o (rp_pre rpw) ;;
  let d := KrPublic xs ys cas pk rp psi rid u in
  cap_v <!- safe_get cap_vs from ;;
  _ <!- require (kr_hash d (kx_sid c) from == cap_v) KrHashMismatch ;;
  _ <!- require (perm_eq (akeys xs) (kx_ids c)) KrWrongIdsX ;;
  _ <!- require (perm_eq (akeys ys) (kx_ids c)) KrWrongIdsY ;;
  _ <!- require (perm_eq (akeys cas) (kx_ids c)) KrWrongIdsA ;;
  _ <!- require (big_enough S pk) KrPaillierTooSmall ;;
  _ <!- require (big_enough S (rp_n rp)) KrRPTooSmall ;;
  _ <!- require (psum (avals xs) == 0) KrNonZeroSum ;;
  ok <!- lift_o (prm_ok psi rp [:: HOut (kx_sid c); HId from]) ;;
  _ <!- require ok KrPrmFailed ;;
  Accept (KrPayload xs cas ys pk rp rid).

(** The context of the round 3 proofs (key_refresh.rs:824, 932, 994). *)
Definition kr_aux (sid : HO) (id : I) (rid : seq bool) : seq item := [:: HOut sid; HId id; HBits rid].

(** key_refresh.rs:860-867 [Round3] *)
Record kr_round3 := KrRound3 {
  k3_ctx : kr_ctx;
  k3_rid : seq bool;
  k3_payloads : seq (I * kr_payload);
  k3_psi_prime : mod_proof;
  k3_hat_psis : seq (I * sch_proof F) }.
(** key_refresh.rs:810-857; [com] is the non-square drawn by [ModProof::new]. *)
Definition kr_finalize2 (c : kr_ctx) (d : kr_public) (com : Z) (payloads : seq (I * kr_payload)) : result kr_round3 :=
  rid <?- of_o (xor_all (kp_rid d) [seq kl_rid p.2 | p <- payloads]) ;;
  let aux := kr_aux (kx_sid c) (kx_id c) rid in
  psi' <?- of_o (@mod_new S (curveV g) (seq item) X (kx_sk c) aux com) ;;
  hat_psis <?- mapR (fun id =>
    x <?- ok_or (aget (kx_xs c) id) ;;
    tau <?- ok_or (aget (kx_taus c) id) ;;
    cap_a <?- ok_or (aget (kp_as d) id) ;;
    cap_x <?- ok_or (aget (kp_xs d) id) ;;
    Ok (id, sch_new X tau x cap_a cap_x aux)) (kx_ids c) ;;
  Ok (KrRound3 c rid
        (binsert le payloads (kx_id c) (KrPayload (kp_xs d) (kp_as d) (kp_ys d) (kp_pk d) (kp_rp d) (kp_rid d)))
        psi' hat_psis).

(** ** Round 3 *)

(** The mask of a secret share change (key_refresh.rs:940-946, 974-980). *)
Definition kr_mask (sid : HO) (rid : seq bool) (sender : I) (dh : V) : F :=
  Hs DRefresh3 [:: HOut sid; HBits rid; HId sender; HPt dh].

(** key_refresh.rs:903-953: to each destination its own direct message. *)
Definition kr_send3 (s : kr_round3) (rnd : fac_rand) (dest : I) : recv kr_error msg :=
  let c := k3_ctx s in
  pl <!- safe_get (k3_payloads s) dest ;;
  psi <!- lift_o (@fac_new S (curveV g) (seq item) X (kx_sk c) (kl_rp pl) (kr_aux (kx_sid c) (kx_id c) (k3_rid s)) rnd) ;;
  cap_y <!- safe_get (kl_ys pl) (kx_id c) ;;
  y <!- safe_get (kx_ys c) dest ;;
  x <!- safe_get (kx_xs c) dest ;;
  let rho := kr_mask (kx_sid c) (k3_rid s) (kx_id c) (y *: cap_y) in
  Accept (Msg (Some (K3DM psi (x + rho))) (Some (K3EB (k3_hat_psis s))) (Some (K3NB (k3_psi_prime s)))).

(** key_refresh.rs:1015-1023: the Schnorr proofs in key order. *)
Fixpoint kr_check_sch (pl : kr_payload) (aux : seq item) (l : seq (I * sch_proof F)) : recv kr_error unit :=
  if l is (id, pf) :: l' then
    cap_a <!- safe_get (kl_as pl) id ;;
    cap_x <!- safe_get (kl_xs pl) id ;;
    _ <!- require (sch_verify g X pf cap_a cap_x aux) (KrSchFailed id) ;;
    kr_check_sch pl aux l'
  else Accept tt.

(** key_refresh.rs:955-1026 *)
Definition kr_recv3 (s : kr_round3) (from : I) (m : msg) : recv kr_error F :=
  hat_psis <!- deser BadEcho as_k3eb (m_echo m) ;;
  psi' <!- deser BadNormal as_k3nb (m_normal m) ;;
  dm <!- deser BadDirect as_k3dm (m_direct m) ;;
  let c := k3_ctx s in
  pl <!- safe_get (k3_payloads s) from ;;
  cap_y <!- safe_get (kl_ys pl) (kx_id c) ;;
  y <!- safe_get (kx_ys c) from ;;
  let rho := kr_mask (kx_sid c) (k3_rid s) from (y *: cap_y) in
  let x := dm.2 - rho in
  my_cap_x <!- safe_get (kl_xs pl) (kx_id c) ;;
  _ <!- require (x *: g == my_cap_x) (KrShareMismatch (kx_id c) y) ;;
  let aux := kr_aux (kx_sid c) from (k3_rid s) in
  ok <!- lift_o (mod_ok psi' (kl_pk pl) aux) ;;
  _ <!- require ok KrModFailed ;;
  ok' <!- lift_o (fac_ok dm.1 (kl_pk pl) (kx_rp c) aux) ;;
  _ <!- require ok' (KrFacFailed (kx_id c)) ;;
  _ <!- require (perm_eq (akeys hat_psis) (kx_ids c)) KrWrongIdsHatPsi ;;
  _ <!- kr_check_sch pl aux hat_psis ;;
  Accept x.

(** key_refresh.rs:1028-1081 *)
Definition kr_finalize3 (s : kr_round3) (payloads : seq (I * F)) : result (kchange V I * aux_info I) :=
  let c := k3_ctx s in
  my_x <?- ok_or (aget (kx_xs c) (kx_id c)) ;;
  let x_star := foldl (fun a b => a + b) 0 (avals payloads) + my_x in
  cap_x_star <?- mapR (fun k =>
    parts <?- mapR (fun p : I * kr_payload => ok_or (aget (kl_xs p.2) k)) (k3_payloads s) ;;
    Ok (k, psum parts)) (kx_ids c) ;;
  Ok (KChange (kx_id c) x_star cap_x_star,
      AuxInfo (kx_id c) (kx_sk c) [seq (p.1, (kl_pk p.2, kl_rp p.2)) | p <- k3_payloads s]).

(** ** One party's run against arbitrary messages *)
Definition kr_until3 (c : kr_ctx) (d : kr_public) (com : Z) (m1 m2 : I -> msg) (o1 o2 : seq I) : recv kr_error kr_round3 :=
  cap_vs <!- round_payloads le (fun i => kr_recv1 (m1 i)) o1 ;;
  payloads <!- round_payloads le (fun i => kr_recv2 c cap_vs i (m2 i)) o2 ;;
  lift (kr_finalize2 c d com payloads).
Definition kr_run (c : kr_ctx) (d : kr_public) (com : Z) (m1 m2 m3 : I -> msg) (o1 o2 o3 : seq I)
    : recv kr_error (kchange V I * aux_info I) :=
  s <!- kr_until3 c d com m1 m2 o1 o2 ;;
  xs <!- round_payloads le (fun i => kr_recv3 s i (m3 i)) o3 ;;
  lift (kr_finalize3 s xs).

(** ** Evidence *)

(** key_refresh.rs:212-254 *)
Definition kr_required (e : kr_error) : required :=
  let r2 := [:: (2%N, Parts false true true)] in
  match e with
  | KrHashMismatch => Required (Parts false true true) [:: (1%N, Parts false true false)] [::]
  | KrWrongIdsX => Required (Parts false false true) [::] [::]
  | KrWrongIdsY => Required (Parts false true false) [::] [::]
  | KrWrongIdsA => Required (Parts false false true) [::] [::]
  | KrPaillierTooSmall => Required (Parts false false true) [::] [::]
  | KrRPTooSmall => Required (Parts false true false) [::] [::]
  | KrNonZeroSum => Required (Parts false false true) [::] [::]
  | KrPrmFailed => Required (Parts false true true) [::] [::]
  | KrShareMismatch _ _ => Required (Parts true false false) r2 [:: 2%N]
  | KrModFailed => Required (Parts false false true) r2 [:: 2%N]
  | KrFacFailed _ => Required (Parts true false false) r2 [:: 2%N]
  | KrWrongIdsHatPsi => Required (Parts false true false) [::] [::]
  | KrSchFailed _ => Required (Parts false true false) r2 [:: 2%N]
  end.

(** key_refresh.rs:182-200 [reconstruct_rid] *)
Definition kr_reconstruct_rid (ev : evidence I kr_wire) : evid (seq bool) :=
  es <%- try_get (ev_echos ev) 2%N ;;
  ebs <%- ev_all as_k2eb es ;;
  r2 <%- try_get (ev_previous ev) 2%N ;;
  eb <%- ev_deser as_k2eb (m_echo r2) ;;
  ev_o (xor_all eb.2 [seq p.2.2 | p <- ebs]).

(** key_refresh.rs:256-438 *)
Definition kr_evidence (ids : seq I) (randomness : seq Z) (guilty : I) (e : kr_error) (ev : evidence I kr_wire) : evid unit :=
  let sid := sid_new H scheme randomness ids in
  let this_nb := ev_deser as_k2nb (m_normal (ev_message ev)) in
  let this_eb := ev_deser as_k2eb (m_echo (ev_message ev)) in
  match e with
  | KrHashMismatch =>
      r1 <%- try_get (ev_previous ev) 1%N ;;
      cap_v <%- ev_deser as_k1eb (m_echo r1) ;;
      nb <%- this_nb ;;
      eb <%- this_eb ;;
      let '(xs, cas, pkw, psi, u) := nb in
      let '(rpw, ys, rid) := eb in
      pk <%- ev_o (public_key_new pkw) ;;
      rp <%- ev_o (rp_pre rpw) ;;
      verify_that (kr_hash (KrPublic xs ys cas pk rp psi rid u) sid guilty != cap_v)
  | KrWrongIdsX =>
      nb <%- this_nb ;; let '(xs, cas, pkw, psi, u) := nb in verify_that (~~ perm_eq (akeys xs) ids)
  | KrWrongIdsY =>
      eb <%- this_eb ;; let '(rpw, ys, rid) := eb in verify_that (~~ perm_eq (akeys ys) ids)
  | KrWrongIdsA =>
      nb <%- this_nb ;; let '(xs, cas, pkw, psi, u) := nb in verify_that (~~ perm_eq (akeys cas) ids)
  | KrPaillierTooSmall =>
      nb <%- this_nb ;; let '(xs, cas, pkw, psi, u) := nb in
      verify_that (bits pkw <? modulus_bits P - 2)%Z
  | KrRPTooSmall =>
      eb <%- this_eb ;; let '(rpw, ys, rid) := eb in
      verify_that (bits (rp_n rpw) <? modulus_bits P - 2)%Z
  | KrNonZeroSum =>
      nb <%- this_nb ;; let '(xs, cas, pkw, psi, u) := nb in verify_that (psum (avals xs) != 0)
  | KrPrmFailed =>
      eb <%- this_eb ;;
      nb <%- this_nb ;;
      let '(rpw, ys, rid) := eb in
      let '(xs, cas, pkw, psi, u) := nb in
      rp <%- ev_o (rp_pre rpw) ;;
      ok <%- ev_o (prm_ok psi rp [:: HOut sid; HId guilty]) ;;
      verify_that (~~ ok)
  | KrShareMismatch reported_by y =>
      es <%- try_get (ev_echos ev) 2%N ;;
      w <%- try_get es reported_by ;;
      eb_i <%- ev_deser as_k2eb (Some w) ;;
      cap_y_ij <%- try_get eb_i.1.2 guilty ;;
      if y *: g != cap_y_ij then EvInvalid else
      rid <%- kr_reconstruct_rid ev ;;
      r2 <%- try_get (ev_previous ev) 2%N ;;
      eb <%- ev_deser as_k2eb (m_echo r2) ;;
      cap_y_ji <%- try_get eb.1.2 reported_by ;;
      let rho := kr_mask sid rid guilty (y *: cap_y_ji) in
      nb <%- ev_deser as_k2nb (m_normal r2) ;;
      dm <%- ev_deser as_k3dm (m_direct (ev_message ev)) ;;
      let '(xs, cas, pkw, psi, u) := nb in
      cap_x_ji <%- try_get xs reported_by ;;
      verify_that ((dm.2 - rho) *: g != cap_x_ji)
  | KrModFailed =>
      rid <%- kr_reconstruct_rid ev ;;
      r2 <%- try_get (ev_previous ev) 2%N ;;
      nb <%- ev_deser as_k2nb (m_normal r2) ;;
      psi' <%- ev_deser as_k3nb (m_normal (ev_message ev)) ;;
      let '(xs, cas, pkw, psi, u) := nb in
      pk <%- ev_o (public_key_new pkw) ;;
      ok <%- ev_o (mod_ok psi' pk (kr_aux sid guilty rid)) ;;
      verify_that (~~ ok)
  | KrFacFailed reported_by =>
      rid <%- kr_reconstruct_rid ev ;;
      es <%- try_get (ev_echos ev) 2%N ;;
      w <%- try_get es reported_by ;;
      eb <%- ev_deser as_k2eb (Some w) ;;
      r2 <%- try_get (ev_previous ev) 2%N ;;
      nb <%- ev_deser as_k2nb (m_normal r2) ;;
      dm <%- ev_deser as_k3dm (m_direct (ev_message ev)) ;;
      let '(xs, cas, pkw, psi, u) := nb in
      pk <%- ev_o (public_key_new pkw) ;;
      rp <%- ev_o (rp_pre eb.1.1) ;;
      ok <%- ev_o (fac_ok dm.1 pk rp (kr_aux sid guilty rid)) ;;
      verify_that (~~ ok)
  | KrWrongIdsHatPsi =>
      hat_psis <%- ev_deser as_k3eb (m_echo (ev_message ev)) ;;
      verify_that (~~ perm_eq (akeys hat_psis) ids)
  | KrSchFailed failed_for =>
      rid <%- kr_reconstruct_rid ev ;;
      r2 <%- try_get (ev_previous ev) 2%N ;;
      nb <%- ev_deser as_k2nb (m_normal r2) ;;
      hat_psis <%- ev_deser as_k3eb (m_echo (ev_message ev)) ;;
      let '(xs, cas, pkw, psi, u) := nb in
      cap_a <%- try_get cas failed_for ;;
      cap_x <%- try_get xs failed_for ;;
      hat_psi <%- try_get hat_psis failed_for ;;
      verify_that (~~ sch_verify g X hat_psi cap_a cap_x (kr_aux sid guilty rid))
  end.

(** ** Malformed parts (key_refresh.rs:49-95) *)
Definition kr_direct_invalid (round : nat) (p : option kr_wire) : evid unit :=
  match round with
  | 1 | 2 => verify_is_some p
  | 3 => verify_is_not as_k3dm p
  | _ => EvInvalid
  end%N.
Definition kr_echo_invalid (round : nat) (p : option kr_wire) : evid unit :=
  match round with
  | 1 => verify_is_not as_k1eb p
  | 2 => verify_is_not as_k2eb p
  | 3 => verify_is_not as_k3eb p
  | _ => EvInvalid
  end%N.
Definition kr_normal_invalid (round : nat) (p : option kr_wire) : evid unit :=
  match round with
  | 1 => verify_is_some p
  | 2 => verify_is_not as_k2nb p
  | 3 => verify_is_not as_k3nb p
  | _ => EvInvalid
  end%N.

End KeyRefresh.
Arguments KrHashMismatch {F I}. Arguments KrWrongIdsX {F I}. Arguments KrWrongIdsY {F I}. Arguments KrWrongIdsA {F I}.
Arguments KrPaillierTooSmall {F I}. Arguments KrRPTooSmall {F I}. Arguments KrNonZeroSum {F I}. Arguments KrPrmFailed {F I}.
Arguments KrShareMismatch {F I}. Arguments KrModFailed {F I}. Arguments KrFacFailed {F I}. Arguments KrWrongIdsHatPsi {F I}.
Arguments KrSchFailed {F I}.
Arguments K1EB {F V I HO}. Arguments K2EB {F V I HO}. Arguments K2NB {F V I HO}. Arguments K3EB {F V I HO}.
Arguments K3NB {F V I HO}. Arguments K3DM {F V I HO}. Arguments KJunk {F V I HO}.
