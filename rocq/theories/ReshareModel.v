(** * Model of src/protocols/key_resharing.rs.  Definitions only. *)
From Coq Require Import ZArith.
From Verif Require Import Base EncodingModel.
From mathcomp Require Import all_ssreflect all_algebra.
From Verif Require Import AlgBase ShamirModel ThresholdModel ProtoBase.
Set Implicit Arguments.
Unset Strict Implicit.
Unset Printing Implicit Defensive.
Import GRing.Theory.
Local Open Scope ring_scope.

Section Reshare.
Variables (F : fieldType) (V : lmodType F) (g : V) (I : eqType) (le : rel I).

(** key_resharing.rs:74-80 *)
Inductive rs_error := UnexpectedSender | SubshareMismatch.

(** key_resharing.rs:110-119 [NewHolder]; [old_threshold] is stored and never read. *)
Record rs_new_holder := NewHolder {
  nh_vkey : V;
  nh_old_threshold : nat;
  nh_old_holders : seq I }.

(** key_resharing.rs:242-247 [OldHolderData] *)
Record rs_old_data := OldData {
  od_share_id : F;
  od_poly : seq F;
  od_public : seq V }.

(** key_resharing.rs:254-265 [Round1].  How the echo round is organised
    ([echo_round_participation]) is left to manul and not modelled. *)
Record rs_round1 := RsRound1 {
  r1_old : option rs_old_data;
  r1_new : option rs_new_holder;
  r1_share_ids : seq (I * F);
  r1_threshold : nat;
  r1_id : I;
  r1_destinations : seq I;
  r1_expecting : seq I }.

(** key_resharing.rs:267-278, and undecodable bytes.  The polynomial is a
    vector of any length: deserialization does not check it (sss.rs:89-91). *)
Inductive rs_wire :=
| WEB (public_polynomial : seq V) (old_share_id : F)
| WDM (subshare : F)
| WJunk.
Definition as_eb (w : rs_wire) : option (seq V * F) := if w is WEB p s then Some (p, s) else None.
Definition as_dm (w : rs_wire) : option F := if w is WDM s then Some s else None.
Notation msg := (message rs_wire).

(** key_resharing.rs:172-181: share ids 1, 2, ... in the order of the new holders *)
Definition rs_share_ids (new_holders : seq I) : seq (I * F) :=
  acollect (zip new_holders [seq share_id_new F n | n <- iota 1 (size new_holders)]).

(** key_resharing.rs:166-239 [make_round]; [draws] are the random coefficients. *)
Definition rs_start (old : option (tshare V I)) (new : option rs_new_holder) (new_holders : seq I)
    (new_threshold : nat) (id : I) (draws : nat -> F) : result rs_round1 :=
  let new_share_ids := rs_share_ids new_holders in
  if (if old is None then true else false) && (if new is None then true else false) then LocalErr else
  let destinations := if old is Some _ then without new_holders id else [::] in
  let expecting := if new is Some n then without (nh_old_holders n) id else [::] in
  old_data <?-
    (if old is Some s then
       let polynomial := poly_random (ts_secret s) new_threshold draws in
       share_id <?- ts_share_id s ;;
       Ok (Some (OldData share_id polynomial (poly_public g polynomial)))
     else Ok None) ;;
  Ok (RsRound1 old_data new new_share_ids new_threshold id destinations expecting).

(** key_resharing.rs:300-316 and 318-335: what is sent to [destination] *)
Definition rs_send (s : rs_round1) (destination : I) : result msg :=
  if r1_old s is Some od then
    their_share_id <?- ok_or (aget (r1_share_ids s) destination) ;;
    subshare <?- poly_evaluate (od_poly od) their_share_id ;;
    Ok (Msg (Some (WDM subshare)) (Some (WEB (od_public od) (od_share_id od))) None)
  else Ok (Msg None None None).

(** key_resharing.rs:279-283 [Round1Payload] *)
Record rs_payload := RsPayload {
  rp_subshare : F;
  rp_poly : seq V;
  rp_share_id : F }.

(** key_resharing.rs:337-372 [receive_message] *)
Definition rs_recv (s : rs_round1) (from : I) (m : msg) : recv rs_error rs_payload :=
  _ <!- assert_none BadNormal (m_normal m) ;;
  eb <!- deser BadEcho as_eb (m_echo m) ;;
  dm <!- deser BadDirect as_dm (m_direct m) ;;
  if r1_new s is Some n then
    if from \in nh_old_holders n then
      my_share_id <!- safe_get (r1_share_ids s) (r1_id s) ;;
      from_poly <!- lift (public_evaluate eb.1 my_share_id) ;;
      if from_poly != dm *: g then Reject (Proto SubshareMismatch)
      else Accept (RsPayload dm eb.1 eb.2)
    else Reject (Proto UnexpectedSender)
  else Reject (Proto UnexpectedSender).

(** key_resharing.rs:393-405: the payload a party that is both an old and a new
    holder adds for itself *)
Definition rs_own_payload (s : rs_round1) (share_id : F) (payloads : seq (I * rs_payload))
    : result (seq (I * rs_payload)) :=
  if r1_old s is Some od then
    subshare <?- poly_evaluate (od_poly od) share_id ;;
    Ok (binsert le payloads (r1_id s) (RsPayload subshare (od_public od) (od_share_id od)))
  else Ok payloads.

(** key_resharing.rs:374-466 [finalize].  The maps keyed by share id are only
    summed over, so their order is irrelevant and left as it comes. *)
Definition rs_finalize (s : rs_round1) (payloads : seq (I * rs_payload)) : result (option (tshare V I)) :=
  if r1_new s is Some n then
    share_id <?- ok_or (aget (r1_share_ids s) (r1_id s)) ;;
    payloads <?- rs_own_payload s share_id payloads ;;
    let old_share_ids := [seq rp_share_id p | p <- avals payloads] in
    terms <?- mapR (fun p =>
        coeff0 <?- public_coeff0 (rp_poly p) ;;
        Ok (interpolation_coeff old_share_ids (rp_share_id p) *: coeff0)) (avals payloads) ;;
    if nh_vkey n != psum terms then Panicked else
    subshares <?- mapR (fun id =>
        p <?- ok_or (aget payloads id) ;; Ok (rp_share_id p, rp_subshare p)) (nh_old_holders n) ;;
    let secret_share := join_scalars (acollect subshares) in
    public_shares <?- mapR (fun q =>
        prs <?- mapR (fun p => v <?- public_evaluate (rp_poly p) q.2 ;; Ok (rp_share_id p, v)) (avals payloads) ;;
        Ok (q.1, join_points (acollect prs))) (r1_share_ids s) ;;
    Ok (Some (TShare (r1_id s) (r1_threshold s) secret_share (r1_share_ids s) public_shares))
  else Ok None.

(** One party's run: [m i] arrives from [i], in the order [ord]. *)
Definition rs_run (s : rs_round1) (m : I -> msg) (ord : seq I) : recv rs_error (option (tshare V I)) :=
  payloads <!- round_payloads le (fun i => rs_recv s i (m i)) ord ;;
  lift (rs_finalize s payloads).

(** key_resharing.rs:82-101: [unimplemented!()] *)
Definition rs_evidence (guilty : I) (e : rs_error) (ev : evidence I rs_wire) : evid unit := EvPanic.

End Reshare.
