(** * Shared definitions for the protocol models (src/protocols/*.rs and the
    interface of the external [manul] crate they implement).  Definitions only. *)
From Coq Require Import ZArith.
From Verif Require Import Base EncodingModel.
From mathcomp Require Import all_ssreflect.
From Verif Require Import AlgBase.
Set Implicit Arguments.
Unset Strict Implicit.
Unset Printing Implicit Defensive.

(** ** Messages *)

(** A [ProtocolMessage] of manul: three optional parts.  [W] is the disjoint
    union of the message types of one protocol (a serialized part is identified
    with the value it was made from; bytes that decode to nothing are a further
    constructor of [W]). *)
Record message (W : Type) := Msg {
  m_direct : option W;
  m_echo : option W;
  m_normal : option W }.

(** Which part of a message is malformed ([ReceiveError] made from
    [DirectMessageError], [EchoBroadcastError], [NormalBroadcastError]), or a
    protocol error with evidence. *)
Inductive reject (E : Type) := BadDirect | BadEcho | BadNormal | Proto (e : E).
Arguments BadDirect {E}.
Arguments BadEcho {E}.
Arguments BadNormal {E}.

(** What [receive_message] returns: a payload, an attributable rejection, a
    [LocalError] naming nobody, or a panic. *)
Inductive recv (E T : Type) := Accept (t : T) | Reject (r : reject E) | RLocal | RPanic.
Arguments Accept {E T}.
Arguments Reject {E T}.
Arguments RLocal {E T}.
Arguments RPanic {E T}.

Definition vbind {E A B : Type} (r : recv E A) (f : A -> recv E B) : recv E B :=
  match r with Accept a => f a | Reject e => Reject e | RLocal => RLocal | RPanic => RPanic end.
Notation "x <!- e ;; k" := (vbind e (fun x => k)) (at level 61, right associativity).

(** [part.assert_is_none()] *)
Definition assert_none {E W} (bad : reject E) (p : option W) : recv E unit :=
  if p is Some _ then Reject bad else Accept tt.
(** [part.deserialize::<T>()]: a missing part is an error too. *)
Definition deser {E W T} (bad : reject E) (as_t : W -> option T) (p : option W) : recv E T :=
  if p is Some w then if as_t w is Some t then Accept t else Reject bad else Reject bad.
(** [map.safe_get(..)]: a [LocalError] (protocol_shortcuts.rs:88-91). *)
Definition safe_get {E} {K : eqType} {A} (m : seq (K * A)) (k : K) : recv E A :=
  if aget m k is Some a then Accept a else RLocal.
(** [if !cond { return Err(ReceiveError::protocol(e)) }] *)
Definition require {E} (c : bool) (e : E) : recv E unit := if c then Accept tt else Reject (Proto e).

(** ** Evidence *)

(** The outcome of verifying evidence: the claimed error is confirmed, the
    evidence is refused ([InvalidEvidence]), or the verifier panics. *)
Inductive evid (T : Type) := EvOk (t : T) | EvInvalid | EvPanic.
Arguments EvOk {T}.
Arguments EvInvalid {T}.
Arguments EvPanic {T}.
Definition ebind {A B : Type} (r : evid A) (f : A -> evid B) : evid B :=
  match r with EvOk a => f a | EvInvalid => EvInvalid | EvPanic => EvPanic end.
Notation "x <%- e ;; k" := (ebind e (fun x => k)) (at level 61, right associativity).

(** [ProtocolMessagePart::verify_is_some] / [verify_is_not::<T>]: used by the
    [verify_*_is_invalid] functions to confirm that a part is malformed. *)
Definition verify_is_some {W} (p : option W) : evid unit := if p is Some _ then EvOk tt else EvInvalid.
Definition verify_is_not {W T} (as_t : W -> option T) (p : option W) : evid unit :=
  if obind as_t p is Some _ then EvInvalid else EvOk tt.

(** protocol_shortcuts.rs:129-137 *)
Definition verify_that (b : bool) : evid unit := if b then EvOk tt else EvInvalid.
(** [part.deserialize::<T>(format)?] inside evidence verification *)
Definition ev_deser {W T} (as_t : W -> option T) (p : option W) : evid T :=
  if obind as_t p is Some t then EvOk t else EvInvalid.
(** protocol_shortcuts.rs:88-91 and 98-104: [try_get] and [get_round] *)
Definition try_get {K : eqType} {A} (m : seq (K * A)) (k : K) : evid A :=
  if aget m k is Some a then EvOk a else EvInvalid.
(** protocol_shortcuts.rs:113-127 [deserialize_all] *)
Fixpoint ev_all {W T : Type} {I : Type} (as_t : W -> option T) (m : seq (I * W)) : evid (seq (I * T)) :=
  if m is (i, w) :: m' then
    if as_t w is Some t then r <%- ev_all as_t m' ;; EvOk ((i, t) :: r) else EvInvalid
  else EvOk [::].

(** The material of a piece of evidence, as manul hands it to
    [verify_messages_constitute_error]: the offending message, the guilty
    party's messages of earlier rounds, and for earlier rounds the echo
    broadcasts of all *other* parties that the guilty party signed in its echo
    round. *)
Record evidence (I : eqType) (W : Type) := Evidence {
  ev_message : message W;
  ev_previous : seq (nat * message W);
  ev_echos : seq (nat * seq (I * W)) }.

(** [RequiredMessageParts] and [RequiredMessages]: which parts the evidence
    carries.  Parts not listed are absent. *)
Record parts := Parts { p_direct : bool; p_echo : bool; p_normal : bool }.
Record required := Required {
  rq_this : parts;
  rq_previous : seq (nat * parts);
  rq_echos : seq nat }.
Definition cut {W} (p : parts) (m : message W) : message W :=
  Msg (if p_direct p then m_direct m else None) (if p_echo p then m_echo m else None)
      (if p_normal p then m_normal m else None).

(** The evidence manul assembles for an error with the given requirements out
    of everything the guilty party sent ([hist], per round) and the echoes of
    everybody else ([echos], per round). *)
Definition assemble {I : eqType} {W} (rq : required) (m : message W) (hist : nat -> message W)
    (echos : nat -> seq (I * W)) : evidence I W :=
  Evidence (cut (rq_this rq) m)
    [seq (rp.1, cut rp.2 (hist rp.1)) | rp <- rq_previous rq]
    [seq (r, echos r) | r <- rq_echos rq].

(** ** Maps in key order *)

Section KeyOrder.
Variables (I : eqType) (le : rel I).

(** The entries of [m] for the given keys, in that order. *)
Definition in_order {A} (keys : seq I) (m : seq (I * A)) : seq (I * A) :=
  pmap (fun k => omap (pair k) (aget m k)) keys.

(** A [BTreeMap] enumerates its entries in key order whatever the insertion
    order was. *)
Definition btree {A} (m : seq (I * A)) : seq (I * A) := in_order (sort le (akeys m)) m.
(** [BTreeMap::insert] *)
Definition binsert {A} (m : seq (I * A)) (k : I) (a : A) : seq (I * A) := btree (aset m k a).

(** [BTreeSet::remove] (protocol_shortcuts.rs:17-24 [without]) *)
Definition without (s : seq I) (i : I) : seq I := [seq j <- s | j != i].

(** manul delivers the messages of a round in any order [ord]; every payload
    is stored, and the first failure ends the run.  [finalize] then gets all
    payloads as a map. *)
Fixpoint receive_all {E T} (f : I -> recv E T) (ord : seq I) : recv E (seq (I * T)) :=
  if ord is i :: ord' then t <!- f i ;; r <!- receive_all f ord' ;; Accept ((i, t) :: r) else Accept [::].
Definition round_payloads {E T} (f : I -> recv E T) (ord : seq I) : recv E (seq (I * T)) :=
  m <!- receive_all f ord ;; Accept (btree m).

End KeyOrder.

(** [finalize] returning a [LocalError], seen from the run. *)
Definition lift {E T} (r : result T) : recv E T :=
  match r with Ok a => Accept a | LocalErr => RLocal | Panicked => RPanic end.
(** The same for the integer layer's panics. *)
Definition lift_o {E T} (r : outcome T) : recv E T :=
  match r with Ret a => Accept a | Panic => RPanic end.
Definition ev_o {T} (r : outcome T) : evid T :=
  match r with Ret a => EvOk a | Panic => EvPanic end.

(** ** Hashing *)

(** The domain separation strings used by the protocols.  [DKeyInit] is the
    string "KeyInit", used by key_init.rs, key_refresh.rs and aux_gen.rs alike. *)
Inductive dst := DSid | DEpid | DKeyInit | DRefresh3.

(** What the protocols chain into a hasher; framing makes the encoding of such
    a list injective (property C12). *)
Inductive hitem (HO I V : Type) :=
| HOut (h : HO) | HId (i : I) | HPt (P : V) | HBits (b : seq bool) | HNum (z : Z) | HBytes (b : seq Z)
| HSeq (l : seq (hitem HO I V)).
Arguments HOut {HO I V}.
Arguments HId {HO I V}.
Arguments HPt {HO I V}.
Arguments HBits {HO I V}.
Arguments HNum {HO I V}.
Arguments HBytes {HO I V}.
Arguments HSeq {HO I V}.

Section Sid.
Variables (HO I V : Type) (H : dst -> seq (hitem HO I V) -> HO) (scheme : seq (hitem HO I V)).
(** entities/internal.rs:18-25 [Sid::new]; [scheme] is what
    [chain_scheme_params] (params/traits.rs:94-107) feeds in. *)
Definition sid_new (randomness : seq Z) (ids : seq I) : HO :=
  H DSid (scheme ++ [:: HBytes randomness; HSeq [seq HId i | i <- ids]]).
End Sid.
