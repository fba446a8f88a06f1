(** * Model of src/entities/threshold.rs, of the key-share part of
    src/entities/full.rs and of src/curve/bip32.rs.  Definitions only. *)
From mathcomp Require Import all_ssreflect all_algebra.
From Verif Require Import AlgBase ShamirModel.
Set Implicit Arguments.
Unset Strict Implicit.
Unset Printing Implicit Defensive.
Import GRing.Theory.
Local Open Scope ring_scope.

Section Threshold.
Variables (F : fieldType) (V : lmodType F) (g : V) (I : eqType).

(** src/entities/threshold.rs:31-43 [ThresholdKeyShare].  [threshold] is a u32 in
    the code and a natural number here. *)
Record tshare := TShare {
  ts_owner : I;
  ts_threshold : nat;
  ts_secret : F;
  ts_share_ids : seq (I * F);
  ts_public : seq (I * V) }.

(** src/entities/full.rs:24-33 [KeyShare] *)
Record kshare := KShare {
  ks_owner : I;
  ks_secret : F;
  ks_public : seq (I * V) }.

(** src/entities/full.rs:106-116 [KeyShareChange] *)
Record kchange := KChange {
  kc_owner : I;
  kc_secret : F;
  kc_public : seq (I * V) }.

(** [Sum for Point]: fold with the identity *)
Definition psum (l : seq V) : V := foldl (fun a b => a + b) 0 l.

(** src/curve/arithmetic.rs:263-265 [Point::to_verifying_key]: [None] for the
    identity.  A verifying key is identified with its point. *)
Definition to_verifying_key (P : V) : option V := if P == 0 then None else Some P.

(** src/entities/threshold.rs:51-56 [share_id] *)
Definition ts_share_id (s : tshare) : result F := ok_or (aget (ts_share_ids s) (ts_owner s)).

(** src/entities/threshold.rs:64-117 [new_centralized].  [secret] is the scalar of
    the given signing key, or the random scalar drawn when there is none. *)
Definition ts_new_centralized (ids : seq I) (threshold : nat) (secret : F) (draws : nat -> F)
    : result (seq (I * tshare)) :=
  if (size ids < threshold)%N then LocalErr else
  let share_ids := evaluation_points F (size ids) in
  secret_shares <?- shamir_split secret threshold draws share_ids ;;
  let share_ids := acollect (zip ids share_ids) in
  public_shares <?- mapR (fun p => s <?- ok_or (aget secret_shares p.2) ;; Ok (p.1, s *: g)) share_ids ;;
  mapR (fun id =>
    share_id <?- ok_or (aget share_ids id) ;;
    secret_share <?- ok_or (aget secret_shares share_id) ;;
    Ok (id, TShare id threshold secret_share share_ids public_shares)) ids.

(** src/entities/threshold.rs:119-133 [verifying_key_as_point]: the first
    [threshold] share ids, collected into a map keyed by share id. *)
Definition ts_vkey_point (s : tshare) : result V :=
  prs <?- mapR (fun p => v <?- ok_or (aget (ts_public s) p.1) ;; Ok (p.2, v))
            (take (ts_threshold s) (ts_share_ids s)) ;;
  Ok (join_points (acollect prs)).

(** src/entities/threshold.rs:136-140 [verifying_key] *)
Definition ts_verifying_key (s : tshare) : result V :=
  v <?- ts_vkey_point s ;; ok_or (to_verifying_key v).

(** src/entities/full.rs:162-175 [KeyShare::new] *)
Definition ks_new (owner : I) (secret : F) (public_shares : seq (I * V)) : result kshare :=
  if psum (avals public_shares) == 0 then LocalErr
  else Ok (KShare owner secret public_shares).

(** src/entities/full.rs:251-253 [KeyShare::verifying_key_as_point] *)
Definition ks_vkey_point (k : kshare) : V := psum (avals (ks_public k)).

(** src/entities/full.rs:256-261 [KeyShare::verifying_key]: [expect]s a
    non-identity sum. *)
Definition ks_verifying_key (k : kshare) : result V := expect (to_verifying_key (ks_vkey_point k)).

(** src/entities/full.rs:281-283 [KeyShare::all_parties] *)
Definition ks_parties (k : kshare) : seq I := akeys (ks_public k).

(** src/entities/threshold.rs:145-185 [to_key_share]; [debug] says whether
    [debug_assert!] is compiled in. *)
Definition ts_to_key_share (debug : bool) (s : tshare) (ids : seq I) : result kshare :=
  if debug && ((size ids != ts_threshold s) || ~~ has (fun id => id == ts_owner s) ids) then Panicked else
  owner_share_id <?- ok_or (aget (ts_share_ids s) (ts_owner s)) ;;
  share_ids <?- mapR (fun id => share_id <?- ok_or (aget (ts_share_ids s) id) ;; Ok (id, share_id)) ids ;;
  let secret_share := ts_secret s * interpolation_coeff (avals share_ids) owner_share_id in
  public_shares <?- mapR (fun id =>
      public_share <?- ok_or (aget (ts_public s) id) ;;
      this_share_id <?- ok_or (aget (ts_share_ids s) id) ;;
      Ok (id, interpolation_coeff (avals share_ids) this_share_id *: public_share)) ids ;;
  ks_new (ts_owner s) secret_share public_shares.

(** src/curve/arithmetic.rs:82-85 [Scalar::invert] *)
Definition finv (x : F) : option F := if x == 0 then None else Some x^-1.

(** src/entities/threshold.rs:188-227 [from_key_share] *)
Definition ts_from_key_share (k : kshare) : result tshare :=
  let ids := ks_parties k in
  let share_ids := acollect (zip ids [seq share_id_new F n | n <- iota 1 (size ids)]) in
  owner_share_id <?- expect (aget share_ids (ks_owner k)) ;;
  owner_coeff_inv <?- expect (finv (interpolation_coeff (avals share_ids) owner_share_id)) ;;
  let secret_share := ks_secret k * owner_coeff_inv in
  public_shares <?- mapR (fun id =>
      share_id <?- expect (aget share_ids id) ;;
      public_share <?- expect (aget (ks_public k) id) ;;
      coeff_inv <?- expect (finv (interpolation_coeff (avals share_ids) share_id)) ;;
      Ok (id, coeff_inv *: public_share)) ids ;;
  Ok (TShare (ks_owner k) (size ids) secret_share share_ids public_shares).

(** src/entities/full.rs:178-215 [KeyShare::update] *)
Definition ks_update (k : kshare) (c : kchange) : result kshare :=
  if ks_owner k != kc_owner c then LocalErr else
  if size (ks_public k) != size (kc_public c) then LocalErr else
  let secret := ks_secret k + kc_secret c in
  public_shares <?- mapR (fun p =>
      d <?- ok_or (aget (kc_public c) p.1) ;; Ok (p.1, p.2 + d)) (ks_public k) ;;
  Ok (KShare (ks_owner k) secret public_shares).

(** src/entities/full.rs:219-249 [KeyShare::new_centralized]; [secret] as above. *)
Definition ks_new_centralized (ids : seq I) (secret : F) (draws : nat -> F) : result (seq (I * kshare)) :=
  secret_shares <?- secret_split secret (size ids) draws ;;
  let public_shares := acollect [seq (p.1, p.2 *: g) | p <- zip ids secret_shares] in
  Ok [seq (p.1, KShare p.1 p.2 public_shares) | p <- zip ids secret_shares].

(** ** BIP-32 (src/curve/bip32.rs, src/entities/threshold.rs:230-287)

    A tweak is 32 bytes; [PrivateKey::derive_child]/[PublicKey::derive_child] of
    the bip32 crate read it as a non-zero scalar (error otherwise), add it to the
    key (resp. its multiple of the generator) and fail if the result is zero.
    [as_tweak : T -> option F] is that reading ([None] or a non-zero scalar). *)
Variable (T : Type) (as_tweak : T -> option F).

(** bip32 [PublicKey::derive_child] *)
Definition pk_derive_child (pk : V) (t : T) : option V :=
  if as_tweak t is Some a then to_verifying_key (pk + a *: g) else None.

(** bip32 [PrivateKey::derive_child] *)
Definition sk_derive_child (sk : F) (t : T) : option F :=
  if as_tweak t is Some a then if sk + a == 0 then None else Some (sk + a) else None.

(** The chain-code hash of bip32 and the initial chain code are arbitrary
    functions of the public key and the path element. *)
Variables (CC N : Type) (initial_chain_code : V -> CC) (derive_tweak : V -> CC -> N -> option (T * CC)).

(** src/curve/bip32.rs:75-82 the loop of [derive_tweaks] *)
Fixpoint derive_tweaks_loop (pk : V) (cc : CC) (path : seq N) : option (seq T) :=
  if path is n :: path' then
    if derive_tweak pk cc n is Some (t, cc') then
      if pk_derive_child pk t is Some pk' then
        if derive_tweaks_loop pk' cc' path' is Some ts then Some (t :: ts) else None
      else None
    else None
  else Some [::].

(** src/curve/bip32.rs:52-85 [derive_tweaks] *)
Definition derive_tweaks (pk : V) (path : seq N) : option (seq T) :=
  derive_tweaks_loop pk (initial_chain_code pk) path.

(** src/curve/bip32.rs:87-102 [apply_tweaks_public] *)
Fixpoint apply_tweaks_public (pk : V) (tweaks : seq T) : option V :=
  if tweaks is t :: ts then
    if pk_derive_child pk t is Some pk' then apply_tweaks_public pk' ts else None
  else Some pk.

(** src/entities/threshold.rs:245-249 the secret-key loop of [derive_bip32] *)
Fixpoint apply_tweaks_secret (sk : F) (tweaks : seq T) : option F :=
  if tweaks is t :: ts then
    if sk_derive_child sk t is Some sk' then apply_tweaks_secret sk' ts else None
  else Some sk.

(** src/curve/bip32.rs:38-50 [derive_verifying_key_bip32] for a verifying key *)
Definition vkey_derive_bip32 (pk : V) (path : seq N) : option V :=
  if derive_tweaks pk path is Some ts then apply_tweaks_public pk ts else None.

(** src/entities/threshold.rs:279-287 the same for a threshold share *)
Definition ts_derive_verifying_key_bip32 (s : tshare) (path : seq N) : option V :=
  if ts_verifying_key s is Ok pk then vkey_derive_bip32 pk path else None.

(** [iter.map(f).collect::<Result<BTreeMap<_, _>, bip32::Error>>()] *)
Fixpoint mapO {A B : Type} (f : A -> option B) (l : seq A) : option (seq B) :=
  if l is a :: l' then
    if f a is Some b then if mapO f l' is Some bs then Some (b :: bs) else None else None
  else Some [::].

(** src/entities/threshold.rs:239-269 [derive_bip32]; [bip32::Error] is [None].
    [to_signing_key] fails on a zero share (src/curve/arithmetic.rs:147-155). *)
Definition ts_derive_bip32 (s : tshare) (path : seq N) : option tshare :=
  if ts_verifying_key s is Ok pk then
    if derive_tweaks pk path is Some tweaks then
      if ts_secret s == 0 then None else
      if apply_tweaks_secret (ts_secret s) tweaks is Some secret_share then
        if mapO (fun p =>
             if to_verifying_key p.2 is Some vkey then
               if apply_tweaks_public vkey tweaks is Some v then Some (p.1, v) else None
             else None) (ts_public s) is Some public_shares then
          Some (TShare (ts_owner s) (ts_threshold s) secret_share (ts_share_ids s) public_shares)
        else None
      else None
    else None
  else None.

End Threshold.
