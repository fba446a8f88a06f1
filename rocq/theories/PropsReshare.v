(** * Properties C48 and C49: resharing a threshold key.

    [F] is any field, [V] any vector space over it, [g] the generator, [I] any
    type of party ids ordered by [le]. *)
From Coq Require Import ZArith.
From Verif Require Import Base EncodingModel.
From mathcomp Require Import all_ssreflect all_algebra.
From Verif Require Import AlgBase ShamirModel ShamirSpec ThresholdModel ThresholdSpec ProtoBase ProtoSpec ReshareModel
  ReshareProofs ReshareWitness PropsShare.
Set Implicit Arguments.
Unset Strict Implicit.
Unset Printing Implicit Defensive.
Import GRing.Theory.
Local Open Scope ring_scope.

(** ** C48 *)

(** The old holders [olds] taking part are at least [told] of the holders of a
    sharing of [x]; every party gets the inputs its role requires. *)
Theorem C48_honest_run (F : fieldType) (V : lmodType F) (g : V) (I : eqType) (le : rel I)
    (old_ids olds news : seq I) (told tnew t' : nat) (x : F) (oldshares : I -> tshare V I)
    (draws : I -> nat -> F) (c : I -> rs_round1 V I) :
  total_order le -> sorted le olds -> uniq olds -> uniq news ->
  threshold_sharing g old_ids told x oldshares -> {subset olds <= old_ids} -> uniq old_ids ->
  (told <= size olds)%N -> big_field F (size news) -> (1 < tnew)%N ->
  (forall i, (i \in olds) || (i \in news) ->
     rs_start g (if i \in olds then Some (oldshares i) else None)
       (if i \in news then Some (NewHolder (x *: g) t' olds) else None) news tnew i (draws i) = Ok (c i)) ->
  {in olds, forall j, r1_destinations (c j) = without news j} /\
  {in news, forall i, r1_expecting (c i) = without olds i} /\
  exists m : I -> I -> message (rs_wire V),
  {in olds & news, forall j i, rs_send (c j) i = Ok (m j i)} /\
  {in olds, forall i, i \notin news -> rs_run g le (c i) (fun j => m j i) [::] = Accept None} /\
  exists shares : I -> tshare V I,
    threshold_sharing g news tnew x shares /\
    {in news, forall i ord, perm_eq ord (r1_expecting (c i)) ->
       rs_run g le (c i) (fun j => m j i) ord = Accept (Some (shares i))}.
Proof. exact: rs_honest. Qed.
Print Assumptions C48_honest_run.

Theorem C48_any_t_new_shares_give_the_old_secret (F : fieldType) (V : lmodType F) (g : V) (I : eqType)
    (ids : seq I) t x (shares : I -> tshare V I) S :
  threshold_sharing g ids t x shares -> uniq S -> {subset S <= ids} -> (t <= size S)%N ->
  exists pt : I -> F, [/\ {in ids, forall i, ts_share_id (shares i) = Ok (pt i)} &
    join_scalars [seq (pt i, ts_secret (shares i)) | i <- S] = x].
Proof. exact: sharing_reconstructs. Qed.
Print Assumptions C48_any_t_new_shares_give_the_old_secret.

(** A 2-of-3 sharing of 5 among 0, 1, 2 passes to 1, 2, 3; party 1 does not
    act as an old holder.  New polynomials are [1 + 2X] and [0 + 4X]. *)
Notation N7 := nat_eqType.
Definition nobody7 : tshare V7 N7 := TShare 0%N 0 0 [::] [::].
Definition oldsh7 (i : nat) : tshare V7 N7 :=
  if ts_new_centralized g7 [:: 0; 1; 2]%N 2 (5%:R : F7) (fun _ => 3%:R) is Ok m then odflt nobody7 (aget m i) else nobody7.
Definition olds7 : seq nat := [:: 0; 2]%N.
Definition news7 : seq nat := [:: 1; 2; 3]%N.
Definition in7 (i : nat) : rs_round1 V7 N7 :=
  if rs_start g7 (if i \in olds7 then Some (oldsh7 i) else None)
      (if i \in news7 then Some (NewHolder (5%:R *: g7) 2 olds7) else None) news7 2 i (fun _ => (i + 2)%:R) is Ok c then c
  else RsRound1 None None [::] 0 0%N [::] [::].
Definition nomsg7 : message (rs_wire V7) := Msg None None None.
Definition msg7 (j i : nat) : message (rs_wire V7) := if rs_send (in7 j) i is Ok m then m else nomsg7.
Definition res7 (i : nat) : recv rs_error (option (tshare V7 N7)) :=
  rs_run g7 leq (in7 i) (fun j => msg7 j i) (r1_expecting (in7 i)).
Definition done7 {E T} (r : recv E (option T)) (p : T -> bool) : bool := if r is Accept (Some t) then p t else false.
Definition panics {E T} (r : recv E T) : bool := if r is RPanic then true else false.
Definition oks {T} (r : result T) : bool := if r is Ok _ then true else false.
Example C48_case :
  [/\ sorted leq olds7, uniq news7, (2 <= size olds7)%N &
      all (fun i => oks (rs_start g7 (if i \in olds7 then Some (oldsh7 i) else None)
            (if i \in news7 then Some (NewHolder (5%:R *: g7) 2 olds7) else None) news7 2 i (fun _ => (i + 2)%:R))) [:: 0; 1; 2; 3]%N] /\
  [seq ts_secret (oldsh7 i) | i <- [:: 0; 1; 2]%N] = [:: 1; 4%:R; 0] :> seq F7 /\
  (** new secrets, all with the same public shares and the old verifying key *)
  all (fun i => done7 (res7 i) (fun s =>
    [&& ts_secret s == nth 0 [:: 6%:R; 0; 1] (i - 1),
        [seq p.2 | p <- ts_public s] == [seq z *: g7 | z <- [:: 6%:R; 0; 1] : seq F7] &
        (if ts_verifying_key s is Ok v then v == 5%:R *: g7 else false)])) news7.
Proof. by split; [split; vm_compute|split; [apply/eqP; vm_compute|vm_compute]]. Qed.

(** ** C49 *)

(** Whatever the peers send: a finished new holder's secret share matches its
    public share, and the constant terms it was sent interpolate, at the share
    ids it was sent, to the expected key. *)
Theorem C49_finished_party (F : fieldType) (V : lmodType F) (g : V) (I : eqType) (le : rel I)
    (old : option (tshare V I)) n news tnew id draws s m ord k : total_order le ->
  rs_start g old (Some n) news tnew id draws = Ok s -> uniq news ->
  sorted le (nh_old_holders n) -> uniq (nh_old_holders n) -> (old <> None -> id \in nh_old_holders n) ->
  perm_eq ord (r1_expecting s) ->
  rs_run g le s m ord = Accept k ->
  exists share poly sid,
  [/\ k = Some share, ts_owner share = id, ts_threshold share = tnew, akeys (ts_public share) = news &
      aget (ts_public share) id = Some (ts_secret share *: g)] /\
  [/\ {in without (nh_old_holders n) id, forall j, exists d, m j = Msg (Some (WDM V d)) (Some (WEB (poly j) (sid j))) None},
      (forall t, old = Some t -> ts_share_id t = Ok (sid id) /\ poly id = poly_public g (poly_random (ts_secret t) tnew draws)) &
      \sum_(j <- nh_old_holders n) lagrange0 [seq sid j | j <- nh_old_holders n] (sid j) *: (poly j)`_0 = nh_vkey n].
Proof. exact: rs_finished. Qed.
Print Assumptions C49_finished_party.

(** Party 3 is only a new holder, party 2 both; they finish, with the shares
    of [C48_case]; the constant terms were 1 and 0 at the share ids 1 and 3. *)
Example C49_finished_case :
  [&& done7 (res7 3) (fun s => aget (ts_public s) 3%N == Some (ts_secret s *: g7)),
      done7 (res7 2) (fun s => aget (ts_public s) 2%N == Some (ts_secret s *: g7)),
      2%N \in olds7 & perm_eq [:: 2; 0]%N (r1_expecting (in7 3))] /\
  lagrange0 [:: 1; 3%:R] 1 *: (1 *: g7) + lagrange0 [:: 1; 3%:R] 3%:R *: (0 *: g7) = (5%:R : F7) *: g7.
Proof. by split; [vm_compute|rewrite /lagrange0 !unlock; apply/eqP; vm_compute]. Qed.

(** Without "a party that holds an old share lists itself" this fails: its own
    old share enters the public shares but not its secret share. *)
Theorem C49_self_not_listed_refuted :
  exists (F : fieldType) (V : lmodType F) (g : V) (I : eqType) (le : rel I) (old : option (tshare V I)) n news tnew id draws s m ord share,
    [/\ total_order le, rs_start g old (Some n) news tnew id draws = Ok s,
        sorted le news && uniq news && sorted le (nh_old_holders n) && uniq (nh_old_holders n) && perm_eq ord (r1_expecting s) &
        rs_run g le s m ord = Accept (Some share)] /\
    aget (ts_public share) id <> Some (ts_secret share *: g).
Proof. exact: rs_self_not_listed. Qed.
Print Assumptions C49_self_not_listed_refuted.

(** The number of coefficients is not checked.  Here old holders 0 and 2 pass a
    key to 1, 2, 3 with new threshold 2, and 0 uses a quadratic polynomial:
    every new holder finishes and all agree on the public shares, but shares 1, 2
    and shares 2, 3 give different secrets and the new shares' verifying key is
    not the old one. *)
Theorem C49_degree_unchecked_refuted :
  exists (F : fieldType) (V : lmodType F) (g : V) (x : F) (oldsh : nat -> tshare V nat_eqType)
      (c : nat -> rs_round1 V nat_eqType) (bad : nat -> message (rs_wire V)) (good : nat -> message (rs_wire V))
      (shares : nat -> tshare V nat_eqType) (pub : seq (nat * V)),
    let olds := [:: 0; 2]%N in let news := [:: 1; 2; 3]%N in
    let share_pair i := (odflt 0 (aget (ts_share_ids (shares i)) i), ts_secret (shares i)) in
    [/\ threshold_sharing g [:: 0; 1; 2]%N 2 x oldsh,
        {in news, forall i, rs_start g (if i \in olds then Some (oldsh i) else None) (Some (NewHolder (x *: g) 2 olds))
                              news 2 i (fun _ => 4%:R) = Ok (c i)},
        {in news, forall i, rs_send (c 2%N) i = Ok (good i)} &
        {in news, forall i ord, perm_eq ord (without olds i) ->
            rs_run g leq (c i) (fun j => if j == 0%N then bad i else good i) ord = Accept (Some (shares i))}] /\
    [/\ {in news, forall i, ts_public (shares i) = pub},
        join_scalars [seq share_pair i | i <- [:: 1; 2]%N] != join_scalars [seq share_pair i | i <- [:: 2; 3]%N] &
        {in news, forall i v, ts_vkey_point (shares i) = Ok v -> v != x *: g}].
Proof. exact: rs_degree_gap. Qed.
Print Assumptions C49_degree_unchecked_refuted.

(** A polynomial with at most one coefficient makes the receiver panic, so any
    old holder can crash any new holder, ... *)
Theorem C49_short_polynomial_aborts (F : fieldType) (V : lmodType F) (g : V) (I : eqType)
    (s : rs_round1 V I) n from d poly sid :
  r1_new s = Some n -> from \in nh_old_holders n -> r1_id s \in akeys (r1_share_ids s) -> (size poly <= 1)%N ->
  rs_recv g s from (Msg (Some (WDM V d)) (Some (WEB poly sid)) None) = RPanic.
Proof. exact: rs_short_panics. Qed.
Print Assumptions C49_short_polynomial_aborts.

Example C49_short_polynomial_case :
  0%N \in olds7 /\ r1_id (in7 3) \in akeys (r1_share_ids (in7 3)) /\
  panics (rs_recv g7 (in7 3) 0%N (Msg (Some (WDM V7 (1 : F7))) (Some (WEB [:: g7] (1 : F7))) None)).
Proof. by vm_compute. Qed.

(** ... and honest parties do the same when the new threshold is 1. *)
Theorem C49_threshold_one_aborts (F : fieldType) (V : lmodType F) (g : V) (I : eqType)
    (old : tshare V I) new new' old' n news tnew j id draws draws' s r m :
  rs_start g (Some old) new' news tnew j draws = Ok s ->
  rs_start g old' (Some n) new tnew id draws' = Ok r -> uniq new -> id \in new ->
  j \in nh_old_holders n -> (tnew <= 1)%N ->
  rs_send s id = Ok m -> rs_recv g r j m = RPanic.
Proof. exact: rs_threshold_one. Qed.
Print Assumptions C49_threshold_one_aborts.

Example C49_threshold_one_case :
  let start i := rs_start g7 (if i \in olds7 then Some (oldsh7 i) else None)
      (if i \in news7 then Some (NewHolder (5%:R *: g7) 2 olds7) else None) news7 1 i (fun _ => (i + 2)%:R) in
  if start 0%N is Ok s then if start 3%N is Ok r then if rs_send s 3%N is Ok m then panics (rs_recv g7 r 0%N m)
  else false else false else false.
Proof. by vm_compute. Qed.

(** If everything received is accepted but does not add up to the key, the new
    holder panics instead of naming anybody. *)
Theorem C49_wrong_key_aborts (F : fieldType) (V : lmodType F) (g : V) (I : eqType) (le : rel I)
    (s : rs_round1 V I) n m ord (pl : I -> rs_payload V) : total_order le ->
  r1_new s = Some n -> r1_old s = None -> r1_id s \in akeys (r1_share_ids s) ->
  sorted le (nh_old_holders n) -> perm_eq ord (nh_old_holders n) ->
  {in nh_old_holders n, forall j, rs_recv g s j (m j) = Accept (pl j)} ->
  \sum_(j <- nh_old_holders n)
     lagrange0 [seq rp_share_id (pl j) | j <- nh_old_holders n] (rp_share_id (pl j)) *: (rp_poly (pl j))`_0 != nh_vkey n ->
  rs_run g le s m ord = RPanic.
Proof. exact: rs_wrong_key_panics. Qed.
Print Assumptions C49_wrong_key_aborts.

(** Party 0 shares [2 + 2X] instead of [1 + 2X]. *)
Example C49_wrong_key_case :
  let bad := Msg (Some (WDM V7 (1 : F7))) (Some (WEB [:: 2%:R *: g7; 2%:R *: g7] (1 : F7))) None in
  let m j := if j == 0%N then bad else msg7 j 3 in
  (if rs_recv g7 (in7 3) 0%N bad is Accept _ then true else false) /\
  panics (rs_run g7 leq (in7 3) m [:: 0; 2]%N).
Proof. by vm_compute. Qed.

(** A rejection cannot be proven to others. *)
Theorem C49_no_evidence (F : fieldType) (V : lmodType F) (g : V) (I : eqType) (s : rs_round1 V I) from m e (ev : evidence I (rs_wire V)) :
  rs_recv g s from m = Reject (Proto e) -> rs_evidence from e ev = EvPanic.
Proof. exact: rs_no_evidence. Qed.
Print Assumptions C49_no_evidence.

Example C49_no_evidence_case :
  if rs_recv g7 (in7 3) 0%N (Msg (Some (WDM V7 (2%:R : F7))) (Some (WEB [:: g7; 2%:R *: g7] (1 : F7))) None)
  is Reject (Proto SubshareMismatch) then true else false.
Proof. by vm_compute. Qed.
