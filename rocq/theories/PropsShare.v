(** * Properties C17-C25: secret sharing and key shares.

    [F] is any field, [V] any vector space over it (the curve group), [g] the
    generator, [I] any type of party ids.  Concrete cases use the field of 7
    elements acting on itself. *)
From mathcomp Require Import all_ssreflect all_algebra.
From Verif Require Import AlgBase AlgFacts ShamirModel ShamirSpec ShamirProofs
  ThresholdModel ThresholdSpec ThresholdProofs ShareLemmas.
Set Implicit Arguments.
Unset Strict Implicit.
Unset Printing Implicit Defensive.
Import GRing.Theory.
Local Open Scope ring_scope.

(** The example setting: F_7, generator 3, three parties. *)
Definition F7 : fieldType := [fieldType of 'F_7].
Definition V7 : lmodType F7 := [lmodType F7 of (F7)^o].
Definition g7 : V7 := (3%:R : 'F_7).
Definition ids7 : seq nat_eqType := [:: 10; 20; 30]%N.

Lemma big_field7 n : (n <= 6)%N -> big_field F7 n.
Proof.
move=> H k /andP [k0 kn]; have := leq_trans kn H.
by move: k0 {kn}; do 7 (case: k => [|k] //).
Qed.

(** ** C17 *)
Theorem C17_threshold_reconstructs (F : fieldType) (s : F) t draws (indices : seq F) shares sub :
  uniq indices -> shamir_split s t draws indices = Ok shares ->
  uniq (akeys sub) -> {subset sub <= shares} -> (0 < size sub)%N -> (t <= size sub)%N ->
  join_scalars sub = s.
Proof. exact: reconstruct. Qed.
Print Assumptions C17_threshold_reconstructs.

Theorem C17_threshold_reconstructs_in_exponent (F : fieldType) (V : lmodType F) (g : V) (s : F) t draws
    (indices : seq F) shares sub :
  uniq indices -> shamir_split s t draws indices = Ok shares ->
  uniq (akeys sub) -> {subset sub <= [seq (p.1, p.2 *: g) | p <- shares]} ->
  (0 < size sub)%N -> (t <= size sub)%N ->
  join_points sub = s *: g.
Proof. exact: reconstruct_public. Qed.
Print Assumptions C17_threshold_reconstructs_in_exponent.

(** Also for published polynomials nobody knows the logarithms of. *)
Theorem C17_public_values_reconstruct (F : fieldType) (V : lmodType F) (cs : seq V) (sub : seq (F * V)) :
  uniq (akeys sub) -> (0 < size sub)%N -> (size cs <= size sub)%N ->
  {in sub, forall p, p.2 = \sum_(i < size cs) p.1 ^+ i *: cs`_i} ->
  join_points sub = cs`_0.
Proof. exact: reconstruct_points. Qed.
Print Assumptions C17_public_values_reconstruct.

(** The ids handed out by the code are distinct and non-zero. *)
Theorem C17_evaluation_points_distinct (F : fieldType) n : big_field F n ->
  uniq (evaluation_points F n) /\ 0 \notin evaluation_points F n /\ size (evaluation_points F n) = n.
Proof. exact: evaluation_points_ok. Qed.
Print Assumptions C17_evaluation_points_distinct.

(** 2-of-4 over F_7: secret 5, slope 3; shares 2 and 4 give it back. *)
Example C17_case :
  (if shamir_split (5%:R : F7) 2 (fun _ => 3%:R) (evaluation_points F7 4) is Ok m then
     [&& m == [:: (1, 1); (2%:R, 4%:R); (3%:R, 0); (4%:R, 3%:R)],
         join_scalars [:: (2%:R, 4%:R); (4%:R, 3%:R)] == (5%:R : F7) &
         join_points [:: (4%:R, 3%:R *: g7); (2%:R, 4%:R *: g7)] == 5%:R *: g7]
   else false).
Proof. by vm_compute. Qed.

(** ** C18 *)
Theorem C18_below_threshold_secrecy (F : fieldType) (t : nat) (xs : seq F) (secret s : F) (draws : nat -> F) :
  (0 < t)%N -> size xs = t.-1 -> uniq xs -> 0 \notin xs ->
  exists draws', shamir_split s t draws' xs = shamir_split secret t draws xs /\
    forall draws'', shamir_split s t draws'' xs = shamir_split secret t draws xs ->
      forall i, (0 < i < t)%N -> draws'' i = draws' i.
Proof. exact: split_secrecy. Qed.
Print Assumptions C18_below_threshold_secrecy.

(** With the non-zero coefficients the code draws, t-1 shares rule out at most
    t-1 candidate secrets. *)
Theorem C18_nonzero_coefficients_exclude_few (F : fieldType) (t : nat) (xs : seq F) (secret : F) (draws : nat -> F) :
  (0 < t)%N -> size xs = t.-1 -> uniq xs -> 0 \notin xs -> (forall i, draws i != 0) ->
  exists bad : seq F, (size bad <= t.-1)%N /\
    forall s, s \notin bad -> exists draws', (forall i, draws' i != 0) /\
      shamir_split s t draws' xs = shamir_split secret t draws xs.
Proof. exact: split_secrecy_nonzero. Qed.
Print Assumptions C18_nonzero_coefficients_exclude_few.

(** ... and they do rule some out: perfect secrecy is false. *)
Theorem C18_share_never_equals_secret (F : fieldType) (secret x y : F) (draws : nat -> F) m :
  (forall i, draws i != 0) -> x != 0 ->
  shamir_split secret 2 draws [:: x] = Ok m -> aget m x = Some y -> y != secret.
Proof. exact: share_never_secret. Qed.
Print Assumptions C18_share_never_equals_secret.

Theorem C18_perfect_secrecy_refuted :
  exists (F : fieldType) (xs : seq F) (secret s : F) (draws : nat -> F),
    size xs = 1%N /\ uniq xs /\ 0 \notin xs /\ (forall i, draws i != 0) /\
    forall draws', (forall i, draws' i != 0) ->
      shamir_split s 2 draws' xs <> shamir_split secret 2 draws xs.
Proof. exact: secrecy_refuted. Qed.
Print Assumptions C18_perfect_secrecy_refuted.

Example C18_case : (0 < 3)%N /\ size [:: 1; 2%:R : F7] = 3.-1 /\ uniq [:: 1; 2%:R : F7] /\ 0 \notin [:: 1; 2%:R : F7].
Proof. by vm_compute. Qed.

(** ** C19 *)
Theorem C19_public_polynomial_matches (F : fieldType) (V : lmodType F) (g : V) (cs : seq F) (x : F) :
  (1 < size cs)%N ->
  exists v, poly_evaluate cs x = Ok v /\ v = \sum_(i < size cs) cs`_i * x ^+ i /\
    public_evaluate (poly_public g cs) x = Ok (v *: g).
Proof. exact: public_matches. Qed.
Print Assumptions C19_public_polynomial_matches.

Theorem C19_short_public_polynomial_aborts (F : fieldType) (V : lmodType F) (cs : seq V) (x : F) :
  (public_evaluate cs x = Panicked <-> (size cs <= 1)%N) /\ public_evaluate cs x <> LocalErr.
Proof. exact: evaluate_short_panics. Qed.
Print Assumptions C19_short_public_polynomial_aborts.

Example C19_case :
  (if poly_evaluate [:: 5%:R; 3%:R; 2%:R : F7] 4%:R is Ok v then v == 0 else false) &&
  (if public_evaluate (poly_public g7 [:: 5%:R; 3%:R; 2%:R : F7]) 3%:R is Ok v then v == 4%:R *: g7 else false) &&
  (if public_evaluate [:: g7] 3%:R is Panicked then true else false).
Proof. by vm_compute. Qed.

(** ** C20 *)
Theorem C20_additive_split (F : fieldType) (s : F) n draws :
  ((0 < n)%N -> exists parts, [/\ secret_split s n draws = Ok parts, size parts = n,
      \sum_(x <- parts) x = s & forall i, (i < n.-1)%N -> parts`_i = draws i]) /\
  (n = 0%N -> secret_split s n draws = Panicked).
Proof. exact: secret_split_exact. Qed.
Print Assumptions C20_additive_split.

(** Any n-1 parts are consistent with any other scalar (for arbitrary draws). *)
Theorem C20_additive_split_hiding (F : fieldType) (s s' : F) n draws parts j : (1 < n)%N -> (j < n)%N ->
  secret_split s n draws = Ok parts ->
  exists draws' parts', secret_split s' n draws' = Ok parts' /\
    forall i, (i < n)%N -> i != j -> parts'`_i = parts`_i.
Proof. exact: secret_split_hiding. Qed.
Print Assumptions C20_additive_split_hiding.

Example C20_case :
  (if secret_split (5%:R : F7) 3 (fun i => i.+1%:R) is Ok l then l == [:: 1; 2%:R; 2%:R] else false).
Proof. by vm_compute. Qed.

(** ** C21 *)
Theorem C21_centralized_threshold_keygen (F : fieldType) (V : lmodType F) (g : V) (I : eqType)
    (ids : seq I) t secret draws :
  uniq ids -> big_field F (size ids) -> (0 < t <= size ids)%N -> secret *: g != 0 ->
  exists shares : I -> tshare V I,
    [/\ ts_new_centralized g ids t secret draws = Ok [seq (i, shares i) | i <- ids],
        threshold_sharing g ids t secret shares &
        {in ids, forall i, ts_verifying_key (shares i) = Ok (secret *: g)}].
Proof. exact: keygen_threshold. Qed.
Print Assumptions C21_centralized_threshold_keygen.

Theorem C21_threshold_too_large_refused (F : fieldType) (V : lmodType F) (g : V) (I : eqType)
    (ids : seq I) t secret draws :
  uniq ids -> big_field F (size ids) ->
  (ts_new_centralized g ids t secret draws = LocalErr <-> (size ids < t)%N) /\
  ts_new_centralized g ids t secret draws <> Panicked.
Proof. exact: keygen_refuses. Qed.
Print Assumptions C21_threshold_too_large_refused.

(** t = 0 is accepted, and no share then has a verifying key. *)
Theorem C21_zero_threshold_accepted (F : fieldType) (V : lmodType F) (g : V) (I : eqType)
    (ids : seq I) secret draws :
  uniq ids -> big_field F (size ids) ->
  exists m, ts_new_centralized g ids 0 secret draws = Ok m /\
   {in ids, forall i, exists s, aget m i = Some s /\ ts_verifying_key s = LocalErr}.
Proof. exact: keygen_zero. Qed.
Print Assumptions C21_zero_threshold_accepted.

Example C21_case : uniq ids7 /\ big_field F7 (size ids7) /\ (0 < 2 <= size ids7)%N /\ (5%:R : F7) *: g7 != 0.
Proof. by split => //; split; [exact: big_field7 | split]. Qed.

Example C21_case_values :
  (if ts_new_centralized g7 ids7 2 (5%:R : F7) (fun _ => 3%:R) is Ok m then
    [&& [seq p.1 | p <- m] == ids7, [seq ts_secret p.2 | p <- m] == [:: 1; 4%:R; 0] &
        all (fun p => if ts_verifying_key p.2 is Ok v then v == 5%:R *: g7 else false) m]
   else false).
Proof. by vm_compute. Qed.

(** ** C22 *)
Theorem C22_threshold_to_additive (F : fieldType) (V : lmodType F) (g : V) (I : eqType) (debug : bool)
    (ids : seq I) t x (shares : I -> tshare V I) S :
  uniq ids -> uniq S -> {subset S <= ids} ->
  (t <= size S)%N -> (debug -> size S = t) -> x *: g != 0 ->
  threshold_sharing g ids t x shares ->
  exists ks : I -> kshare V I,
    {in S, forall i, ts_to_key_share debug (shares i) S = Ok (ks i)} /\
    additive_sharing g S x ks /\
    {in S, forall i, ks_verifying_key (ks i) = Ok (x *: g)}.
Proof. exact: to_key_shareE. Qed.
Print Assumptions C22_threshold_to_additive.

(** Debug builds reject exactly the wrong size or a missing owner by panicking;
    release builds never panic. *)
Theorem C22_debug_assertions (F : fieldType) (V : lmodType F) (I : eqType) debug (s : tshare V I) S :
  ts_to_key_share debug s S = Panicked <->
  debug /\ (size S <> ts_threshold s \/ ts_owner s \notin S).
Proof. exact: to_key_share_panics. Qed.
Print Assumptions C22_debug_assertions.

(** Whatever the set, a key share that is returned belongs to the same owner, is
    over the given set, and has a verifying key: a zero joint key is refused. *)
Theorem C22_returned_share_has_key (F : fieldType) (V : lmodType F) (I : eqType) debug (s : tshare V I) S k :
  ts_to_key_share debug s S = Ok k ->
  [/\ ks_owner k = ts_owner s, akeys (ks_public k) = S, \sum_(X <- avals (ks_public k)) X != 0 &
      ks_verifying_key k = Ok (\sum_(X <- avals (ks_public k)) X)].
Proof. exact: to_key_share_key. Qed.
Print Assumptions C22_returned_share_has_key.

(** A 2-of-2 sharing of 5, and one of 0, which is refused. *)
Example C22_returned_share_case :
  let s x := TShare 1%N 2 (x + 3%:R) [:: (1%N, 1); (2%N, 2%:R)] [:: (1%N, (x + 3%:R) *: g7); (2%N, (x + 6%:R) *: g7)] in
  (if ts_to_key_share true (s (5%:R : F7)) [:: 1; 2]%N is Ok k then ks_secret k == 2%:R else false) /\
  ts_to_key_share true (s (0 : F7)) [:: 1; 2]%N = LocalErr.
Proof. by split; vm_compute. Qed.

(** Release builds: one party alone of a 2-of-3 sharing gets a "key share" of a
    different key, and a set lacking the owner gives a secret that is not the
    logarithm of any published share. *)
Theorem C22_wrong_set_yields_other_key_refuted :
  exists (F : fieldType) (V : lmodType F) (g : V) (ids : seq nat_eqType) x (shares : nat_eqType -> tshare V nat_eqType)
    i S S' k k',
    [/\ uniq ids, threshold_sharing g ids 2 x shares, i \in ids, uniq S /\ {subset S <= ids} &
        uniq S' /\ {subset S' <= ids}] /\
    [/\ i \in S, size S = 1%N, ts_to_key_share false (shares i) S = Ok k,
        ks_verifying_key k <> Panicked & ks_vkey_point k <> x *: g] /\
    [/\ i \notin S', size S' = 2%N, ts_to_key_share false (shares i) S' = Ok k' &
        {in avals (ks_public k'), forall X, X <> ks_secret k' *: g}].
Proof. exact: wrong_set_refuted. Qed.
Print Assumptions C22_wrong_set_yields_other_key_refuted.

Example C22_case : exists shares : nat_eqType -> tshare V7 nat_eqType,
  threshold_sharing g7 ids7 2 (5%:R : F7) shares /\ uniq [:: 30; 10]%N /\ {subset [:: 30; 10]%N <= ids7}.
Proof.
have [shares [_ H _]] := C21_centralized_threshold_keygen (secret := 5%:R : F7) (g := g7) (t := 2) (fun _ => 3%:R)
  (ids := ids7) isT (big_field7 (n := 3) isT) isT isT.
exists shares; split => //; split => // i; rewrite !inE.
by case/orP => /eqP ->.
Qed.

(** ** C23 *)
Theorem C23_additive_to_threshold (F : fieldType) (V : lmodType F) (g : V) (I : eqType)
    (ids : seq I) x (ks : I -> kshare V I) :
  uniq ids -> big_field F (size ids) -> additive_sharing g ids x ks ->
  exists ts : I -> tshare V I,
    {in ids, forall i, ts_from_key_share (ks i) = Ok (ts i)} /\
    threshold_sharing g ids (size ids) x ts /\
    (x *: g != 0 -> forall debug, {in ids, forall i, ts_to_key_share debug (ts i) ids = Ok (ks i)}).
Proof. exact: from_key_shareE. Qed.
Print Assumptions C23_additive_to_threshold.

Theorem C23_verifying_key_preserved (F : fieldType) (V : lmodType F) (g : V) (I : eqType)
    (ids : seq I) x (ks : I -> kshare V I) :
  uniq ids -> (0 < size ids)%N -> big_field F (size ids) -> additive_sharing g ids x ks -> x *: g != 0 ->
  {in ids, forall i, ks_verifying_key (ks i) = Ok (x *: g) /\
     exists t, ts_from_key_share (ks i) = Ok t /\ ts_verifying_key t = Ok (x *: g)}.
Proof. exact: from_key_share_vkey. Qed.
Print Assumptions C23_verifying_key_preserved.

(** Centrally generated additive shares are additive shares of the key. *)
Theorem C23_centralized_additive_keygen (F : fieldType) (V : lmodType F) (g : V) (I : eqType)
    (ids : seq I) x draws : uniq ids -> (0 < size ids)%N ->
  exists ks : I -> kshare V I,
    ks_new_centralized g ids x draws = Ok [seq (i, ks i) | i <- ids] /\ additive_sharing g ids x ks.
Proof. exact: ks_new_centralizedE. Qed.
Print Assumptions C23_centralized_additive_keygen.

Example C23_case : uniq ids7 /\ big_field F7 (size ids7) /\
  exists ks : nat_eqType -> kshare V7 nat_eqType, additive_sharing g7 ids7 (5%:R : F7) ks /\ (5%:R : F7) *: g7 != 0.
Proof.
split => //; split; first exact: big_field7.
have [ks [_ H]] := C23_centralized_additive_keygen (ids := ids7) g7 (5%:R : F7) (fun i => i.+1%:R) isT isT.
by exists ks.
Qed.

(** ** C24 *)
Theorem C24_bip32_consistent (F : fieldType) (V : lmodType F) (g : V) (I : eqType)
    (T CC N : Type) (as_tweak : T -> option F) (icc : V -> CC) (dtw : V -> CC -> N -> option (T * CC)) :
  g != 0 ->
  forall ids t x (shares : I -> tshare V I) path i0 s0, uniq ids -> (0 < t <= size ids)%N ->
  threshold_sharing g ids t x shares -> i0 \in ids ->
  ts_derive_bip32 g as_tweak icc dtw (shares i0) path = Some s0 ->
  exists (derived : I -> tshare V I) (d : F),
    {in ids, forall i, ts_derive_bip32 g as_tweak icc dtw (shares i) path = Some (derived i)} /\
    threshold_sharing g ids t (x + d) derived /\
    vkey_derive_bip32 g as_tweak icc dtw (x *: g) path = Some ((x + d) *: g) /\
    {in ids, forall i,
       ts_derive_verifying_key_bip32 g as_tweak icc dtw (shares i) path = Some ((x + d) *: g) /\
       ts_verifying_key (derived i) = Ok ((x + d) *: g)}.
Proof. exact: derive_bip32E. Qed.
Print Assumptions C24_bip32_consistent.

(** When derivation succeeds: exactly when the child key exists, no party's
    share is zero and no tweak prefix cancels some party's share. *)
Theorem C24_bip32_succeeds_iff (F : fieldType) (V : lmodType F) (g : V) (I : eqType)
    (T CC N : Type) (as_tweak : T -> option F) (icc : V -> CC) (dtw : V -> CC -> N -> option (T * CC)) :
  g != 0 ->
  forall ids t x (shares : I -> tshare V I) path i0, uniq ids -> (0 < t <= size ids)%N ->
  threshold_sharing g ids t x shares -> i0 \in ids ->
  ((exists s, ts_derive_bip32 g as_tweak icc dtw (shares i0) path = Some s) <->
   exists tw, [/\ x != 0, derive_tweaks g as_tweak icc dtw (x *: g) path = Some tw &
     {in ids, forall j n, (n <= size tw)%N ->
        ts_secret (shares j) + \sum_(t <- take n tw) odflt 0 (as_tweak t) != 0}]).
Proof. exact: derive_bip32_iff. Qed.
Print Assumptions C24_bip32_succeeds_iff.

(** Path elements are the tweaks themselves: 1 then 4, on the sharing of 5 with
    slope 3 (shares 1 and 4): the derived key is 5 + 1 + 4 = 3 (mod 7). *)
Example C24_case :
  (if ts_new_centralized g7 [:: 10; 20]%N 2 (5%:R : F7) (fun _ => 3%:R) is Ok m then
    all (fun p => if ts_derive_bip32 g7 (fun a : F7 => if a == 0 then None else Some a) (fun _ => tt)
                     (fun _ _ (n : F7) => Some (n, tt)) p.2 [:: 1; 4%:R] is Some s
                  then if ts_verifying_key s is Ok v then v == 3%:R *: g7 else false else false) m
   else false).
Proof. by vm_compute. Qed.

(** ** C25 *)
Theorem C25_update_keeps_key (F : fieldType) (V : lmodType F) (g : V) (I : eqType)
    (ids : seq I) x (ks : I -> kshare V I) (kc : I -> kchange V I) :
  uniq ids -> additive_sharing g ids x ks ->
  \sum_(i <- ids) kc_secret (kc i) = 0 ->
  {in ids, forall i, kc_owner (kc i) = i /\
     kc_public (kc i) = [seq (j, kc_secret (kc j) *: g) | j <- ids]} ->
  exists ks' : I -> kshare V I,
    {in ids, forall i, ks_update (ks i) (kc i) = Ok (ks' i)} /\
    additive_sharing g ids x ks' /\
    {in ids, forall i, ks_secret (ks' i) = ks_secret (ks i) + kc_secret (kc i) /\
                       ks_verifying_key (ks' i) = ks_verifying_key (ks i)}.
Proof. exact: updateE. Qed.
Print Assumptions C25_update_keeps_key.

Theorem C25_update_refuses (F : fieldType) (V : lmodType F) (I : eqType) (k : kshare V I) (c : kchange V I) :
  uniq (akeys (ks_public k)) -> uniq (akeys (kc_public c)) ->
  ((exists k', ks_update k c = Ok k') <->
     (ks_owner k = kc_owner c /\ akeys (ks_public k) =i akeys (kc_public c))) /\
  ks_update k c <> Panicked.
Proof. exact: update_refuses. Qed.
Print Assumptions C25_update_refuses.

(** The update itself does not check that the changes cancel: with a change that
    does not sum to zero it succeeds and the key moves by exactly the sum. *)
Theorem C25_update_shifts_key (F : fieldType) (V : lmodType F) (I : eqType) (k k' : kshare V I) (c : kchange V I) :
  uniq (akeys (ks_public k)) -> uniq (akeys (kc_public c)) -> ks_update k c = Ok k' ->
  ks_vkey_point k' = ks_vkey_point k + psum (avals (kc_public c)).
Proof. exact: update_shift. Qed.
Print Assumptions C25_update_shifts_key.

Example C25_case : let k := KShare 1%N (2%:R : F7) [:: (1%N, 2%:R *: g7); (2%N, 3%:R *: g7)] in
  let c := KChange 1%N (4%:R : F7) [:: (1%N, 4%:R *: g7); (2%N, 3%:R *: g7)] in
  (if ks_update k c is Ok k' then (ks_vkey_point k' == ks_vkey_point k) && (ks_vkey_point k' == 5%:R *: g7)
     && (ks_secret k' == 6%:R) else false).
Proof. by vm_compute. Qed.
