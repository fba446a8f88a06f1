(** * Assembled lemmas for C17-C25. *)
From mathcomp Require Import all_ssreflect all_algebra.
From mathcomp Require Import zify ring.
From Verif Require Import AlgBase AlgFacts ShamirModel ShamirSpec ShamirProofs
  ThresholdModel ThresholdSpec ThresholdProofs.
Set Implicit Arguments.
Unset Strict Implicit.
Unset Printing Implicit Defensive.
Import GRing.Theory.
Local Open Scope ring_scope.

Section Shamir.
Variable F : fieldType.

Lemma size_poly_random (s : F) t draws : size (poly_random s t draws) = maxn 1 t.
Proof. by rewrite /= size_map size_iota; case: t => [|[|t]] //; rewrite subn1 /= maxnE. Qed.

Lemma reconstruct (s : F) t draws (indices : seq F) shares sub :
  uniq indices -> shamir_split s t draws indices = Ok shares ->
  uniq (akeys sub) -> {subset sub <= shares} -> (0 < size sub)%N -> (t <= size sub)%N ->
  join_scalars sub = s.
Proof.
move=> U; rewrite shamir_splitE // => -[Esh] Us Hs s0 ts.
have E p : p \in sub -> p.2 = peval (poly_random s t draws) p.1.
  by move/Hs; rewrite -Esh => /mapP [y Hy ->].
rewrite join_scalarsE (eq_big_seq (fun p => peval (poly_random s t draws) p.1 * lagrange0 (akeys sub) p.1)); last first.
  by move=> p /E ->.
rewrite -(big_map fst predT (fun y => peval (poly_random s t draws) y * lagrange0 (akeys sub) y)).
by rewrite lagrange_peval ?size_map // size_poly_random geq_max s0 ts.
Qed.

Lemma reconstruct_points (V : lmodType F) (cs : seq V) (sub : seq (F * V)) :
  uniq (akeys sub) -> (0 < size sub)%N -> (size cs <= size sub)%N ->
  {in sub, forall p, p.2 = \sum_(i < size cs) p.1 ^+ i *: cs`_i} ->
  join_points sub = cs`_0.
Proof.
move=> Us s0 ts E; rewrite join_pointsE (eq_big_seq (fun p => lagrange0 (akeys sub) p.1 *: gpeval cs p.1)); last first.
  by move=> p /E ->.
rewrite -(big_map fst predT (fun y => lagrange0 (akeys sub) y *: gpeval cs y)).
by rewrite lagrange_gpeval ?size_map.
Qed.

Lemma reconstruct_public (V : lmodType F) (g : V) (s : F) t draws (indices : seq F) shares sub :
  uniq indices -> shamir_split s t draws indices = Ok shares ->
  uniq (akeys sub) -> {subset sub <= [seq (p.1, p.2 *: g) | p <- shares]} ->
  (0 < size sub)%N -> (t <= size sub)%N ->
  join_points sub = s *: g.
Proof.
move=> U; rewrite shamir_splitE // => -[Esh] Us Hs s0 ts.
have -> : s *: g = [seq c *: g | c <- poly_random s t draws]`_0 by [].
apply: reconstruct_points => //; first by rewrite size_map size_poly_random geq_max s0 ts.
move=> p /Hs; rewrite -Esh -map_comp => /mapP [y Hy ->]; rewrite [LHS]/= [fst _]/=.
rewrite /peval scaler_suml; set cs := poly_random s t draws.
by rewrite size_map; apply: eq_bigr => i _; rewrite (nth_map 0) // scalerA mulrC.
Qed.

(** Unique completion of t-1 shares by any secret. *)
Lemma completion (xs : seq F) (ys : F -> F) (s : F) : uniq xs -> 0 \notin xs ->
  exists cs : seq F,
    [/\ size cs = (size xs).+1, cs`_0 = s, {in xs, forall x, peval cs x = ys x} &
     forall cs', size cs' = (size xs).+1 -> cs'`_0 = s -> {in xs, forall x, peval cs' x = ys x} -> cs' = cs].
Proof.
move=> U N0.
have U0 : uniq (0 :: xs) by rewrite /= N0.
pose f x := if x == 0 then s else ys x.
pose p := Linterp (0 :: xs) f.
have szp : (size p <= (size xs).+1)%N by exact: size_Linterp.
pose cs := mkseq (fun i => p`_i) (size xs).+1.
have Pcs : Poly cs = p.
  apply/polyP => i; rewrite coef_Poly; case: (ltnP i (size xs).+1) => Hi; first by rewrite nth_mkseq.
  by rewrite nth_default ?size_mkseq // nth_default //; exact: leq_trans Hi.
exists cs; split.
- by rewrite size_mkseq.
- by rewrite nth_mkseq // -horner_coef0 /p Linterp_node ?mem_head // /f eqxx.
- move=> x Hx; rewrite peval_horner Pcs /p Linterp_node ?in_cons ?Hx ?orbT // /f.
  by case: eqP => // E; rewrite -E Hx in N0.
- move=> cs' Sz E0 H.
  have Pcs' : Poly cs' = p.
    apply: (poly_agree U0) => //=; first by rewrite -Sz size_Poly.
    move=> x; rewrite in_cons => /orP [/eqP -> |Hx].
      by rewrite [LHS]horner_coef0 coef_Poly E0 /p Linterp_node ?mem_head // /f eqxx.
    rewrite -peval_horner H // /p Linterp_node ?in_cons ?Hx ?orbT // /f.
    by case: eqP => // E; rewrite -E Hx in N0.
  apply: (@eq_from_nth _ 0); first by rewrite Sz size_mkseq.
  by move=> i Hi; rewrite -(coef_Poly cs') -(coef_Poly cs) Pcs' Pcs.
Qed.

(** Perfect secrecy for arbitrary coefficients, in terms of the split. *)
Lemma split_secrecy (t : nat) (xs : seq F) (secret s : F) (draws : nat -> F) :
  (0 < t)%N -> size xs = t.-1 -> uniq xs -> 0 \notin xs ->
  exists draws', shamir_split s t draws' xs = shamir_split secret t draws xs /\
    forall draws'', shamir_split s t draws'' xs = shamir_split secret t draws xs ->
      forall i, (0 < i < t)%N -> draws'' i = draws' i.
Proof.
move=> t0 Sx U N0.
have [cs [Sz E0 H Un]] := completion (peval (poly_random secret t draws)) s U N0.
have St : (size xs).+1 = t by rewrite Sx prednK.
pose draws' i := cs`_i.
have Epr d : (forall i, (0 < i < t)%N -> d i = cs`_i) -> poly_random s t d = cs.
  move=> Hd; apply: (@eq_from_nth _ 0); first by rewrite size_poly_random Sz St; apply/maxn_idPr.
  move=> [|i] Hi; rewrite /poly_random /= ?E0 //.
  move: Hi; rewrite size_poly_random => Hi.
  have Hi' : (i.+1 < t)%N by lia.
  rewrite (nth_map 0%N) ?size_iota; last by lia.
  by rewrite nth_iota; [rewrite add1n; apply: Hd | lia].
exists draws'; split.
- rewrite !shamir_splitE // Epr //; congr Ok.
  by apply/eq_in_map => x Hx; rewrite H.
- move=> d; rewrite !shamir_splitE // => -[E] i Hi.
  have Ed : poly_random s t d = cs.
    apply: Un => //; first by rewrite size_poly_random St; apply/maxn_idPr.
    move=> x Hx.
    have := congr1 (fun m => aget m x) E; rewrite (aget_tab (peval _)) (aget_tab (peval _)) Hx.
    by case.
  rewrite /draws' -Ed /poly_random; case: i Hi => // i /andP [_ Hi] /=.
  rewrite (nth_map 0%N) ?size_iota; last by lia.
  by rewrite nth_iota ?add1n //; lia.
Qed.

(** With the code's non-zero coefficients at most t-1 candidate secrets are
    excluded by t-1 shares that really occurred. *)
Lemma split_secrecy_nonzero (t : nat) (xs : seq F) (secret : F) (draws : nat -> F) :
  (0 < t)%N -> size xs = t.-1 -> uniq xs -> 0 \notin xs -> (forall i, draws i != 0) ->
  exists bad : seq F, (size bad <= t.-1)%N /\
    forall s, s \notin bad -> exists draws', (forall i, draws' i != 0) /\
      shamir_split s t draws' xs = shamir_split secret t draws xs.
Proof.
move=> t0 Sx U N0 Hd.
have St : (size xs).+1 = t by rewrite Sx prednK.
have U0 : uniq (0 :: xs) by rewrite /= N0.
pose ys := peval (poly_random secret t draws).
pose A := Linterp (0 :: xs) (fun x => if x == 0 then 0 else ys x).
pose B := Linterp (0 :: xs) (fun x => (x == 0)%:R).
pose q s : {poly F} := A + s *: B.
have szq s : (size (q s) <= (size xs).+1)%N.
  apply: leq_trans (size_add _ _) _; rewrite geq_max size_Linterp //=.
  by apply: leq_trans (size_scale_leq _ _) _; rewrite size_Linterp.
have q0 s : (q s).[0] = s.
  by rewrite /q hornerD hornerZ /A /B !Linterp_node ?mem_head // eqxx mulr1 add0r.
have qx s x : x \in xs -> (q s).[x] = ys x.
  move=> Hx; rewrite /q hornerD hornerZ /A /B !Linterp_node ?in_cons ?Hx ?orbT //.
  by case: eqP => [E|_]; [rewrite -E Hx in N0 | rewrite mulr0 addr0].
have Pq : Poly (poly_random secret t draws) = q secret.
  apply: (poly_agree U0) => //; first by apply: leq_trans (size_Poly _) _; rewrite size_poly_random /=; lia.
  move=> x; rewrite in_cons => /orP [/eqP -> |Hx].
    by rewrite q0 horner_coef0 coef_Poly.
  by rewrite qx // /ys peval_horner.
pose bad := [seq - A`_i / B`_i | i <- iota 1 t.-1].
exists bad; split; first by rewrite size_map size_iota.
move=> s Hs.
have nzc i : (0 < i < t)%N -> (q s)`_i != 0.
  move=> Hi; apply/eqP; rewrite coefD coefZ => Ez.
  have Mi : i \in iota 1 t.-1 by rewrite mem_iota add1n prednK.
  have nz1 : (q secret)`_i != 0.
    rewrite -Pq coef_Poly /poly_random; case: i Hi {Mi Ez} => // i /andP [_ Hi] /=.
    by rewrite (nth_map 0%N) ?size_iota; [|lia].
  case: (B`_i =P 0) => [B0|/eqP B0].
    by move: nz1; rewrite coefD coefZ B0 mulr0 addr0; move: Ez; rewrite B0 mulr0 addr0 => ->; rewrite eqxx.
  move/negP: Hs; apply; apply/mapP; exists i => //.
  by apply: (canRL (mulfK B0)); apply/eqP; rewrite -addr_eq0 addrC Ez.
exists (fun i => if (0 < i < t)%N then (q s)`_i else 1); split.
  by move=> i; case: ifP => [/nzc|_] //; rewrite oner_neq0.
rewrite !shamir_splitE //; congr Ok; apply/eq_in_map => x Hx; congr (_, _).
rewrite -/ys -(qx s) // peval_horner; congr (_.[x]); apply/polyP => i.
rewrite coef_Poly /poly_random; case: i => [|i] /=; first by rewrite -horner_coef0 q0.
case: (ltnP i t.-1) => Hi.
  rewrite (nth_map 0%N) ?size_iota ?subn1 // nth_iota // add1n /=.
  by have -> : (i.+1 < t)%N by lia.
rewrite nth_default ?size_map ?size_iota ?subn1 //; apply/esym/nth_default.
by apply: leq_trans (szq s) _; rewrite /= Sx ltnS.
Qed.

Lemma share_never_secret (secret x y : F) (draws : nat -> F) m : (forall i, draws i != 0) -> x != 0 ->
  shamir_split secret 2 draws [:: x] = Ok m -> aget m x = Some y -> y != secret.
Proof.
move=> Hd x0; rewrite shamir_splitE // => -[<-] /=; rewrite eqxx => -[<-].
rewrite /peval /poly_random /= !big_ord_recl big_ord0 /= expr0 mulr1 expr1 addr0.
by rewrite -subr_eq0 addrC addKr mulf_neq0.
Qed.

Lemma public_matches (V : lmodType F) (g : V) (cs : seq F) (x : F) : (1 < size cs)%N ->
  exists v, poly_evaluate cs x = Ok v /\ v = \sum_(i < size cs) cs`_i * x ^+ i /\
    public_evaluate (poly_public g cs) x = Ok (v *: g).
Proof.
case: cs => // c cs H; exists (peval (c :: cs) x); rewrite poly_evaluateE; split => //; split => //.
rewrite /public_evaluate evaluate_pointsE ?size_map // /gpeval /peval scaler_suml size_map.
by congr Ok; apply: eq_bigr => i _; rewrite (nth_map 0) // scalerA mulrC.
Qed.

Lemma evaluate_short_panics (V : lmodType F) (cs : seq V) (x : F) : 
  (public_evaluate cs x = Panicked <-> (size cs <= 1)%N) /\ public_evaluate cs x <> LocalErr.
Proof.
rewrite /public_evaluate; case: (leqP (size cs) 1) => H; first by rewrite evaluate_points_panic.
by rewrite evaluate_pointsE.
Qed.

Lemma secret_split_exact (s : F) n draws :
  ((0 < n)%N -> exists parts, [/\ secret_split s n draws = Ok parts, size parts = n,
      \sum_(x <- parts) x = s & forall i, (i < n.-1)%N -> parts`_i = draws i]) /\
  (n = 0%N -> secret_split s n draws = Panicked).
Proof.
split; last by move=> ->.
move=> n0; have [parts [E [Sz Sx]]] := secret_splitE s draws n0.
exists parts; split => // i Hi; move: E; rewrite /secret_split.
case: eqP => [E1|_]; first by rewrite E1 in Hi.
case: eqP => [E1|_]; first by rewrite E1 in n0.
case=> <-; rewrite nth_rcons size_map size_iota subn1 Hi.
by rewrite (nth_map 0%N) ?size_iota // nth_iota.
Qed.

(** Any two splits of one secret that differ only in the draws, and any target
    values for the first n-1 parts: exactly one choice of draws. *)
Lemma secret_split_hiding (s s' : F) n draws parts j : (1 < n)%N -> (j < n)%N ->
  secret_split s n draws = Ok parts ->
  exists draws' parts', secret_split s' n draws' = Ok parts' /\
    forall i, (i < n)%N -> i != j -> parts'`_i = parts`_i.
Proof.
move=> n1 jn; have n0 : (0 < n)%N by lia.
rewrite /secret_split; have -> : (n == 1%N) = false by lia.
have -> : (n == 0%N) = false by lia.
case=> <-.
pose D (d : nat -> F) := [seq d i | i <- iota 0 (n - 1)].
have sD d : size (D d) = n.-1 by rewrite /D size_map size_iota; lia.
have nD d i : (i < n.-1)%N -> (D d)`_i = d i.
  by move=> Hi; rewrite /D (nth_map 0%N) ?size_iota ?nth_iota ?add0n //; lia.
have sumD d : foldl (fun a b => a + b) 0 (D d) = \sum_(0 <= i < n.-1) d i.
  by rewrite (foldl_addE (fun v => v)) add0r /D big_map /index_iota subn0 subn1.
case: (ltnP j n.-1) => Hj.
- pose draws' i := draws i + (i == j)%:R * (s' - s).
  exists draws'; eexists; split; first reflexivity.
  move=> i Hi Hij; rewrite -!/(D _) !nth_rcons !sD.
  case: ltngtP => Hc; [| lia |].
    by rewrite !nD // /draws' (negbTE Hij) mul0r addr0.
  have Ej : \sum_(0 <= k < n.-1) (k == j)%:R * (s' - s) = s' - s.
    rewrite (bigD1_seq j) ?mem_index_iota ?iota_uniq //= eqxx mul1r big1 ?addr0 // => k /negbTE ->.
    by rewrite mul0r.
  rewrite !sumD /draws' big_split /= Ej; set S := \sum_(_ <= _ < _) _.
  by ring.
- exists draws; eexists; split; first reflexivity.
  move=> i Hi Hij; rewrite -!/(D _) !nth_rcons !sD.
  by have -> : (i < n.-1)%N by lia.
Qed.

End Shamir.

Lemma secrecy_refuted :
  exists (F : fieldType) (xs : seq F) (secret s : F) (draws : nat -> F),
    size xs = 1%N /\ uniq xs /\ 0 \notin xs /\ (forall i, draws i != 0) /\
    forall draws', (forall i, draws' i != 0) ->
      shamir_split s 2 draws' xs <> shamir_split secret 2 draws xs.
Proof.
pose s2 : 'F_7 := peval (poly_random 1 2 (fun _ => 1)) 1.
exists [fieldType of 'F_7], [:: 1], 1, s2, (fun _ => 1); do 4 (split => //).
move=> d Hd E.
have H := @share_never_secret _ s2 1 s2 d [:: (1, s2)] Hd (isT : (1 : 'F_7) != 0).
have E' : shamir_split s2 2 d [:: 1] = Ok [:: (1, s2)] by rewrite E shamir_splitE.
by have := H E' erefl; rewrite eqxx.
Qed.

Section Keys.
Variables (F : fieldType) (V : lmodType F) (g : V) (I : eqType).

Lemma keygen_threshold (ids : seq I) t secret draws :
  uniq ids -> big_field F (size ids) -> (0 < t <= size ids)%N -> secret *: g != 0 ->
  exists shares : I -> tshare V I,
    [/\ ts_new_centralized g ids t secret draws = Ok [seq (i, shares i) | i <- ids],
        threshold_sharing g ids t secret shares &
        {in ids, forall i, ts_verifying_key (shares i) = Ok (secret *: g)}].
Proof.
move=> U B Ht xg; have /andP [t0 tn] := Ht.
have [shares [E [H _]]] := new_centralizedE g secret draws U B tn.
exists shares; split => //; first exact: H.
by move=> i Hi; rewrite /ts_verifying_key (vkey_point_sharing U Ht (H t0)) //= /to_verifying_key (negbTE xg).
Qed.

Lemma keygen_refuses (ids : seq I) t secret draws :
  uniq ids -> big_field F (size ids) ->
  (ts_new_centralized g ids t secret draws = LocalErr <-> (size ids < t)%N) /\
  ts_new_centralized g ids t secret draws <> Panicked.
Proof.
move=> U B; case: (ltnP (size ids) t) => H; first by rewrite /ts_new_centralized H.
by have [shares [-> _]] := new_centralizedE g secret draws U B H.
Qed.

Lemma keygen_zero (ids : seq I) secret draws :
  uniq ids -> big_field F (size ids) ->
  exists m, ts_new_centralized g ids 0 secret draws = Ok m /\
   {in ids, forall i, exists s, aget m i = Some s /\ ts_verifying_key s = LocalErr}.
Proof.
move=> U B; have [shares [E _]] := new_centralizedE g secret draws U B (leq0n _).
exists [seq (i, shares i) | i <- ids]; split => //; exact: vkey_t0 E.
Qed.

Lemma mapR_no_panic (A B : Type) (f : A -> result B) l : (forall a, f a <> Panicked) -> mapR f l <> Panicked.
Proof.
move=> H; elim: l => [|a l IH] //=; case: (f a) (H a) => //= b _.
by case: (mapR f l) IH.
Qed.

Lemma mapR_keys (T : Type) (f : I -> result (I * T)) : (forall i p, f i = Ok p -> p.1 = i) ->
  forall l r, mapR f l = Ok r -> akeys r = l.
Proof.
move=> hf; elim=> [|i l IH] r /=; first by case=> <-.
by case E: (f i) => [p||] //=; case E2: mapR => [r'||] //= [<-] /=; rewrite (hf _ _ E) -(IH _ E2).
Qed.

Lemma to_key_share_key debug (s : tshare V I) S k : ts_to_key_share debug s S = Ok k ->
  [/\ ks_owner k = ts_owner s, akeys (ks_public k) = S, \sum_(X <- avals (ks_public k)) X != 0 &
      ks_verifying_key k = Ok (\sum_(X <- avals (ks_public k)) X)].
Proof.
rewrite /ts_to_key_share; case: ifP => // _; case: (aget _ _) => [o|] //=.
case E1: mapR => [l||] //=; case E2: mapR => [l'||] //=; rewrite /ks_new psumE; case: ifP => // /negbT nz [<-] /=; split=> //.
  by apply: mapR_keys E2 => i p; case: aget => // v; case: aget => // v' [<-].
by rewrite /ks_verifying_key /ks_vkey_point /= psumE /to_verifying_key (negbTE nz).
Qed.

Lemma to_key_share_panics debug (s : tshare V I) S :
  ts_to_key_share debug s S = Panicked <->
  debug /\ (size S <> ts_threshold s \/ ts_owner s \notin S).
Proof.
have Eh : has (fun id => id == ts_owner s) S = (ts_owner s \in S).
  by rewrite -has_pred1.
rewrite /ts_to_key_share Eh; split; last first.
  by case=> -> [/eqP ->|->] //=; rewrite orbT.
case: ifP => [/andP [-> /orP [/eqP H|H]] _|_]; [by split; [|left]|by split; [|right]|].
case: (aget _ _) => [o|] //=.
case E1: mapR => [l||] //=; last by case/mapR_no_panic: E1 => a; case: aget.
case E2: mapR => [l'||] //=; last by case/mapR_no_panic: E2 => a; case: aget => // v; case: aget.
by rewrite /ks_new; case: ifP.
Qed.

Lemma from_key_share_vkey (ids : seq I) x (ks : I -> kshare V I) :
  uniq ids -> (0 < size ids)%N -> big_field F (size ids) -> additive_sharing g ids x ks -> x *: g != 0 ->
  {in ids, forall i, ks_verifying_key (ks i) = Ok (x *: g) /\
     exists t, ts_from_key_share (ks i) = Ok t /\ ts_verifying_key t = Ok (x *: g)}.
Proof.
move=> U s0 B H xg i Hi; split.
  have [sx Hk] := H; have [_ Ep] := Hk i Hi.
  rewrite /ks_verifying_key /ks_vkey_point psumE Ep avals_tab big_map -scaler_suml sx.
  by rewrite /to_verifying_key (negbTE xg).
have [ts [E1 [E2 _]]] := from_key_shareE U B H.
exists (ts i); split; first exact: E1.
rewrite /ts_verifying_key (vkey_point_sharing U _ E2) ?s0 ?leqnn //=.
by rewrite /to_verifying_key (negbTE xg).
Qed.

Lemma update_shift (k k' : kshare V I) (c : kchange V I) :
  uniq (akeys (ks_public k)) -> uniq (akeys (kc_public c)) -> ks_update k c = Ok k' ->
  ks_vkey_point k' = ks_vkey_point k + psum (avals (kc_public c)).
Proof.
move=> Uk Uc E.
have [[H _] _] := update_refuses Uk Uc.
have [Eo Hi] := H (ex_intro _ _ E).
move: E; rewrite /ks_update Eo eqxx /=; case: ifP => // _.
pose dl i := odflt 0 (aget (kc_public c) i).
rewrite (mapR_ok_in (h := fun q => (q.1, q.2 + dl q.1))); last first.
  move=> q Hq; have : q.1 \in akeys (kc_public c) by rewrite -Hi; apply/mapP; exists q.
  by rewrite /dl; case/in_aget => d ->.
case=> <-; rewrite /ks_vkey_point /= !psumE /avals -map_comp !big_map big_split /=; congr (_ + _).
rewrite -(big_map fst predT dl) -/(akeys (ks_public k)).
rewrite (perm_big (akeys (kc_public c))) /=; last exact: uniq_perm.
transitivity (\sum_(q <- [seq (k, dl k) | k <- akeys (kc_public c)]) q.2); first by rewrite big_map.
by rewrite -(atab_eq 0 Uc).
Qed.

End Keys.

Section Bip32.
Variables (F : fieldType) (V : lmodType F) (g : V) (I : eqType).
Variables (T CC N : Type) (as_tweak : T -> option F).
Variables (icc : V -> CC) (dtw : V -> CC -> N -> option (T * CC)).
Hypothesis g0 : g != 0.

Lemma apply_public_readable pk ts v : apply_tweaks_public g as_tweak pk ts = Some v ->
  forall t, List.In t ts -> exists a, as_tweak t = Some a.
Proof.
elim: ts pk => [|t ts IH] pk //=; rewrite /pk_derive_child.
case E: (as_tweak t) => [a|] //; case: to_verifying_key => // pk' /IH H t' [<- |/H //].
by exists a.
Qed.

Lemma apply_secret_iff (a : F) ts : (forall t, List.In t ts -> exists b, as_tweak t = Some b) ->
  a != 0 ->
  (exists b, apply_tweaks_secret as_tweak a ts = Some b) <->
  (forall n, (n <= size ts)%N -> a + \sum_(t <- take n ts) odflt 0 (as_tweak t) != 0).
Proof.
elim: ts a => [|t ts IH] a Hr a0 /=.
  split; last by exists a.
  by move=> _ n _; rewrite big_nil addr0.
have [b Eb] := Hr t (or_introl erefl).
have Hr' t' : List.In t' ts -> exists b, as_tweak t' = Some b by move=> H; apply: Hr; right.
rewrite /sk_derive_child Eb; split.
  case: eqP => [_ [] //|/eqP ab0 H [|n] Hn]; first by rewrite big_nil addr0.
  by rewrite big_cons Eb /= addrA; apply: (proj1 (IH _ Hr' ab0) H).
move=> H; have := H 1%N isT; rewrite /= ?take0 big_cons big_nil Eb /= addr0 => ab0; rewrite (negbTE ab0).
apply/(IH _ Hr' ab0) => n Hn; have := H n.+1 Hn; by rewrite big_cons Eb /= addrA.
Qed.

Lemma derive_bip32_iff ids t x (shares : I -> tshare V I) path i0 : uniq ids -> (0 < t <= size ids)%N ->
  threshold_sharing g ids t x shares -> i0 \in ids ->
  ((exists s, ts_derive_bip32 g as_tweak icc dtw (shares i0) path = Some s) <->
   exists tw, [/\ x != 0, derive_tweaks g as_tweak icc dtw (x *: g) path = Some tw &
     {in ids, forall j n, (n <= size tw)%N ->
        ts_secret (shares j) + \sum_(t <- take n tw) odflt 0 (as_tweak t) != 0}]).
Proof.
move=> U Ht Hsh Hi0.
have VK := vkey_point_sharing U Ht Hsh.
have [p [pt [px sz inj nz H]]] := Hsh.
have [Eo Et Es Ei Ep] := H i0 Hi0.
have readable tw : derive_tweaks g as_tweak icc dtw (x *: g) path = Some tw ->
    forall t, List.In t tw -> exists a, as_tweak t = Some a.
  by move=> Etw; have [v Ev] := derive_apply Etw; apply: apply_public_readable Ev.
rewrite /ts_derive_bip32 /ts_verifying_key VK //= /to_verifying_key (scale_g_eq0 g0).
split.
- case: eqP => [_ [] //|/eqP x0] /=; case Etw: derive_tweaks => [tw|]; last by case.
  have R := readable tw Etw.
  rewrite Es Ep; case: eqP => [_ [] //|/eqP s0]; case Esec: apply_tweaks_secret => [sec|]; last by case.
  case Epub: mapO => [pub|]; last by case.
  move=> _; exists tw; split => // j Hj n Hn; have [_ _ -> _ _] := H j Hj.
  have := mapO_some Epub (x := (j, p.[pt j] *: g)).
  rewrite map_f // => /(_ isT) /=; rewrite (scale_g_eq0 g0).
  case: eqP => // /eqP pj0; rewrite (apply_secret_public _ g0).
  case E: apply_tweaks_secret => [b|] //= _.
  exact: (proj1 (apply_secret_iff R pj0) (ex_intro _ b E)).
- case=> tw [x0 Etw Hall]; rewrite (negbTE x0) /= Etw; have R := readable tw Etw.
  have pub0 j : j \in ids -> p.[pt j] != 0.
    by move=> Hj; have := Hall j Hj 0%N isT; have [_ _ -> _ _] := H j Hj; rewrite take0 big_nil addr0.
  have sec j : j \in ids -> exists b, apply_tweaks_secret as_tweak p.[pt j] tw = Some b.
    move=> Hj; apply/(apply_secret_iff R (pub0 j Hj)) => n Hn.
    by have := Hall j Hj n Hn; have [_ _ -> _ _] := H j Hj.
  rewrite Es Ep (negbTE (pub0 _ Hi0)); have [b ->] := sec _ Hi0.
  rewrite (mapO_ok_in (h := fun q => (q.1, q.2 + tweak_total as_tweak tw *: g))); first by eexists.
  move=> q /mapP [j Hj ->] /=; rewrite (scale_g_eq0 g0) (negbTE (pub0 _ Hj)) (apply_secret_public _ g0).
  have [c Ec] := sec j Hj; rewrite Ec /= (apply_secret_total Ec) scalerDl //.
Qed.

End Bip32.

Lemma wrong_set_refuted :
  exists (F : fieldType) (V : lmodType F) (g : V) (ids : seq nat_eqType) x (shares : nat_eqType -> tshare V nat_eqType)
    i S S' k k',
    [/\ uniq ids, threshold_sharing g ids 2 x shares, i \in ids, uniq S /\ {subset S <= ids} &
        uniq S' /\ {subset S' <= ids}] /\
    [/\ i \in S, size S = 1%N, ts_to_key_share false (shares i) S = Ok k,
        ks_verifying_key k <> Panicked & ks_vkey_point k <> x *: g] /\
    [/\ i \notin S', size S' = 2%N, ts_to_key_share false (shares i) S' = Ok k' &
        {in avals (ks_public k'), forall X, X <> ks_secret k' *: g}].
Proof.
pose F := [fieldType of 'F_7].
pose V := [lmodType F of F^o].
pose g : V := (1 : 'F_7).
pose ids : seq nat_eqType := [:: 10; 20; 30]%N.
pose p : {poly F} := Poly [:: 5%:R; 3%:R].
pose pt (i : nat_eqType) : F := if i == 10%N then 1 else if i == 20%N then 2%:R else 3%:R.
pose f (y : F) : F := 5%:R + 3%:R * y.
have pE y : p.[y] = f y by rewrite /p horner_Poly /= /f mul0r add0r addrC.
pose sh (i : nat_eqType) := TShare i 2 (f (pt i)) [seq (j, pt j) | j <- ids] [seq (j, f (pt j) *: g) | j <- ids].
exists F, V, g, ids, (5%:R : F), sh, 10%N, [:: 10%N], [:: 20; 30]%N.
pose k1 := ts_to_key_share false (sh 10%N) [:: 10%N].
pose k2 := ts_to_key_share false (sh 10%N) [:: 20; 30]%N.
have B1 : (if k1 is Ok k then ~~ (ks_vkey_point k == 0) && (ks_vkey_point k != 5%:R *: g) else false) by vm_compute.
have B2 : (if k2 is Ok k then all (fun X => X != ks_secret k *: g) (avals (ks_public k)) else false) by vm_compute.
case E1: k1 B1 => [k||] // /andP [B1 B1']; case E2: k2 B2 => [k'||] // B2.
exists k, k'; split; last split.
- split => //; last 2 first.
  + by split => // i; rewrite inE => /eqP ->.
  + by split => // i; rewrite !inE => /orP [] /eqP ->.
  exists p, pt; split => //.
  + by rewrite pE /f mulr0 addr0.
  + exact: size_Poly.
  + by move=> i j; rewrite !inE => /or3P [] /eqP -> /or3P [] /eqP ->.
  + by move=> i; rewrite !inE => /or3P [] /eqP ->.
  + by move=> i Hi; split => //=; rewrite !pE.
- split => //; last exact/eqP.
  by rewrite /ks_verifying_key /to_verifying_key (negbTE B1).
- by split => // X HX; apply/eqP; move/allP: B2; apply.
Qed.
