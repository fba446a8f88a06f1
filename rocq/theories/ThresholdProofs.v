(** * Proofs about threshold and additive key shares. *)
From mathcomp Require Import all_ssreflect all_algebra.
From Verif Require Import AlgBase AlgFacts ShamirModel ShamirSpec ShamirProofs ThresholdModel ThresholdSpec.
Set Implicit Arguments.
Unset Strict Implicit.
Unset Printing Implicit Defensive.
Import GRing.Theory.
Local Open Scope ring_scope.

Section Proofs.
Variables (F : fieldType) (V : lmodType F) (g : V) (I : eqType).
Implicit Types (ids S : seq I) (x : F).

Lemma psumE (l : seq V) : psum l = \sum_(v <- l) v.
Proof. by rewrite /psum (foldl_addE (fun v => v)) add0r. Qed.

Lemma in_take (A : eqType) n (l : seq A) : {subset take n l <= l}.
Proof. by move=> a; apply: mem_take. Qed.

(** Evaluating the sharing on a subset of ids. *)
Lemma lagrange_pts (p : {poly F}) (pt : I -> F) S : uniq S -> {in S &, injective pt} ->
  (size p <= size S)%N ->
  \sum_(i <- S) p.[pt i] * lagrange0 [seq pt i | i <- S] (pt i) = p.[0].
Proof.
move=> U inj sz.
rewrite -(@lagrange_poly _ [seq pt i | i <- S]) ?size_map ?map_inj_in_uniq //.
by rewrite big_map.
Qed.

Lemma lagrange_pts_g (p : {poly F}) (pt : I -> F) S : uniq S -> {in S &, injective pt} ->
  (size p <= size S)%N ->
  \sum_(i <- S) lagrange0 [seq pt i | i <- S] (pt i) *: (p.[pt i] *: g) = p.[0] *: g.
Proof.
move=> U inj sz; rewrite -(@lagrange_pts p pt S) // scaler_suml.
by apply: eq_bigr => i _; rewrite scalerA mulrC.
Qed.

Lemma vkey_point_sharing ids t x shares : uniq ids -> (0 < t <= size ids)%N ->
  threshold_sharing g ids t x shares ->
  {in ids, forall i, ts_vkey_point (shares i) = Ok (x *: g)}.
Proof.
move=> U /andP [t0 tn] [p [pt [px sz inj nz H]]] i Hi.
have [Eo Et Es Ei Ep] := H i Hi.
rewrite /ts_vkey_point Et Ei Ep.
rewrite -map_take (mapR_ok_in (h := fun q => (q.2, p.[q.2] *: g))); last first.
  move=> q /mapP [j Hj ->] /=.
  by rewrite (aget_tab (fun j => p.[pt j] *: g)) (in_take Hj).
rewrite /= -map_comp; set prs := [seq _ | _ <- _].
have Eprs : prs = [seq (pt j, p.[pt j] *: g) | j <- take t ids] by [].
have injT : {in take t ids &, injective pt}.
  by move=> a b Ha Hb; apply: inj; [exact: mem_take Ha | exact: mem_take Hb].
have Uk : uniq [seq q.1 | q <- prs].
  by rewrite Eprs -map_comp map_inj_in_uniq ?take_uniq.
rewrite acollect_uniq // join_pointsE; congr Ok.
have -> : akeys prs = [seq pt j | j <- take t ids] by rewrite /akeys Eprs -map_comp.
rewrite Eprs big_map /= lagrange_pts_g ?take_uniq ?px //.
by rewrite size_takel.
Qed.

Lemma to_key_shareE (debug : bool) ids t x shares S : uniq ids -> uniq S -> {subset S <= ids} ->
  (t <= size S)%N -> (debug -> size S = t) -> x *: g != 0 ->
  threshold_sharing g ids t x shares ->
  exists ks : I -> kshare V I,
    {in S, forall i, ts_to_key_share debug (shares i) S = Ok (ks i)} /\
    additive_sharing g S x ks /\
    {in S, forall i, ks_verifying_key (ks i) = Ok (x *: g)}.
Proof.
move=> U US sub sS sD xg [p [pt [px sz inj nz H]]].
have injS : {in S &, injective pt} by move=> a b Ha Hb; apply: inj; apply: sub.
pose lam i := lagrange0 [seq pt j | j <- S] (pt i).
pose pub := [seq (j, (p.[pt j] * lam j) *: g) | j <- S].
have Esum : psum (avals pub) = x *: g.
  rewrite psumE /avals /pub -map_comp big_map /= -px.
  rewrite -(@lagrange_pts p pt S) //; last exact: leq_trans sz sS.
  by rewrite scaler_suml.
exists (fun i => KShare i (p.[pt i] * lam i) pub); split; last split.
- move=> i Hi; have Hi' := sub i Hi; have [Eo Et Es Ei Ep] := H i Hi'.
  rewrite /ts_to_key_share Et Eo Es Ei Ep /=.
  have -> : has (fun id => id == i) S by apply/hasP; exists i.
  have -> : debug && ((size S != t) || ~~ true) = false.
    by case: (debug) sD => // /(_ isT) ->; rewrite eqxx.
  rewrite (aget_tab pt) Hi' /=.
  rewrite (mapR_ok_in (h := fun j => (j, pt j))); last first.
    by move=> j Hj; rewrite (aget_tab pt) sub.
  rewrite /= avals_tab (mapR_ok_in (h := fun j => (j, (p.[pt j] * lam j) *: g))); last first.
    move=> j Hj; rewrite (aget_tab (fun j => p.[pt j] *: g)) (aget_tab pt) sub //=.
    by rewrite interpolation_coeffE scalerA mulrC.
  by rewrite /= interpolation_coeffE -/pub /ks_new Esum (negbTE xg).
- split; last by move=> i Hi; split.
  by rewrite /= lagrange_pts // ?px //; exact: leq_trans sz sS.
- by move=> i Hi; rewrite /ks_verifying_key /ks_vkey_point Esum /to_verifying_key (negbTE xg).
Qed.

Lemma zip_tab (A : eqType) (B : Type) (f : nat -> B) (l : seq A) m : uniq l ->
  zip l [seq f n | n <- iota m (size l)] = [seq (a, f (m + index a l)%N) | a <- l].
Proof.
elim: l m => [|a l IH] m //= /andP [Ha U]; rewrite eqxx addn0; congr (_ :: _).
rewrite IH //; apply/eq_in_map => b Hb; congr (_, f _).
by rewrite addSnnS; case: eqP => // E; rewrite E Hb in Ha.
Qed.

(** The point assigned to a party: its position (from one) in the id order. *)
Definition pos_pt ids (i : I) : F := (index i ids).+1%:R.

Lemma pos_pt_ok ids : uniq ids -> big_field F (size ids) ->
  {in ids &, injective (pos_pt ids)} /\ {in ids, forall i, pos_pt ids i != 0}.
Proof.
move=> U B; have [Up [N0 Sz]] := evaluation_points_ok B.
have mem i : i \in ids -> pos_pt ids i \in evaluation_points F (size ids).
  move=> Hi; apply/mapP; exists (index i ids).+1 => //.
  by rewrite mem_iota /= add1n ltnS index_mem.
split; last by move=> i /mem; apply: contraTneq => ->.
move=> i j Hi Hj; rewrite /pos_pt => E.
have nthE k : (k < size ids)%N -> (evaluation_points F (size ids))`_k = k.+1%:R.
  by move=> Hk; rewrite /evaluation_points (nth_map 0%N) ?size_iota // nth_iota // add1n.
have := E; rewrite -!nthE ?index_mem // => /eqP; rewrite nth_uniq ?Sz ?index_mem // => /eqP.
by move=> Eij; rewrite -(nth_index i Hi) Eij nth_index.
Qed.

Lemma index_tab ids i : i \in ids -> (1 + index i ids)%:R = pos_pt ids i :> F.
Proof. by rewrite add1n. Qed.

Lemma aget_map_in (A : eqType) (B : Type) (f : A -> B) (l : seq A) a : a \in l ->
  aget [seq (k, f k) | k <- l] a = Some (f a).
Proof. by move=> H; rewrite (aget_tab f) H. Qed.

Lemma shamir_splitE secret t draws (idx : seq F) : uniq idx ->
  shamir_split secret t draws idx =
  Ok [seq (y, peval (poly_random secret t draws) y) | y <- idx].
Proof.
move=> U; rewrite /shamir_split.
rewrite (mapR_ok (h := fun y => (y, peval (poly_random secret t draws) y))); last first.
  by move=> y; rewrite /poly_random poly_evaluateE.
by rewrite /= acollect_uniq // -map_comp map_id.
Qed.

Lemma new_centralizedE ids t secret draws : uniq ids -> big_field F (size ids) ->
  (t <= size ids)%N ->
  exists shares : I -> tshare V I,
    ts_new_centralized g ids t secret draws = Ok [seq (i, shares i) | i <- ids] /\
    ((0 < t)%N -> threshold_sharing g ids t secret shares) /\
    {in ids, forall i, [/\ ts_threshold (shares i) = t,
         ts_share_ids (shares i) = [seq (j, pos_pt ids j) | j <- ids] &
         ts_public (shares i) = [seq (j, ts_secret (shares j) *: g) | j <- ids]]}.
Proof.
move=> U B tn; have [Up [N0 Sz]] := evaluation_points_ok B.
have [inj nz] := pos_pt_ok U B.
pose cs := poly_random secret t draws.
pose tab := [seq (j, pos_pt ids j) | j <- ids].
pose pub := [seq (j, peval cs (pos_pt ids j) *: g) | j <- ids].
have memP i : i \in ids -> pos_pt ids i \in evaluation_points F (size ids).
  move=> Hi; apply/mapP; exists (index i ids).+1 => //.
  by rewrite mem_iota /= add1n ltnS index_mem.
have Etab : acollect (zip ids (evaluation_points F (size ids))) = tab.
  rewrite /evaluation_points zip_tab // acollect_uniq; last by rewrite -map_comp map_id.
  by apply/eq_in_map => j Hj; rewrite index_tab.
exists (fun i => TShare i t (peval cs (pos_pt ids i)) tab pub); split; last split.
- rewrite /ts_new_centralized ltnNge tn shamir_splitE // -/cs /= Etab.
  rewrite (mapR_ok_in (h := fun q => (q.1, peval cs q.2 *: g))); last first.
    by move=> q /mapP [j Hj ->] /=; rewrite (aget_tab (peval cs)) memP.
  have -> : [seq (q.1, peval cs q.2 *: g) | q <- tab] = pub by rewrite /tab -map_comp.
  rewrite /= (mapR_ok_in (h := fun i => (i, TShare i t (peval cs (pos_pt ids i)) tab pub))) //.
  move=> i Hi; rewrite (aget_tab (pos_pt ids)) Hi /= (aget_tab (peval cs)) memP //=.
- move=> t0; exists (Poly cs), (pos_pt ids); split => //.
  + by rewrite horner_coef0 coef_Poly.
  + apply: leq_trans (size_Poly _) _; rewrite /cs /poly_random /= size_map size_iota.
    by case: (t) t0 => // k _; rewrite subn1.
  + move=> i Hi; split => //=; first by rewrite peval_horner.
    by apply: eq_map => j; rewrite peval_horner.
- by [].
Qed.

Lemma vkey_t0 ids t secret draws m : uniq ids -> big_field F (size ids) -> t = 0%N ->
  ts_new_centralized g ids t secret draws = Ok m ->
  {in ids, forall i, exists s, aget m i = Some s /\ ts_verifying_key s = LocalErr}.
Proof.
move=> U B -> E i Hi.
have [shares [E' [_ H]]] := @new_centralizedE ids 0 secret draws U B (leq0n _).
rewrite E' in E; case: E => <-; exists (shares i); rewrite (aget_tab shares) Hi; split => //.
have [Et _ _] := H i Hi.
by rewrite /ts_verifying_key /ts_vkey_point Et take0 /= /to_verifying_key /join_points /= eqxx.
Qed.

(** Additive shares to threshold shares. *)
Lemma from_key_shareE ids x (ks : I -> kshare V I) : uniq ids -> big_field F (size ids) ->
  additive_sharing g ids x ks ->
  exists ts : I -> tshare V I,
    {in ids, forall i, ts_from_key_share (ks i) = Ok (ts i)} /\
    threshold_sharing g ids (size ids) x ts /\
    (x *: g != 0 -> forall debug, {in ids, forall i, ts_to_key_share debug (ts i) ids = Ok (ks i)}).
Proof.
move=> U B [sx H].
have [inj nz] := pos_pt_ok U B.
pose pt := pos_pt ids.
pose pts := [seq pt i | i <- ids].
have Up : uniq pts by rewrite map_inj_in_uniq.
have N0 : 0 \notin pts by apply/mapP => [[i Hi E]]; have := nz i Hi; rewrite -/pt -E eqxx.
pose lam i := lagrange0 pts (pt i).
have lam0 i : lam i != 0 by apply: lagrange0_neq0.
(* value at a point: the party there, found by search *)
pose val (y : F) := if [seq i <- ids | pt i == y] is i :: _ then ks_secret (ks i) / lam i else 0.
have valE i : i \in ids -> val (pt i) = ks_secret (ks i) / lam i.
  move=> Hi; rewrite /val.
  have : all (fun j => j == i) [seq j <- ids | pt j == pt i].
    apply/allP => j; rewrite mem_filter => /andP [/eqP E Hj]; apply/eqP; exact: inj.
  have : i \in [seq j <- ids | pt j == pt i] by rewrite mem_filter eqxx Hi.
  by case: [seq j <- ids | pt j == pt i] => // j l _ /= /andP [/eqP -> _].
pose p := Linterp pts val.
have pE i : i \in ids -> p.[pt i] = ks_secret (ks i) / lam i.
  by move=> Hi; rewrite /p Linterp_node ?valE //; apply/mapP; exists i.
have szp : (size p <= size ids)%N by apply: leq_trans (size_Linterp _ Up) _; rewrite size_map.
have p0 : p.[0] = x.
  rewrite -(@lagrange_pts p pt ids) // -sx; apply: eq_big_seq => i Hi.
  by rewrite pE // divfK.
pose tab := [seq (j, pt j) | j <- ids].
pose pub := [seq (j, p.[pt j] *: g) | j <- ids].
exists (fun i => TShare i (size ids) p.[pt i] tab pub).
have Hts : threshold_sharing g ids (size ids) x (fun i => TShare i (size ids) p.[pt i] tab pub).
  by exists p, pt.
split; last split => //.
- move=> i Hi; have [Eo Ep] := H i Hi.
  rewrite /ts_from_key_share /ks_parties Eo Ep akeys_tab.
  have -> : acollect (zip ids [seq share_id_new F n | n <- iota 1 (size ids)]) = tab.
    rewrite zip_tab // acollect_uniq; last by rewrite -map_comp map_id.
    by apply/eq_in_map => j Hj; rewrite /share_id_new index_tab.
  rewrite (aget_tab pt) Hi /= interpolation_coeffE avals_tab -/pts -/(lam i) /finv (negbTE (lam0 i)) /=.
  rewrite (mapR_ok_in (h := fun j => (j, p.[pt j] *: g))); last first.
    move=> j Hj; rewrite (aget_tab pt) (aget_tab (fun j => ks_secret (ks j) *: g)) Hj /=.
    rewrite interpolation_coeffE -/pts -/(lam j) (negbTE (lam0 j)) /= scalerA pE //.
    by rewrite mulrC.
  by rewrite /= pE.
- move=> xg debug i Hi.
  have [ks' [E1 [[E2 E3] _]]] := to_key_shareE U U (fun _ h => h) (leqnn _) (fun _ : debug => erefl _) xg Hts.
  rewrite E1 //; congr Ok.
  have Eks' j : j \in ids -> ks_secret (ks' j) = ks_secret (ks j).
    move=> Hj; have := E1 j Hj; rewrite /ts_to_key_share /= eqxx /=.
    have -> : has (fun id => id == j) ids by apply/hasP; exists j.
    rewrite andbF (aget_tab pt) Hj /=.
    rewrite (mapR_ok_in (h := fun j => (j, pt j))); last by move=> k Hk; rewrite (aget_tab pt) Hk.
    rewrite /= avals_tab; case: mapR => //= a; rewrite /ks_new; case: ifP => // _ [<-] /=.
    by rewrite interpolation_coeffE -/pts -/(lam j) pE // divfK.
  have [o1 p1] := E3 i Hi; have [o2 p2] := H i Hi.
  case: (ks' i) (ks i) o1 p1 o2 p2 (Eks' i Hi) => [a b c] [a' b' c'] /= -> -> -> -> ->.
  by congr KShare; apply/eq_in_map => j Hj; rewrite Eks'.
Qed.

Lemma zip_tab' (B : Type) (d : B) ids (l : seq B) : uniq ids -> size l = size ids ->
  zip ids l = [seq (i, nth d l (index i ids)) | i <- ids].
Proof.
elim: ids l => [|a ids IH] [|b l] //= /andP [Ha U] [Sz]; rewrite eqxx /=; congr (_ :: _).
rewrite IH //; apply/eq_in_map => c Hc; case: eqP => // E.
by rewrite E Hc in Ha.
Qed.

Lemma ks_new_centralizedE ids x draws : uniq ids -> (0 < size ids)%N ->
  exists ks : I -> kshare V I,
    ks_new_centralized g ids x draws = Ok [seq (i, ks i) | i <- ids] /\ additive_sharing g ids x ks.
Proof.
move=> U s0; have [parts [E [Sz Sx]]] := secret_splitE x draws s0.
pose sec i := parts`_(index i ids).
have Ezip : zip ids parts = [seq (i, sec i) | i <- ids] by rewrite (zip_tab' 0).
pose pub := [seq (j, sec j *: g) | j <- ids].
exists (fun i => KShare i (sec i) pub); split.
  rewrite /ks_new_centralized E /= Ezip -!map_comp /=.
  by rewrite acollect_uniq // -map_comp map_id.
split => //=; rewrite -Sx -(big_map sec predT id); apply: congr_big => //.
have : [seq q.2 | q <- zip ids parts] = parts.
  by apply: unzip2_zip; rewrite Sz.
by rewrite Ezip -map_comp.
Qed.

(** Updating key shares. *)
Lemma updateE ids x (ks : I -> kshare V I) (kc : I -> kchange V I) : uniq ids ->
  additive_sharing g ids x ks ->
  \sum_(i <- ids) kc_secret (kc i) = 0 ->
  {in ids, forall i, kc_owner (kc i) = i /\
     kc_public (kc i) = [seq (j, kc_secret (kc j) *: g) | j <- ids]} ->
  exists ks' : I -> kshare V I,
    {in ids, forall i, ks_update (ks i) (kc i) = Ok (ks' i)} /\
    additive_sharing g ids x ks' /\
    {in ids, forall i, ks_secret (ks' i) = ks_secret (ks i) + kc_secret (kc i) /\
                       ks_verifying_key (ks' i) = ks_verifying_key (ks i)}.
Proof.
move=> U [sx H] s0 Hc.
pose sec i := ks_secret (ks i) + kc_secret (kc i).
pose pub := [seq (j, sec j *: g) | j <- ids].
exists (fun i => KShare i (sec i) pub); split; last split.
- move=> i Hi; have [Eo Ep] := H i Hi; have [Eo' Ep'] := Hc i Hi.
  rewrite /ks_update Eo Eo' eqxx Ep Ep' !size_map eqxx /=.
  rewrite (mapR_ok_in (h := fun q => (q.1, sec q.1 *: g))); last first.
    move=> q /mapP [j Hj ->] /=; rewrite (aget_tab (fun j => kc_secret (kc j) *: g)) Hj /=.
    by rewrite -scalerDl.
  by rewrite /= -map_comp.
- split => //=; by rewrite big_split /= sx s0 addr0.
- move=> i Hi; split => //; have [_ Ep] := H i Hi.
  rewrite /ks_verifying_key /ks_vkey_point /= Ep !psumE !avals_tab !big_map -!scaler_suml.
  by rewrite big_split /= s0 addr0.
Qed.

(** Refusal, for arbitrary data. *)
Lemma update_refuses (k : kshare V I) (c : kchange V I) :
  uniq (akeys (ks_public k)) -> uniq (akeys (kc_public c)) ->
  ((exists k', ks_update k c = Ok k') <->
     (ks_owner k = kc_owner c /\ akeys (ks_public k) =i akeys (kc_public c))) /\
  ks_update k c <> Panicked.
Proof.
move=> Uk Uc.
have np : ks_update k c <> Panicked.
  rewrite /ks_update; case: ifP => // _; case: ifP => // _.
  have : forall l : seq (I * V), mapR (fun q => d <?- ok_or (aget (kc_public c) q.1) ;; Ok (q.1, q.2 + d)) l <> Panicked.
    elim=> [|q l IH] //=; case: (aget _ _) => [d|] //=.
    by case: (mapR _ l) IH.
  by move/(_ (ks_public k)); case: mapR.
split => //; rewrite /ks_update; split.
- case: (ks_owner k =P kc_owner c) => [Eo|_] /=; last by case.
  case: (size (ks_public k) =P size (kc_public c)) => [Es|_] /=; last by case.
  case=> k'.
  case E: mapR => [l||] //= _; split => // i.
  have sub : {subset akeys (ks_public k) <= akeys (kc_public c)}.
    move=> j /mapP [q Hq ->]; have [b] := mapR_inv E Hq.
    by case Eg: (aget (kc_public c) q.1) => [d|] //= _; apply: aget_in Eg.
  have Ssz : (size (akeys (kc_public c)) <= size (akeys (ks_public k)))%N by rewrite !size_map Es.
  by have [_ ->] := uniq_min_size Uk sub Ssz.
- case=> -> Hi; rewrite eqxx /=.
  have Es : size (ks_public k) = size (kc_public c).
    have := perm_size (uniq_perm Uk Uc Hi); by rewrite !size_map.
  rewrite Es eqxx /=.
  rewrite (mapR_ok_in (h := fun q => (q.1, q.2 + odflt 0 (aget (kc_public c) q.1)))); first by eexists.
  move=> q Hq; have : q.1 \in akeys (kc_public c) by rewrite -Hi; apply/mapP; exists q.
  by case/in_aget => d ->.
Qed.

End Proofs.

(** ** BIP-32 *)
Section Bip32.
Variables (F : fieldType) (V : lmodType F) (g : V) (I : eqType).
Variables (T CC N : Type) (as_tweak : T -> option F).
Variables (icc : V -> CC) (dtw : V -> CC -> N -> option (T * CC)).
Hypothesis g0 : g != 0.

(** Total of the tweaks (only meaningful when all are readable). *)
Definition tweak_total (ts : seq T) : F := \sum_(t <- ts) odflt 0 (as_tweak t).

Lemma scale_g_eq0 (a : F) : (a *: g == 0) = (a == 0).
Proof. by rewrite scaler_eq0 (negbTE g0) orbF. Qed.

Lemma apply_secret_public (a : F) (ts : seq T) :
  apply_tweaks_public g as_tweak (a *: g) ts =
  omap (fun b => b *: g) (apply_tweaks_secret as_tweak a ts).
Proof.
elim: ts a => [|t ts IH] a //=; rewrite /pk_derive_child /sk_derive_child.
case: (as_tweak t) => [b|] //; rewrite -scalerDl /to_verifying_key scale_g_eq0.
by case: eqP => //= _; rewrite IH.
Qed.

Lemma apply_secret_total (a b : F) (ts : seq T) : apply_tweaks_secret as_tweak a ts = Some b ->
  b = a + tweak_total ts.
Proof.
elim: ts a => [|t ts IH] a //=; rewrite /tweak_total; first by case=> <-; rewrite big_nil addr0.
rewrite /sk_derive_child; case Et: (as_tweak t) => [c|] //; case: eqP => // _ /IH ->.
by rewrite big_cons Et /= addrA.
Qed.

Lemma derive_apply pk cc path ts :
  derive_tweaks_loop g as_tweak dtw pk cc path = Some ts -> exists v, apply_tweaks_public g as_tweak pk ts = Some v.
Proof.
elim: path pk cc ts => [|n path IH] pk cc ts /=; first by case=> <-; exists pk.
case: dtw => [[t cc']|] //; case Ep: pk_derive_child => [pk'|] //.
case El: derive_tweaks_loop => [ts'|] // [<-] /=; rewrite Ep; exact: IH El.
Qed.

Lemma mapO_some (A : eqType) (B : Type) (f : A -> option B) l r : mapO f l = Some r ->
  {in l, forall a, f a}.
Proof.
elim: l r => [|a l IH] r //=; case E: (f a) => [b|] //; case El: mapO => [bs|] // _ c.
by rewrite in_cons => /orP [/eqP -> |/(IH _ El)]; rewrite ?E.
Qed.

Lemma mapO_ok_in (A : eqType) (B : Type) (f : A -> option B) (h : A -> B) l :
  {in l, forall a, f a = Some (h a)} -> mapO f l = Some (map h l).
Proof.
elim: l => [|a l IH] //= H; rewrite H ?mem_head // IH // => c Hc.
by apply: H; rewrite in_cons Hc orbT.
Qed.

Lemma apply_secret_neq0 (a b : F) ts : a != 0 -> apply_tweaks_secret as_tweak a ts = Some b -> b != 0.
Proof.
elim: ts a => [|t ts IH] a /=; first by move=> H [<-].
move=> _; rewrite /sk_derive_child; case: as_tweak => [c|] //; case: eqP => // /eqP H.
exact: IH.
Qed.

Lemma derive_bip32E ids t x (shares : I -> tshare V I) path i0 s0 : uniq ids -> (0 < t <= size ids)%N ->
  threshold_sharing g ids t x shares -> i0 \in ids ->
  ts_derive_bip32 g as_tweak icc dtw (shares i0) path = Some s0 ->
  exists (derived : I -> tshare V I) (d : F),
    {in ids, forall i, ts_derive_bip32 g as_tweak icc dtw (shares i) path = Some (derived i)} /\
    threshold_sharing g ids t (x + d) derived /\
    vkey_derive_bip32 g as_tweak icc dtw (x *: g) path = Some ((x + d) *: g) /\
    {in ids, forall i,
       ts_derive_verifying_key_bip32 g as_tweak icc dtw (shares i) path = Some ((x + d) *: g) /\
       ts_verifying_key (derived i) = Ok ((x + d) *: g)}.
Proof.
move=> U Ht Hsh Hi0.
have VK := vkey_point_sharing U Ht Hsh.
have [p [pt [px sz inj nz H]]] := Hsh.
rewrite {1}/ts_derive_bip32 /ts_verifying_key VK //= /to_verifying_key.
case: ifP => // xg /=; case Etw: derive_tweaks => [tw|] //.
have [Eo Et Es Ei Ep] := H i0 Hi0.
rewrite Es Ep; case: ifP => // s0n; case Esec: apply_tweaks_secret => [sec|] //.
case Epub: mapO => [pub|] // _.
have pubE j : j \in ids -> p.[pt j] != 0 /\
   apply_tweaks_secret as_tweak p.[pt j] tw = Some (p.[pt j] + tweak_total tw).
  move=> Hj; have := mapO_some Epub (x := (j, p.[pt j] *: g)).
  rewrite map_f // => /(_ isT) /=; rewrite /to_verifying_key scale_g_eq0.
  case: eqP => // _; rewrite apply_secret_public.
  case E: apply_tweaks_secret => [b|] //= _; split => //.
  by rewrite (apply_secret_total E).
pose d := tweak_total tw.
have x0 : x != 0 by apply: contraFneq xg => ->; rewrite scale0r.
have [v Ev] : exists v, apply_tweaks_public g as_tweak (x *: g) tw = Some v by exact: derive_apply Etw.
have [y Ey] : exists y, apply_tweaks_secret as_tweak x tw = Some y.
  by move: Ev; rewrite apply_secret_public; case: apply_tweaks_secret => // y _; exists y.
have Exd : y = x + d by exact: apply_secret_total Ey.
have xd0 : (x + d) *: g != 0 by rewrite scale_g_eq0 -Exd; exact: apply_secret_neq0 x0 Ey.
have Evk : vkey_derive_bip32 g as_tweak icc dtw (x *: g) path = Some ((x + d) *: g).
  by rewrite /vkey_derive_bip32 Etw apply_secret_public Ey /= Exd.
pose tab := [seq (j, pt j) | j <- ids].
pose dpub := [seq (j, (p.[pt j] + d) *: g) | j <- ids].
pose derived i := TShare i t (p.[pt i] + d) tab dpub.
exists derived, d.
have Hd : threshold_sharing g ids t (x + d) derived.
  exists (p + d%:P), pt; split => //.
  - by rewrite hornerD hornerC px.
  - apply: leq_trans (size_add _ _) _; rewrite geq_max sz /=.
    by apply: leq_trans (size_polyC_leq1 _) _; case/andP: Ht.
  - move=> i Hi; split => //=; first by rewrite hornerD hornerC.
    by apply: eq_map => j; rewrite hornerD hornerC.
split; last split => //; last split => //.
- move=> i Hi; have [Eo' Et' Es' Ei' Ep'] := H i Hi; have [pn0 pE] := pubE i Hi.
  rewrite /ts_derive_bip32 /ts_verifying_key VK //= /to_verifying_key xg /= Etw Es' Ep' (negbTE pn0) pE.
  rewrite (mapO_ok_in (h := fun q => (q.1, q.2 + d *: g))); last first.
    move=> q /mapP [j Hj ->] /=; have [pn0' pE'] := pubE j Hj.
    by rewrite scale_g_eq0 (negbTE pn0') apply_secret_public pE' /= scalerDl.
  rewrite Eo' Et' Ei' -map_comp; congr (Some _); rewrite /derived; congr TShare.
  by apply: eq_map => j /=; rewrite scalerDl.
- move=> i Hi; split.
    by rewrite /ts_derive_verifying_key_bip32 /ts_verifying_key VK //= /to_verifying_key xg.
  rewrite /ts_verifying_key (vkey_point_sharing U Ht Hd) //= /to_verifying_key (negbTE xd0) //.
Qed.

End Bip32.
