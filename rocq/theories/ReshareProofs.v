(** * Proofs about resharing. *)
From Coq Require Import ZArith.
From Verif Require Import Base EncodingModel.
From mathcomp Require Import all_ssreflect all_algebra.
From Verif Require Import AlgBase AlgFacts ShamirModel ShamirSpec ShamirProofs ShareLemmas ThresholdModel ThresholdSpec
  ThresholdProofs ProtoBase ProtoSpec ProtoFacts ReshareModel.
Set Implicit Arguments.
Unset Strict Implicit.
Unset Printing Implicit Defensive.
Import GRing.Theory.
Local Open Scope ring_scope.

Section Reshare.
Variables (F : fieldType) (V : lmodType F) (g : V) (I : eqType) (le : rel I).

Lemma gpeval_public (cs : seq F) x : gpeval (poly_public g cs) x = peval cs x *: g.
Proof.
rewrite /gpeval /peval scaler_suml size_map; apply: eq_bigr => i _.
by rewrite (nth_map 0) // scalerA mulrC.
Qed.

Lemma size_poly_random (c : F) t d : (0 < t)%N -> size (poly_random c t d) = t.
Proof. by rewrite /poly_random /= size_map size_iota; case: t => // t _; rewrite subn1. Qed.

Lemma rs_share_idsE news : uniq news -> rs_share_ids F news = [seq (i, @pos_pt F I news i) | i <- news].
Proof.
move=> U; rewrite /rs_share_ids (@zip_tab _ _ (share_id_new F)) // acollect_uniq //.
by rewrite -map_comp map_id.
Qed.

Lemma aset_map_val (K : eqType) (A B : Type) (h : A -> B) (m : seq (K * A)) k a :
  aset [seq (p.1, h p.2) | p <- m] k (h a) = [seq (p.1, h p.2) | p <- aset m k a].
Proof. by elim: m => [|[k' a'] m IH] //=; case: eqP => //= _; rewrite IH. Qed.
Lemma acollect_map_val (K : eqType) (A B : Type) (h : A -> B) (l : seq (K * A)) :
  acollect [seq (p.1, h p.2) | p <- l] = [seq (p.1, h p.2) | p <- acollect l].
Proof.
rewrite /acollect -[X in foldl _ X]/[seq (p.1, h p.2) | p <- [::]].
elim: l [::] => [|[k a] l IH] m //=; by rewrite aset_map_val IH.
Qed.
Lemma join_points_scalars (l : seq (F * F)) : join_points [seq (p.1, p.2 *: g) | p <- l] = join_scalars l *: g.
Proof.
rewrite join_pointsE join_scalarsE (akeys_map_val (fun a => a *: g)) big_map scaler_suml.
by apply: eq_bigr => p _; rewrite scalerA mulrC.
Qed.

Lemma without_notin (ids : seq I) i : i \notin ids -> without ids i = ids.
Proof. by move=> h; apply/all_filterP/allP => j hj; apply: contraNneq h => <-. Qed.

Lemma mapR_map (A B C : Type) (h : A -> B) (f : B -> result C) l : mapR f [seq h a | a <- l] = mapR (fun a => f (h a)) l.
Proof. by elim: l => [|a l IH] //=; rewrite IH. Qed.

(** ** Honest run *)
Section Honest.
Variables (old_ids olds news : seq I) (told tnew t' : nat) (x : F) (oldshares : I -> tshare V I)
  (draws : I -> nat -> F) (c : I -> rs_round1 V I).
Hypotheses (ho : total_order le) (so : sorted le olds) (uo : uniq olds) (un : uniq news)
  (hsh : threshold_sharing g old_ids told x oldshares) (sub : {subset olds <= old_ids}) (uo' : uniq old_ids)
  (ht : (told <= size olds)%N) (hb : big_field F (size news)) (ht2 : (1 < tnew)%N).
Hypothesis hc : forall i, (i \in olds) || (i \in news) ->
  rs_start g (if i \in olds then Some (oldshares i) else None)
    (if i \in news then Some (NewHolder (x *: g) t' olds) else None) news tnew i (draws i) = Ok (c i).

(** The share id an old holder has and its weight among the old holders. *)
Definition spt (j : I) : F := if ts_share_id (oldshares j) is Ok z then z else 0.
Definition swt (j : I) : F := lagrange0 [seq spt k | k <- olds] (spt j).

Lemma rs_honest_full :
  {in olds, forall j, swt j != 0} /\
  {in olds, forall j, r1_destinations (c j) = without news j} /\
  {in news, forall i, r1_expecting (c i) = without olds i} /\
  exists m : I -> I -> message (rs_wire V),
  {in olds & news, forall j i, rs_send (c j) i = Ok (m j i)} /\
  {in olds, forall i, i \notin news -> rs_run g le (c i) (fun j => m j i) [::] = Accept None} /\
  exists shares : I -> tshare V I,
    threshold_sharing g news tnew x shares /\
    {in news, forall i, ts_secret (shares i) =
       \sum_(j <- olds) peval (poly_random (ts_secret (oldshares j)) tnew (draws j)) (@pos_pt F I news i) * swt j} /\
    {in news, forall i ord m', perm_eq ord (r1_expecting (c i)) -> {in olds, forall j, m' j = m j i} ->
       rs_run g le (c i) m' ord = Accept (Some (shares i))}.
Proof using ho so uo un hsh sub uo' ht hb ht2 hc.
case: hsh => p [pt [px sp inj nz hs]].
have sptE : {in olds, forall j, spt j = pt j}.
  move=> j jo; have [e1 _ _ e4 _] := hs j (sub jo).
  by rewrite /spt /ts_share_id e4 e1 (aget_map_in pt) //; apply: sub.
have swtE : {in olds, forall j, swt j = lagrange0 [seq pt k | k <- olds] (pt j)}.
  by move=> j jo; rewrite /swt sptE //; congr lagrange0; apply/eq_in_map.
pose f j := poly_random (ts_secret (oldshares j)) tnew (draws j).
have fE j : poly_random (ts_secret (oldshares j)) tnew (draws j) = f j by [].
have fs j : size (f j) = tnew by rewrite size_poly_random // ltnW.
have f1 j : (1 < size (f j))%N by rewrite fs.
have f0 j : (f j)`_0 = ts_secret (oldshares j) by [].
have fc j : public_coeff0 (poly_public g (f j)) = Ok (ts_secret (oldshares j) *: g) by [].
have fe j z : poly_evaluate (f j) z = Ok (peval (f j) z) by rewrite /f /poly_random poly_evaluateE.
clearbody f.
pose pn := @pos_pt F I news.
have [pninj pnnz] := pos_pt_ok un hb.
pose od j := OldData (pt j) (f j) (poly_public g (f j)).
have cE i : (i \in olds) || (i \in news) -> c i = RsRound1 (if i \in olds then Some (od i) else None)
    (if i \in news then Some (NewHolder (x *: g) t' olds) else None) [seq (k, pn k) | k <- news] tnew i
    (if i \in olds then without news i else [::]) (if i \in news then without olds i else [::]).
  move=> hi; have := hc hi; rewrite /rs_start rs_share_idsE // -/pn.
  have [io|io] := boolP (i \in olds); last by move: hi; rewrite (negbTE io) /= => -> [<-].
  rewrite fE; have [e1 _ e3 e4 _] := hs i (sub io).
  have -> : ts_share_id (oldshares i) = Ok (pt i) by rewrite /ts_share_id e4 e1 (aget_map_in pt) //; apply: sub.
  by case: (i \in news) => /= -[<-].
pose m j i := Msg (Some (WDM V (peval (f j) (pn i)))) (Some (WEB (poly_public g (f j)) (pt j))) None.
split.
  move=> j jo; rewrite swtE //; apply: lagrange0_neq0.
  by apply/mapP => -[k ko E]; have := nz k (sub ko); rewrite -E eqxx.
split; first by move=> j jo; rewrite cE jo.
split; first by move=> i iN; rewrite cE ?iN ?orbT.
exists m; split.
  by move=> j i jo iN; rewrite cE jo //= /rs_send /= (aget_map_in pn) //= fe.
split; first by move=> i io nN; rewrite cE io //= (negbTE nN) /rs_run /=.
pose lam j := lagrange0 [seq pt k | k <- olds] (pt j).
pose q : {poly F} := \sum_(j <- olds) lam j *: Poly (f j).
have inj' : {in olds &, injective pt} by move=> a b ha hb'; apply: inj; apply: sub.
have uids : uniq [seq pt k | k <- olds] by rewrite map_inj_in_uniq.
have qE z : q.[z] = \sum_(j <- olds) peval (f j) z * lam j.
  rewrite /q horner_sum; apply: eq_bigr => j _; by rewrite hornerZ peval_horner mulrC.
have q0 : q.[0] = x.
  rewrite qE -px -(@lagrange_pts _ _ p pt olds uo inj' (leq_trans sp ht)).
  apply: eq_big_seq => j jo; congr (_ * _); rewrite peval_horner horner_coef0 coef_Poly f0.
  by have [_ _ ->] := hs j (sub jo).
have qs : (size q <= tnew)%N.
  rewrite /q big_seq; apply: leq_trans (size_sum _ _ _) _; apply/bigmax_leqP_seq => j _ _.
  apply: leq_trans (size_scale_leq _ _) _; apply: leq_trans (size_Poly _) _.
  by rewrite fs.
exists (fun i => TShare i tnew q.[pn i] [seq (k, pn k) | k <- news] [seq (k, q.[pn k] *: g) | k <- news]).
split; first by exists q, pn; split.
split.
  move=> i iN /=; rewrite qE; apply: eq_big_seq => j jo; by rewrite swtE // fE.
move=> i iN ord m'; rewrite cE ?iN ?orbT //= => hp hm'.
pose pl j := RsPayload (peval (f j) (pn i)) (poly_public g (f j)) (pt j).
rewrite /rs_run (@round_ok _ _ _ _ _ pl (without olds i)) //; last first.
- move=> j; rewrite mem_filter => /andP [_ jo].
  rewrite hm' // /rs_recv /= jo /= /safe_get /= (aget_map_in pn) //= /public_evaluate evaluate_pointsE ?size_map //=.
  by rewrite gpeval_public eqxx.
- exact: sorted_without.
rewrite /= /rs_finalize /= (aget_map_in pn) //=.
have -> : rs_own_payload le (RsRound1 (if i \in olds then Some (od i) else None) (Some (NewHolder (x *: g) t' olds))
    [seq (k, pn k) | k <- news] tnew i (if i \in olds then without news i else [::]) (without olds i))
    (pn i) [seq (j, pl j) | j <- without olds i] = Ok [seq (j, pl j) | j <- olds].
  rewrite /rs_own_payload /=; case io: (i \in olds) => /=; last by rewrite without_notin ?io.
  by rewrite fe /= -/(pl i) binsert_tab.
rewrite /= avals_tab -map_comp /=.
rewrite mapR_map (mapR_ok_in (h := fun j => lam j *: (p.[pt j] *: g))); last first.
  by move=> j jo; rewrite fc interpolation_coeffE; have [_ _ ->] := hs j (sub jo).
rewrite /= psumE big_map (@lagrange_pts_g _ _ g _ p pt olds) ?(leq_trans sp ht) // px eqxx /=.
rewrite (mapR_ok_in (h := fun j => (pt j, peval (f j) (pn i)))); last by move=> j jo; rewrite (aget_map_in pl).
rewrite /= (mapR_ok_in (h := fun k => (k.1, q.[k.2] *: g))); last first.
  move=> [k z] /mapP [k' kN [-> ->]] /=.
  rewrite mapR_map (mapR_ok (h := fun j => (pt j, peval (f j) (pn k') *: g))); last first.
    by move=> j; rewrite /public_evaluate evaluate_pointsE ?size_map //= gpeval_public.
  rewrite /= acollect_uniq -?map_comp // join_pointsE /akeys -map_comp big_map qE scaler_suml.
  by congr (Ok (_, _)); apply: eq_bigr => j _ /=; rewrite scalerA mulrC.
rewrite -map_comp /=; congr (Accept (Some (TShare _ _ _ _ _))).
by rewrite acollect_uniq -?map_comp // join_scalarsE /akeys -map_comp big_map qE.
Qed.

Lemma rs_honest :
  {in olds, forall j, r1_destinations (c j) = without news j} /\
  {in news, forall i, r1_expecting (c i) = without olds i} /\
  exists m : I -> I -> message (rs_wire V),
  {in olds & news, forall j i, rs_send (c j) i = Ok (m j i)} /\
  {in olds, forall i, i \notin news -> rs_run g le (c i) (fun j => m j i) [::] = Accept None} /\
  exists shares : I -> tshare V I,
    threshold_sharing g news tnew x shares /\
    {in news, forall i ord, perm_eq ord (r1_expecting (c i)) ->
       rs_run g le (c i) (fun j => m j i) ord = Accept (Some (shares i))}.
Proof using ho so uo un hsh sub uo' ht hb ht2 hc.
have [_ [h1 [h2 [m [h3 [h4 [shares [h5 [_ h6]]]]]]]]] := rs_honest_full.
split=> //; split=> //; exists m; split=> //; split=> //; exists shares; split=> //.
by move=> i iN ord hp; apply: h6.
Qed.
End Honest.

(** ** Arbitrary peers *)

Lemma rs_recv_inv (s : rs_round1 V I) n from m p : r1_new s = Some n -> rs_recv g s from m = Accept p ->
  [/\ from \in nh_old_holders n, m = Msg (Some (WDM V (rp_subshare p))) (Some (WEB (rp_poly p) (rp_share_id p))) None &
   exists2 z, aget (r1_share_ids s) (r1_id s) = Some z & public_evaluate (rp_poly p) z = Ok (rp_subshare p *: g)].
Proof.
move=> hn; rewrite /rs_recv hn.
case: m => d e [w|] //=; case: e => [[q sid|x|]|] //=; case: d => [[q' sid'|x|]|] //=.
case: ifP => // hf; rewrite /safe_get; case E: (aget _ _) => [z|] //=.
case E2: (public_evaluate q z) => [P||] //=; case: eqP => //= hP [<-] /=.
by split=> //; exists z => //; rewrite E2 hP.
Qed.

Lemma rs_start_inv (old : option (tshare V I)) new news tnew id draws s : rs_start g old new news tnew id draws = Ok s ->
  [/\ r1_new s = new, r1_share_ids s = rs_share_ids F news, r1_threshold s = tnew, r1_id s = id &
      r1_expecting s = if new is Some n then without (nh_old_holders n) id else [::]] /\
  match old, r1_old s with
  | None, None => True
  | Some t, Some od => [/\ ts_share_id t = Ok (od_share_id od), od_poly od = poly_random (ts_secret t) tnew draws &
                          od_public od = poly_public g (od_poly od)]
  | _, _ => False
  end.
Proof.
rewrite /rs_start; case: old => [t|]; case: new => [n|] //=.
- by case E: (ts_share_id t) => [z||] //= [<-].
- by case E: (ts_share_id t) => [z||] //= [<-].
- by case=> <-.
Qed.

Lemma mapR_inv_tab (A : eqType) (B : Type) (f : A -> result B) (h : A -> B) l r :
  mapR f l = Ok r -> (forall a b, a \in l -> f a = Ok b -> b = h a) -> r = map h l.
Proof.
elim: l r => [|a l IH] r //=; first by case=> <-.
case E: (f a) => [b||] //=; case E2: (mapR f l) => [bs||] //= [<-] H.
rewrite (H a b) ?mem_head // (IH _ E2) // => a' b' h'; apply: H.
by rewrite inE h' orbT.
Qed.

Lemma mapR_aget (K : eqType) (A B : Type) (f : K * A -> result (K * B)) l r k : mapR f l = Ok r ->
  (forall q b, f q = Ok b -> b.1 = q.1) ->
  aget r k = if aget l k is Some a then (if f (k, a) is Ok b then Some b.2 else None) else None.
Proof.
move=> + H; elim: l r => [|[k' a] l IH] r /=; first by case=> <-.
case E: (f (k', a)) => [b||] //=; case E2: (mapR f l) => [bs||] //= [<-].
case: b E => [k'' b] E /=; have /= ek := H _ _ E; subst k''.
case: eqP => [->|_]; by [rewrite E | apply: IH].
Qed.

(** The public shares as a function of what the old holders broadcast. *)
Definition rs_publics (poly : I -> seq V) (sid : I -> F) (olds news : seq I) : result (seq (I * V)) :=
  mapR (fun q => prs <?- mapR (fun j => v <?- public_evaluate (poly j) q.2 ;; Ok (sid j, v)) olds ;;
                 Ok (q.1, join_points (acollect prs))) (rs_share_ids F news).

Lemma eq_mapR (A B : Type) (f f' : A -> result B) l : (forall a, f a = f' a) -> mapR f l = mapR f' l.
Proof. by move=> h; elim: l => [|a l /= ->] //; rewrite h. Qed.

Lemma rs_publics_eq poly sid poly' sid' olds news :
  {in olds, forall j, poly j = poly' j /\ sid j = sid' j} -> rs_publics poly sid olds news = rs_publics poly' sid' olds news.
Proof.
move=> h; apply: eq_mapR => q; congr (rbind _ _).
elim: olds h => [|j l IH] h //=; have [-> ->] := h j (mem_head _ _).
by rewrite IH // => i hi; apply: h; rewrite inE hi orbT.
Qed.

Lemma rs_finished_full (old : option (tshare V I)) n news tnew id draws s m ord k : total_order le ->
  rs_start g old (Some n) news tnew id draws = Ok s -> uniq news ->
  sorted le (nh_old_holders n) -> uniq (nh_old_holders n) -> (old <> None -> id \in nh_old_holders n) ->
  perm_eq ord (r1_expecting s) ->
  rs_run g le s m ord = Accept k ->
  exists share poly sid,
  [/\ ts_share_ids share = rs_share_ids F news, rs_publics poly sid (nh_old_holders n) news = Ok (ts_public share) &
      id \in nh_old_holders n -> old <> None] /\
  [/\ k = Some share, ts_owner share = id, ts_threshold share = tnew, akeys (ts_public share) = news &
      aget (ts_public share) id = Some (ts_secret share *: g)] /\
  [/\ {in without (nh_old_holders n) id, forall j, exists d, m j = Msg (Some (WDM V d)) (Some (WEB (poly j) (sid j))) None},
      (forall t, old = Some t -> ts_share_id t = Ok (sid id) /\ poly id = poly_public g (poly_random (ts_secret t) tnew draws)) &
      \sum_(j <- nh_old_holders n) lagrange0 [seq sid j | j <- nh_old_holders n] (sid j) *: (poly j)`_0 = nh_vkey n].
Proof.
move=> ho hs un so uo hid hp; rewrite /rs_run.
have [[e1 e2 e3 e4 e5] eold] := rs_start_inv hs.
set olds := nh_old_holders n.
case Er: (round_payloads _ _ _) => [pay|||] //=.
have [k1 k2 k3] := round_inv Er.
have kk : akeys pay = without olds id.
  by rewrite k1; apply: sort_keys => //; [exact: sorted_without|move: hp; rewrite e5].
rewrite /rs_finalize e1 e4.
case Ez: (aget (r1_share_ids s) id) => [z|] //=.
case Eo: (rs_own_payload _ _ _ _) => [P||] //=.
case Et: (mapR _ (avals P)) => [terms||] //=; case: eqP => //= hv.
case Es: (mapR _ (nh_old_holders n)) => [subs||] //=.
case Ep: (mapR _ (r1_share_ids s)) => [pubs||] //= [<-].
pose d0 := RsPayload 0 ([::] : seq V) 0.
pose pl j := odflt d0 (aget P j).
have getP j : j \in olds -> aget P j = Some (pl j).
  move=> jo; have [b] := mapR_inv Es jo; rewrite /pl; by case: (aget P j).
have hpl j : j \in without olds id -> [/\ aget P j = aget pay j &
     exists p, [/\ aget pay j = Some p, m j = Msg (Some (WDM V (rp_subshare p))) (Some (WEB (rp_poly p) (rp_share_id p))) None &
       public_evaluate (rp_poly p) z = Ok (rp_subshare p *: g)]].
  move=> hj; have [|t ht1 ht2] := k3 j; first by rewrite -k2 kk.
  have [h1 h2 [z' Ez' h3]] := rs_recv_inv e1 ht1.
  have ? : z' = z by move: Ez'; rewrite e4 Ez => -[].
  subst z'; split; last by exists t.
  move: Eo; rewrite /rs_own_payload; case: (r1_old s) => [od|[<-]] //.
  case: (poly_evaluate _ _) => [v||] //= [<-]; rewrite aget_btree aget_aset e4.
  by move: hj; rewrite mem_filter => /andP [/negbTE ->].
have PE : P = [seq (j, pl j) | j <- olds].
  move: Eo eold hid; rewrite /rs_own_payload; case: (r1_old s) old {hs} => [od|] [t|] // Eo eold hid.
  - have {}hid := hid ltac:(done).
    move: Eo; case: (poly_evaluate _ _) => [v||] //= [Eo]; rewrite e4 in Eo.
    have -> : P = binsert le [seq (j, pl j) | j <- without olds id] id (pl id).
      rewrite -Eo /pl; congr binsert; last by rewrite -Eo aget_btree aget_aset eqxx.
      rewrite {1}(@atab_eq _ _ pay d0); last by rewrite kk filter_uniq.
      rewrite kk; apply/eq_in_map => j hj; congr (_, odflt _ _).
      by rewrite (proj1 (hpl j hj)).
    by rewrite binsert_tab.
  - case: Eo => ?; subst P.
    have nid : id \notin olds.
      apply/negP => h; have := getP id h; rewrite aget_notin // kk mem_filter eqxx //.
    rewrite {1}(@atab_eq _ _ pay d0); last by rewrite kk filter_uniq.
    by rewrite kk without_notin.
have plid t : old = Some t -> ts_share_id t = Ok (rp_share_id (pl id)) /\
    rp_poly (pl id) = poly_public g (poly_random (ts_secret t) tnew draws) /\
    poly_evaluate (poly_random (ts_secret t) tnew draws) z = Ok (rp_subshare (pl id)).
  move=> ot; move: eold Eo; rewrite /rs_own_payload ot /pl; case: (r1_old s) => [od|] // [a1 a2 a3].
  case Ev: (poly_evaluate _ _) => [v||] //= [<-]; rewrite aget_btree aget_aset e4 eqxx /=.
  rewrite a1 a3 a2; split=> //; split=> //; by rewrite -Ev a2.
exists (TShare id tnew (join_scalars (acollect subs)) (r1_share_ids s) pubs), (fun j => rp_poly (pl j)), (fun j => rp_share_id (pl j)).
have kpub : [seq p.1 | p <- pubs] = [seq p.1 | p <- r1_share_ids s].
  elim: (r1_share_ids s) pubs Ep => [|q l IH] pubs /=; first by case=> <-.
  case: (mapR _ (avals P)) => [v||] //=; case El: (mapR _ l) => [bs||] //= [<-] /=; by rewrite (IH bs).
have shE : r1_share_ids s = [seq (i, pos_pt F news i) | i <- news] by rewrite e2 rs_share_idsE.
split.
  split; first by rewrite /= e2.
    rewrite /= -Ep e2 /rs_publics; apply: eq_mapR => q; congr (rbind _ _).
    by rewrite PE avals_tab mapR_map.
  move=> jo on; have := getP id jo; move: Eo eold; rewrite /rs_own_payload on; case: (r1_old s) => // -[<-] _.
  by rewrite aget_notin // kk mem_filter eqxx.
split.
  split=> //=.
  - by rewrite e3.
  - by rewrite /akeys kpub shE -map_comp map_id.
  have idN : id \in news by have := aget_in Ez; rewrite shE akeys_tab.
  have zE : z = pos_pt F news id by move: Ez; rewrite shE (aget_map_in (@pos_pt F I news)) // => -[].
  have subE : subs = [seq (rp_share_id (pl j), rp_subshare (pl j)) | j <- olds].
    by apply: mapR_inv_tab Es _ => j b jo; rewrite getP //= => -[].
  have evE j : j \in olds -> public_evaluate (rp_poly (pl j)) z = Ok (rp_subshare (pl j) *: g).
    move=> jo; have [ji|nji] := eqVneq j id; last first.
      have hj : j \in without olds id by rewrite mem_filter nji.
      have [h1 [p [h2 _ h3]]] := hpl j hj; by rewrite /pl h1 h2.
    subst j; move: plid hid hs eold; case: (old) => [t|] plid hid hs eold; last first.
      have := getP id jo; move: Eo eold; rewrite /rs_own_payload; case: (r1_old s) => // -[<-] _.
      by rewrite aget_notin // kk mem_filter eqxx.
    have [a1 [a2 a3]] := plid t erefl.
    have [w Ew] : exists w, public_evaluate (rp_poly (pl id)) z = Ok w.
      have hz : (id, z) \in r1_share_ids s by rewrite shE zE map_f.
      have [b /=] := mapR_inv Ep hz; rewrite PE avals_tab mapR_map.
      case Em: (mapR _ olds) => [prs||] //= _; have [b'] := mapR_inv Em jo.
      by case: (public_evaluate _ z) => // w; exists w.
    rewrite Ew; move: Ew a3; rewrite a2 /public_evaluate.
    have [hsz|hsz] := ltnP 1 (size (poly_random (ts_secret t) tnew draws)).
      rewrite evaluate_pointsE ?size_map // gpeval_public => -[<-].
      by rewrite /poly_random poly_evaluateE => -[->].
    by rewrite evaluate_points_panic // size_map.
  have hq : aget pubs id = Some (join_points (acollect [seq (rp_share_id (pl j), rp_subshare (pl j) *: g) | j <- olds])).
    rewrite (mapR_aget id Ep) ?Ez; last first.
      by move=> q b; case: (mapR _ _) => //= v [<-].
    rewrite /= PE avals_tab mapR_map (mapR_ok_in (h := fun j => (rp_share_id (pl j), rp_subshare (pl j) *: g))) //.
    by move=> j jo; rewrite evE.
  rewrite hq subE; congr Some.
  by rewrite -join_points_scalars -(acollect_map_val (fun a => a *: g)) -map_comp.
split.
- move=> j hj; have [h1 [p [h2 h3 _]]] := hpl j hj.
  by exists (rp_subshare p); rewrite h3 /pl h1 h2.
- by move=> t ot; have [a1 [a2 _]] := plid t ot.
rewrite hv psumE; move: Et; rewrite PE avals_tab mapR_map -map_comp => Et.
rewrite (mapR_inv_tab (h := fun j => lagrange0 [seq rp_share_id (pl i) | i <- olds] (rp_share_id (pl j)) *: (rp_poly (pl j))`_0) Et).
  by rewrite big_map.
move=> j b jo; rewrite interpolation_coeffE /public_coeff0.
by case: (rp_poly (pl j)) => [|w l] //= [<-].
Qed.

Lemma rs_finished (old : option (tshare V I)) n news tnew id draws s m ord k : total_order le ->
  rs_start g old (Some n) news tnew id draws = Ok s -> uniq news ->
  sorted le (nh_old_holders n) -> uniq (nh_old_holders n) -> (old <> None -> id \in nh_old_holders n) ->
  perm_eq ord (r1_expecting s) ->
  rs_run g le s m ord = Accept k ->
  exists share poly sid,
  [/\ k = Some share, ts_owner share = id, ts_threshold share = tnew, akeys (ts_public share) = news &
      aget (ts_public share) id = Some (ts_secret share *: g)] /\
  [/\ {in without (nh_old_holders n) id, forall j, exists d, m j = Msg (Some (WDM V d)) (Some (WEB (poly j) (sid j))) None},
      (forall t, old = Some t -> ts_share_id t = Ok (sid id) /\ poly id = poly_public g (poly_random (ts_secret t) tnew draws)) &
      \sum_(j <- nh_old_holders n) lagrange0 [seq sid j | j <- nh_old_holders n] (sid j) *: (poly j)`_0 = nh_vkey n].
Proof.
move=> h1 h2 h3 h4 h5 h6 h7 h8.
by have [sh [po [si [_ h]]]] := rs_finished_full h1 h2 h3 h4 h5 h6 h7 h8; exists sh, po, si.
Qed.

(** ** Aborts *)

Lemma rs_short_panics (s : rs_round1 V I) n from d poly sid :
  r1_new s = Some n -> from \in nh_old_holders n -> r1_id s \in akeys (r1_share_ids s) -> (size poly <= 1)%N ->
  rs_recv g s from (Msg (Some (WDM V d)) (Some (WEB poly sid)) None) = RPanic.
Proof.
move=> hn hf /in_aget [z hz] hp; rewrite /rs_recv /= hn hf /= /safe_get hz /=.
by rewrite /public_evaluate evaluate_points_panic.
Qed.

Lemma rs_threshold_one (old : tshare V I) new new' old' n news tnew j id draws draws' s r m :
  rs_start g (Some old) new' news tnew j draws = Ok s ->
  rs_start g old' (Some n) new tnew id draws' = Ok r -> uniq new -> id \in new ->
  j \in nh_old_holders n -> (tnew <= 1)%N ->
  rs_send s id = Ok m -> rs_recv g r j m = RPanic.
Proof.
move=> h1 h2 un hi hj ht; rewrite /rs_send.
have [[a1 a2 a3 a4 a5]] := rs_start_inv h1; case Eo: (r1_old s) => [od|] // [b1 b2 b3].
have [[c1 c2 c3 c4 c5] _] := rs_start_inv h2.
case: (aget _ id) => [z|] //=; case: (poly_evaluate _ z) => [v||] //= [<-].
apply: rs_short_panics c1 hj _ _; first by rewrite c2 c4 rs_share_idsE // akeys_tab.
by rewrite b3 size_map b2 /poly_random /= size_map size_iota; case: (tnew) ht => [|[]].
Qed.

Lemma rs_wrong_key_panics (s : rs_round1 V I) n m ord (pl : I -> rs_payload V) : total_order le ->
  r1_new s = Some n -> r1_old s = None -> r1_id s \in akeys (r1_share_ids s) ->
  sorted le (nh_old_holders n) -> perm_eq ord (nh_old_holders n) ->
  {in nh_old_holders n, forall j, rs_recv g s j (m j) = Accept (pl j)} ->
  \sum_(j <- nh_old_holders n)
     lagrange0 [seq rp_share_id (pl j) | j <- nh_old_holders n] (rp_share_id (pl j)) *: (rp_poly (pl j))`_0 != nh_vkey n ->
  rs_run g le s m ord = RPanic.
Proof.
move=> ho hn hold /in_aget [z hz] so hp hr hv; rewrite /rs_run (@round_ok _ _ _ _ _ pl _ _ ho so hp hr) /=.
rewrite /rs_finalize hn hz /= /rs_own_payload hold /= avals_tab -map_comp mapR_map.
rewrite (mapR_ok_in (h := fun j =>
   lagrange0 [seq rp_share_id (pl j) | j <- nh_old_holders n] (rp_share_id (pl j)) *: (rp_poly (pl j))`_0)); last first.
  move=> j jo; rewrite interpolation_coeffE /public_coeff0.
  have [_ _ [z' _]] := rs_recv_inv hn (hr j jo); by case: (rp_poly (pl j)).
by rewrite /= psumE big_map eq_sym hv.
Qed.

(** Any [tnew] shares of the honest result give the old secret back. *)
Lemma sharing_reconstructs ids t x (shares : I -> tshare V I) S :
  threshold_sharing g ids t x shares -> uniq S -> {subset S <= ids} -> (t <= size S)%N ->
  exists pt : I -> F, [/\ {in ids, forall i, ts_share_id (shares i) = Ok (pt i)} &
    join_scalars [seq (pt i, ts_secret (shares i)) | i <- S] = x].
Proof.
case=> p [pt [px sp inj nz H]] uS sub st; exists pt; split.
  by move=> i hi; have [e1 _ _ e4 _] := H i hi; rewrite /ts_share_id e4 e1 (aget_map_in pt).
rewrite join_scalarsE /akeys -map_comp big_map -px.
have inj' : {in S &, injective pt} by move=> a b ha hb; apply: inj; apply: sub.
rewrite -(@lagrange_pts _ _ p pt S uS inj' (leq_trans sp st)).
by apply: eq_big_seq => i /sub hi; have [_ _ -> _ _] := H i hi.
Qed.

Lemma rs_no_evidence (s : rs_round1 V I) from m e (ev : evidence I (rs_wire V)) : rs_recv g s from m = Reject (Proto e) -> rs_evidence from e ev = EvPanic.
Proof. by []. Qed.

End Reshare.
