(** * Proofs about fresh shares (property C72). *)
From Coq Require Import ZArith Znumtheory Lia.
From Verif Require Import Base SignedModel PaillierModel ZkBase ZkModel ZkSpec.
From mathcomp Require Import all_ssreflect all_algebra.
From mathcomp.zify Require Import ssrZ.
From Verif Require Import AlgBase AlgFacts ShamirModel ShamirSpec ShamirProofs ThresholdModel ThresholdSpec ThresholdProofs ShareLemmas SchModel
  ProtoBase ProtoSpec ProtoFacts ReshareModel ReshareProofs AuxGenModel AuxHonestSpec
  KeyRefreshModel KeyRefreshProofs KeyRefreshHonest LifeSpec LifeProofs FreshSpec.
Set Implicit Arguments.
Unset Strict Implicit.
Unset Printing Implicit Defensive.
Import GRing.Theory.
Local Open Scope ring_scope.

Section Refresh.
Variables (S : sparams) (F : fieldType) (V : lmodType F) (g : V) (I : eqType) (le : rel I) (HO : eqType).
Notation item := (hitem HO I V).
Variables (H : dst -> seq item -> HO) (X : xof (seq item) V) (Hs : dst -> seq item -> F) (scheme : seq item).
Notation XV := (X : xof (seq item) (pt (curveV g))).
Hypotheses (HG : good_params S) (HX : xof_ok (sp_q S) XV) (HD : @detects_composites _ V X) (ho : total_order le).
Hypothesis HW : Z.lt (Z.add (Z.add (Z.add (Z.mul 2 (modulus_bits (sp_pail S))) (sp_l S)) (sp_eps S)) 1) (sp_xw S).
Notation refresh := (refresh_run S g le H X Hs scheme).

(** Part [k] of the [n] parts of zero. *)
Definition part (n : nat) (dr : nat -> F) (k : nat) : F :=
  if (k < n.-1)%N then dr k else - \sum_(0 <= l < n.-1) dr l.

Lemma secret_split0 n dr parts k : secret_split 0 n dr = Ok parts -> (k < n)%N -> parts`_k = part n dr k.
Proof.
rewrite /secret_split /part; case: (n =P 1%N) => [-> [<-]|n1]; first by case: k => // _; rewrite /= big_geq // oppr0.
case: (n =P 0%N) => [->|n0] // [<-] kn.
rewrite nth_rcons size_map size_iota -subn1; case: ltnP => hk.
  by rewrite (nth_map 0%N) ?size_iota // nth_iota.
rewrite ifT; last by rewrite eqn_leq hk andbT; lia.
by rewrite (foldl_addE (fun v => v)) !add0r big_map /index_iota subn0.
Qed.

Lemma start_xs ids sr i r y tau split c d : kr_start S g H X scheme ids sr i r y tau split = Ok (c, d) ->
  exists2 parts, secret_split 0 (size ids) split = Ok parts & kx_xs c = zip ids parts.
Proof.
rewrite /kr_start; case: ifP => // _.
case: (rp_secret_new _ _ _ _) => [sec|] //=; case: (rp_with_secret _ _) => [rp|] //=.
case: (prm_new _ _ _ _ _ _) => [psi|] //=.
case E: (secret_split _ _ _) => [parts||] //=.
case: (public_key_new _) => [pk|] //=; case: (skey_new _ _ _) => [sk|] //= [<- _].
by exists parts.
Qed.

Section Run.
Variables (ids : seq I) (sr : seq Z) (r : I -> ag_rand) (com : I -> Z) (y tau : I -> I -> F) (rnd : I -> I -> fac_rand) (n : nat)
  (o : nat -> I -> seq I).
Hypotheses (hs : sorted le ids) (hu : uniq ids).
Hypothesis hk : {in ids, forall i, honest_keys S (r i) (com i)}.
Hypothesis hm : {in ids &, forall i j, i != j -> honest_masks S (r i) (Z.mul (ar_rp_p (r j)) (ar_rp_q (r j))) (rnd i j)}.
Hypothesis hn : {in ids, forall i, size (ar_rid (r i)) = n}.
Hypothesis hor : orders_ok ids o.

Lemma run_changes split kc a : refresh ids sr r com y tau split rnd o kc a ->
  {in ids, forall i, kc_secret (kc i) = \sum_(j <- ids) part (size ids) (split j) (index i ids)}.
Proof.
case=> c [d [s [m3 /= [h1 h2 h3 h4]]]] i hi.
have ho1 := hor 1%N; have ho2 := hor 2%N; have ho3 := hor 3%N.
have [R hR] : exists R, combined [seq ar_rid (r i) | i <- ids] R.
  have [R [hR _]] := kr_honest Hs HG HX ho hs hu HD HW hk hm hn h1 ho1 ho2 ho3; by exists R.
have hm3 : {in without ids i, forall j, m3 i j = hm3 S g H X Hs scheme ids sr com y tau rnd c d R i j}.
  move=> j; rewrite mem_filter => /andP [ne hj].
  have := huntil3 HG HX ho hs hu HD hk h1 ho1 ho2 hR hj; rewrite h2 // => -[Es].
  have := h3 i j hi hj ne; rewrite Es (hsend3 Hs HG HX hu HW hk hm h1 R hi hj ne).
  by case.
have := hrun HG HX ho hs hu HD HW hk hm h1 ho1 ho2 ho3 hR hi hm3.
rewrite h4 // => -[-> _].
rewrite /hkc /=; apply: eq_big_seq => j hj; rewrite /hx.
have [parts E ->] := start_xs (h1 j hj).
have n0 : (0 < size ids)%N by case: (ids) hi.
have [parts' [E' [Sz _]]] := secret_splitE (0 : F) (split j) n0; rewrite E in E'; case: E' Sz => <- Sz {parts'}.
have ki : (index i ids < size ids)%N by rewrite index_mem.
rewrite -(secret_split0 E ki).
have -> : zip ids parts = [seq (k, parts`_(index k ids)) | k <- ids].
  apply: (@eq_from_nth _ (i, 0)); first by rewrite size_zip size_map Sz minnn.
  move=> k; rewrite size_zip Sz minnn => hk'.
  by rewrite nth_zip ?Sz // (nth_map i) // index_uniq.
by rewrite aget_tab hi.
Qed.

(** Whatever the others draw, the draws of [i0] can lead to any new shares with
    the same sum, and in one way only. *)
Lemma refresh_uniform split x (ks : I -> kshare V I) (nw : I -> F) i0 :
  additive_sharing g ids x ks -> \sum_(i <- ids) nw i = x -> i0 \in ids ->
  let reaches dr := exists kc a ks',
    [/\ refresh ids sr r com y tau (at_party split i0 dr) rnd o kc a,
        {in ids, forall i, ks_update (ks i) (kc i) = Ok (ks' i)} &
        {in ids, forall i, ks_secret (ks' i) = nw i}] in
  exists2 dr0, reaches dr0 & forall dr, reaches dr -> forall k, (k < (size ids).-1)%N -> dr k = dr0 k.
Proof using HG HX HD ho HW hs hu hk hm hn hor.
move=> hsh hnw h0 reaches.
pose N := size ids.
pose rest k := \sum_(j <- without ids i0) part N (split j) k.
have N0 : (0 < N)%N by rewrite /N; case: (ids) h0.
pose T k := nw (nth i0 ids k) - ks_secret (ks (nth i0 ids k)) - rest k.
have sumP dr : \sum_(0 <= k < N) part N dr k = 0.
  rewrite -{1}(prednK N0) big_nat_recr //= /part ltnn; apply/eqP; rewrite subr_eq0; apply/eqP.
  by rewrite !big_nat; apply: eq_bigr => k /andP [_ ->].
have sumI (f : I -> F) : \sum_(i <- ids) f i = \sum_(0 <= k < N) f (nth i0 ids k).
  by rewrite (big_nth i0).
have sumS (f : nat -> I -> F) l : (forall j, j \in l -> \sum_(0 <= k < N) f k j = 0) -> \sum_(0 <= k < N) \sum_(j <- l) f k j = 0.
  by move=> h; rewrite exchange_big /= big_seq big1.
have sumT : \sum_(0 <= k < N) T k = 0.
  rewrite /T !sumrB -(sumI nw) hnw -(sumI (fun i => ks_secret (ks i))).
  by rewrite hsh.1 subrr sub0r (sumS (fun k j => part N (split j) k)) ?oppr0 // => j _; exact: sumP.
have partT k : (k < N)%N -> part N T k = T k.
  rewrite /part => kN; case: ltnP => // hk1.
  have -> : k = N.-1 by apply/eqP; rewrite eqn_leq hk1 andbT; lia.
  have := sumT; rewrite -{1}(prednK N0) big_nat_recr //= => /eqP; rewrite addrC addr_eq0 => /eqP ->.
  by [].
have secE dr kc a ks' : refresh ids sr r com y tau (at_party split i0 dr) rnd o kc a ->
    {in ids, forall i, ks_update (ks i) (kc i) = Ok (ks' i)} ->
    {in ids, forall i, ks_secret (ks' i) = ks_secret (ks i) + (part N dr (index i ids) + rest (index i ids))}.
  move=> hr hup i hi; have := hup i hi; rewrite /ks_update; case: ifP => // _; case: ifP => // _.
  case: (mapR _ _) => [l||] //= [<-] /=; rewrite (run_changes hr hi); congr (_ + _).
  rewrite (perm_big _ (perm_without hu h0)) big_cons /at_party eqxx; congr (_ + _).
  by apply: eq_big_seq => j; rewrite mem_filter => /andP [/negbTE -> _].
have nthE i : i \in ids -> nth i0 ids (index i ids) = i by move=> hi; rewrite nth_index.
exists T.
  have [kc [a [sk [rp [r1 _ _ _ [_ r6 r7]]]]]] :=
    refresh_succeeds H Hs scheme HG HX ho HD HW sr y tau (at_party split i0 T) hs hu hk hm hn hor.
  have [ks' [u1 [u2 u3]]] := updateE hu hsh r6 r7.
  exists kc, a, ks'; split=> // i hi.
  rewrite (secE _ _ _ _ r1 u1 i hi) partT ?index_mem // /T nthE //.
  by rewrite subrK addrC subrK.
move=> dr [kc [a [ks' [hr hup hnew]]]] k hk1.
have kN : (k < N)%N by rewrite -(prednK N0) ltnS ltnW.
have hi : nth i0 ids k \in ids by rewrite mem_nth.
have := hnew _ hi; rewrite (secE _ _ _ _ hr hup _ hi) index_uniq // /part hk1 /T => <-.
by rewrite [ks_secret _ + _]addrC addrK addrK.
Qed.
End Run.
End Refresh.

Section Reshare.
Variables (F : fieldType) (V : lmodType F) (g : V) (I : eqType) (le : rel I).
Variables (old_ids olds news : seq I) (told t : nat) (x : F) (ts : I -> tshare V I) (o : I -> seq I).
Hypotheses (ho : total_order le) (so : sorted le olds) (uo : uniq olds) (un : uniq news)
  (hsh : threshold_sharing g old_ids told x ts) (sub : {subset olds <= old_ids}) (uo' : uniq old_ids)
  (ht : (told <= size olds)%N) (hb : big_field F (size news)) (ht2 : (1 < t)%N)
  (hor : {in news, forall i, perm_eq (o i) (without olds i)}).
Notation weight := (swt olds ts).

Lemma reshare_starts draws : exists c, forall i, (i \in olds) || (i \in news) ->
  rs_start g (if i \in olds then Some (ts i) else None)
    (if i \in news then Some (NewHolder (x *: g) (size olds) olds) else None) news t i (draws i) = Ok (c i).
Proof using hsh sub.
have [|c hc] := @fin_choice I _ (olds ++ news) (fun i => RsRound1 None None [::] 0 i [::] [::]) (fun i c =>
   rs_start g (if i \in olds then Some (ts i) else None)
     (if i \in news then Some (NewHolder (x *: g) (size olds) olds) else None) news t i (draws i) = Ok c).
  move=> i; rewrite mem_cat => hi; rewrite /rs_start.
  have [p [pt [_ _ _ _ hp]]] := hsh.
  case E1: (i \in olds) hi => /= hi; last by rewrite hi /=; eexists.
  have [eo _ _ es _] := hp i (sub E1); rewrite /ts_share_id eo es aget_tab (sub E1) /=.
  by eexists.
by exists c => i hi; apply: hc; rewrite mem_cat.
Qed.

Lemma reshare_secrets draws shares : reshare_run g le olds news t (x *: g) ts draws o shares ->
  {in news, forall i, ts_secret (shares i) =
     \sum_(j <- olds) peval (poly_random (ts_secret (ts j)) t (draws j)) (@pos_pt F I news i) * weight j}.
Proof using ho so uo un hsh sub uo' ht hb ht2 hor.
case=> c [m [h1 h2 h3 h4]] i iN.
have [_ [_ [ex [m' [s1 [_ [shares' [_ [s3 s4]]]]]]]]] := rs_honest_full ho so uo un hsh sub uo' ht hb ht2 h1.
have hm : {in olds, forall j, m j i = m' j i}.
  by move=> j jo; have := h2 j i jo iN; rewrite s1 // => -[].
have := s4 i iN (o i) (fun j => m j i); rewrite ex // => /(_ (hor iN) hm).
by rewrite h4 // => -[->]; exact: s3.
Qed.

Lemma reshare_succeeds draws : exists shares, reshare_run g le olds news t (x *: g) ts draws o shares.
Proof using ho so uo un hsh sub uo' ht hb ht2 hor.
have [c hc] := reshare_starts draws.
have [_ [ex [m [s1 [s2 [shares [s3 s4]]]]]]] := rs_honest ho so uo un hsh sub uo' ht hb ht2 hc.
by exists shares, c, m; split=> // i iN; apply: s4 => //; rewrite ex //; apply: hor.
Qed.

(** Whatever the other old holders draw, the coefficients of [j0] can give any
    [t - 1] new holders any shares, and in one way only. *)
Lemma reshare_uniform draws j0 B (vals : I -> F) :
  j0 \in olds -> uniq B -> {subset B <= news} -> size B = t.-1 ->
  let reaches dr := exists2 shares, reshare_run g le olds news t (x *: g) ts (at_party draws j0 dr) o shares &
    {in B, forall i, ts_secret (shares i) = vals i} in
  exists2 dr0, reaches dr0 & forall dr, reaches dr -> forall k, (0 < k < t)%N -> dr k = dr0 k.
Proof using ho so uo un hsh sub uo' ht hb ht2 hor.
move=> h0 uB sB zB reaches.
pose pn := @pos_pt F I news.
have [pninj pnnz] := pos_pt_ok un hb.
have w0 : weight j0 != 0.
  by have [c hc] := reshare_starts draws; have [h _] := rs_honest_full ho so uo un hsh sub uo' ht hb ht2 hc; apply: h.
pose rest i := \sum_(j <- without olds j0) peval (poly_random (ts_secret (ts j)) t (draws j)) (pn i) * weight j.
pose tgt i := (vals i - rest i) / weight j0.
have secE dr shares : reshare_run g le olds news t (x *: g) ts (at_party draws j0 dr) o shares ->
    {in news, forall i, ts_secret (shares i) = peval (poly_random (ts_secret (ts j0)) t dr) (pn i) * weight j0 + rest i}.
  move=> hr i iN; rewrite (reshare_secrets hr iN) (perm_big _ (perm_without uo h0)) big_cons /at_party eqxx; congr (_ + _).
  by apply: eq_big_seq => j; rewrite mem_filter => /andP [/negbTE -> _].
pose xs := [seq pn i | i <- B].
have pinj : {in B &, injective pn} by move=> a b ha hb'; apply: pninj; apply: sB.
have uxs : uniq xs by rewrite map_inj_in_uniq.
have nxs : 0 \notin xs by apply/mapP => -[i iB E]; have := pnnz i (sB i iB); rewrite -/pn -E eqxx.
pose ys z := tgt (nth j0 B (index z xs)).
have ysE i : i \in B -> ys (pn i) = tgt i.
  move=> iB; rewrite /ys /xs; congr tgt.
  have hi : (index (pn i) [seq pn i | i <- B] < size B)%N by rewrite -(size_map pn) index_mem map_f.
  by apply: pinj; rewrite ?mem_nth //; rewrite -(nth_map _ (pn j0)) ?nth_index ?map_f.
have t0 : (0 < t)%N by exact: ltnW.
have szt : (size xs).+1 = t by rewrite size_map zB prednK.
have [cs [Sz E0 Hc Un]] := completion ys (ts_secret (ts j0)) uxs nxs.
have Epr dr : (forall k, (0 < k < t)%N -> dr k = cs`_k) -> poly_random (ts_secret (ts j0)) t dr = cs.
  move=> Hd; apply: (@eq_from_nth _ 0); first by rewrite size_poly_random // Sz szt.
  move=> [|k]; first by rewrite E0.
  rewrite size_poly_random // => hk; rewrite -Hd ?hk // /poly_random /=.
  have hk' : (k < t - 1)%N by lia.
  by rewrite (nth_map 0%N) ?size_iota // nth_iota.
have Enth dr k : (0 < k < t)%N -> (poly_random (ts_secret (ts j0)) t dr)`_k = dr k.
  case: k => // k /= hk; have hk' : (k < t - 1)%N by lia.
  by rewrite /poly_random /= (nth_map 0%N) ?size_iota // nth_iota.
have tgtE i v : v * weight j0 + rest i = vals i <-> v = tgt i.
  rewrite /tgt; split=> [<-|->]; first by rewrite addrK mulfK.
  by rewrite divfK // subrK.
exists (fun k => cs`_k).
  have [shares hr] := reshare_succeeds (at_party draws j0 (fun k => cs`_k)); exists shares => // i iB.
  rewrite (secE _ _ hr i (sB i iB)) Epr //; apply/tgtE.
  by rewrite Hc ?map_f // ysE.
move=> dr [shares hr hv] k hk; rewrite -(Enth dr k hk).
rewrite (Un (poly_random (ts_secret (ts j0)) t dr)) //; first by rewrite size_poly_random.
move=> z /mapP [i iB ->]; rewrite ysE //; apply/tgtE.
by rewrite -(secE _ _ hr i (sB i iB)) hv.
Qed.
End Reshare.
