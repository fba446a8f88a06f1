(** * Entry points: which inputs are accepted. *)
From Coq Require Import ZArith Lia.
From Verif Require Import Base PaillierModel ZkBase ZkModel.
From mathcomp Require Import all_ssreflect.
From Verif Require Import AlgBase AlgFacts ProtoBase ProtoSpec AuxGenModel SigningModel EntryModel.
Set Implicit Arguments.
Unset Strict Implicit.
Unset Printing Implicit Defensive.

Section Subset.
Variable I : eqType.
Implicit Types (infos : seq (I * (Z * rpparams))) (parties : seq I) (a : aux_info I).

Lemma akeys_filter infos parties : akeys [seq p <- infos | p.1 \in parties] = [seq i <- akeys infos | i \in parties].
Proof. by rewrite /akeys filter_map. Qed.

Lemma subset_size infos parties : uniq (akeys infos) -> uniq parties ->
  (size [seq p <- infos | p.1 \in parties] == size parties) = all (mem (akeys infos)) parties.
Proof.
move=> hu hp; rewrite -(size_map (@fst I _)) -/(akeys _) akeys_filter.
have hf : uniq [seq i <- akeys infos | i \in parties] by rewrite filter_uniq.
have hs : {subset [seq i <- akeys infos | i \in parties] <= parties} by move=> i; rewrite mem_filter => /andP [].
apply/eqP/allP => [E i hi|h].
- have [_ h] := uniq_min_size hf hs (eq_leq (esym E)).
  by move: (h i); rewrite hi mem_filter => /andP [].
- apply/eqP; rewrite eqn_leq uniq_leq_size //=; apply: uniq_leq_size => // i hi.
  by rewrite mem_filter hi; exact: h.
Qed.

Lemma aget_filter infos parties i : aget [seq p <- infos | p.1 \in parties] i = if i \in parties then aget infos i else None.
Proof.
elim: infos => [|[k v] l IH] /=; first by case: ifP.
case: ifP => hk /=; rewrite IH; case: eqP => // E.
- by rewrite E hk.
- by rewrite E hk.
Qed.

Lemma public_subset_exact infos parties : uniq (akeys infos) -> uniq parties ->
  ({subset parties <= akeys infos} -> exists r, [/\ public_aux_subset infos parties = Ok r, perm_eq (akeys r) parties &
     {in parties, forall i, aget r i = aget infos i}]) /\
  (~ {subset parties <= akeys infos} -> public_aux_subset infos parties = LocalErr).
Proof.
move=> hu hp; rewrite /public_aux_subset subset_size //; split.
- move=> h; have -> : all (mem (akeys infos)) parties by apply/allP.
  eexists; split; first by [].
  + rewrite akeys_filter; apply: uniq_perm; rewrite ?filter_uniq // => i.
    by rewrite mem_filter; case hi: (i \in parties) => //=; apply: h.
  + by move=> i hi; rewrite aget_filter hi.
- by move=> h; case: ifP => // /negbFE /allP h'.
Qed.

Lemma subset_exact a parties : uniq (akeys (ai_public a)) -> uniq parties ->
  (ai_owner a \in parties /\ {subset parties <= akeys (ai_public a)} ->
     exists r, [/\ aux_subset a parties = Ok r, ai_owner r = ai_owner a, ai_sk r = ai_sk a,
       perm_eq (akeys (ai_public r)) parties & {in parties, forall i, aget (ai_public r) i = aget (ai_public a) i}]) /\
  (~ (ai_owner a \in parties /\ {subset parties <= akeys (ai_public a)}) -> aux_subset a parties = LocalErr).
Proof.
move=> hu hp; have [h1 h2] := public_subset_exact hu hp; rewrite /aux_subset; split.
- by case=> -> /h1 [r [-> k1 k2]]; eexists; split; first by [].
- by move=> h; case: ifP => // /negbFE ho; rewrite h2 // => hs; apply: h.
Qed.

End Subset.

Section Entry.
Variables (S : sparams) (C : curve) (I : eqType) (le : rel I) (HO : eqType).
Notation item := (hitem HO I (pt C)).
Variables (H : dst -> seq item -> HO) (scheme : seq item).

Lemma sorted_same (s t : seq I) : total_order le -> uniq s -> uniq t -> sorted le s -> sorted le t -> s =i t -> s = t.
Proof. by case=> h1 h2 h3 us ut hs ht e; apply: (sorted_eq h2 h3 hs ht); apply: uniq_perm. Qed.

Lemma sg_new_exact m (k : zshare C I) (a : aux_info I) : total_order le ->
  uniq (akeys (zs_public k)) -> uniq (akeys (ai_public a)) -> sorted le (akeys (zs_public k)) -> sorted le (akeys (ai_public a)) ->
  (zs_owner k = ai_owner a /\ akeys (zs_public k) =i akeys (ai_public a) -> sg_new m k a = Ok (SgEntry k a m)) /\
  (~ (zs_owner k = ai_owner a /\ akeys (zs_public k) =i akeys (ai_public a)) -> sg_new m k a = LocalErr).
Proof.
move=> ho u1 u2 s1 s2; rewrite /sg_new; split.
- by case=> -> /(sorted_same ho u1 u2 s1 s2) ->; rewrite !eqxx.
- move=> h; case: eqP => //= e1; case: eqP => //= e2; case: h; split=> //.
  by rewrite e2.
Qed.

Lemma sg_start_refuses randomness id (e : sg_entry C I) r :
  sg_start S H scheme randomness id e r = LocalErr <-> id <> zs_owner (se_share e) \/ id <> ai_owner (se_aux e).
Proof.
rewrite /sg_start; case: ifP => [/orP h|/negbT].
- by split=> // _; case: h => /eqP; [left|right].
- rewrite negb_or !negbK => /andP [/eqP <- /eqP <-]; split; last by case.
  have key T U (o : outcome T) (f : T -> result U) : (forall a, f a <> LocalErr) -> rbind (of_o o) f <> LocalErr.
    by case: o => [a|] //= h; exact: h.
  by move=> E; exfalso; move: E; do 5 (apply: (@key _ _) => ?).
Qed.

Lemma aux_precompute_cases (l : seq (I * (Z * rpparams))) :
  aux_precompute l = (if all (fun p => Z.odd p.2.1 && Z.odd (rp_n p.2.2)) l
    then Ret [seq (p.1, (p.2.1, RP (rp_n p.2.2) (rp_t p.2.2 mod rp_n p.2.2) (rp_s p.2.2 mod rp_n p.2.2)))%Z | p <- l] else Panic).
Proof.
elim: l => [|p l IH] //=; move: IH; rewrite /aux_precompute /= => ->.
rewrite /public_key_new /rp_pre /rp_to_precomputed /public_key_new.
by case: (Z.odd p.2.1) => //=; case: (Z.odd (rp_n p.2.2)) => //=; case: all.
Qed.

Lemma sg_start_even_panics randomness id (e : sg_entry C I) r :
  id = zs_owner (se_share e) -> id = ai_owner (se_aux e) ->
  has (fun p => Z.even p.2.1 || Z.even (rp_n p.2.2)) (ai_public (se_aux e)) ->
  sg_start S H scheme randomness id e r = Panicked.
Proof.
move=> h1 h2 h; rewrite /sg_start -h1 -h2 eqxx /= aux_precompute_cases.
suff -> : all (fun p => Z.odd p.2.1 && Z.odd (rp_n p.2.2)) (ai_public (se_aux e)) = false by [].
apply/negbTE; rewrite -has_predC; apply: sub_has h => p /=.
by rewrite -!Z.negb_even -negb_or negbK.
Qed.

Lemma subset_caller m (k : zshare C I) a parties a' entry randomness id r c eb :
  aux_subset a parties = Ok a' -> uniq (akeys (ai_public a)) -> uniq parties -> sg_new m k a' = Ok entry ->
  sg_start S H scheme randomness id entry r = Ok (c, eb) ->
  [/\ id \in parties, sx_all c =i parties, sx_others c =i [pred j | (j != id) && (j \in parties)], sx_id c = id &
      {in parties, forall j, exists x, aget (ai_public a) j = Some x}].
Proof.
move=> ha hu hp hn hs.
have [k1 k2] := subset_exact hu hp.
have hb : ai_owner a \in parties /\ {subset parties <= akeys (ai_public a)}.
  case E: (ai_owner a \in parties); last by move: ha; rewrite /aux_subset E.
  split=> //; move: ha; rewrite /aux_subset E /= /public_aux_subset subset_size //.
  by case: ifP => // /negbFE /allP h _ i /h.
have [r' [E e1 e2 e3 e4]] := k1 hb; move: E; rewrite ha => -[E]; subst r'.
move: hn; rewrite /sg_new; case: eqP => //= o1; case: eqP => //= o2 [?]; subst entry.
have hid : id = zs_owner k /\ id = ai_owner a'.
  move: hs; rewrite /sg_start /=; case: ifP => // /negbT; rewrite negb_or !negbK => /andP [/eqP -> /eqP ->] _.
  by rewrite -o1.
move: hs; rewrite /sg_start /=; case: ifP => // _; do 5 (case: (of_o _) => //= ?); case=> <- _ /=.
have ek : akeys (zs_public k) =i parties by move=> j; rewrite o2 (perm_mem e3).
split=> //.
- by rewrite (proj2 hid) e1; case: hb.
- by move=> j; rewrite /without mem_filter ek inE.
- by move=> j hj; case: hb => _ /(_ j hj) /in_aget.
Qed.
End Entry.
