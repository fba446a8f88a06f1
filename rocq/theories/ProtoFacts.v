(** * Facts about the shared protocol definitions. *)
From Coq Require Import ZArith List Permutation.
From Verif Require Import Base EncodingModel EncodingProofs.
From mathcomp Require Import all_ssreflect.
From Verif Require Import AlgBase AlgFacts ProtoBase ProtoSpec.
Set Implicit Arguments.
Unset Strict Implicit.
Unset Printing Implicit Defensive.
Local Open Scope nat_scope.

(** ** Combining randomness *)

Lemma combined_uniq rhos r1 r2 : rhos != [::] -> combined rhos r1 -> combined rhos r2 -> r1 = r2.
Proof.
case: rhos => // b l _ [/= /andP [/eqP s1 _] h1] [/andP [/eqP s2 _] h2].
have e : size r1 = size r2 by rewrite -s1 -s2.
apply: (@eq_from_nth _ false) => // k kl; rewrite h1 // h2 -?e //.
Qed.

Lemma foldr_addb_perm (l1 l2 : seq bool) : perm_eq l1 l2 -> foldr addb false l1 = foldr addb false l2.
Proof.
have E l : foldr addb false l = odd (count id l).
  by elim: l => //= b l ->; rewrite oddD; case: b.
by move=> /permP h; rewrite !E h.
Qed.

Lemma combined_perm rhos rhos' r : perm_eq rhos rhos' -> combined rhos r -> combined rhos' r.
Proof.
move=> hp [h1 h2]; split; first by rewrite -(perm_all _ hp).
by move=> k kr; rewrite h2 //; apply: foldr_addb_perm; exact: perm_map.
Qed.

Lemma nth_bxor a b k : size a = size b -> k < size a ->
  nth false (bxor a b) k = nth false a k (+) nth false b k.
Proof.
elim: a b k => [|x a IH] [|y b] [|k] //= [e] h; last exact: IH.
by case: x y => [] [].
Qed.
Lemma size_bxor a b : size a = size b -> size (bxor a b) = size a.
Proof. exact: bxor_length. Qed.

Lemma xor_allP mine others r : xor_all mine others = Ret r <-> combined (mine :: others) r.
Proof.
have [h1 h2] := xor_all_spec mine others.
have hF : Forall (fun b => length b = length mine) others <-> all (fun b => size b == size mine) others.
  elim: others {h1 h2} => [|b l IH]; first by split.
  split; first by move=> h; inversion h as [|? ? hb hl]; subst; rewrite /= (IH.1 hl) andbT; apply/eqP; exact: hb.
  by case/andP=> /eqP hb /IH.2 hl; constructor.
have hK : all (fun b => size b == size mine) others ->
   size (fold_left bxor others mine) = size mine /\
   forall k, k < size mine -> nth false (fold_left bxor others mine) k =
      nth false mine k (+) foldr addb false [seq nth false b k | b <- others].
  elim: others mine {h1 h2 hF} => [|b l IH] mine /=; first by split=> // k _; rewrite addbF.
  case/andP=> /eqP hb hl; have e : size (bxor mine b) = size mine by exact: size_bxor.
  have [|i1 i2] := IH (bxor mine b).
    by apply: sub_all hl => c /eqP ->; rewrite e.
  rewrite e in i1 i2; split=> // k hk.
  by rewrite i2 // nth_bxor // addbA.
split.
- move=> hr; have [|hF'] := boolP (all (fun b => size b == size mine) others); last first.
    by rewrite h2 // in hr => /hF h; rewrite h in hF'.
  move=> ha; move: hr; rewrite (h1 (hF.2 ha)) => -[<-].
  have [k1 k2] := hK ha; split; rewrite /= k1 ?eqxx //.
- case=> /= /andP [/eqP s0 ha] hn; have ha' : all (fun b => size b == size mine) others by rewrite s0.
  rewrite (h1 (hF.2 ha')); congr Ret; have [k1 k2] := hK ha'.
  apply: (@eq_from_nth _ false); first by rewrite k1.
  by move=> k; rewrite k1 => hk; rewrite k2 // hn // -s0.
Qed.

Lemma xor_all_panics mine others : xor_all mine others = Panic <-> ~~ all (fun b => size b == size mine) others.
Proof.
case E: (xor_all mine others) => [r|].
- split=> //; move/xor_allP: E => [/= /andP [/eqP -> ->]] //.
- split=> // _; apply/negP => ha.
  have [h1 _] := xor_all_spec mine others.
  suff hF : Forall (fun b => length b = length mine) others by rewrite (h1 hF) in E.
  move: ha; elim: others {h1 E} => [|b l IH]; first by constructor.
  by case/andP=> /eqP hb /IH hl; constructor.
Qed.

(** ** Maps in key order *)

Section KeyOrder.
Variables (I : eqType) (le : rel I).

Lemma aget_cons (A : Type) (k : I) (a : A) m j : aget ((k, a) :: m) j = if j == k then Some a else aget m j.
Proof. by []. Qed.

Lemma aget_aset (A : Type) (m : seq (I * A)) k a j : aget (aset m k a) j = if j == k then Some a else aget m j.
Proof.
elim: m => [|[k' a'] m IH] //=.
have [->|ne] := eqVneq k k'; rewrite /=; first by case: eqP.
by rewrite IH; have [->|] := eqVneq j k'; rewrite // eq_sym (negbTE ne).
Qed.

Lemma akeys_aset (A : Type) (m : seq (I * A)) k a : k \notin akeys m -> akeys (aset m k a) = rcons (akeys m) k.
Proof.
elim: m => [|[k' a'] m IH] //=; rewrite inE negb_or => /andP [ne h].
by rewrite (negbTE ne) /= IH.
Qed.

Lemma in_orderE (A : Type) (m : seq (I * A)) keys : in_order keys m = pmap (fun k => omap (pair k) (aget m k)) keys.
Proof. by []. Qed.

Lemma akeys_in_order (A : Type) (m : seq (I * A)) keys : {subset keys <= akeys m} -> akeys (in_order keys m) = keys.
Proof.
elim: keys => [|k keys IH] //= h.
have [|a ha] := @in_aget _ _ m k; first by apply: h; rewrite mem_head.
by rewrite ha /= IH // => j hj; apply: h; rewrite inE hj orbT.
Qed.

Lemma aget_in_order (A : Type) (m : seq (I * A)) keys k : aget (in_order keys m) k = if k \in keys then aget m k else None.
Proof.
elim: keys => [|k' keys IH] //=; rewrite inE.
case E: (aget m k') => [a|] /=; rewrite ?IH; last first.
  by have [->|] := eqVneq k k'; rewrite //= E; case: (k' \in keys).
by have [->|] := eqVneq k k'; rewrite //= E.
Qed.

Lemma in_order_tab (A : Type) (f : I -> A) keys ord : {subset keys <= ord} ->
  in_order keys [seq (i, f i) | i <- ord] = [seq (i, f i) | i <- keys].
Proof.
elim: keys => [|k keys IH] //= h; rewrite aget_tab h ?mem_head //= IH // => j hj.
by apply: h; rewrite inE hj orbT.
Qed.

Lemma akeys_btree (A : Type) (m : seq (I * A)) : akeys (btree le m) = sort le (akeys m).
Proof. by apply: akeys_in_order => k; rewrite mem_sort. Qed.
Lemma mem_akeys_btree (A : Type) (m : seq (I * A)) : akeys (btree le m) =i akeys m.
Proof. by move=> k; rewrite akeys_btree mem_sort. Qed.
Lemma aget_btree (A : Type) (m : seq (I * A)) k : aget (btree le m) k = aget m k.
Proof.
rewrite aget_in_order mem_sort; case: ifP => // /negbT h; by rewrite aget_notin.
Qed.

Hypothesis ho : total_order le.

Lemma sort_keys ids ord : sorted le ids -> perm_eq ord ids -> sort le ord = ids.
Proof.
case: ho => tot tr anti hs hp.
by rewrite -[RHS](sorted_sort tr hs); apply/perm_sortP.
Qed.

Lemma btree_tab (A : Type) (f : I -> A) ids ord : sorted le ids -> perm_eq ord ids ->
  btree le [seq (i, f i) | i <- ord] = [seq (i, f i) | i <- ids].
Proof.
move=> hs hp; rewrite /btree akeys_tab (sort_keys hs hp) in_order_tab // => i.
by rewrite (perm_mem hp).
Qed.

Lemma binsert_tab (A : Type) (f : I -> A) ids i : sorted le ids -> uniq ids -> i \in ids ->
  binsert le [seq (j, f j) | j <- without ids i] i (f i) = [seq (j, f j) | j <- ids].
Proof.
move=> hs hu hi; rewrite /binsert.
have -> : aset [seq (j, f j) | j <- without ids i] i (f i) = [seq (j, f j) | j <- rcons (without ids i) i].
  have : i \notin without ids i by rewrite mem_filter eqxx.
  elim: (without ids i) => [|j l IH] //=; rewrite inE negb_or => /andP [ne h].
  by rewrite (negbTE ne) IH.
apply: btree_tab => //; rewrite perm_rcons perm_sym.
by rewrite /without -rem_filter //; apply: perm_to_rem.
Qed.

Lemma perm_without (ids : seq I) i : uniq ids -> i \in ids -> perm_eq ids (i :: without ids i).
Proof. by move=> hu hi; rewrite /without -rem_filter //; apply: perm_to_rem. Qed.

Lemma sorted_without (ids : seq I) i : sorted le ids -> sorted le (without ids i).
Proof. by case: ho => _ tr _ hs; apply: sorted_filter. Qed.

End KeyOrder.

(** ** Receiving *)

Section Receive.
Variables (I : eqType) (le : rel I) (E T : Type) (f : I -> recv E T).

Lemma receive_all_ok (p : I -> T) ord : (forall i, i \in ord -> f i = Accept (p i)) ->
  receive_all f ord = Accept [seq (i, p i) | i <- ord].
Proof.
elim: ord => [|i ord IH] //= h; rewrite h ?mem_head //= IH // => j hj.
by apply: h; rewrite inE hj orbT.
Qed.

Lemma receive_all_inv ord m : receive_all f ord = Accept m ->
  akeys m = ord /\ forall i, i \in ord -> exists2 t, f i = Accept t & aget m i = Some t.
Proof.
elim: ord m => [|i ord IH] m /=; first by case=> <-.
case Ei: (f i) => [t|||] //=; case Er: (receive_all f ord) => [r|||] //= [<-].
have [h1 h2] := IH _ Er; split; first by rewrite /= h1.
move=> j; rewrite inE /=; have [-> _|_ /h2] := eqVneq j i; first by exists t.
by case=> t' h h'; exists t'.
Qed.

Lemma round_ok (p : I -> T) ids ord : total_order le -> sorted le ids -> perm_eq ord ids ->
  (forall i, i \in ids -> f i = Accept (p i)) ->
  round_payloads le f ord = Accept [seq (i, p i) | i <- ids].
Proof.
move=> ho hs hp h; rewrite /round_payloads (@receive_all_ok p) /=; first by rewrite (btree_tab ho _ hs hp).
by move=> i; rewrite (perm_mem hp); apply: h.
Qed.

Lemma round_inv ord m : round_payloads le f ord = Accept m ->
  [/\ akeys m = sort le ord, akeys m =i ord &
      forall i, i \in ord -> exists2 t, f i = Accept t & aget m i = Some t].
Proof.
rewrite /round_payloads; case Er: (receive_all f ord) => [r|||] //= [<-].
have [h1 h2] := receive_all_inv Er; split; first by rewrite akeys_btree h1.
  by move=> i; rewrite mem_akeys_btree h1.
by move=> i /h2 [t h h']; exists t => //; rewrite aget_btree.
Qed.

Lemma in_order_fun (A : Type) (p : I -> A) (m : seq (I * A)) keys :
  (forall k, k \in keys -> aget m k = Some (p k)) -> in_order keys m = [seq (k, p k) | k <- keys].
Proof.
elim: keys => [|k keys IH] //= h; rewrite h ?mem_head //= IH // => j hj.
by apply: h; rewrite inE hj orbT.
Qed.

Lemma round_tab (p : I -> T) ord m : round_payloads le f ord = Accept m ->
  (forall i t, i \in ord -> f i = Accept t -> t = p i) -> m = [seq (i, p i) | i <- sort le ord].
Proof.
rewrite /round_payloads; case Er: (receive_all f ord) => [r|||] //= [<-] h.
have [h1 h2] := receive_all_inv Er; rewrite /btree h1; apply: in_order_fun => k; rewrite mem_sort => hk.
by have [t ft ->] := h2 _ hk; rewrite (h _ _ hk ft).
Qed.

End Receive.

Lemma aget_map_val (K : eqType) (A B : Type) (h : A -> B) (m : seq (K * A)) k :
  aget [seq (p.1, h p.2) | p <- m] k = omap h (aget m k).
Proof. by elim: m => [|[k' a] m IH] //=; case: eqP. Qed.
Lemma akeys_map_val (K : eqType) (A B : Type) (h : A -> B) (m : seq (K * A)) :
  akeys [seq (p.1, h p.2) | p <- m] = akeys m.
Proof. by rewrite /akeys -map_comp. Qed.

Lemma vbind_inv E A B (r : recv E A) (k : A -> recv E B) b : (x <!- r ;; k x) = Accept b ->
  exists2 a, r = Accept a & k a = Accept b.
Proof. by case: r => [a|||] //= h; exists a. Qed.
