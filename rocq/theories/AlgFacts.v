(** * Facts about association lists and results. *)
From mathcomp Require Import all_ssreflect.
From Verif Require Import AlgBase.
Set Implicit Arguments.
Unset Strict Implicit.
Unset Printing Implicit Defensive.

Section Maps.
Variables (K : eqType) (A : Type).
Implicit Types (m l : seq (K * A)).

Lemma aget_in m k a : aget m k = Some a -> k \in akeys m.
Proof.
elim: m => [|[k' a'] m IH] //=; rewrite in_cons.
by case: eqP => [-> |_] //= H; rewrite IH ?orbT.
Qed.

Lemma in_aget m k : k \in akeys m -> exists a, aget m k = Some a.
Proof.
elim: m => [|[k' a'] m IH] //=; rewrite in_cons.
by case: eqP => [-> _|_ /= H]; [exists a' | apply: IH].
Qed.

Lemma aget_notin m k : k \notin akeys m -> aget m k = None.
Proof.
elim: m => [|[k' a'] m IH] //=; rewrite in_cons negb_or => /andP [/negbTE -> H].
exact: IH.
Qed.

Lemma acollect_uniq l : uniq [seq p.1 | p <- l] -> acollect l = l.
Proof.
rewrite /acollect -[X in _ = X]cat0s.
have aux : forall (l0 acc : seq (K * A)), uniq (akeys acc ++ [seq p.1 | p <- l0]) ->
    foldl (fun m p => aset m p.1 p.2) acc l0 = acc ++ l0.
  elim=> [|[k a] l0 IH] acc /=; first by rewrite !cats0.
  rewrite -[k :: _]cat1s catA => U.
  have Hk : k \notin akeys acc.
    by move: U; rewrite -catA cat_uniq /= negb_or => /and3P [_ /andP []].
  have -> : aset acc k a = acc ++ [:: (k, a)].
    elim: acc Hk {U IH} => [|[k1 a1] acc IHa] //=.
    by rewrite in_cons negb_or => /andP [/negbTE -> H]; rewrite IHa.
  rewrite IH; first by rewrite -catA.
  by rewrite /akeys map_cat -/(akeys acc).
by move=> U; rewrite aux.
Qed.

End Maps.

Section MapR.
Variables (A B : Type).

Lemma mapR_ok (f : A -> result B) (h : A -> B) l : (forall a, f a = Ok (h a)) -> mapR f l = Ok (map h l).
Proof. by move=> H; elim: l => [|a l IH] //=; rewrite H /= IH. Qed.

End MapR.

Lemma mapR_ok_in (A : eqType) (B : Type) (f : A -> result B) (h : A -> B) l :
  {in l, forall a, f a = Ok (h a)} -> mapR f l = Ok (map h l).
Proof.
elim: l => [|a l IH] //= H; rewrite H ?mem_head //= IH // => x Hx.
by apply: H; rewrite in_cons Hx orbT.
Qed.

Lemma mapR_err (A : eqType) (B : Type) (f : A -> result B) l a :
  a \in l -> f a = LocalErr -> {in l, forall x, f x <> Panicked} -> mapR f l = LocalErr.
Proof.
elim: l => [|b l IH] //=; rewrite in_cons => Ha Hf Hp.
case Eb: (f b) => [v||] //=; last by case: (Hp b); rewrite ?mem_head.
case/orP: Ha => [/eqP Eab|Ha]; first by rewrite -Eab Hf in Eb.
rewrite IH // => x Hx; apply: Hp; by rewrite in_cons Hx orbT.
Qed.

Lemma mapR_inv (A : eqType) (B : Type) (f : A -> result B) l r :
  mapR f l = Ok r -> {in l, forall a, exists b, f a = Ok b}.
Proof.
elim: l r => [|b l IH] r //=.
case Eb: (f b) => [v||] //=; case El: (mapR f l) => [w||] //= _ x.
rewrite in_cons => /orP [/eqP -> |Hx]; first by exists v.
exact: IH El _ Hx.
Qed.

Section Tabulate.
Variables (K : eqType) (A : Type) (f : K -> A).

Lemma aget_tab l k : aget [seq (x, f x) | x <- l] k = if k \in l then Some (f k) else None.
Proof.
elim: l => [|x l IH] //=; rewrite in_cons; case: eqP => [-> |_] //=.
Qed.

Lemma akeys_tab l : akeys [seq (x, f x) | x <- l] = l.
Proof. by rewrite /akeys -map_comp map_id. Qed.

Lemma avals_tab l : avals [seq (x, f x) | x <- l] = [seq f x | x <- l].
Proof. by rewrite /avals -map_comp. Qed.

End Tabulate.

Lemma aget_mem (K : eqType) (A : eqType) (m : seq (K * A)) k a :
  uniq (akeys m) -> (aget m k == Some a) = ((k, a) \in m).
Proof.
elim: m => [|[k' a'] m IH] //= /andP [Hk U]; rewrite in_cons xpair_eqE.
case: (k =P k') => [-> |_] /=; last exact: IH.
rewrite -[Some a' == Some a]/(a' == a) eq_sym; case: eqP => //= _.
by apply/esym/negbTE; apply: contra Hk => H; apply/mapP; exists (k', a).
Qed.

(** An association list with distinct keys is the tabulation of its lookup. *)
Lemma atab_eq (K : eqType) (A : Type) (m : seq (K * A)) (d : A) :
  uniq (akeys m) -> m = [seq (k, odflt d (aget m k)) | k <- akeys m].
Proof.
elim: m => [|[k a] m IH] //= /andP [Hk U]; rewrite eqxx /=; congr (_ :: _).
rewrite {1}IH //; apply/eq_in_map => x Hx; congr (_, _).
by case: eqP => // E; move: Hk; rewrite -E Hx.
Qed.
