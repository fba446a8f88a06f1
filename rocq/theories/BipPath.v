(** * Child keys along a path (property C24, continued). *)
From mathcomp Require Import all_ssreflect all_algebra.
From Verif Require Import AlgBase AlgFacts ShamirModel ThresholdModel ThresholdSpec ThresholdProofs ShareLemmas.
Set Implicit Arguments.
Unset Strict Implicit.
Unset Printing Implicit Defensive.
Import GRing.Theory.
Local Open Scope ring_scope.

Section Path.
Variables (F : fieldType) (V : lmodType F) (g : V) (T CC N : Type) (as_tweak : T -> option F).
Variables (icc : V -> CC) (dtw : V -> CC -> N -> option (T * CC)).

(** Specification: [child pk cc path v d].  From the key [pk] with chain code
    [cc], going down along [path] one element after the other, one arrives at the
    key [v], and the tweaks on the way add up to [d].  Each tweak is made from the
    key and the chain code reached so far. *)
Inductive child : V -> CC -> seq N -> V -> F -> Prop :=
| ChildHere pk cc : child pk cc [::] pk 0
| ChildDown pk cc n t cc' a path v d : dtw pk cc n = Some (t, cc') -> as_tweak t = Some a -> pk + a *: g <> 0 ->
    child (pk + a *: g) cc' path v d -> child pk cc (n :: path) v (a + d).

Lemma child_offset pk cc path v d : child pk cc path v d -> v = pk + d *: g.
Proof. by elim=> [pk' cc'|pk' cc' n t cc'' a p v' d' _ _ _ _ ->]; rewrite ?scale0r ?addr0 // scalerDl addrA. Qed.

Lemma loop_child pk cc path v :
  (exists2 ts, derive_tweaks_loop g as_tweak dtw pk cc path = Some ts & apply_tweaks_public g as_tweak pk ts = Some v) <->
  exists d, child pk cc path v d.
Proof.
elim: path pk cc => [|n path IH] pk cc /=.
  split=> [[ts [<-] [<-]]|[d h]]; first by exists 0; apply: ChildHere.
  by exists [::] => //; inversion h.
split=> [[ts]|[d h]].
  case E1: (dtw pk cc n) => [[t cc']|] //; rewrite /pk_derive_child; case E2: (as_tweak t) => [a|] //.
  rewrite /to_verifying_key; case: eqP => // ne; case E3: (derive_tweaks_loop _ _ _ _ _ _) => [ts'|] // [<-] /=.
  rewrite /pk_derive_child E2 /to_verifying_key; case: eqP => // _ E4.
  have [d h] : exists d, child (pk + a *: g) cc' path v d by apply/IH; exists ts'.
  by exists (a + d); apply: (ChildDown E1 E2 ne h).
inversion h as [|pk' cc1 n' t cc' a p' v' d' E1 E2 ne h' e1 e2 e3 e4 e5]; subst.
have [ts E3 E4] : exists2 ts, derive_tweaks_loop g as_tweak dtw (pk + a *: g) cc' path = Some ts &
    apply_tweaks_public g as_tweak (pk + a *: g) ts = Some v by apply/IH; exists d'.
have E5 : pk_derive_child g as_tweak pk t = Some (pk + a *: g).
  by rewrite /pk_derive_child E2 /to_verifying_key; case: eqP.
by exists (t :: ts); rewrite /= ?E1 E5 ?E3.
Qed.

Lemma derive_child pk path v : vkey_derive_bip32 g as_tweak icc dtw pk path = Some v <-> exists d, child pk (icc pk) path v d.
Proof.
rewrite -loop_child /vkey_derive_bip32 /derive_tweaks; split=> [|[ts -> //]].
by case E: (derive_tweaks_loop _ _ _ _ _ _) => [ts|] // h; exists ts.
Qed.

Lemma derived_shares (I : eqType) ids t x (shares : I -> tshare V I) path i0 s0 : g != 0 -> uniq ids -> (0 < t <= size ids)%N ->
  threshold_sharing g ids t x shares -> i0 \in ids ->
  ts_derive_bip32 g as_tweak icc dtw (shares i0) path = Some s0 ->
  exists (derived : I -> tshare V I) (d : F),
    [/\ child (x *: g) (icc (x *: g)) path ((x + d) *: g) d,
        {in ids, forall i, ts_derive_bip32 g as_tweak icc dtw (shares i) path = Some (derived i)} &
        threshold_sharing g ids t (x + d) derived].
Proof.
move=> g0 hu ht hs hi hd; have [derived [d [h1 [h2 [h3 _]]]]] := derive_bip32E g0 hu ht hs hi hd.
exists derived, d; split=> //; have [d' h] := (derive_child _ _ _).1 h3.
suff -> : d = d' by have := h; rewrite {1}(child_offset h) -scalerDl.
have := child_offset h; rewrite scalerDl => /addrI /eqP; rewrite -subr_eq0 -scalerBl scaler_eq0 (negbTE g0) orbF subr_eq0.
by move/eqP.
Qed.
End Path.
