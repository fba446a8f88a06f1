(** * What the commitments of round 1 fix. *)
From Coq Require Import ZArith Znumtheory Lia.
From Verif Require Import Base BaseFacts ModArith EncodingModel SignedModel PaillierModel ZkBase ZkModel ZkFacts.
From mathcomp Require Import all_ssreflect all_algebra.
From Verif Require Import AlgBase AlgFacts ThresholdModel ThresholdProofs SchModel ProtoBase ProtoSpec ProtoFacts KeyInitModel KeyInitProofs
  AuxGenModel AuxGenSpec AuxGenProofs KeyRefreshModel KeyRefreshSpec KeyRefreshProofs AgreeSpec AgreeProofs BindSpec CommitSpec.
Set Implicit Arguments.
Unset Strict Implicit.
Unset Printing Implicit Defensive.
Import GRing.Theory.
Local Open Scope ring_scope.

Lemma heard_echoes (I : eqType) (W : Type) (ids : seq I) id (own : message W) got : heard ids id own got (echoes id own got).
Proof. by []. Qed.

Section KeyInit.
Variables (F : fieldType) (V : lmodType F) (g : V) (I : eqType) (le : rel I) (HO : eqType).
Notation item := (hitem HO I V).
Variables (H : dst -> seq item -> HO) (X : xof (seq item) V) (scheme : seq item) (ids : seq I) (sr : seq Z).
Hypothesis Hu : uniq ids.
Notation sid := (sid_new H scheme sr ids).

Lemma ki_fixed id x tau rho u c m1 m2 m3 o1 o2 o3 k x' tau' rho' u' c' m1' m2' m3' o1' o2' o3' k' :
  ki_start g H scheme ids sr id x tau rho u = Ok c -> ki_start g H scheme ids sr id x' tau' rho' u' = Ok c' ->
  perm_eq o1 (without ids id) -> perm_eq o2 (without ids id) -> perm_eq o3 (without ids id) ->
  perm_eq o1' (without ids id) -> perm_eq o2' (without ids id) -> perm_eq o3' (without ids id) ->
  ki_run g le H X c m1 m2 m3 o1 o2 o3 = Accept k -> ki_run g le H X c' m1' m2' m3' o1' o2' o3' = Accept k' ->
  same_echoes ids id m1 m1' ->
  no_collision (H DKeyInit) (without ids id) (fun l => ki_opens sid l (m2 l)) (fun l => ki_opens sid l (m2' l)) ->
  [/\ {in without ids id, forall l, m2 l = m2' l},
      {in without ids id, forall l, aget (ks_public k) l = aget (ks_public k') l},
      ks_vkey_point k - x *: g = ks_vkey_point k' - x' *: g &
      g != 0 -> ks_vkey_point k = ks_vkey_point k' -> x = x'].
Proof.
move=> s s' p1 p2 p3 p1' p2' p3' r r' he hn.
have [[_ _ K Kx _] [px [pa [pr [pu [rc [psi [_ A]]]]]]]] := ki_malicious s Hu p1 p2 p3 r.
have [[_ _ K' Kx' _] [px' [pa' [pr' [pu' [rc' [psi' [_ A']]]]]]]] := ki_malicious s' Hu p1' p2' p3' r'.
have [hid _] := start_inv s.
have E l : l \in without ids id -> [/\ px l = px' l, pa l = pa' l, pr l = pr' l & pu l = pu' l].
  move=> hl; have [e1 e2 e3 _ _] := A l hl; have [f1 f2 f3 _ _] := A' l hl.
  have : [:: HOut sid; HId l; HPt (px l); HPt (pa l); HBits (pr l); HBits (pu l)]
       = [:: HOut sid; HId l; HPt (px' l); HPt (pa' l); HBits (pr' l); HBits (pu' l)] :> seq item.
    apply: (hn l hl); [by exists (px l), (pa l), (pr l), (pu l)|by exists (px' l), (pa' l), (pr' l), (pu' l)|].
    by have := he l hl; rewrite e3 f3 /= => -[].
  by move=> [-> -> -> ->].
have G l : l \in without ids id -> aget (ks_public k) l = aget (ks_public k') l.
  by move=> hl; have [-> _ _ _ _] := A l hl; have [-> _ _ _ _] := A' l hl; have [-> _ _ _] := E l hl.
have T (n : kshare V I) (y : F) : perm_eq (ks_parties n) ids -> aget (ks_public n) id = Some (y *: g) ->
    ks_vkey_point n - y *: g = \sum_(l <- without ids id) odflt 0 (aget (ks_public n) l).
  move=> hp hg; rewrite /ks_vkey_point psumE /avals big_map.
  have hn' : uniq (akeys (ks_public n)) by rewrite (perm_uniq hp).
  rewrite {1}(atab_eq 0 hn') big_map (perm_big _ hp) /= (perm_big _ (perm_without Hu hid)) big_cons /= hg /=.
  by rewrite addrAC subrr add0r.
have W : ks_vkey_point k - x *: g = ks_vkey_point k' - x' *: g.
  by rewrite (T _ _ K Kx) (T _ _ K' Kx') big_seq [RHS]big_seq; apply: eq_bigr => l hl; rewrite G.
split=> //.
  by move=> l hl; have [_ -> _ _ _] := A l hl; have [_ -> _ _ _] := A' l hl; have [-> -> -> ->] := E l hl.
move=> gn ek; move: W; rewrite ek => /addrI /oppr_inj /eqP; rewrite -subr_eq0 -scalerBl scaler_eq0 (negbTE gn) orbF subr_eq0.
by move/eqP.
Qed.

Lemma ki_no_copy id x tau rho u c m1 m2 m3 o1 o2 o3 k l l' :
  ki_start g H scheme ids sr id x tau rho u = Ok c ->
  perm_eq o1 (without ids id) -> perm_eq o2 (without ids id) -> perm_eq o3 (without ids id) ->
  ki_run g le H X c m1 m2 m3 o1 o2 o3 = Accept k ->
  l \in ids -> l' \in ids -> l != l' -> ~ cross_collision (H DKeyInit) (ki_seen sid id c m2) l l' ->
  echoes id (ki_send1 H c) m1 l <> echoes id (ki_send1 H c) m1 l'.
Proof.
move=> s p1 p2 p3 r hl hl' ne nc E; apply: nc; have [K A] := ki_open Hu s p1 p2 p3 r (@heard_echoes _ _ ids id (ki_send1 H c) m1).
have [y [a [b [w [e1 e2 e3]]]]] := A l hl; have [y' [a' [b' [w' [f1 f2 f3]]]]] := A l' hl'.
exists [:: HOut sid; HId l; HPt y; HPt a; HBits b; HBits w], [:: HOut sid; HId l'; HPt y'; HPt a'; HBits b'; HBits w'].
split; [by exists y, a, b, w|by exists y', a', b', w'|split].
  by move=> [] e; rewrite e eqxx in ne.
by move: E; rewrite e2 f2 => -[].
Qed.
End KeyInit.

Section AuxGen.
Variables (S : sparams) (C : curve) (I : eqType) (le : rel I) (HO : eqType).
Notation item := (hitem HO I (pt C)).
Variables (H : dst -> seq item -> HO) (X : xof (seq item) (pt C)) (scheme : seq item) (ids : seq I) (sr : seq Z).
Hypothesis Hu : uniq ids.
Hypothesis Hb : Z.le 3 (modulus_bits (sp_pail S)).
Notation sid := (sid_new H scheme sr ids).

Lemma ag_fixed id r c d com m1 m2 m3 o1 o2 o3 a r' c' d' com' m1' m2' m3' o1' o2' o3' a' :
  ag_start S H X scheme ids sr id r = Ok (c, d) -> ag_start S H X scheme ids sr id r' = Ok (c', d') ->
  perm_eq o1 (without ids id) -> perm_eq o2 (without ids id) -> perm_eq o3 (without ids id) ->
  perm_eq o1' (without ids id) -> perm_eq o2' (without ids id) -> perm_eq o3' (without ids id) ->
  ag_run S le H X c d com m1 m2 m3 o1 o2 o3 = Accept a -> ag_run S le H X c' d' com' m1' m2' m3' o1' o2' o3' = Accept a' ->
  same_echoes ids id m1 m1' ->
  no_collision (H DKeyInit) (without ids id) (fun l => ag_opens sid l (m2 l)) (fun l => ag_opens sid l (m2' l)) ->
  {in without ids id, forall l,
    aget (ai_public a) l = aget (ai_public a') l /\
    exists pk rp psi rid u, ag_opens sid l (m2 l) (ag_transcript C sid l pk rp psi rid u) /\
      ag_opens sid l (m2' l) (ag_transcript C sid l pk rp psi rid u)}.
Proof.
move=> s s' p1 p2 p3 p1' p2' p3' hr hr' he hn l hl.
have [_ [pk [rpw [psi [rid [u [rc [ps [ps' [_ hj]]]]]]]]]] := ag_finished Hb s Hu p1 p2 p3 hr.
have [_ [pk' [rpw' [psi' [rid' [u' [rc' [qs [qs' [_ hj']]]]]]]]]] := ag_finished Hb s' Hu p1' p2' p3' hr'.
have [e1 e2 e3 _ _] := hj l hl; have [f1 f2 f3 _ _] := hj' l hl.
have O : ag_opens sid l (m2 l) (ag_transcript C sid l (pk l) (reduced (rpw l)) (psi l) (rid l) (u l)).
  by exists (rid l), (rpw l), (pk l), (psi l), (u l).
have O' : ag_opens sid l (m2' l) (ag_transcript C sid l (pk' l) (reduced (rpw' l)) (psi' l) (rid' l) (u' l)).
  by exists (rid' l), (rpw' l), (pk' l), (psi' l), (u' l).
have E : ag_transcript C sid l (pk l) (reduced (rpw l)) (psi l) (rid l) (u l)
       = ag_transcript C sid l (pk' l) (reduced (rpw' l)) (psi' l) (rid' l) (u' l).
  by apply: (hn l hl _ _ O O'); have := he l hl; rewrite e3 f3 /= => -[].
split; last by exists (pk l), (reduced (rpw l)), (psi l), (rid l), (u l); split=> //; rewrite E.
by rewrite e1 f1; move: E => [-> a1 a2 a3 _ _ _]; rewrite (@rp_eq (reduced (rpw l)) (reduced (rpw' l)) a1 a2 a3).
Qed.

Lemma ag_no_copy id r c d com m1 m2 m3 o1 o2 o3 a l l' :
  ag_start S H X scheme ids sr id r = Ok (c, d) ->
  perm_eq o1 (without ids id) -> perm_eq o2 (without ids id) -> perm_eq o3 (without ids id) ->
  ag_run S le H X c d com m1 m2 m3 o1 o2 o3 = Accept a ->
  l \in ids -> l' \in ids -> l != l' -> ~ cross_collision (H DKeyInit) (ag_seen sid id d m2) l l' ->
  echoes id (ag_send1 H c d) m1 l <> echoes id (ag_send1 H c d) m1 l'.
Proof.
move=> s p1 p2 p3 r' hl hl' ne nc E; apply: nc; have A := ag_open Hu Hb s p1 p2 p3 r' (@heard_echoes _ _ ids id (ag_send1 H c d) m1).
have [pk [rp [psi [rid [u [e1 e2 e3]]]]]] := A l hl; have [pk' [rp' [psi' [rid' [u' [f1 f2 f3]]]]]] := A l' hl'.
exists (ag_transcript C sid l pk rp psi rid u), (ag_transcript C sid l' pk' rp' psi' rid' u').
split; [by move: e1; rewrite /ag_seen; case: eqP|by move: f1; rewrite /ag_seen; case: eqP|split].
  by move=> [] e; rewrite e eqxx in ne.
by move: E; rewrite e2 f2 => -[].
Qed.
End AuxGen.

Section KeyRefresh.
Variables (S : sparams) (F : fieldType) (V : lmodType F) (g : V) (I : eqType) (le : rel I) (HO : eqType).
Notation item := (hitem HO I V).
Variables (H : dst -> seq item -> HO) (X : xof (seq item) V) (Hs : dst -> seq item -> F) (scheme : seq item) (ids : seq I) (sr : seq Z).
Hypothesis Hu : uniq ids.
Hypothesis Hb : Z.le 3 (modulus_bits (sp_pail S)).
Hypothesis ho : total_order le.
Hypothesis hso : sorted le ids.
Notation sid := (sid_new H scheme sr ids).

Lemma nums_inj (m m' : seq Z) : [seq (HNum z : item) | z <- m] = [seq (HNum z : item) | z <- m'] -> m = m'.
Proof. by elim: m m' => [|z m IH] [|z' m'] //= [-> /IH ->]. Qed.

Lemma kr_transcript_inj l (d d' : kr_public V I) : kr_transcript sid l d = kr_transcript sid l d' -> d = d'.
Proof.
case: d d' => [xs ys as_ pk rp psi rid u] [xs' ys' as' pk' rp' psi' rid' u']; rewrite /kr_transcript /=.
move=> [/pts_inj -> /pts_inj -> /pts_inj -> -> a1 a2 a3 /nums_inj b1 b2 /nums_inj b3 -> ->].
rewrite (rp_eq a1 a2 a3); case: psi psi' b1 b2 b3 => [? ? ?] [? ? ?] /= -> -> -> //.
Qed.

Lemma kr_fixed id r y tau split c d com m1 m2 m3 o1 o2 o3 kc a
    r' y' tau' split' c' d' com' m1' m2' m3' o1' o2' o3' kc' a' :
  kr_start S g H X scheme ids sr id r y tau split = Ok (c, d) ->
  kr_start S g H X scheme ids sr id r' y' tau' split' = Ok (c', d') ->
  perm_eq o1 (without ids id) -> perm_eq o2 (without ids id) -> perm_eq o3 (without ids id) ->
  perm_eq o1' (without ids id) -> perm_eq o2' (without ids id) -> perm_eq o3' (without ids id) ->
  kr_run S g le H X Hs c d com m1 m2 m3 o1 o2 o3 = Accept (kc, a) ->
  kr_run S g le H X Hs c' d' com' m1' m2' m3' o1' o2' o3' = Accept (kc', a') ->
  same_echoes ids id m1 m1' ->
  no_collision (H DKeyInit) (without ids id) (fun l => kr_opens le sid l (m2 l)) (fun l => kr_opens le sid l (m2' l)) ->
  exists D,
  [/\ {in without ids id, forall l, reveals le (m2 l) (D l) /\ reveals le (m2' l) (D l)},
      {in without ids id, forall l, aget (ai_public a) l = aget (ai_public a') l} &
      {in ids, forall k,
        aget (kc_public kc) k = Some (change d k + \sum_(l <- without ids id) change (D l) k) /\
        aget (kc_public kc') k = Some (change d' k + \sum_(l <- without ids id) change (D l) k)}].
Proof.
move=> s s' p1 p2 p3 p1' p2' p3' hr hr' he hn.
have [_ [_ [D [fac [cc [hats [psi' [rc [_ [hk hj]]]]]]]]]] := kr_finished Hb ho hso Hu s p1 p2 p3 hr.
have [_ [_ [D' [fac' [cc' [hats' [psi'' [rc' [_ [hk' hj']]]]]]]]]] := kr_finished Hb ho hso Hu s' p1' p2' p3' hr'.
have E l : l \in without ids id -> D l = D' l.
  move=> hl; have [[e1 e2 _ _ _] _] := hj l hl; have [[f1 f2 _ _ _] _] := hj' l hl.
  apply: (@kr_transcript_inj l); apply: (hn l hl); [by exists (D l)|by exists (D' l)|].
  by have := he l hl; rewrite e1 f1 /= => -[].
exists D; split.
- by move=> l hl; have [[_ e2 _ _ _] _] := hj l hl; have [[_ f2 _ _ _] _] := hj' l hl; rewrite {2}(E l hl).
- by move=> l hl; have [[_ _ _ -> _] _] := hj l hl; have [[_ _ _ -> _] _] := hj' l hl; rewrite (E l hl).
move=> k hl; split; first exact: hk.
by rewrite (hk' k hl); congr (Some (_ + _)); rewrite big_seq [RHS]big_seq; apply: eq_bigr => l /E ->.
Qed.

Lemma kr_no_copy id r y tau split c d com m1 m2 m3 o1 o2 o3 kc a l l' :
  kr_start S g H X scheme ids sr id r y tau split = Ok (c, d) ->
  perm_eq o1 (without ids id) -> perm_eq o2 (without ids id) -> perm_eq o3 (without ids id) ->
  kr_run S g le H X Hs c d com m1 m2 m3 o1 o2 o3 = Accept (kc, a) ->
  l \in ids -> l' \in ids -> l != l' -> ~ cross_collision (H DKeyInit) (kr_seen le sid id d m2) l l' ->
  echoes id (kr_send1 g H c d) m1 l <> echoes id (kr_send1 g H c d) m1 l'.
Proof.
move=> s p1 p2 p3 hr hl hl' ne nc E; apply: nc.
have [_ [D [_ A]]] := kr_open Hu Hb ho hso s p1 p2 p3 hr (@heard_echoes _ _ ids id (kr_send1 g H c d) m1).
have [e1 e2 _] := A l hl; have [f1 f2 _] := A l' hl'.
exists (kr_transcript sid l (D l)), (kr_transcript sid l' (D l')); split=> //; split.
  by move=> [] e; rewrite e eqxx in ne.
by move: E; rewrite e2 f2 => -[].
Qed.
End KeyRefresh.
