(** * Agreement between the parties of a session. *)
From Coq Require Import ZArith Znumtheory Lia.
From Verif Require Import Base BaseFacts ModArith EncodingModel SignedModel PaillierModel ZkBase ZkModel ZkFacts.
From mathcomp Require Import all_ssreflect all_algebra.
From Verif Require Import AlgBase AlgFacts ThresholdModel ThresholdProofs SchModel ProtoBase ProtoSpec ProtoFacts KeyInitModel KeyInitProofs
  AuxGenModel AuxGenSpec AuxGenProofs KeyRefreshModel KeyRefreshSpec KeyRefreshProofs AgreeSpec.
Set Implicit Arguments.
Unset Strict Implicit.
Unset Printing Implicit Defensive.
Import GRing.Theory.
Local Open Scope ring_scope.

Lemma in_without (I : eqType) (ids : seq I) i l : (l \in without ids i) = (l != i) && (l \in ids).
Proof. by rewrite mem_filter. Qed.

Lemma avals_sum (K : eqType) (F : fieldType) (V : lmodType F) (m m' : seq (K * V)) :
  uniq (akeys m) -> perm_eq (akeys m) (akeys m') -> {in akeys m, forall l, aget m l = aget m' l} ->
  \sum_(p <- m) p.2 = \sum_(p <- m') p.2.
Proof.
move=> hu hp h; have hu' : uniq (akeys m') by rewrite -(perm_uniq hp).
have E (n : seq (K * V)) : uniq (akeys n) -> \sum_(p <- n) p.2 = \sum_(k <- akeys n) odflt 0 (aget n k).
  by move=> hn; rewrite {1}(atab_eq 0 hn) big_map.
rewrite (E _ hu) (E _ hu') (perm_big _ hp) /= big_seq [RHS]big_seq; apply: eq_bigr => k hk.
by rewrite h // (perm_mem hp).
Qed.

Section KeyInit.
Variables (F : fieldType) (V : lmodType F) (g : V) (I : eqType) (le : rel I) (HO : eqType).
Notation item := (hitem HO I V).
Variables (H : dst -> seq item -> HO) (X : xof (seq item) V) (scheme : seq item) (ids : seq I) (sr : seq Z).
Hypothesis Hu : uniq ids.
Notation sid := (sid_new H scheme sr ids).

Lemma ki_open id x tau rho u c m1 m2 m3 o1 o2 o3 k e :
  ki_start g H scheme ids sr id x tau rho u = Ok c ->
  perm_eq o1 (without ids id) -> perm_eq o2 (without ids id) -> perm_eq o3 (without ids id) ->
  ki_run g le H X c m1 m2 m3 o1 o2 o3 = Accept k -> heard ids id (ki_send1 H c) m1 e ->
  perm_eq (akeys (ks_public k)) ids /\
  {in ids, forall l, exists y a r w,
    [/\ (if l == id then ki_send2 c else m2 l) = Msg None (Some (W2EB V HO r)) (Some (W2NB HO y a w)),
        e l = Some (W1EB V (H DKeyInit [:: HOut sid; HId l; HPt y; HPt a; HBits r; HBits w])) &
        aget (ks_public k) l = Some y]}.
Proof.
move=> hs p1 p2 p3 hr he.
have [[h1 h2 h3 h4 h5] [px [pa [pr [pu [rc [psi [_ hj]]]]]]]] := ki_malicious hs Hu p1 p2 p3 hr.
split; first by [].
have [hid ec] := start_inv hs.
move=> l hl; have := he l hl; case: (eqVneq l id) => [e1|ne] E.
  exists (x *: g), (tau *: g), rho, u; rewrite e1 in E *; split=> //; first by rewrite ec.
  by rewrite -E ec.
have [|g1 g2 g3 g4 g5] := hj l; first by rewrite in_without ne.
by exists (px l), (pa l), (pr l), (pu l); split=> //; rewrite -E g3.
Qed.

Lemma ki_agree id id' x tau rho u x' tau' rho' u' c c' m1 m2 m3 m1' m2' m3' o1 o2 o3 o1' o2' o3' k k' e :
  ki_start g H scheme ids sr id x tau rho u = Ok c -> ki_start g H scheme ids sr id' x' tau' rho' u' = Ok c' ->
  perm_eq o1 (without ids id) -> perm_eq o2 (without ids id) -> perm_eq o3 (without ids id) ->
  perm_eq o1' (without ids id') -> perm_eq o2' (without ids id') -> perm_eq o3' (without ids id') ->
  ki_run g le H X c m1 m2 m3 o1 o2 o3 = Accept k -> ki_run g le H X c' m1' m2' m3' o1' o2' o3' = Accept k' ->
  heard ids id (ki_send1 H c) m1 e -> heard ids id' (ki_send1 H c') m1' e ->
  no_collision (H DKeyInit) ids (ki_seen sid id c m2) (ki_seen sid id' c' m2') ->
  {in ids, forall l, aget (ks_public k) l = aget (ks_public k') l} /\ ks_vkey_point k = ks_vkey_point k'.
Proof.
move=> s s' p1 p2 p3 p1' p2' p3' r r' h h' hn.
have [K A] := ki_open s p1 p2 p3 r h; have [K' A'] := ki_open s' p1' p2' p3' r' h'.
have E : {in ids, forall l, aget (ks_public k) l = aget (ks_public k') l}.
  move=> l hl; have [y [a [b [w [e1 e2 e3]]]]] := A l hl; have [y' [a' [b' [w' [f1 f2 f3]]]]] := A' l hl.
  have : [:: HOut sid; HId l; HPt y; HPt a; HBits b; HBits w] = [:: HOut sid; HId l; HPt y'; HPt a'; HBits b'; HBits w'] :> seq item.
    have O : ki_opens sid l (if l == id then ki_send2 c else m2 l) [:: HOut sid; HId l; HPt y; HPt a; HBits b; HBits w] by exists y, a, b, w.
    have O' : ki_opens sid l (if l == id' then ki_send2 c' else m2' l) [:: HOut sid; HId l; HPt y'; HPt a'; HBits b'; HBits w'] by exists y', a', b', w'.
    by apply: (hn l hl _ _ O O'); move: f2; rewrite e2 => -[].
  by rewrite e3 f3 => -[->].
split=> //; rewrite /ks_vkey_point !psumE.
have [hu hu'] : uniq (akeys (ks_public k)) /\ perm_eq (akeys (ks_public k)) (akeys (ks_public k')).
  by rewrite (perm_uniq K) (perm_trans K) // perm_sym.
rewrite /avals !big_map; apply: (avals_sum hu hu') => l hl; apply: E; by rewrite -(perm_mem K).
Qed.
End KeyInit.

Section AuxGen.
Variables (S : sparams) (C : curve) (I : eqType) (le : rel I) (HO : eqType).
Notation item := (hitem HO I (pt C)).
Variables (H : dst -> seq item -> HO) (X : xof (seq item) (pt C)) (scheme : seq item) (ids : seq I) (sr : seq Z).
Hypothesis Hu : uniq ids.
Hypothesis Hb : Z.le 3 (modulus_bits (sp_pail S)).
Notation sid := (sid_new H scheme sr ids).

Lemma ag_open id r c d com m1 m2 m3 o1 o2 o3 a e :
  ag_start S H X scheme ids sr id r = Ok (c, d) ->
  perm_eq o1 (without ids id) -> perm_eq o2 (without ids id) -> perm_eq o3 (without ids id) ->
  ag_run S le H X c d com m1 m2 m3 o1 o2 o3 = Accept a -> heard ids id (ag_send1 H c d) m1 e ->
  {in ids, forall l, exists pk rp psi rid u,
    [/\ if l == id then ag_transcript C sid l pk rp psi rid u = ag_transcript C sid id (ap_pk d) (ap_rp d) (ap_psi d) (ap_rid d) (ap_u d)
        else ag_opens sid l (m2 l) (ag_transcript C sid l pk rp psi rid u),
        e l = Some (A1EB (H DKeyInit (ag_transcript C sid l pk rp psi rid u))) &
        aget (ai_public a) l = Some (pk, rp)]}.
Proof.
move=> hs p1 p2 p3 hr he.
have [[h1 h2 h3 h4] [pk [rpw [psi [rid [u [rc [psi' [psi'' [_ hj]]]]]]]]]] := ag_finished Hb hs Hu p1 p2 p3 hr.
have [hid e1 e2 e3 [e4 e5 e6 _]] := ag_start_inv hs.
move=> l hl; have := he l hl; case: (eqVneq l id) => [el|ne] E.
  exists (ap_pk d), (ap_rp d), (ap_psi d), (ap_rid d), (ap_u d); rewrite el in E *; split=> //.
    by rewrite -E /ag_send1 /ag_hash e1 e3.
  by rewrite h4 e5 e6.
have [|g1 g2 g3 g4 g5] := hj l; first by rewrite in_without ne.
exists (pk l), (reduced (rpw l)), (psi l), (rid l), (u l); split=> //; last by rewrite -E g3.
by exists (rid l), (rpw l), (pk l), (psi l), (u l).
Qed.

Lemma rp_eq (a b : rpparams) : rp_n a = rp_n b -> rp_t a = rp_t b -> rp_s a = rp_s b -> a = b.
Proof. by case: a => ? ? ?; case: b => ? ? ? /= -> -> ->. Qed.

Lemma ag_agree id id' r r' c c' d d' com com' m1 m2 m3 m1' m2' m3' o1 o2 o3 o1' o2' o3' a a' e :
  ag_start S H X scheme ids sr id r = Ok (c, d) -> ag_start S H X scheme ids sr id' r' = Ok (c', d') ->
  perm_eq o1 (without ids id) -> perm_eq o2 (without ids id) -> perm_eq o3 (without ids id) ->
  perm_eq o1' (without ids id') -> perm_eq o2' (without ids id') -> perm_eq o3' (without ids id') ->
  ag_run S le H X c d com m1 m2 m3 o1 o2 o3 = Accept a -> ag_run S le H X c' d' com' m1' m2' m3' o1' o2' o3' = Accept a' ->
  heard ids id (ag_send1 H c d) m1 e -> heard ids id' (ag_send1 H c' d') m1' e ->
  no_collision (H DKeyInit) ids (ag_seen sid id d m2) (ag_seen sid id' d' m2') ->
  {in ids, forall l, aget (ai_public a) l = aget (ai_public a') l}.
Proof.
move=> s s' p1 p2 p3 p1' p2' p3' hr hr' h h' hn l hl.
have [pk [rp [psi [rid [u [e1 e2 e3]]]]]] := ag_open s p1 p2 p3 hr h hl.
have [pk' [rp' [psi' [rid' [u' [f1 f2 f3]]]]]] := ag_open s' p1' p2' p3' hr' h' hl.
have : ag_transcript C sid l pk rp psi rid u = ag_transcript C sid l pk' rp' psi' rid' u'.
  have O : ag_seen sid id d m2 l (ag_transcript C sid l pk rp psi rid u) by move: e1; rewrite /ag_seen; case: eqP.
  have O' : ag_seen sid id' d' m2' l (ag_transcript C sid l pk' rp' psi' rid' u') by move: f1; rewrite /ag_seen; case: eqP.
  by apply: (hn l hl _ _ O O'); move: f2; rewrite e2 => -[].
by rewrite e3 f3 => -[-> a1 a2 a3 _ _ _]; rewrite (rp_eq a1 a2 a3).
Qed.
End AuxGen.

Section KeyRefresh.
Variables (S : sparams) (F : fieldType) (V : lmodType F) (g : V) (I : eqType) (le : rel I) (HO : eqType).
Notation item := (hitem HO I V).
Variables (H : dst -> seq item -> HO) (X : xof (seq item) V) (Hs : dst -> seq item -> F) (scheme : seq item) (ids : seq I) (sr : seq Z).
Hypothesis Hu : uniq ids.
Hypothesis Hb : Z.le 3 (modulus_bits (sp_pail S)).
Hypothesis ho : total_order le.
Hypothesis hso : sorted le ids.
Notation sid := (sid_new H scheme sr ids).

Lemma kr_open id r y tau split c d com m1 m2 m3 o1 o2 o3 kc a e :
  kr_start S g H X scheme ids sr id r y tau split = Ok (c, d) ->
  perm_eq o1 (without ids id) -> perm_eq o2 (without ids id) -> perm_eq o3 (without ids id) ->
  kr_run S g le H X Hs c d com m1 m2 m3 o1 o2 o3 = Accept (kc, a) -> heard ids id (kr_send1 g H c d) m1 e ->
  akeys (kc_public kc) = ids /\
  exists D, {in ids, forall k, aget (kc_public kc) k = Some (\sum_(l <- ids) change (D l) k)} /\
  {in ids, forall l,
    [/\ kr_seen le sid id d m2 l (kr_transcript sid l (D l)),
        e l = Some (K1EB (H DKeyInit (kr_transcript sid l (D l)))) &
        aget (ai_public a) l = Some (kp_pk (D l), kp_rp (D l))]}.
Proof.
move=> hs p1 p2 p3 hr he.
have [[h1 h2 h3 h4] [[h5 h6 h7 h8] [D [fac [cc [hats [psi' [rc [_ [hk hj]]]]]]]]]] := kr_finished Hb ho hso Hu hs p1 p2 p3 hr.
have [x [[hid e1 e2 e3 e4] [_ [_ [e5 e6 e7 _]]]]] := kr_start_inv hs Hu.
split; first by []; exists (fun l => if l == id then d else D l); split.
  move=> k hk'; rewrite (hk k hk') (perm_big _ (perm_without Hu hid)) big_cons /= eqxx; congr (Some (_ + _)).
  rewrite big_seq [RHS]big_seq; apply: eq_bigr => l; rewrite in_without => /andP [ne _]; by rewrite (negbTE ne).
move=> l hl; have := he l hl; case: (eqVneq l id) => [el|ne] E.
  rewrite /kr_seen el eqxx in E *; split=> //; last by rewrite h8 e6 e7.
  by rewrite -E /kr_send1 e1 e4.
have [|[g1 g2 g3 g4 g5] _] := hj l; first by rewrite in_without ne.
by rewrite /kr_seen (negbTE ne); split=> //; [exists (D l)|rewrite -E g1].
Qed.

Lemma pts_inj (m m' : seq (I * V)) :
  [seq (HSeq [:: HId p.1; HPt p.2] : item) | p <- m] = [seq (HSeq [:: HId p.1; HPt p.2] : item) | p <- m'] -> m = m'.
Proof.
elim: m m' => [|[i v] m IH] [|[i' v'] m'] //= [-> ->] /IH -> //.
Qed.

Lemma kr_agree id id' r r' y y' tau tau' split split' c c' d d' com com' m1 m2 m3 m1' m2' m3' o1 o2 o3 o1' o2' o3' kc kc' a a' e :
  kr_start S g H X scheme ids sr id r y tau split = Ok (c, d) ->
  kr_start S g H X scheme ids sr id' r' y' tau' split' = Ok (c', d') ->
  perm_eq o1 (without ids id) -> perm_eq o2 (without ids id) -> perm_eq o3 (without ids id) ->
  perm_eq o1' (without ids id') -> perm_eq o2' (without ids id') -> perm_eq o3' (without ids id') ->
  kr_run S g le H X Hs c d com m1 m2 m3 o1 o2 o3 = Accept (kc, a) ->
  kr_run S g le H X Hs c' d' com' m1' m2' m3' o1' o2' o3' = Accept (kc', a') ->
  heard ids id (kr_send1 g H c d) m1 e -> heard ids id' (kr_send1 g H c' d') m1' e ->
  no_collision (H DKeyInit) ids (kr_seen le sid id d m2) (kr_seen le sid id' d' m2') ->
  kc_public kc = kc_public kc' /\ {in ids, forall l, aget (ai_public a) l = aget (ai_public a') l}.
Proof.
move=> s s' p1 p2 p3 p1' p2' p3' hr hr' h h' hn.
have [K [D [A1 A2]]] := kr_open s p1 p2 p3 hr h.
have [K' [D' [A1' A2']]] := kr_open s' p1' p2' p3' hr' h'.
have E : {in ids, forall l, kr_transcript sid l (D l) = kr_transcript sid l (D' l)}.
  move=> l hl; have [e1 e2 e3] := A2 l hl; have [f1 f2 f3] := A2' l hl.
  by apply: (hn l hl _ _ e1 f1); move: f2; rewrite e2 => -[].
split; last first.
  move=> l hl; have [e1 e2 ->] := A2 l hl; have [f1 f2 ->] := A2' l hl.
  by have := E l hl; rewrite /kr_transcript => -[_ _ _ -> b1 b2 b3 _ _ _ _]; rewrite (rp_eq b1 b2 b3).
have xs l : l \in ids -> kp_xs (D l) = kp_xs (D' l).
  by move=> hl; have := E l hl; rewrite /kr_transcript => -[/pts_inj b].
have T (k : kchange V I) (D0 : I -> kr_public V I) : akeys (kc_public k) = ids ->
    {in ids, forall j, aget (kc_public k) j = Some (\sum_(l <- ids) change (D0 l) j)} ->
    kc_public k = [seq (j, \sum_(l <- ids) change (D0 l) j) | j <- ids].
  move=> hk hg; rewrite {1}(@atab_eq _ _ (kc_public k) 0) hk //; apply/eq_in_map => j hj; by rewrite hg.
rewrite (T _ _ K A1) (T _ _ K' A1'); apply/eq_in_map => j hj; congr (_, _).
by rewrite big_seq [RHS]big_seq; apply: eq_bigr => l hl; rewrite /change xs.
Qed.
End KeyRefresh.
