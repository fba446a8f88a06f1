(** * KeyRefresh: applying the result, and evidence against an honest party. *)
From Coq Require Import ZArith.
From Verif Require Import Base EncodingModel SignedModel PaillierModel ZkBase ZkModel ZkSpec ZkToy.
From mathcomp Require Import all_ssreflect all_algebra.
From Verif Require Import AlgBase AlgFacts ThresholdModel ThresholdSpec ThresholdProofs ShareLemmas SchModel ProtoBase ProtoSpec ProtoFacts
  AuxGenModel AuxGenSpec AuxGenToy AuxHonestSpec KeyRefreshModel KeyRefreshSpec KeyRefreshProofs KeyRefreshHonest KeyRefreshToy
  AuxHonestToy PropsShare.
Set Implicit Arguments.
Unset Strict Implicit.
Unset Printing Implicit Defensive.
Import GRing.Theory.
Local Open Scope ring_scope.

(** A share updated with a change that cancels, whose own part is consistent. *)
Lemma update_finished (F : fieldType) (V : lmodType F) (g : V) (I : eqType) (ids : seq I) id (k k' : kshare V I) (c : kchange V I) :
  uniq ids -> perm_eq (akeys (ks_public k)) ids -> ks_owner k = id -> id \in ids ->
  aget (ks_public k) id = Some (ks_secret k *: g) ->
  [/\ kc_owner c = id, akeys (kc_public c) = ids, aget (kc_public c) id = Some (kc_secret c *: g) &
      \sum_(p <- kc_public c) p.2 = 0] ->
  (exists k1, ks_update k c = Ok k1) /\
  (ks_update k c = Ok k' ->
   [/\ ks_owner k' = id, ks_secret k' = ks_secret k + kc_secret c,
       aget (ks_public k') id = Some (ks_secret k' *: g), akeys (ks_public k') = akeys (ks_public k) &
       ks_vkey_point k' = ks_vkey_point k]).
Proof.
move=> hu pk ow hid own [co ck cown cz].
have Uk : uniq (akeys (ks_public k)) by rewrite (perm_uniq pk).
have Uc : uniq (akeys (kc_public c)) by rewrite ck.
have [E _] := update_refuses Uk Uc; split.
  by apply/E; split; [rewrite ow co|move=> i; rewrite ck (perm_mem pk)].
move=> Eu; have sh := update_shift Uk Uc Eu; rewrite psum_avals cz addr0 in sh.
move: Eu; rewrite /ks_update; case: ifP => // _; case: ifP => // _.
case Em: (mapR _ _) => [l| |] //= [Ek]; subst k'; rewrite /= in sh *.
have kE : akeys l = akeys (ks_public k) /\ forall i, i \in akeys (ks_public k) -> forall v,
    aget (ks_public k) i = Some v -> exists2 w, aget (kc_public c) i = Some w & aget l i = Some (v + w).
  elim: (ks_public k) l Em {sh own pk Uk E} => [|[j v] s IH] l /=; first by move=> [<-].
  case Ew: (aget (kc_public c) j) => [w|] //=; case Em: (mapR _ s) => [l'| |] //= [<-] /=.
  have [-> h] := IH _ Em; split=> // i; rewrite inE /aget /=.
  by case: eqP => [->|ne] /= hi v' => [[<-]|hv]; [exists w|apply: h].
have [-> h] := kE; split=> //.
have [|w Ew ->] := h id _ _ own; first by rewrite (perm_mem pk).
by move: Ew; rewrite cown => -[<-]; rewrite scalerDl.
Qed.

Lemma honest_run (S : sparams) (F : fieldType) (V : lmodType F) (g : V) (I : eqType) (le : rel I) (HO : eqType)
    (H : dst -> seq (hitem HO I V) -> HO) (X : xof (seq (hitem HO I V)) V) (Hs : dst -> seq (hitem HO I V) -> F)
    (scheme : seq (hitem HO I V))
    (ids : seq I) sr (r : I -> ag_rand) (com : I -> Z) (y tau : I -> I -> F) (split : I -> nat -> F) (rnd : I -> I -> fac_rand)
    (n : nat) (c : I -> kr_ctx F I HO) (d : I -> kr_public V I) (o1 o2 o3 : I -> seq I) :
  good_params S -> xof_ok (sp_q S) (X : xof (seq (hitem HO I V)) (pt (curveV g))) -> @detects_composites _ V X ->
  Z.lt (Z.add (Z.add (Z.add (Z.mul 2 (modulus_bits (sp_pail S))) (sp_l S)) (sp_eps S)) 1) (sp_xw S) ->
  total_order le -> sorted le ids -> uniq ids ->
  {in ids, forall i, honest_keys S (r i) (com i)} ->
  {in ids &, forall i j, i != j -> honest_masks S (r i) (Z.mul (ar_rp_p (r j)) (ar_rp_q (r j))) (rnd i j)} ->
  {in ids, forall i, size (ar_rid (r i)) = n} ->
  {in ids, forall i, kr_start S g H X scheme ids sr i (r i) (y i) (tau i) (split i) = Ok (c i, d i)} ->
  {in ids, forall i, [/\ perm_eq (o1 i) (without ids i), perm_eq (o2 i) (without ids i) & perm_eq (o3 i) (without ids i)]} ->
  let m1 j := kr_send1 g H (c j) (d j) in let m2 j := kr_send2 HO (d j) in
  exists rid_c : seq bool, combined [seq ar_rid (r i) | i <- ids] rid_c /\
  exists s m3 kc a,
  [/\ {in ids, forall i, kr_until3 S g le H X (c i) (d i) (com i) m1 m2 (o1 i) (o2 i) = Accept (s i) /\ k3_rid (s i) = rid_c},
      {in ids &, forall i j, j != i -> kr_send3 S g X Hs (s j) (rnd j i) i = Accept (m3 i j)},
      {in ids, forall i, kr_run S g le H X Hs (c i) (d i) (com i) m1 m2 (m3 i) (o1 i) (o2 i) (o3 i) = Accept (kc i, a i)},
      \sum_(i <- ids) kc_secret (kc i) = 0 &
      {in ids, forall i, [/\ kc_owner (kc i) = i, kc_public (kc i) = [seq (j, kc_secret (kc j) *: g) | j <- ids],
         ai_owner (a i) = i, ai_sk (a i) = kx_sk (c i) &
         ai_public (a i) = [seq (j, (Z.mul (ar_p (r j)) (ar_q (r j)), kp_rp (d j))) | j <- ids]]}].
Proof.
move=> HG HX HD HW ho hs hu hk hm hn hc hord /=.
have h1 : {in ids, forall i, perm_eq (o1 i) (without ids i)} by move=> i /hord [].
have h2 : {in ids, forall i, perm_eq (o2 i) (without ids i)} by move=> i /hord [].
have h3 : {in ids, forall i, perm_eq (o3 i) (without ids i)} by move=> i /hord [].
exact: (kr_honest Hs HG HX ho hs hu HD HW hk hm hn hc h1 h2 h3).
Qed.

Lemma honest_update (S : sparams) (F : fieldType) (V : lmodType F) (g : V) (I : eqType) (le : rel I) (HO : eqType)
    (H : dst -> seq (hitem HO I V) -> HO) (X : xof (seq (hitem HO I V)) V) (Hs : dst -> seq (hitem HO I V) -> F)
    (scheme : seq (hitem HO I V))
    (ids : seq I) sr (r : I -> ag_rand) (com : I -> Z) (y tau : I -> I -> F) (split : I -> nat -> F) (rnd : I -> I -> fac_rand)
    (n : nat) (c : I -> kr_ctx F I HO) (d : I -> kr_public V I) (o1 o2 o3 : I -> seq I) x (ks : I -> kshare V I) :
  good_params S -> xof_ok (sp_q S) (X : xof (seq (hitem HO I V)) (pt (curveV g))) -> @detects_composites _ V X ->
  Z.lt (Z.add (Z.add (Z.add (Z.mul 2 (modulus_bits (sp_pail S))) (sp_l S)) (sp_eps S)) 1) (sp_xw S) ->
  total_order le -> sorted le ids -> uniq ids ->
  {in ids, forall i, honest_keys S (r i) (com i)} ->
  {in ids &, forall i j, i != j -> honest_masks S (r i) (Z.mul (ar_rp_p (r j)) (ar_rp_q (r j))) (rnd i j)} ->
  {in ids, forall i, size (ar_rid (r i)) = n} ->
  {in ids, forall i, kr_start S g H X scheme ids sr i (r i) (y i) (tau i) (split i) = Ok (c i, d i)} ->
  {in ids, forall i, [/\ perm_eq (o1 i) (without ids i), perm_eq (o2 i) (without ids i) & perm_eq (o3 i) (without ids i)]} ->
  additive_sharing g ids x ks ->
  let m1 j := kr_send1 g H (c j) (d j) in let m2 j := kr_send2 HO (d j) in
  exists s m3 kc a ks',
  [/\ {in ids, forall i, kr_until3 S g le H X (c i) (d i) (com i) m1 m2 (o1 i) (o2 i) = Accept (s i)},
      {in ids &, forall i j, j != i -> kr_send3 S g X Hs (s j) (rnd j i) i = Accept (m3 i j)},
      {in ids, forall i, kr_run S g le H X Hs (c i) (d i) (com i) m1 m2 (m3 i) (o1 i) (o2 i) (o3 i) = Accept (kc i, a i)},
      {in ids, forall i, ks_update (ks i) (kc i) = Ok (ks' i)} &
      additive_sharing g ids x ks' /\
      {in ids, forall i, ks_secret (ks' i) = ks_secret (ks i) + kc_secret (kc i) /\
                         ks_verifying_key (ks' i) = ks_verifying_key (ks i)}].
Proof.
move=> HG HX HD HW ho hs hu hk hm hn hc hord hks /=.
have [rid_c [_ [s [m3 [kc [a [h1 h2 h3 h4 h5]]]]]]] := honest_run Hs HG HX HD HW ho hs hu hk hm hn hc hord.
have [|ks' [u1 [u2 u3]]] := updateE hu hks h4; first by move=> i hi; have [? ? _ _ _] := h5 i hi.
exists s, m3, kc, a, ks'; split=> // i hi; by have [-> _] := h1 i hi.
Qed.

Lemma finished_keeps_key (S : sparams) (F : fieldType) (V : lmodType F) (g : V) (I : eqType) (le : rel I) (HO : eqType)
    (H : dst -> seq (hitem HO I V) -> HO) (X : xof (seq (hitem HO I V)) V) (Hs : dst -> seq (hitem HO I V) -> F)
    (scheme : seq (hitem HO I V))
    ids sr id r y tau split c d com m1 m2 m3 o1 o2 o3 kc a (k : kshare V I) :
  Z.le 3 (modulus_bits (sp_pail S)) -> total_order le -> sorted le ids -> uniq ids ->
  kr_start S g H X scheme ids sr id r y tau split = Ok (c, d) ->
  perm_eq o1 (without ids id) -> perm_eq o2 (without ids id) -> perm_eq o3 (without ids id) ->
  kr_run S g le H X Hs c d com m1 m2 m3 o1 o2 o3 = Accept (kc, a) ->
  perm_eq (akeys (ks_public k)) ids -> ks_owner k = id -> aget (ks_public k) id = Some (ks_secret k *: g) ->
  exists k', ks_update k kc = Ok k' /\
  [/\ ks_owner k' = id, aget (ks_public k') id = Some (ks_secret k' *: g),
      akeys (ks_public k') = akeys (ks_public k) & ks_vkey_point k' = ks_vkey_point k].
Proof.
move=> hmb ho hs hu hst p1 p2 p3 hr kk ow own.
have [hkc _] := kr_finished hmb ho hs hu hst p1 p2 p3 hr.
have [_ [[hid _ _ _ _] _]] := kr_start_inv hst hu.
have [[k1 Ek] _] := @update_finished F V g I ids id k k kc hu kk ow hid own hkc.
have [_ /(_ Ek) [? ? ? ? ?]] := @update_finished F V g I ids id k k1 kc hu kk ow hid own hkc.
by exists k1.
Qed.

Lemma honest_case : let X : xof (seq itemR) V7 := const_xof 5 true 0 in
  [/\ good_params wide_params, xof_ok (sp_q wide_params) (X : xof (seq itemR) (pt (curveV g7))), @detects_composites _ V7 X &
      Z.lt (Z.add (Z.add (Z.add (Z.mul 2 (modulus_bits (sp_pail wide_params))) (sp_l wide_params)) (sp_eps wide_params)) 1) (sp_xw wide_params)] /\
  exists com c d,
  [/\ {in [:: 0; 1]%N, forall i, honest_keys wide_params (randW i) (com i)},
      {in [:: 0; 1]%N &, forall i j, i != j ->
        honest_masks wide_params (randW i) (Z.mul (ar_rp_p (randW j)) (ar_rp_q (randW j))) maskW},
      {in [:: 0; 1]%N, forall i, size (ar_rid (randW i)) = 2%N} &
      {in [:: 0; 1]%N, forall i, kr_start wide_params g7 HR X [::] [:: 0; 1]%N [::] i (randW i) (yR i) (tauR i) (splitR i) = Ok (c i, d i)}].
Proof.
move=> X; have XE : xof_ok (sp_q wide_params) (X : xof (seq itemR) (pt (curveV g7))) by apply: const_xof_ok.
split; first by split; [exact: wide_params_ok|exact: XE|exact: detectsW|exact: honest_roomW].
have [com hcom] := honest_keysW.
pose st i := kr_start wide_params g7 HR X [::] [:: 0; 1]%N [::] i (randW i) (yR i) (tauR i) (splitR i).
have hst i : i \in [:: 0; 1]%N -> exists cd, st i = Ok cd.
  by move=> hi; have [c [d E]] := kr_start_succeeds g7 HR X [::] wide_params_ok [::] (yR i) (tauR i) (splitR i) hi (hcom i); exists (c, d).
have [cd0 E0] := hst 0%N isT; have [cd1 E1] := hst 1%N isT.
exists com, (fun i => if i == 0%N then cd0.1 else cd1.1), (fun i => if i == 0%N then cd0.2 else cd1.2); split.
- by move=> i _; exact: hcom.
- by move=> i j _ _ _; exact: honest_masksW.
- by move=> [|i] _.
- move=> i; rewrite !inE => /orP [] /eqP -> /=.
    by rewrite -surjective_pairing; exact: E0.
  by rewrite -surjective_pairing; exact: E1.
Qed.

(** Party 0 follows the protocol and party 1 accepts its round 3 message; with
    party 2 named as the reporter the same message is confirmed as evidence, both
    for the factor proof and, when party 2 gives away its scalar, for the share
    change. *)
Lemma refresh_framed :
  exists (S : sparams) (F : fieldType) (V : lmodType F) (g : V) (HO : eqType) (H : dst -> seq (hitem HO nat V) -> HO)
    (X : xof (seq (hitem HO nat V)) V) (Hs : dst -> seq (hitem HO nat V) -> F) (ids : seq nat)
    c0 d0 com0 s0 c1 d1 com1 s1 r0 r1 y tau split rnd m1 m2 m3 x hist echos,
  [/\ kr_start S g H X [::] ids [::] 0%N r0 (y 0%N) (tau 0%N) (split 0%N) = Ok (c0, d0),
      kr_start S g H X [::] ids [::] 1%N r1 (y 1%N) (tau 1%N) (split 1%N) = Ok (c1, d1) &
      m1 0%N = kr_send1 g H c0 d0 /\ m2 0%N = kr_send2 HO d0 /\ m1 1%N = kr_send1 g H c1 d1 /\ m2 1%N = kr_send2 HO d1] /\
  [/\ kr_until3 S g leq H X c0 d0 com0 m1 m2 (without ids 0%N) (without ids 0%N) = Accept s0,
      kr_until3 S g leq H X c1 d1 com1 m1 m2 (without ids 1%N) (without ids 1%N) = Accept s1,
      kr_send3 S g X Hs s0 rnd 1%N = Accept m3 & kr_recv3 S g leq X Hs s1 0%N m3 = Accept x] /\
  [/\ forall r, hist r = if r == 1%N then m1 0%N else if r == 2%N then m2 0%N else m3,
      {in without ids 0%N, forall j, aget (echos 2%N) j = m_echo (m2 j)}, akeys (echos 2%N) = without ids 0%N &
      let judge e := kr_evidence S g leq H X Hs [::] ids [::] 0%N e (assemble (kr_required e) m3 hist echos) in
      confirmed_ev (judge (KrFacFailed 2%N)) /\ confirmed_ev (judge (KrShareMismatch 2%N (y 2%N 0%N)))].
Proof.
exists SA, F7, V7, g7, nat_eqType, HR, XR, HsR, idsA, r_start0.1, r_start0.2, r_com0, r_state0.
exists r_start1.1, r_start1.2, r_com1, r_state1, (randA 0), (randA 1), yR, tauR, splitR, (facA 437 713), r_all1, r_all2, r_sent3_0.
exists r_got0, (fun r => if r == 1%N then r_all1 0%N else if r == 2%N then r_all2 0%N else r_sent3_0), r_echos0.
split.
  split; [evaluates (Ok r_start0)|evaluates (Ok r_start1)|].
  refine (conj _ (conj _ (conj _ _))); [evaluates r_sent1_0|evaluates r_sent2_0| |].
    by evaluates (r_all1 1%N).
  by evaluates (r_all2 1%N).
split.
  split; [evaluates (@Accept (kr_error F7 nat_eqType) _ r_state0)|evaluates (@Accept (kr_error F7 nat_eqType) _ r_state1)| |].
    by evaluates (@Accept (kr_error F7 nat_eqType) _ r_sent3_0).
  by evaluates (@Accept (kr_error F7 nat_eqType) _ r_got0).
split; [by []| |by evaluates (without idsA 0%N)|].
  move=> j; rewrite mem_filter => /andP [j0 /predU1P [e|/predU1P [e|/predU1P [e|//]]]]; subst j; [by []| |].
    by evaluates (m_echo (r_all2 1%N)).
  by evaluates (m_echo (r_all2 2%N)).
refine (conj _ _); [evaluates true|evaluates true].
Qed.
