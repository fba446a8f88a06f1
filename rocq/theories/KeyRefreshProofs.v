(** * Facts about KeyRefresh. *)
From Coq Require Import ZArith Lia.
From Verif Require Import Base BaseFacts EncodingModel SignedModel PaillierModel ZkBase ZkModel.
From mathcomp Require Import all_ssreflect all_algebra.
From Verif Require Import AlgBase AlgFacts ShamirModel ShamirProofs ThresholdModel ThresholdProofs SchModel SchProofs
  ProtoBase ProtoSpec ProtoFacts KeyInitProofs AuxGenModel AuxGenSpec AuxGenProofs KeyRefreshModel KeyRefreshSpec.
Set Implicit Arguments.
Unset Strict Implicit.
Unset Printing Implicit Defensive.
Import GRing.Theory.
Local Open Scope ring_scope.

Section DMap.
Variables (I : eqType) (le : rel I) (A : Type).
Implicit Types (m : seq (I * A)) (ids : seq I).

Lemma uniq_acollect m : uniq (akeys (acollect m)).
Proof.
rewrite /acollect; have : uniq (akeys (@nil (I * A))) by [].
elim: m [::] => [|[k a] m IH] acc //= hu; apply: IH.
case: (boolP (k \in akeys acc)) => hk; last by rewrite akeys_aset // rcons_uniq hk.
suff -> : akeys (aset acc k a) = akeys acc by [].
elim: acc {hu} hk => [|[k' a'] acc IH] //=; rewrite inE.
by case: eqP => [->|_] //= h; rewrite IH.
Qed.
Lemma uniq_dmap m : uniq (akeys (dmap le m)).
Proof. by rewrite /dmap akeys_btree sort_uniq uniq_acollect. Qed.

Lemma dmap_keys m ids : total_order le -> sorted le ids -> perm_eq (akeys (dmap le m)) ids -> akeys (dmap le m) = ids.
Proof.
move=> ho hs; rewrite /dmap akeys_btree => hp.
by apply: (sort_keys ho hs); apply: perm_trans hp; rewrite perm_sym perm_sort.
Qed.

Lemma dmap_tab (f : I -> A) ids : total_order le -> sorted le ids -> uniq ids ->
  dmap le [seq (k, f k) | k <- ids] = [seq (k, f k) | k <- ids].
Proof.
move=> ho hs hu; rewrite /dmap acollect_uniq; last by rewrite -map_comp map_id_in.
exact: btree_tab.
Qed.
End DMap.

Section KeyRefresh.
Variables (S : sparams) (F : fieldType) (V : lmodType F) (g : V) (I : eqType) (le : rel I) (HO : eqType).
Notation item := (hitem HO I V).
Notation P := (sp_pail S).
Variables (H : dst -> seq item -> HO) (X : xof (seq item) V) (Hs : dst -> seq item -> F) (scheme : seq item).
Notation start := (kr_start S g H X scheme).
Notation recv2 := (kr_recv2 S g le H X).
Notation recv3 := (kr_recv3 S g le X Hs).
Notation until3 := (kr_until3 S g le H X).
Notation run := (kr_run S g le H X Hs).
Notation evidence_ok := (kr_evidence S g le H X Hs scheme).
Notation prm_ok := (@prm_verify S (curveV g) (seq item) X).
Notation mod_ok := (@mod_verify S (curveV g) (seq item) X).
Notation fac_ok := (@fac_verify S (curveV g) (seq item) X).

Lemma kr_hashE d sid j : kr_hash g H d sid j = kr_committed H sid j d.
Proof. by []. Qed.

Lemma kr_start_inv ids sr id r y tau split c d : start ids sr id r y tau split = Ok (c, d) -> uniq ids ->
  exists x : I -> F,
  [/\ id \in ids, kx_id c = id, kx_others c = without ids id, kx_ids c = ids & kx_sid c = sid_new H scheme sr ids] /\
  [/\ kx_xs c = [seq (j, x j) | j <- ids], kx_ys c = [seq (j, y j) | j <- ids], kx_taus c = [seq (j, tau j) | j <- ids] &
      \sum_(j <- ids) x j = 0] /\
  [/\ kp_xs d = [seq (j, x j *: g) | j <- ids], kp_ys d = [seq (j, y j *: g) | j <- ids] &
      kp_as d = [seq (j, tau j *: g) | j <- ids]] /\
  [/\ kp_rid d = ar_rid r, kp_rp d = kx_rp c, kp_pk d = sk_pk (kx_sk c) &
   exists sec, rp_secret_new P (ar_rp_p r) (ar_rp_q r) (ar_lambda r) = Ret sec /\
   rp_with_secret sec (ar_t r) = Ret (kx_rp c)].
Proof.
rewrite /kr_start; case: ifP => // /negbFE hid E hu; move: E.
case E1: (rp_secret_new _ _ _ _) => [sec|] //=; case E2: (rp_with_secret _ _) => [rp|] //=.
case E3: (prm_new _ _ _ _ _ _) => [psi|] //=.
have n0 : (0 < size ids)%N by case: (ids) hid.
have [parts [Ep [Sz Sx]]] := secret_splitE (0 : F) split n0; rewrite Ep /=.
case E4: (public_key_new _) => [pk|] //=.
case E5: (skey_new _ _ _) => [sk|] //= [<- <-] /=.
pose x j := nth 0 parts (index j ids).
have zE : zip ids parts = [seq (j, x j) | j <- ids].
  apply: (@eq_from_nth _ (id, 0)); first by rewrite size_zip size_map Sz minnn.
  move=> i; rewrite size_zip Sz minnn => hi.
  by rewrite nth_zip ?Sz // (nth_map id) // /x index_uniq.
exists x; split=> //; split; first split=> //.
  have -> : \sum_(j <- ids) x j = \sum_(z <- unzip2 (zip ids parts)) z by rewrite zE /unzip2 -map_comp big_map.
  by rewrite unzip2_zip ?Sz.
rewrite zE -!map_comp; split=> //; split=> //; last by exists sec.
move: E5 E4; rewrite /skey_new; case: (primes_new _ _) => [s|] //=.
case: (public_key_new _) => [N|] //= E5 [<-]; move: E5.
case: (oassert _) => //= _; case: (oassert _) => //= _.
case: (oexpect _) => //= ?; case: (oexpect _) => //= ?; case: (oexpect _) => //= ?; case: (oexpect _) => //= ?.
by case: (oassert _) => //= _; case: (oexpect _) => //= ? [<-].
Qed.

Lemma recv2_ok c cap_vs from m p : recv2 c cap_vs from m = Accept p <->
  exists d,
  [/\ reveals le m d, p = KrPayload (kp_xs d) (kp_as d) (kp_ys d) (kp_pk d) (kp_rp d) (kp_rid d),
      Z.odd (kp_pk d) /\ Z.odd (rp_n (kp_rp d)), aget cap_vs from = Some (kr_committed H (kx_sid c) from d) &
  [/\ perm_eq (akeys (kp_xs d)) (kx_ids c), perm_eq (akeys (kp_ys d)) (kx_ids c), perm_eq (akeys (kp_as d)) (kx_ids c),
      psum (avals (kp_xs d)) = 0 &
  [/\ big_enough S (kp_pk d), big_enough S (rp_n (kp_rp d)) & prm_ok (kp_psi d) (kp_rp d) [:: HOut (kx_sid c); HId from] = Ret true]]].
Proof.
split.
- rewrite /kr_recv2 /assert_none /deser /safe_get /require.
  case: m => -[dm|] [e|] [n|] //=; last by case: (as_k2eb le e).
  case Ee: (as_k2eb le e) => [[[rpw ys] rid]|] //=; case En: (as_k2nb le n) => [[[[[xs cas] pk] psi] u]|] //=.
  rewrite /public_key_new /rp_pre /rp_to_precomputed /public_key_new.
  case Ep: (Z.odd pk) => //=; case Eo: (Z.odd (rp_n rpw)) => //=.
  case Ev: (aget cap_vs from) => [v|] //=; case: eqP => //= Eh.
  case Ex: (perm_eq (akeys xs) _) => //=; case Ey: (perm_eq (akeys ys) _) => //=; case Ea: (perm_eq (akeys cas) _) => //=.
  case Eb: (big_enough S pk) => //=; case Er: (big_enough S (rp_n rpw)) => //=.
  case: eqP => //= Es; case Eq: (prm_verify _ _ _ _ _) => [[]|] //= [<-].
  exists (KrPublic xs ys cas pk (reduced rpw) psi rid u); split=> //; last by rewrite -Eh.
  by exists e, n, rpw.
- case=> -[xs ys cas pk rp psi rid u] /= [[e [n [rpw /= [-> he hn ->]]]]] -> [o1 o2] hv [kx ky ka hz [b1 b2 hp]].
  rewrite /kr_recv2 /assert_none /deser /safe_get /require /= he /= hn /= hv.
  rewrite /public_key_new /rp_pre /rp_to_precomputed /public_key_new o1 o2 /= kr_hashE eqxx /= kx ky ka b1 b2 /=.
  by rewrite hz eqxx /= hp.
Qed.

(** The data a message reveals. *)
Definition data (m : message (kr_wire V I HO)) : kr_public V I :=
  let eb := odflt (RP Z0 Z0 Z0, [::], [::]) (ssrfun.Option.bind (@as_k2eb F V I le HO) (m_echo m)) in
  let nb := odflt ([::], [::], Z0, PrmProof [::] [::] [::], [::]) (ssrfun.Option.bind (@as_k2nb F V I le HO) (m_normal m)) in
  KrPublic nb.1.1.1.1 eb.1.2 nb.1.1.1.2 nb.1.1.2 (reduced eb.1.1) nb.1.2 eb.2 nb.2.
Lemma dataE m d : reveals le m d -> d = data m.
Proof. by case: d => xs ys cas pk rp psi rid u [e [n [rpw /= [-> he hn ->]]]]; rewrite /data /= he hn. Qed.
Lemma data_uniq (m : message (kr_wire V I HO)) d : reveals le m d -> [/\ uniq (akeys (kp_xs d)), uniq (akeys (kp_ys d)) & uniq (akeys (kp_as d))].
Proof.
case: d => xs ys cas pk rp psi rid u [e [n [rpw /= [_ he hn _]]]].
case: e he => //= ? ? ? [_ <- _]; case: n hn => //= ? ? ? ? ? [<- <- _ _ _].
by rewrite !uniq_dmap.
Qed.
Lemma data_keys (m : message (kr_wire V I HO)) d ids : total_order le -> sorted le ids -> reveals le m d ->
  perm_eq (akeys (kp_xs d)) ids -> perm_eq (akeys (kp_ys d)) ids -> perm_eq (akeys (kp_as d)) ids ->
  [/\ akeys (kp_xs d) = ids, akeys (kp_ys d) = ids & akeys (kp_as d) = ids].
Proof.
move=> ho hs; case: d => xs ys cas pk rp psi rid u [e [n [rpw /= [_ he hn _]]]].
case: e he => //= ? ? ? [_ <- _]; case: n hn => //= ? ? ? ? ? [<- <- _ _ _].
by move=> *; split; apply: dmap_keys.
Qed.

Definition payload (d : kr_public V I) : kr_payload V I :=
  KrPayload (kp_xs d) (kp_as d) (kp_ys d) (kp_pk d) (kp_rp d) (kp_rid d).

Lemma until3_ok c d com m1 m2 o1 o2 s : until3 c d com m1 m2 o1 o2 = Accept s ->
  [/\ k3_ctx s = c,
      {in o2, forall j, [/\ reveals le (m2 j) (data (m2 j)),
         m1 j = Msg None (Some (K1EB (kr_committed H (kx_sid c) j (data (m2 j))))) None,
         Z.odd (kp_pk (data (m2 j))) /\ Z.odd (rp_n (kp_rp (data (m2 j)))) &
  [/\ perm_eq (akeys (kp_xs (data (m2 j)))) (kx_ids c), perm_eq (akeys (kp_ys (data (m2 j)))) (kx_ids c),
      perm_eq (akeys (kp_as (data (m2 j)))) (kx_ids c), psum (avals (kp_xs (data (m2 j)))) = 0 &
  [/\ big_enough S (kp_pk (data (m2 j))), big_enough S (rp_n (kp_rp (data (m2 j)))) &
      prm_ok (kp_psi (data (m2 j))) (kp_rp (data (m2 j))) [:: HOut (kx_sid c); HId j] = Ret true]]]},
      k3_payloads s = binsert le [seq (j, payload (data (m2 j))) | j <- sort le o2] (kx_id c) (payload d) &
      combined (kp_rid d :: [seq kp_rid (data (m2 j)) | j <- o2]) (k3_rid s)].
Proof.
rewrite /kr_until3 => U; have [cap_vs R1 R2] := vbind_inv U; have [v1 v1' v2] := round_inv R1.
have [pl Q] := vbind_inv R2; move=> {U R1 R2}.
rewrite /kr_finalize2; case Ex: xor_all => [rho|] //=; case Em: (mod_new _ _ _ _ _) => [psi'|] //=.
case Eh: (mapR _ _) => [hats| |] //= [<-].
have K j t : j \in o2 -> recv2 c cap_vs j (m2 j) = Accept t ->
    [/\ reveals le (m2 j) (data (m2 j)),
    m1 j = Msg None (Some (K1EB (kr_committed H (kx_sid c) j (data (m2 j))))) None,
    Z.odd (kp_pk (data (m2 j))) /\ Z.odd (rp_n (kp_rp (data (m2 j)))),
  [/\ perm_eq (akeys (kp_xs (data (m2 j)))) (kx_ids c), perm_eq (akeys (kp_ys (data (m2 j)))) (kx_ids c),
      perm_eq (akeys (kp_as (data (m2 j)))) (kx_ids c), psum (avals (kp_xs (data (m2 j)))) = 0 &
  [/\ big_enough S (kp_pk (data (m2 j))), big_enough S (rp_n (kp_rp (data (m2 j)))) &
      prm_ok (kp_psi (data (m2 j))) (kp_rp (data (m2 j))) [:: HOut (kx_sid c); HId j] = Ret true]] &
    t = payload (data (m2 j))].
  move=> hj /recv2_ok [d' [hr -> od hv hw]].
  rewrite -(dataE hr); split=> //.
  have jo1 : j \in o1 by rewrite -v1'; exact: aget_in hv.
  have [t1] := v2 _ jo1; rewrite hv => R1 [ev]; subst t1.
  move: R1; rewrite /kr_recv1 /assert_none /deser.
  by case: (m1 j) => -[d''|] [e|] [n|] //=; case: e => //= h [hv']; rewrite hv'.
have tabE : pl = [seq (j, payload (data (m2 j))) | j <- sort le o2].
  by apply: (round_tab Q) => j t hj /(K _ _ hj) [].
split=> //=.
- by move=> j hj; have [_ _ q2] := round_inv Q; have [t ht _] := q2 _ hj; have [] := K _ _ hj ht.
- by rewrite tabE.
- move/xor_allP: Ex; apply: combined_perm; rewrite perm_cons tabE -map_comp /=.
  by apply: perm_map; rewrite perm_sort.
Qed.

Lemma check_sch_inv pl aux l : uniq (akeys l) -> kr_check_sch g X pl aux l = Accept tt ->
  {in akeys l, forall k, exists pf a x,
    [/\ aget l k = Some pf, aget (kl_as pl) k = Some a, aget (kl_xs pl) k = Some x & sch_verify g X pf a x aux]}.
Proof.
elim: l => [|[k pf] l IH] //= /andP [hk hu]; rewrite /safe_get /require.
case Ea: (aget (kl_as pl) k) => [a|] //=; case Ex: (aget (kl_xs pl) k) => [x|] //=.
case Ev: (sch_verify _ _ _ _ _ _) => //= hl j; rewrite inE; case: eqP => [->|_] /= hj; first by exists pf, a, x.
exact: IH.
Qed.

Lemma recv3_inv s from m x : recv3 s from m = Accept x ->
  exists fac cc hats psi' pl cap_y y cap_x,
  [/\ m = Msg (Some (K3DM fac cc)) (Some (K3EB hats)) (Some (K3NB psi')), aget (k3_payloads s) from = Some pl,
      aget (kl_ys pl) (kx_id (k3_ctx s)) = Some cap_y, aget (kx_ys (k3_ctx s)) from = Some y &
      aget (kl_xs pl) (kx_id (k3_ctx s)) = Some cap_x] /\
  let aux := kr_aux V (kx_sid (k3_ctx s)) from (k3_rid s) in
  [/\ x = cc - kr_mask Hs (kx_sid (k3_ctx s)) (k3_rid s) from (y *: cap_y) /\ x *: g = cap_x,
      mod_ok psi' (kl_pk pl) aux = Ret true, fac_ok fac (kl_pk pl) (kx_rp (k3_ctx s)) aux = Ret true,
      perm_eq (akeys (dmap le hats)) (kx_ids (k3_ctx s)) &
      kr_check_sch g X pl aux (dmap le hats) = Accept tt].
Proof.
rewrite /kr_recv3 /deser /safe_get /require.
case: m => [[dm|] [e|] [n|]] //=; try (by case: e => //=); try (by case: n => //=; case: (as_k3eb le e)).
- case: e => //= hats; case: n => //= psi'; case: dm => //= fac cc.
  case Ep: (aget (k3_payloads s) from) => [pl|] //=; case Ey: (aget (kl_ys pl) _) => [cap_y|] //=.
  case Ev: (aget (kx_ys _) from) => [y|] //=; case Ex: (aget (kl_xs pl) _) => [cap_x|] //=.
  case: eqP => //= Eg; case Em: (mod_verify _ _ _ _ _) => [[]|] //=; case Ef: (fac_verify _ _ _ _ _ _) => [[]|] //=.
  case Eq: (perm_eq _ _) => //=; case Ec: (kr_check_sch _ _ _ _ _) => [[]|||] //= [<-].
  by exists fac, cc, hats, psi', pl, cap_y, y, cap_x.
Qed.

Lemma psum_avals (m : seq (I * V)) : psum (avals m) = \sum_(p <- m) p.2.
Proof. by rewrite psumE /avals big_map. Qed.

Lemma finalize3_ok (s : kr_round3 V I HO) xs kc a ids : kr_finalize3 s xs = Ok (kc, a) -> kx_ids (k3_ctx s) = ids ->
  exists my_x, [/\ aget (kx_xs (k3_ctx s)) (kx_id (k3_ctx s)) = Some my_x,
    kc_owner kc = kx_id (k3_ctx s), kc_secret kc = \sum_(p <- xs) p.2 + my_x,
    kc_public kc = [seq (k, \sum_(p <- k3_payloads s) odflt 0 (aget (kl_xs p.2) k)) | k <- ids] &
    a = AuxInfo (kx_id (k3_ctx s)) (kx_sk (k3_ctx s)) [seq (p.1, (kl_pk p.2, kl_rp p.2)) | p <- k3_payloads s]].
Proof.
rewrite /kr_finalize3 /ok_or; case: (aget (kx_xs _) _) => [my_x|] //= E <-; exists my_x.
move: E; case Em: (mapR _ _) => [pub| |] //= [<- <-]; split=> //=.
  have fE (l : seq (I * F)) z : foldl (fun a b => a + b) z (avals l) = z + \sum_(p <- l) p.2.
    by elim: l z => [|[k b] l IH] z /=; rewrite ?big_nil ?addr0 // big_cons IH addrA.
  by rewrite fE add0r.
have hin := mapR_inv Em.
have E : mapR (fun k => parts <?- mapR (fun p : I * kr_payload V I => ok_or (aget (kl_xs p.2) k)) (k3_payloads s);; Ok (k, psum parts))
    (kx_ids (k3_ctx s)) = Ok [seq (k, \sum_(p <- k3_payloads s) odflt 0 (aget (kl_xs p.2) k)) | k <- kx_ids (k3_ctx s)].
  apply: mapR_ok_in => k hk; have [b] := hin _ hk.
  case Ep: (mapR _ _) => [parts| |] //= _; congr (Ok (_, _)); rewrite psumE.
  move: Ep; elim: (k3_payloads s) parts => [|p l IH] parts /=; first by case=> <-; rewrite !big_nil.
  rewrite /ok_or; case Ev: (aget _ _) => [v|] //=; case: (mapR _ _) IH => [ps| |] //= IH [<-].
  by rewrite !big_cons (IH ps erefl) Ev.
by move: Em; rewrite E => -[].
Qed.

Definition change (d : kr_public V I) (k : I) : V := odflt 0 (aget (kp_xs d) k).

Lemma kr_finished ids sr id r y tau split c d com m1 m2 m3 o1 o2 o3 kc a :
  Z.le 3 (modulus_bits P) -> total_order le -> sorted le ids -> uniq ids ->
  start ids sr id r y tau split = Ok (c, d) ->
  perm_eq o1 (without ids id) -> perm_eq o2 (without ids id) -> perm_eq o3 (without ids id) ->
  run c d com m1 m2 m3 o1 o2 o3 = Accept (kc, a) ->
  let sid := sid_new H scheme sr ids in
  [/\ kc_owner kc = id, akeys (kc_public kc) = ids, aget (kc_public kc) id = Some (kc_secret kc *: g) &
      \sum_(p <- kc_public kc) p.2 = 0] /\
  [/\ ai_owner a = id, ai_sk a = kx_sk c, akeys (ai_public a) = ids &
      aget (ai_public a) id = Some (sk_pk (kx_sk c), kx_rp c)] /\
  exists D fac cc hats psi' rid_c,
    combined (ar_rid r :: [seq kp_rid (D j) | j <- without ids id]) rid_c /\
    {in ids, forall k, aget (kc_public kc) k = Some (change d k + \sum_(j <- without ids id) change (D j) k)} /\
    {in without ids id, forall j,
      [/\ m1 j = Msg None (Some (K1EB (kr_committed H sid j (D j)))) None, reveals le (m2 j) (D j),
          m3 j = Msg (Some (K3DM (fac j) (cc j))) (Some (K3EB (hats j))) (Some (K3NB (psi' j))),
          aget (ai_public a) j = Some (kp_pk (D j), kp_rp (D j)) & proper S g X ids sid j (D j)] /\
      let aux := [:: HOut sid; HId j; HBits rid_c] in
      [/\ exists cap_y, aget (kp_ys (D j)) id = Some cap_y /\
            (cc j - Hs DRefresh3 [:: HOut sid; HBits rid_c; HId j; HPt (y j *: cap_y)]) *: g = change (D j) id,
          mod_ok (psi' j) (kp_pk (D j)) aux = Ret true,
          fac_ok (fac j) (kp_pk (D j)) (kx_rp c) aux = Ret true &
          {in ids, forall k, exists pf cap_a,
            [/\ aget (dmap le (hats j)) k = Some pf, aget (kp_as (D j)) k = Some cap_a &
                sch_verify g X pf cap_a (change (D j) k) aux]}]}.
Proof.
move=> hmb ho hs hu hst p1 p2 p3; have hmb' : Z.lt 0 (Z.sub (modulus_bits P) 2) by move: hmb; clear; lia.
have [x [[hid Eid Eot Eids Esid] [[Exs Eys Etaus Sx] [[Dxs Dys Das] [Erid Erp Epk _]]]]] := kr_start_inv hst hu.
rewrite /kr_run => U; pose sid := sid_new H scheme sr ids; have [s S1 S2] := vbind_inv U.
have [xs Q] := vbind_inv S2; move=> {U S2}; case Ef: (kr_finalize3 s xs) => [[kc' a']| |] //= [ek ea]; subst kc' a'.
have [Ec K Epl Er] := until3_ok S1.
have ks : sort le o2 = without ids id by apply: (sort_keys ho) => //; apply: sorted_without.
pose PL j := if j == id then payload d else payload (data (m2 j)).
have {}Epl : k3_payloads s = [seq (j, PL j) | j <- ids].
  have -> : k3_payloads s = binsert le [seq (j, PL j) | j <- without ids id] id (PL id).
    rewrite Epl ks Eid /PL eqxx; congr (binsert _ _ _ _); apply/eq_in_map => j.
    by rewrite mem_filter => /andP [/negbTE -> _].
  exact: (binsert_tab ho).
have Eid' : kx_id (k3_ctx s) = id by rewrite Ec.
have [|my_x [Emy Eow Esec Epub Ea]] := finalize3_ok (ids := ids) Ef; first by rewrite Ec.
have Emx : my_x = x id by move: Emy; rewrite Ec Eid Exs aget_tab hid => -[].
have PLid : PL id = payload d by rewrite /PL eqxx.
have PLo j : j \in without ids id -> PL j = payload (data (m2 j)) by rewrite /PL mem_filter => /andP [/negbTE ->].
have KK j : j \in without ids id -> _ := fun hj => K j (etrans (perm_mem p2 j) hj).
(* round 3 *)
have Q3 j : j \in without ids id -> exists2 z, recv3 s j (m3 j) = Accept z & aget xs j = Some z.
  by move=> hj; have [_ _ h] := round_inv Q; apply: h; rewrite (perm_mem p3).
have T j : j \in without ids id -> exists fac cc hats psi' cap_y,
  [/\ m3 j = Msg (Some (K3DM fac cc)) (Some (K3EB hats)) (Some (K3NB psi')),
      aget (kp_ys (data (m2 j))) id = Some cap_y,
      aget xs j = Some (cc - kr_mask Hs sid (k3_rid s) j (y j *: cap_y)) &
      let aux := [:: HOut sid; HId j; HBits (k3_rid s)] in
      [/\ (cc - kr_mask Hs sid (k3_rid s) j (y j *: cap_y)) *: g = change (data (m2 j)) id,
          mod_ok psi' (kp_pk (data (m2 j))) aux = Ret true,
          fac_ok fac (kp_pk (data (m2 j))) (kx_rp c) aux = Ret true &
          {in ids, forall k, exists pf cap_a,
            [/\ aget (dmap le hats) k = Some pf, aget (kp_as (data (m2 j))) k = Some cap_a &
                sch_verify g X pf cap_a (change (data (m2 j)) k) aux]}]].
  move=> hj; have [z hz zE] := Q3 _ hj.
  have [fac [cc [hats [psi' [pl [cap_y [yy [cap_x]]]]]]]] := recv3_inv hz.
  have jin : j \in ids by move: hj; rewrite mem_filter => /andP [].
  rewrite Ec Eid Epl aget_tab jin PLo // Eys aget_tab jin => -[[hm [<-] hy [<-] hx] [[ez hg] h1 h2 h3 h4]].
  exists fac, cc, hats, psi', cap_y; split=> //; first by rewrite zE ez /sid -Esid.
  rewrite /= in hx; rewrite /sid -Esid /change hx -ez; split=> //.
  have h3' : perm_eq (akeys (dmap le hats)) ids by rewrite -Eids.
  move=> k hk; have hk' : k \in akeys (dmap le hats) by rewrite (perm_mem h3').
  have [pf [ca [cx [e1 e2 e3 e4]]]] := check_sch_inv (uniq_dmap _ _) h4 hk'.
  by exists pf, ca; rewrite /= in e3; rewrite e3.
have kxs : akeys xs = without ids id.
  by have [-> _ _] := round_inv Q; apply: (sort_keys ho) => //; apply: sorted_without.
pose z j := odflt 0 (aget xs j).
have xsE : xs = [seq (j, z j) | j <- without ids id].
  rewrite {1}(@atab_eq _ _ xs 0) kxs //; exact: filter_uniq.
have zg j : j \in without ids id -> z j *: g = change (data (m2 j)) id.
  by move=> /T [fac [cc [hats [psi' [cap_y [_ _ hz [<- _ _ _]]]]]]]; rewrite /z hz.
have chd k : k \in ids -> change d k = x k *: g by move=> hk; rewrite /change Dxs aget_tab hk.
have pubE k : k \in ids ->
    \sum_(p <- k3_payloads s) odflt 0 (aget (kl_xs p.2) k) = change d k + \sum_(j <- without ids id) change (data (m2 j)) k.
  move=> hk; rewrite Epl big_map /= (perm_big _ (perm_without hu hid)) big_cons PLid; congr (_ + _).
  by apply: eq_big_seq => j hj; rewrite PLo.
split.
  split.
  - by rewrite Eow.
  - by rewrite Epub akeys_tab.
  - rewrite Epub aget_tab hid pubE // Esec Emx; congr Some.
    rewrite addrC scalerDl chd //; congr (_ + _).
    by rewrite xsE big_map /= scaler_suml; apply: eq_big_seq => j hj; rewrite zg.
  - rewrite Epub big_map /= exchange_big /= Epl big_map big1_seq // => j /= hj.
    have [->|ne] := eqVneq j id.
      rewrite PLid /= Dxs -[RHS](scale0r g) -Sx scaler_suml.
      by apply: eq_big_seq => k hk; rewrite aget_tab hk.
    have hj' : j \in without ids id by rewrite mem_filter ne.
    have [hr _ _ [hx hy ha hz _]] := KK _ hj'; rewrite Eids in hx hy ha.
    rewrite PLo //= -[RHS]hz psum_avals.
    have [kxj _ _] := data_keys ho hs hr hx hy ha.
    have [ux _ _] := data_uniq hr.
    rewrite [in RHS](@atab_eq _ _ (kp_xs (data (m2 j))) 0) // kxj big_map /=; apply: eq_big_seq => k hk.
    by have [v ->] := @in_aget _ _ (kp_xs (data (m2 j))) k (etrans (congr1 (fun l => k \in l) kxj) hk).
split.
  rewrite Ea; split=> //=; rewrite ?Ec //.
  - by rewrite (akeys_map_val (fun p => (kl_pk p, kl_rp p))) Epl akeys_tab.
  - by rewrite (aget_map_val (fun p => (kl_pk p, kl_rp p))) Epl aget_tab hid PLid /= Epk Erp.
pose ms0 := mkS Z0 Z0.
pose fac j := if m_direct (m3 j) is Some (K3DM p _) then p else FacProof ms0 Z0 Z0 Z0 Z0 Z0 ms0 ms0 ms0 ms0 ms0.
pose cc j := if m_direct (m3 j) is Some (K3DM _ p) then p else 0.
pose hats j := if m_echo (m3 j) is Some (K3EB p) then p else [::].
pose psi' j := if m_normal (m3 j) is Some (K3NB p) then p else ModProof Z0 [::] [::].
exists (fun j => data (m2 j)), fac, cc, hats, psi', (k3_rid s); split.
  by rewrite -Erid; apply: combined_perm Er; rewrite perm_cons; apply: perm_map.
split; first by move=> k hk; rewrite Epub aget_tab hk pubE.
move=> j hj; have jin : j \in ids by move: hj; rewrite mem_filter => /andP [].
have [hr h1 ho' [hx hy ha hz [b1 b2 hp]]] := KK _ hj; rewrite Eids in hx hy ha.
have [f' [c' [h' [p' [cap_y [hm hcy _ [hg hmod hfac hsch]]]]]]] := T _ hj.
rewrite /fac /cc /hats /psi' hm /=; split.
  split=> //; first by rewrite h1 Esid.
  - by rewrite Ea /= (aget_map_val (fun p => (kl_pk p, kl_rp p))) Epl aget_tab jin PLo.
  - split=> //; first by rewrite -psum_avals.
    split; [by apply/bits_at_least; [exact: hmb'|apply/negbTE]|by apply/bits_at_least; [exact: hmb'|apply/negbTE]|by rewrite -Esid].
by split=> //; exists cap_y.
Qed.

(** ** Evidence *)

Lemma first_cons (E : Type) (ev : E -> evid unit) e es :
  first_confirmed ev (e :: es) = if confirmed_ev (ev e) then Some e else first_confirmed ev es.
Proof. by rewrite /first_confirmed /=; case: (confirmed_ev (ev e)). Qed.

Lemma kr_round2_evidence ids sr id r y tau split c d cap_vs guilty v e n rpw ys rid xs cas pk psi u hist
    (echos : nat -> seq (I * kr_wire V I HO)) :
  start ids sr id r y tau split = Ok (c, d) -> uniq ids ->
  @kr_recv1 F V I HO (hist 1%N) = Accept v -> aget cap_vs guilty = Some v ->
  as_k2eb le e = Some (rpw, ys, rid) -> as_k2nb le n = Some (xs, cas, pk, psi, u) ->
  let m := Msg None (Some e) (Some n) in
  let judge e := evidence_ok ids sr guilty e (assemble (kr_required e) m hist echos) in
  recv2 c cap_vs guilty m = RPanic \/
  recv2 c cap_vs guilty m =
    if first_confirmed judge (kr_checks2 F I) is Some e then Reject (Proto e)
    else Accept (KrPayload xs cas ys pk (reduced rpw) rid).
Proof.
move=> hst hu R1 Ev Ee En m judge.
have [_ [[_ _ _ Eids Esid] _]] := kr_start_inv hst hu.
have {R1} Eh : ssrfun.Option.bind (@as_k1eb F V I HO) (m_echo (hist 1%N)) = Some v.
  move: R1; rewrite /kr_recv1 /assert_none /deser.
  by case: (hist 1%N) => -[d'|] [e'|] [w|] //=; case: (as_k1eb e') => // ? [<-].
rewrite /kr_recv2 /safe_get /require /deser /assert_none Ev /= Ee /= En /=.
rewrite /kr_checks2 !first_cons /judge /kr_evidence /= /ev_deser /= Eh /= Ee En /=.
case Ep: (public_key_new pk) => [pk'|] /=; last by left.
have pkE : pk' = pk by move: Ep; rewrite /public_key_new; case: ifP => // _ [].
case Er: (rp_pre rpw) => [rp|] /=; last by left.
have rpE : rp = reduced rpw.
  by move: Er; rewrite /rp_pre /rp_to_precomputed /public_key_new; case: ifP => // _ /= [].
rewrite Esid Eids /big_enough -!pkE -rpE /verify_that.
have -> : rp_n rpw = rp_n rp by rewrite rpE.
case: eqP => //= _; last by right.
case: (perm_eq (akeys xs) ids) => /=; last by right.
case: (perm_eq (akeys ys) ids) => /=; last by right.
case: (perm_eq (akeys cas) ids) => /=; last by right.
case: (bits pk' <? _)%Z => /=; first by right.
case: (bits (rp_n rp) <? _)%Z => /=; first by right.
case: eqP => //= _; last by right.
case: (prm_verify _ _ _ _ _) => [[]|] /=; [right|right|left]; by rewrite // pkE.
Qed.

Lemma check_sch_first pl aux l (pf : I -> sch_proof F) (a x : I -> V) :
  uniq (akeys l) -> {in akeys l, forall k, [/\ aget l k = Some (pf k), aget (kl_as pl) k = Some (a k) & aget (kl_xs pl) k = Some (x k)]} ->
  kr_check_sch g X pl aux l =
    if ohead [seq k <- akeys l | ~~ sch_verify g X (pf k) (a k) (x k) aux] is Some k then Reject (Proto (KrSchFailed k)) else Accept tt.
Proof.
elim: l => [|[k p] l IH] //= /andP [hk hu] h.
have [] := h k (mem_head _ _); rewrite /= eqxx /safe_get => -[->] -> -> /=; rewrite /require.
case: (sch_verify _ _ _ _ _ _) => //=; apply: IH => // j hj.
have := h j; rewrite inE hj orbT => /(_ isT); rewrite /=; case: eqP => // E; by rewrite -E hj in hk.
Qed.

Lemma kr_round3_evidence ids sr id r y tau split c d com m1 m2 o1 o2 s guilty fac cc hats psi' hist echos draws :
  total_order le -> sorted le ids -> uniq ids ->
  start ids sr id r y tau split = Ok (c, d) ->
  random_quadratic_residue (ar_rp_p r * ar_rp_q r) draws = Some (ar_t r) -> Z.lt 0 (Z.mul (ar_rp_p r) (ar_rp_q r)) ->
  perm_eq o1 (without ids id) -> perm_eq o2 (without ids id) ->
  until3 c d com m1 m2 o1 o2 = Accept s ->
  guilty \in without ids id -> hist 2%N = m2 guilty ->
  perm_eq (akeys (echos 2%N)) (without ids guilty) ->
  {in without ids guilty, forall j, aget (echos 2%N) j = m_echo (if j == id then kr_send2 HO d else m2 j)} ->
  let m := Msg (Some (K3DM fac cc)) (Some (K3EB hats)) (Some (K3NB psi')) in
  let judge e := evidence_ok ids sr guilty e (assemble (kr_required e) m hist echos) in
  recv3 s guilty m = RPanic \/
  if first_confirmed judge (kr_checks3 id (y guilty) ids) is Some e then recv3 s guilty m = Reject (Proto e)
  else exists x, recv3 s guilty m = Accept x.
Proof.
move=> ho hs hu hst hqr hN p1 p2 hs3 hg hh hk he m judge.
have hN' : Z.mul (ar_rp_p r) (ar_rp_q r) <> Z0 by move: hN; clear; lia.
have [x [[hid Eid Eot Eids Esid] [[Exs Eys Etaus Sx] [[Dxs Dys Das] [Erid Erp Epk [sec [Esec Ers]]]]]]] := kr_start_inv hst hu.
have [Ec K Epl Er] := until3_ok hs3.
have gid : guilty \in ids by move: hg; rewrite mem_filter => /andP [].
have gne : guilty != id by move: hg; rewrite mem_filter => /andP [].
have [hr _ [opk orp] [hx hy ha _ _]] := K _ (etrans (perm_mem p2 guilty) hg).
rewrite Eids in hx hy ha.
have [kX kY kA] := data_keys ho hs hr hx hy ha.
pose D j := if j == id then d else data (m2 j).
have ish j : j \in without ids guilty -> exists w rpw, aget (echos 2%N) j = Some w /\
    as_k2eb le w = Some (rpw, kp_ys (D j), kp_rid (D j)) /\ (kp_rp (D j) = reduced rpw).
  move=> hj; rewrite he // /D; case: eqP => [_|/eqP ne].
    exists (K2EB (kp_rp d) (kp_ys d) (kp_rid d)), (kp_rp d); split=> //=; rewrite Dys dmap_tab //; split=> //.
    rewrite Erp.
    move: Ers Esec; rewrite /rp_secret_new /rp_with_secret /primes_new.
    case: (csub _ _) => //= ?; case: (csub _ _) => //= ?; case: (oassert _) => //= _.
    case: (oexpect _) => //= l E1 [E2]; subst sec; move: E1 => /=.
    case En: (public_key_new _) => [N|] //=.
    have NE : N = Z.mul (ar_rp_p r) (ar_rp_q r) by move: En; rewrite /public_key_new; case: ifP => // _ [].
    rewrite /pow_unsigned pow_bounded_eq => -[<-]; rewrite /reduced /= NE Z.mod_mod //.
    move: hqr; rewrite /random_quadratic_residue; case: (random_invertible_residue _ _) => //= z [<-].
    by rewrite Z.mod_mod.
  have hj2 : j \in o2 by rewrite (perm_mem p2) mem_filter ne; move: hj; rewrite mem_filter => /andP [].
  have [[e [n [rpw [-> h1 h2 h3]]]] _ _ _] := K _ hj2.
  by exists e, rpw.
have ue : uniq (akeys (echos 2%N)) by rewrite (perm_uniq hk) filter_uniq.
have [|ebs Eebs] := @ev_all_ok _ _ _ (@as_k2eb F V I le HO) (echos 2%N) _ ue.
  by move=> j; rewrite (perm_mem hk) => hj; have [w [rpw [-> [E _]]]] := ish _ hj; rewrite /= E.
have [ek eg] := ev_all_inv Eebs.
have xorE : xor_all (kp_rid (data (m2 guilty))) [seq p.2.2 | p <- ebs] = Ret (k3_rid s).
  apply/xor_allP; apply: combined_perm Er.
  have -> : [seq p.2.2 | p <- ebs] = [seq kp_rid (D j) | j <- akeys (echos 2%N)].
    rewrite {1}(@atab_eq _ _ ebs (RP Z0 Z0 Z0, [::], [::])) ?ek // -map_comp; apply/eq_in_map => j; rewrite (perm_mem hk) => hj /=.
    by have [w [rpw [e1 [e2 _]]]] := ish _ hj; rewrite eg e1 /= e2.
  have -> : kp_rid d = kp_rid (D id) by rewrite /D eqxx.
  have -> : kp_rid (data (m2 guilty)) = kp_rid (D guilty) by rewrite /D (negbTE gne).
  have -> : [seq kp_rid (data (m2 j)) | j <- o2] = [seq kp_rid (D j) | j <- o2].
    by apply/eq_in_map => j; rewrite (perm_mem p2) mem_filter => /andP [/negbTE ne _]; rewrite /D ne.
  apply: (@perm_trans _ [seq kp_rid (D j) | j <- ids]).
    rewrite -[kp_rid (D id) :: _]/([seq kp_rid (D j) | j <- id :: o2]) perm_sym; apply: perm_map.
    by apply: perm_trans (perm_without hu hid) _; rewrite perm_cons perm_sym.
  rewrite -[kp_rid (D guilty) :: _]/([seq kp_rid (D j) | j <- guilty :: akeys (echos 2%N)]); apply: perm_map.
  by apply: perm_trans (perm_without hu gid) _; rewrite perm_cons perm_sym.
have ks : guilty \in sort le o2 by rewrite mem_sort (perm_mem p2).
have G : aget (k3_payloads s) guilty = Some (payload (data (m2 guilty))).
  by rewrite Epl /binsert aget_btree aget_aset Eid (negbTE gne) aget_tab ks.
have ign : id \in without ids guilty by rewrite mem_filter eq_sym gne.
have [w [rpw [hw [hw2 hw3]]]] := ish _ ign; rewrite /D eqxx in hw2 hw3.
have rpE : rp_pre rpw = Ret (kx_rp c).
  rewrite -Erp hw3 /rp_pre /rp_to_precomputed /public_key_new.
  have -> : rp_n rpw = rp_n (kx_rp c) by rewrite -Erp hw3.
  suff -> : Z.odd (rp_n (kx_rp c)) by rewrite /= /reduced -Erp hw3.
  move: Ers Esec; rewrite /rp_secret_new /rp_with_secret /primes_new.
  case: (csub _ _) => //= ?; case: (csub _ _) => //= ?; case: (oassert _) => //= _.
  case: (oexpect _) => //= l E1 [E2]; subst sec; move: E1 => /=.
  rewrite /public_key_new; case: ifP => // hodd.
  by rewrite /pow_unsigned => -[<-].
have [e [n [rpw' [Em2 He Hn _]]]] := hr.
have agetk (A : Type) (t : seq (I * A)) k : akeys t = ids -> k \in ids -> exists v, aget t k = Some v.
  by move=> hkk hin; apply: in_aget; rewrite hkk.
have [cap_y Ey] := agetk _ _ _ kY hid.
have [cap_x Ex] := agetk _ _ _ kX hid.
rewrite /kr_recv3 /safe_get /require /deser /assert_none /= G /= Ec Eid Ey /= Eys aget_tab gid /= Ex /=.
have Ep2 : public_key_new (kp_pk (data (m2 guilty))) = Ret (kp_pk (data (m2 guilty))) by rewrite /public_key_new opk.
have J1 : judge (KrShareMismatch id (y guilty)) =
    verify_that ((cc - kr_mask Hs (kx_sid c) (k3_rid s) guilty (y guilty *: cap_y)) *: g != cap_x).
  rewrite /judge /kr_evidence /= /try_get hw /= /ev_deser /= hw2 /= Dys aget_tab gid /= eqxx /=.
  by rewrite /kr_reconstruct_rid /= /ev_deser /= hh Em2 /= Eebs /= He /= xorE /= Ey /= Hn /= Ex /= Esid.
have J2 : judge KrModFailed = (ok <%- ev_o (mod_ok psi' (kp_pk (data (m2 guilty))) (kr_aux V (kx_sid c) guilty (k3_rid s))) ;; verify_that (~~ ok)).
  rewrite /judge /kr_evidence /= /kr_reconstruct_rid /= /ev_deser /= hh Em2 /= Eebs /= He /= xorE /= Hn /=.
  by rewrite Ep2 /= Esid.
have J3 : judge (KrFacFailed id) = (ok <%- ev_o (fac_ok fac (kp_pk (data (m2 guilty))) (kx_rp c) (kr_aux V (kx_sid c) guilty (k3_rid s))) ;; verify_that (~~ ok)).
  rewrite /judge /kr_evidence /= /kr_reconstruct_rid /= /ev_deser /= hh Em2 /= Eebs /= He /= xorE /=.
  by rewrite /try_get hw /= hw2 /= Hn /= Ep2 /= rpE /= Esid.
have J4 : judge KrWrongIdsHatPsi = verify_that (~~ perm_eq (akeys (dmap le hats)) ids).
  by rewrite /judge /kr_evidence /= /ev_deser.
rewrite /kr_checks3 /= !first_cons J1 J2 J3 J4 /verify_that.
case: eqP => /= _; last by right.
case: (mod_verify _ _ _ _ _) => [[]|] /=; [|by right|by left].
case: (fac_verify _ _ _ _ _ _) => [[]|] /=; [|by right|by left].
rewrite Eids; case Eq: (perm_eq (akeys (dmap le hats)) ids) => /=; last by right.
right.
have kH := dmap_keys ho hs Eq.
have Sch k : k \in ids -> exists pf ca cx, [/\ aget (dmap le hats) k = Some pf, aget (kp_as (data (m2 guilty))) k = Some ca &
   aget (kp_xs (data (m2 guilty))) k = Some cx].
  move=> hin; have [pf h1] := agetk _ _ _ kH hin; have [ca h2] := agetk _ _ _ kA hin; have [cx h3] := agetk _ _ _ kX hin.
  by exists pf, ca, cx.
pose pf k := odflt (SchProof 0 0) (aget (dmap le hats) k).
pose ca k := odflt 0 (aget (kp_as (data (m2 guilty))) k).
pose cx k := odflt 0 (aget (kp_xs (data (m2 guilty))) k).
have SchE k : k \in ids -> [/\ aget (dmap le hats) k = Some (pf k), aget (kp_as (data (m2 guilty))) k = Some (ca k) &
   aget (kp_xs (data (m2 guilty))) k = Some (cx k)].
  by move=> /Sch [p [a' [x' [h1 h2 h3]]]]; rewrite /pf /ca /cx h1 h2 h3.
have J5 k : k \in ids -> confirmed_ev (judge (KrSchFailed k)) =
    ~~ sch_verify g X (pf k) (ca k) (cx k) (kr_aux V (kx_sid c) guilty (k3_rid s)).
  move=> hin; have [h1 h2 h3] := SchE _ hin.
  rewrite /judge /kr_evidence /= /kr_reconstruct_rid /= /ev_deser /= hh Em2 /= Eebs /= He /= xorE /= Hn /=.
  by rewrite /try_get h2 /= h3 /= h1 /= Esid /verify_that; case: (sch_verify _ _ _ _ _ _).
rewrite (@check_sch_first _ _ _ pf ca cx) ?kH //=.
have -> : first_confirmed judge [seq KrSchFailed k | k <- ids] =
    omap KrSchFailed (ohead [seq k <- ids | ~~ sch_verify g X (pf k) (ca k) (cx k) (kr_aux V (kx_sid c) guilty (k3_rid s))]).
  rewrite /first_confirmed filter_map.
  rewrite (@eq_in_filter _ (preim KrSchFailed (fun e => confirmed_ev (judge e))) _ ids J5).
  by case: [seq k <- ids | _].
by case: (ohead _) => [k|] //=; eexists.
Qed.
End KeyRefresh.
