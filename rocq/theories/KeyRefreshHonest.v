(** * An honest KeyRefresh run. *)
From Coq Require Import ZArith Lia.
From Verif Require Import Base BaseFacts EncodingModel SignedModel PaillierModel ZkBase ZkModel ZkSpec.
From mathcomp Require Import all_ssreflect all_algebra.
From Verif Require Import AlgBase AlgFacts ShamirModel ShamirProofs ThresholdModel ThresholdProofs SchModel SchProofs
  ProtoBase ProtoSpec ProtoFacts KeyInitProofs AuxGenModel AuxGenSpec AuxHonestSpec AuxHonestProofs
  KeyRefreshModel KeyRefreshSpec KeyRefreshProofs.
Set Implicit Arguments.
Unset Strict Implicit.
Unset Printing Implicit Defensive.
Import GRing.Theory.
Local Open Scope ring_scope.

Section Honest.
Variables (S : sparams) (F : fieldType) (V : lmodType F) (g : V) (I : eqType) (le : rel I) (HO : eqType).
Notation item := (hitem HO I V).
Notation P := (sp_pail S).
Variables (H : dst -> seq item -> HO) (X : xof (seq item) V) (Hs : dst -> seq item -> F) (scheme : seq item).
Notation start := (kr_start S g H X scheme).
Notation until3 := (kr_until3 S g le H X).
Notation run := (kr_run S g le H X Hs).
Notation prm_ok := (@prm_verify S (curveV g) (seq item) X).
Notation mod_ok := (@mod_verify S (curveV g) (seq item) X).
Notation fac_ok := (@fac_verify S (curveV g) (seq item) X).
Notation XV := (X : xof (seq item) (pt (curveV g))).
Hypothesis (HG : good_params S) (HX : xof_ok (sp_q S) XV).

Lemma kr_start_succeeds ids sr id r com y tau split : id \in ids -> honest_keys S r com ->
  exists c d, start ids sr id r y tau split = Ok (c, d).
Proof.
move=> hid hk; rewrite /kr_start hid /=.
have [sec [rp [psi [sk [[-> [E2 [E3 E4]]] [[-> [-> _]] _]]]]]] :=
  @honest_start S (curveV g) (seq item) X HG r com hk [:: HOut (sid_new H scheme sr ids); HId id].
rewrite /= E2 /= E3 /=.
have n0 : (0 < size ids)%N by case: (ids) hid.
have [parts [-> _]] := secret_splitE (0 : F) split n0.
by eexists; eexists.
Qed.

Lemma kr_start_honest ids sr id r com y tau split c d : honest_keys S r com ->
  start ids sr id r y tau split = Ok (c, d) ->
  [/\ kp_pk d = Z.mul (ar_p r) (ar_q r), skey_new P (ar_p r) (ar_q r) = Ret (kx_sk c),
      prm_ok (kp_psi d) (kp_rp d) [:: HOut (sid_new H scheme sr ids); HId id] = Ret true &
      rp_n (kp_rp d) = Z.mul (ar_rp_p r) (ar_rp_q r)] /\
  [/\ big_enough S (kp_pk d), big_enough S (rp_n (kp_rp d)), reduced (kp_rp d) = kp_rp d, setup_ok S (kp_rp d) &
      Z.odd (kp_pk d) /\ Z.odd (rp_n (kp_rp d))].
Proof.
move=> hk; rewrite /kr_start; case: ifP => // _.
have [sec [rp [psi [sk [[-> [E2 [E3 E4]]] [[-> [-> [Esk _]]] [[b1 b2] [En [Er [Es [o1 o2]]]]]]]]]]] :=
  @honest_start S (curveV g) (seq item) X HG r com hk [:: HOut (sid_new H scheme sr ids); HId id].
rewrite /= E2 /= E3 /=; case: (secret_split _ _ _) => //= parts [<- <-] /=.
by split; split.
Qed.

Variables (ids : seq I) (sr : seq Z) (r : I -> ag_rand) (com : I -> Z) (y tau : I -> I -> F) (split : I -> nat -> F).
Variables (rnd : I -> I -> fac_rand) (n : nat) (c : I -> kr_ctx F I HO) (d : I -> kr_public V I) (o1 o2 o3 : I -> seq I).
Hypotheses (ho : total_order le) (hs : sorted le ids) (hu : uniq ids).
Hypothesis HD : @detects_composites _ V X.
Hypothesis HW : Z.lt (Z.add (Z.add (Z.add (Z.mul 2 (modulus_bits P)) (sp_l S)) (sp_eps S)) 1) (sp_xw S).
Hypothesis hk : {in ids, forall i, honest_keys S (r i) (com i)}.
Hypothesis hm : {in ids &, forall i j, i != j -> honest_masks S (r i) (Z.mul (ar_rp_p (r j)) (ar_rp_q (r j))) (rnd i j)}.
Hypothesis hn : {in ids, forall i, size (ar_rid (r i)) = n}.
Hypothesis hc : {in ids, forall i, start ids sr i (r i) (y i) (tau i) (split i) = Ok (c i, d i)}.
Hypothesis ho1 : {in ids, forall i, perm_eq (o1 i) (without ids i)}.
Hypothesis ho2 : {in ids, forall i, perm_eq (o2 i) (without ids i)}.
Hypothesis ho3 : {in ids, forall i, perm_eq (o3 i) (without ids i)}.
Notation sid := (sid_new H scheme sr ids).

Definition hx (i k : I) : F := odflt 0 (aget (kx_xs (c i)) k).
Lemma hcE i : i \in ids ->
  [/\ kx_id (c i) = i, kx_others (c i) = without ids i, kx_ids (c i) = ids & kx_sid (c i) = sid] /\
  [/\ kx_xs (c i) = [seq (j, hx i j) | j <- ids], kx_ys (c i) = [seq (j, y i j) | j <- ids],
      kx_taus (c i) = [seq (j, tau i j) | j <- ids] & \sum_(j <- ids) hx i j = 0] /\
  [/\ kp_xs (d i) = [seq (j, hx i j *: g) | j <- ids], kp_ys (d i) = [seq (j, y i j *: g) | j <- ids],
      kp_as (d i) = [seq (j, tau i j *: g) | j <- ids], kp_rid (d i) = ar_rid (r i) & kp_rp (d i) = kx_rp (c i)].
Proof.
move=> hi; have [x [[_ E1 E2 E3 E4] [[E5 E6 E7 E8] [[E9 E10 E11] [E12 E13 _ _]]]]] := kr_start_inv (hc hi) hu.
have xE j : j \in ids -> hx i j = x j by move=> hj; rewrite /hx E5 aget_tab hj.
split=> //; split; split=> //.
- by rewrite E5; apply/eq_in_map => j hj; rewrite xE.
- by rewrite -[RHS]E8; apply: eq_big_seq => j hj; rewrite xE.
- by rewrite E9; apply/eq_in_map => j hj; rewrite xE.
Qed.

Lemma hreveals i : i \in ids -> reveals le (kr_send2 HO (d i)) (d i).
Proof.
move=> hi; have [_ [_ [e1 e2 e3 _ _]]] := hcE hi; have [_ [_ _ er _ _]] := kr_start_honest (hk hi) (hc hi).
exists (K2EB (kp_rp (d i)) (kp_ys (d i)) (kp_rid (d i))), (K2NB (kp_xs (d i)) (kp_as (d i)) (kp_pk (d i)) (kp_psi (d i)) (kp_u (d i))), (kp_rp (d i)).
by rewrite /kr_send2 /= e1 e2 e3 !dmap_tab.
Qed.

Notation haux i R := (kr_aux V sid i R).
Definition hpsi R (i : I) : mod_proof :=
  if @mod_new S (curveV g) (seq item) X (kx_sk (c i)) (haux i R) (com i) is Ret p then p else ModProof Z0 [::] [::].
Definition hsch R (i k : I) : sch_proof F := sch_new X (tau i k) (hx i k) (tau i k *: g) (hx i k *: g) (haux i R).
Definition hst R (i : I) : kr_round3 V I HO :=
  KrRound3 (c i) R [seq (j, payload (d j)) | j <- ids] (hpsi R i) [seq (k, hsch R i k) | k <- ids].

Lemma hmod R i : i \in ids ->
  @mod_new S (curveV g) (seq item) X (kx_sk (c i)) (haux i R) (com i) = Ret (hpsi R i) /\
  mod_ok (hpsi R i) (kp_pk (d i)) (haux i R) = Ret true.
Proof.
move=> hi; have [[-> es _ _] _] := kr_start_honest (hk hi) (hc hi).
have [pf [E1 E2]] := @honest_mod S (curveV g) (seq item) X HG HX _ _ (hk hi) _ (haux i R) HD es.
by rewrite /hpsi E1.
Qed.

Lemma huntil3 R i : combined [seq ar_rid (r i) | i <- ids] R -> i \in ids ->
  until3 (c i) (d i) (com i) (fun j => kr_send1 g H (c j) (d j)) (fun j => kr_send2 HO (d j)) (o1 i) (o2 i) = Accept (hst R i).
Proof.
move=> hR hi; rewrite /kr_until3.
have so : sorted le (without ids i) by exact: sorted_without.
have inw j : j \in without ids i -> j \in ids by rewrite mem_filter => /andP [].
rewrite (round_ok (p := fun j => kr_hash g H (d j) (kx_sid (c j)) (kx_id (c j))) ho so (ho1 hi)) //=.
have [[ei1 ei2 ei3 ei4] [[ei5 ei6 ei7 ei8] [ei9 ei10 ei11 ei12 ei13]]] := hcE hi.
rewrite (round_ok (p := fun j => payload (d j)) ho so (ho2 hi)) /=; last first.
  move=> j hj; have jin := inw _ hj; apply/recv2_ok; exists (d j).
  have [[ej1 ej2 ej3 ej4] [[ej5 ej6 ej7 ej8] [ej9 ej10 ej11 ej12 ej13]]] := hcE jin.
  have [[q1 q2 q3 q4] [q5 q6 q7 q8 q9]] := kr_start_honest (hk jin) (hc jin).
  split=> //; first exact: hreveals.
  - by rewrite aget_tab hj kr_hashE ej4 ei4 ej1.
  rewrite ei3 ej9 ej10 ej11 !akeys_tab; split=> //.
  - by rewrite avals_tab psumE big_map -scaler_suml ej8 scale0r.
  - by rewrite ei4.
rewrite /kr_finalize2.
have -> : [seq kl_rid q.2 | q <- [seq (j, payload (d j)) | j <- without ids i]] = [seq ar_rid (r j) | j <- without ids i].
  by rewrite -map_comp; apply/eq_in_map => j /inw hj /=; have [_ [_ [_ _ _ -> _]]] := hcE hj.
rewrite ei12.
have /xor_allP -> /= : combined (ar_rid (r i) :: [seq ar_rid (r j) | j <- without ids i]) R.
  by apply: combined_perm hR; rewrite (perm_map (fun i => ar_rid (r i)) (perm_without hu hi)).
rewrite ei4 ei1 (proj1 (hmod R hi)) /= ei3.
rewrite (@mapR_ok_in _ _ _ (fun k => (k, hsch R i k))) /=; last first.
  by move=> k kin; rewrite ei5 ei7 ei9 ei11 !aget_tab kin.
congr (Accept (KrRound3 _ _ _ _ _)).
rewrite -ei12; exact: (binsert_tab ho (fun j => payload (d j)) hs hu hi).
Qed.

Definition hfac R (to from : I) : fac_proof :=
  if @fac_new S (curveV g) (seq item) X (kx_sk (c from)) (kp_rp (d to)) (haux from R) (rnd from to) is Ret p then p
  else FacProof (mkS Z0 Z0) Z0 Z0 Z0 Z0 Z0 (mkS Z0 Z0) (mkS Z0 Z0) (mkS Z0 Z0) (mkS Z0 Z0) (mkS Z0 Z0).
Definition hm3 R (to from : I) : message (kr_wire V I HO) :=
  Msg (Some (K3DM (hfac R to from) (hx from to + kr_mask Hs sid R from (y from to *: (y to from *: g)))))
    (Some (K3EB [seq (k, hsch R from k) | k <- ids])) (Some (K3NB (hpsi R from))).

Lemma hfacE R to from : to \in ids -> from \in ids -> from != to ->
  @fac_new S (curveV g) (seq item) X (kx_sk (c from)) (kp_rp (d to)) (haux from R) (rnd from to) = Ret (hfac R to from) /\
  fac_ok (hfac R to from) (kp_pk (d from)) (kp_rp (d to)) (haux from R) = Ret true.
Proof.
move=> ht hf ne.
have [[-> es _ _] _] := kr_start_honest (hk hf) (hc hf).
have [[_ _ _ en] [_ _ _ su _]] := kr_start_honest (hk ht) (hc ht).
have hm' := hm hf ht ne; rewrite -en in hm'.
have [pf [E1 E2]] := @honest_fac S (curveV g) (seq item) X HG HX _ _ (hk hf) _ _ (haux from R) _ es su hm' HW.
by rewrite /hfac E1.
Qed.

Lemma hsend3 R to from : to \in ids -> from \in ids -> from != to ->
  kr_send3 S g X Hs (hst R from) (rnd from to) to = Accept (hm3 R to from).
Proof.
move=> ht hf ne; rewrite /kr_send3 /safe_get /= aget_tab ht /=.
have [[e1 e2 e3 e4] [[e5 e6 e7 e8] [e9 e10 e11 e12 e13]]] := hcE hf.
have [_ [_ [_ t10 _ _ _]]] := hcE ht.
by rewrite e4 e1 (proj1 (hfacE R ht hf ne)) /= t10 aget_tab hf /= e6 aget_tab ht /= e5 aget_tab ht /=.
Qed.

Lemma hrecv3 R to from : to \in ids -> from \in ids -> from != to ->
  kr_recv3 S g le X Hs (hst R to) from (hm3 R to from) = Accept (hx from to).
Proof.
move=> ht hf ne; rewrite /kr_recv3 /deser /= /safe_get aget_tab hf /=.
have [[e1 e2 e3 e4] [[e5 e6 e7 e8] [e9 e10 e11 e12 e13]]] := hcE ht.
have [_ [_ [f9 f10 f11 _ _]]] := hcE hf.
rewrite f10 e1 aget_tab ht /= e6 aget_tab hf /= f9 aget_tab ht /= e4.
have -> : y to from *: (y from to *: g) = y from to *: (y to from *: g) by rewrite !scalerA mulrC.
rewrite addrK /require eqxx /= (proj2 (hmod R hf)) /= -e13 (proj2 (hfacE R ht hf ne)) /= e3.
rewrite dmap_tab // akeys_tab perm_refl /=.
rewrite (@check_sch_first _ _ _ _ _ _ _ _ _ (hsch R from) (fun k => tau from k *: g) (fun k => hx from k *: g)) ?akeys_tab //=.
  have -> : [seq k <- ids | ~~ sch_verify g X (hsch R from k) (tau from k *: g) (hx from k *: g) (haux from R)] = [::].
    by rewrite (@eq_filter _ _ pred0) ?filter_pred0 // => k; rewrite /hsch sch_run.
  by [].
by move=> k hk'; rewrite f9 f11 !aget_tab hk'.
Qed.

Definition hkc (i : I) : kchange V I := KChange i (\sum_(j <- ids) hx j i) [seq (k, (\sum_(j <- ids) hx j k) *: g) | k <- ids].
Definition hai (i : I) : aux_info I := AuxInfo i (kx_sk (c i)) [seq (j, (Z.mul (ar_p (r j)) (ar_q (r j)), kp_rp (d j))) | j <- ids].

Lemma hrun R i m : combined [seq ar_rid (r i) | i <- ids] R -> i \in ids -> {in without ids i, forall j, m j = hm3 R i j} ->
  run (c i) (d i) (com i) (fun j => kr_send1 g H (c j) (d j)) (fun j => kr_send2 HO (d j)) m (o1 i) (o2 i) (o3 i) =
    Accept (hkc i, hai i).
Proof.
move=> hR hi hm3E; rewrite /kr_run (huntil3 hR hi) /=.
have so : sorted le (without ids i) by exact: sorted_without.
rewrite (round_ok (p := fun j => hx j i) ho so (ho3 hi)) /=; last first.
  by move=> j hj'; rewrite hm3E //; move: hj'; rewrite mem_filter => /andP [ne hj]; exact: hrecv3.
have [[e1 e2 e3 e4] [[e5 e6 e7 e8] [e9 e10 e11 e12 e13]]] := hcE hi.
rewrite /kr_finalize3 /= e1 e5 aget_tab hi /= e3.
rewrite (@mapR_ok_in _ _ _ (fun k => (k, (\sum_(j <- ids) hx j k) *: g))) /=; last first.
  move=> k hk'.
  have mE l : {subset l <= ids} -> mapR (fun p : I * kr_payload V I => ok_or (aget (kl_xs p.2) k)) [seq (j, payload (d j)) | j <- l] =
      Ok [seq hx j k *: g | j <- l].
    elim: l => [|j l IH] //= hl; have jin : j \in ids by apply: hl; rewrite mem_head.
    have [_ [_ [-> _ _ _ _]]] := hcE jin; rewrite aget_tab hk' /= IH // => k' hk''.
    by apply: hl; rewrite inE hk'' orbT.
  rewrite mE //.
  by rewrite /= psumE big_map scaler_suml.
congr (Accept (KChange _ _ _, AuxInfo _ _ _)).
  have fE (l : seq F) z : foldl (fun a b => a + b) z l = z + \sum_(p <- l) p.
    by elim: l z => [|b l IH] z /=; rewrite ?big_nil ?addr0 // big_cons IH addrA.
  by rewrite fE add0r avals_tab big_map (perm_big _ (perm_without hu hi)) big_cons addrC.
rewrite -map_comp; apply/eq_in_map => j hj /=.
by have [[-> _ _ _] _] := kr_start_honest (hk hj) (hc hj).
Qed.

Lemma kr_honest : exists R : seq bool,
  combined [seq ar_rid (r i) | i <- ids] R /\
  exists s m3 kc a,
  [/\ {in ids, forall i, until3 (c i) (d i) (com i) (fun j => kr_send1 g H (c j) (d j)) (fun j => kr_send2 HO (d j))
        (o1 i) (o2 i) = Accept (s i) /\ k3_rid (s i) = R},
      {in ids &, forall i j, j != i -> kr_send3 S g X Hs (s j) (rnd j i) i = Accept (m3 i j)},
      {in ids, forall i, run (c i) (d i) (com i) (fun j => kr_send1 g H (c j) (d j)) (fun j => kr_send2 HO (d j)) (m3 i)
        (o1 i) (o2 i) (o3 i) = Accept (kc i, a i)},
      \sum_(i <- ids) kc_secret (kc i) = 0 &
      {in ids, forall i, [/\ kc_owner (kc i) = i, kc_public (kc i) = [seq (j, kc_secret (kc j) *: g) | j <- ids],
         ai_owner (a i) = i, ai_sk (a i) = kx_sk (c i) &
         ai_public (a i) = [seq (j, (Z.mul (ar_p (r j)) (ar_q (r j)), kp_rp (d j))) | j <- ids]]}].
Proof.
have [R hR] : exists R, combined [seq ar_rid (r i) | i <- ids] R.
  move: hn; case: (ids) => [|i l] h; first by exists [::].
  case Ex: (xor_all (ar_rid (r i)) [seq ar_rid (r j) | j <- l]) => [R|]; first by exists R; apply/xor_allP.
  move/xor_all_panics: Ex; case/allPn=> b /mapP [j hj ->].
  by rewrite !h ?mem_head ?eqxx // inE hj orbT.
exists R; split=> //; exists (hst R), (hm3 R), hkc, hai; split.
- by move=> i hi; split=> //; exact: huntil3.
- by move=> i j hi hj ne; exact: hsend3.
- by move=> i hi; apply: (hrun hR hi).
- rewrite /= exchange_big /= big1_seq // => j /= hj.
  by have [_ [[_ _ _ ->] _]] := hcE hj.
- by [].
Qed.
End Honest.
