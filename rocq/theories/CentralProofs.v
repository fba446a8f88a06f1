(** * Keys and auxiliary data made in one place (property C71). *)
From Coq Require Import ZArith Znumtheory Lia.
From Verif Require Import Base SignedModel PaillierModel PaillierSpec ZkBase ZkModel ZkSpec.
From mathcomp Require Import all_ssreflect all_algebra.
From Verif Require Import AlgBase AlgFacts ThresholdModel ThresholdSpec ThresholdProofs ShareLemmas ShamirSpec SchModel ProtoBase ProtoSpec ProtoFacts ReshareProofs
  AuxGenModel AuxHonestSpec AuxHonestProofs AuxGenHonest
  KeyRefreshModel SigningSpec SigningModel EntryModel EntryProofs MtaSpec SigningHonestSpec SigningHonestMain LifeSpec LifeProofs CentralModel.
Set Implicit Arguments.
Unset Strict Implicit.
Unset Printing Implicit Defensive.
Import GRing.Theory.
Local Open Scope ring_scope.

Lemma central_aux (S : sparams) (I : eqType) (ids : seq I) r com : good_params S -> uniq ids ->
  {in ids, forall i, honest_keys S (r i) (com i)} ->
  exists (a : I -> aux_info I) (sk : I -> skey) (rp : I -> rpparams), [/\ aux_new_centralized S ids r = Ok [seq (i, a i) | i <- ids],
    {in ids, forall i, [/\ ai_owner (a i) = i, ai_sk (a i) = sk i &
       ai_public (a i) = [seq (j, (Z.mul (ar_p (r j)) (ar_q (r j)), rp j)) | j <- ids]]},
    {in ids, forall i, key_of S (sk i) (Z.mul (ar_p (r i)) (ar_q (r i)))},
    {in ids, forall i, setup_ok S (rp i) /\ Z.odd (rp_n (rp i)) = true} &
    {in ids, forall i, rp_n (rp i) = Z.mul (ar_rp_p (r i)) (ar_rp_q (r i))}].
Proof.
move=> HG hu hk.
pose P i (b : skey * rpparams) :=
    [/\ skey_new (sp_pail S) (ar_p (r i)) (ar_q (r i)) = Ret b.1, rp_random S (r i) = Ok b.2,
        sk_pk b.1 = Z.mul (ar_p (r i)) (ar_q (r i)) &
        [/\ rp_n b.2 = Z.mul (ar_rp_p (r i)) (ar_rp_q (r i)), setup_ok S b.2 & Z.odd (rp_n b.2) = true]].
have [f hf] : exists f, {in ids, forall i, P i (f i)}.
  apply: (@fin_choice _ _ ids (fun i => (no_key, no_rp)) P) => i hi.
  have [sec [rp [psi [sk [[E1 [E2 _]] [[_ [E3 [E4 _]]] [_ [E5 [_ [E6 [E7 _]]]]]]]]]]] :=
    @honest_start S ZkToy.toyC unit (ZkToy.const_xof Z0 true Z0) HG (r i) (com i) (hk i hi) tt.
  by exists (sk, rp); rewrite /P /rp_random E1 /= E2; split.
exists (fun i => AuxInfo i (f i).1 [seq (j, (Z.mul (ar_p (r j)) (ar_q (r j)), (f j).2)) | j <- ids]), (fun i => (f i).1), (fun i => (f i).2).
split=> //.
- rewrite /aux_new_centralized (mapR_ok_in (h := fun i => (f i).1)) /=; last by move=> i hi; case: (hf i hi) => ->.
  have -> : zip ids [seq (f i).1 | i <- ids] = [seq (i, (f i).1) | i <- ids].
    by elim: (ids) => //= i l ->.
  rewrite mapR_map (mapR_ok_in (h := fun i => (i, (Z.mul (ar_p (r i)) (ar_q (r i)), (f i).2)))) /=; last first.
    by move=> i hi; case: (hf i hi) => _ -> -> _.
  by rewrite -map_comp acollect_uniq // -map_comp map_id.
- by move=> i hi; case: (hf i hi) => E _ _ _; exists (ar_p (r i)), (ar_q (r i)); split; [exact: hk_primes (hk i hi)|].
- by move=> i hi; case: (hf i hi) => _ _ _ [].
- by move=> i hi; case: (hf i hi) => _ _ _ [].
Qed.

Section Central.
Variables (S : sparams) (F : fieldType) (V : lmodType F) (g : V) (int_of : F -> Z) (I : eqType) (le : rel I) (HO : eqType).
Notation item := (hitem HO I V).
Variables (H : dst -> seq item -> HO) (X : xof (seq item) V) (scheme : seq item).
Notation C := (curveV g).
Variables (xcoord : V -> Z) (lift_x : nat -> Z -> option V) (positional debug : bool).
Notation q := (sp_q S).
Hypotheses (HG : good_params S) (HF : scalar_field q int_of) (HX : xof_ok q (X : xof (seq item) (pt C))) (ho : total_order le).
Hypotheses (Pq : Znumtheory.prime q) (Hx : @xcoord_ok q C xcoord) (Hl : @lift_ok C xcoord lift_x).
Notation sign := (signing_run S g int_of le H X scheme xcoord lift_x positional).

Lemma life_central_threshold ids signers t x draws r com :
  sorted le ids -> uniq ids -> sorted le signers -> uniq signers ->
  {subset signers <= ids} -> size signers = t -> (0 < t)%N -> big_field F (size ids) ->
  {in ids, forall i, honest_keys S (r i) (com i)} -> x *: g != 0 ->
  exists ts a ks aux,
  [/\ ts_new_centralized g ids t x draws = Ok [seq (i, ts i) | i <- ids],
      aux_new_centralized S ids r = Ok [seq (i, a i) | i <- ids],
      {in signers, forall i, ts_to_key_share debug (ts i) signers = Ok (ks i) /\ ks_verifying_key (ks i) = Ok (x *: g)} &
      {in signers, forall i, aux_subset (a i) signers = Ok (aux i)}] /\
  forall sr text d o,
    signing_draws_ok S signers (fun i => Z.mul (ar_p (r i)) (ar_q (r i))) (fun i => Z.mul (ar_rp_p (r i)) (ar_rp_q (r i))) d ->
    orders_ok signers o -> not_degenerate S g xcoord signers d text x ->
    exists sig, sign signers sr text ks aux d o sig /\ signs S g xcoord signers d text x sig.
Proof.
move=> si ui ss us sub st t0 bi hk xg.
have tn : (0 < t <= size ids)%N by rewrite t0 -st uniq_leq_size.
have [ts [h1 h2 h3]] := keygen_threshold draws ui bi tn xg.
have [a [sk [rp [a1 a2 a3 a4 a5]]]] := central_aux HG ui hk.
have dbg : debug -> size signers = t by [].
have [ks [t2 [t3 t4]]] := to_key_shareE ui us sub (eq_leq (esym st)) dbg xg h2.
have selE : [seq j <- ids | j \in signers] = signers.
  apply: (sorted_same ho) => //; [exact: filter_uniq|by apply: sorted_filter => //; case: ho|].
  by move=> j; rewrite mem_filter; case hj: (j \in signers) => //=; exact: sub.
pose aux i := AuxInfo i (sk i) [seq (j, (Z.mul (ar_p (r j)) (ar_q (r j)), rp j)) | j <- signers].
have auxE : {in signers, forall i, aux_subset (a i) signers = Ok (aux i)}.
  move=> i hi; have [e1 e2 e3] := a2 i (sub i hi).
  rewrite /aux_subset e1 hi /= /public_aux_subset e3 filter_map /= -/(preim _ _).
  have -> : [seq x0 <- ids | preim (fun j : I => (j, (Z.mul (ar_p (r j)) (ar_q (r j)), rp j))) (fun p => p.1 \in signers) x0] = signers.
    by rewrite -[RHS]selE; apply: eq_filter.
  by rewrite size_map eqxx /= e2.
exists ts, a, ks, aux; split; first by split=> // i hi; split; [exact: t2|exact: t4].
move=> sr text d o hd hor nd.
have ok4 (P : I -> Prop) : {in ids, forall i, P i} -> {in signers, forall i, P i} by move=> h i /sub; apply: h.
apply: (sign_from H scheme positional HG HF HX ho Pq Hx Hl sr us ss t3 _ (ok4 _ a3) (ok4 _ a4) _ hor nd) => //.
case: hd => d1 d2 d3; split=> // i j hi hj ne; rewrite a5 ?sub //; [exact: d2|exact: d3].
Qed.

Lemma life_central ids x draws r com :
  sorted le ids -> uniq ids -> (0 < size ids)%N ->
  {in ids, forall i, honest_keys S (r i) (com i)} -> x *: g != 0 ->
  exists ks a,
  [/\ ks_new_centralized g ids x draws = Ok [seq (i, ks i) | i <- ids],
      aux_new_centralized S ids r = Ok [seq (i, a i) | i <- ids] &
      {in ids, forall i, ks_verifying_key (ks i) = Ok (x *: g)}] /\
  forall sr text d o,
    signing_draws_ok S ids (fun i => Z.mul (ar_p (r i)) (ar_q (r i))) (fun i => Z.mul (ar_rp_p (r i)) (ar_rp_q (r i))) d ->
    orders_ok ids o -> not_degenerate S g xcoord ids d text x ->
    exists sig, sign ids sr text ks a d o sig /\ signs S g xcoord ids d text x sig.
Proof.
move=> si ui i0 hk xg.
have [ks [h1 h2]] := ks_new_centralizedE g x draws ui i0.
have [a [sk [rp [a1 a2 a3 a4 a5]]]] := central_aux HG ui hk.
exists ks, a; split.
  split=> // i hi; case: h2 => hx /(_ i hi) [_ hp].
  have E : ks_vkey_point (ks i) = x *: g by rewrite /ks_vkey_point hp avals_tab psumE big_map -scaler_suml hx.
  by rewrite /ks_verifying_key E /to_verifying_key (negbTE xg).
move=> sr text d o hd hor nd.
apply: (sign_from H scheme positional HG HF HX ho Pq Hx Hl sr ui si h2 a2 a3 a4 _ hor nd).
case: hd => d1 d2 d3; split=> // i j hi hj ne; rewrite a5 //; [exact: d2|exact: d3].
Qed.
End Central.
