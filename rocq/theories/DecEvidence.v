(** * What evidence of a wrong decryption in signing says (property C55). *)
From Coq Require Import ZArith Lia.
From Verif Require Import Base ModArith SignedModel PaillierModel ZkBase ZkModel.
From mathcomp Require Import all_ssreflect.
From Verif Require Import AlgBase AlgFacts ProtoBase ProtoSpec ProtoFacts AuxGenModel SigningModel SigningAlgebra SigningErrorSpec ErrorView SigningEvidenceGaps.
Set Implicit Arguments.
Unset Strict Implicit.
Unset Printing Implicit Defensive.
Local Open Scope Z_scope.

Section DecEvidence.
Variables (S : sparams) (C : curve) (I : eqType) (HO : eqType).
Notation item := (hitem HO I (pt C)).
Variables (X : xof (seq item) (pt C)).

(** Specification: the proof [pf] fails for the statement that the accused
    decrypted the product of the ciphertexts [ds] it sent to the others and the
    ciphertexts [fs] the others made for it; everybody counts as a party. *)
Definition decryption_fails (a : sg_assoc C I) (guilty : I) (aux : seq item) (pf : dec_proof C) (K : Z) (cap_x cap_s base : pt C)
    (ds fs : I -> option Z) : Prop :=
  exists N rp D d f,
  [/\ aget (sa_aux a) guilty = Some (N, rp),
      (exists j, j \in without (akeys (sa_aux a)) guilty) /\
      {in without (akeys (sa_aux a)) guilty, forall j, ds j = Some (d j) /\ fs j = Some (f j)},
      D mod (N * N) = foldr Z.mul 1 [seq d j * f j | j <- without (akeys (sa_aux a)) guilty] mod (N * N) &
      dec_verify S X pf (DecPublic N (Ct N (K mod (N * N))) cap_x (Ct N D) cap_s base (Z.of_nat (size (sa_aux a))))
        (RP (rp_n rp) (rp_t rp mod rp_n rp) (rp_s rp mod rp_n rp)) aux = Ret false].

Lemma ebind_ok A B (r : evid A) (f : A -> evid B) b : (x <%- r ;; f x) = EvOk b -> exists2 x, r = EvOk x & f x = EvOk b.
Proof. by case: r => //= x h; exists x. Qed.

Lemma mapE_get N (g : I -> evid Z) (h : I -> option Z) ids cs :
  (forall j, g j = if h j is Some z then EvOk z else EvInvalid) ->
  mapE (fun j => z <%- g j ;; EvOk (ct_to_precomputed N z)) ids = EvOk cs ->
  cs = [seq Ct N (odflt 0 (h j) mod (N * N)) | j <- ids] /\ {in ids, forall j, h j = Some (odflt 0 (h j))}.
Proof.
move=> hg; elim: ids cs => [|j l IH] cs /=; first by case=> <-.
move=> U; have [c E1 {}U] := ebind_ok U; have [bs E2 {}U] := ebind_ok U; case: U => <-; have [-> K] := IH _ E2.
move: E1; rewrite hg; case E: (h j) => [z|] //= [<-].
by split=> //= k; rewrite inE => /orP [/eqP ->|/K //]; rewrite E.
Qed.

Lemma ev_sum_prod N (u : I -> Z) ids c : ev_sum [seq Ct N (u j) | j <- ids] = EvOk c ->
  (exists j, j \in ids) /\ exists2 r, c = Ct N r & r mod (N * N) = foldr Z.mul 1 [seq u j | j <- ids] mod (N * N).
Proof.
case: ids => [|j l] //=; rewrite /ev_sum /=.
have [r] := ct_sumE N (u j) [seq u k | k <- l]; rewrite -map_comp => -> E [<-].
by split; [exists j; rewrite mem_head|exists r].
Qed.

Lemma prod_mod n (u : I -> Z) ids : foldr Z.mul 1 [seq u j mod n | j <- ids] mod n = foldr Z.mul 1 [seq u j | j <- ids] mod n.
Proof. by elim: ids => //= j l IH; rewrite Zmult_mod_idemp_l -Zmult_mod_idemp_r IH Zmult_mod_idemp_r. Qed.
Lemma prod_mul (u v : I -> Z) ids :
  foldr Z.mul 1 [seq u j * v j | j <- ids] = foldr Z.mul 1 [seq u j | j <- ids] * foldr Z.mul 1 [seq v j | j <- ids].
Proof. by elim: ids => //= j l ->; ring. Qed.

Variables (H : dst -> seq item -> HO) (scheme : seq item) (xcoord : pt C -> Z) (positional : bool).
Notation evd := (evidence I (sg_wire C I)).

Lemma ev_dec_inv epid a guilty (ev : evd) get_d get_f get_x get_s get_base :
  ev_dec S X positional epid a guilty ev get_d get_f get_x get_s get_base = EvOk tt ->
  exists e1 e2s n2 e2 n3 e5 cap_x,
  [/\ ev_prev_echo (@as_1eb C I) ev 1 = EvOk e1, ev_echo_all (@as_2eb C I) ev 2 = EvOk e2s,
      ev_prev_normal (@as_2nb C I) ev 2 = EvOk n2 & ev_prev_echo (@as_2eb C I) ev 2 = EvOk e2] /\
  [/\ ev_prev_normal (@as_3nb C I) ev 3 = EvOk n3, ev_deser (as_5eb positional) (m_echo (ev_message ev)) = EvOk e5, get_x e2 = EvOk cap_x &
      decryption_fails a guilty [:: HOut epid; HId guilty] (e5_dec e5) (e1_k e1) cap_x (get_s n3) (get_base e2 e2s)
        (aget (get_d n2)) (fun j => ssrfun.obind (fun e => aget (get_f e) guilty) (aget e2s j))].
Proof.
rewrite /ev_dec => U.
have [e1 E1 {}U] := ebind_ok U; have [e2s E2 {}U] := ebind_ok U; have [n2 E3 {}U] := ebind_ok U; have [e2 E4 {}U] := ebind_ok U.
have [n3 E5 {}U] := ebind_ok U; have [e5 E6 {}U] := ebind_ok U; have [pk E7 {}U] := ebind_ok U; have [rp E8 {}U] := ebind_ok U.
have [ds E9 {}U] := ebind_ok U; have [d E10 {}U] := ebind_ok U; have [fs E11 {}U] := ebind_ok U; have [f E12 {}U] := ebind_ok U.
have [cd E13 {}U] := ebind_ok U; have [cap_x E14 {}U] := ebind_ok U; have [ok E15 {}U] := ebind_ok U.
exists e1, e2s, n2, e2, n3, e5, cap_x; split=> //; split=> //.
have [[N rpw] Ea [epk erp]] : exists2 x, aget (sa_aux a) guilty = Some x & pk = x.1 /\ rp = RP (rp_n x.2) (rp_t x.2 mod rp_n x.2) (rp_s x.2 mod rp_n x.2).
  move: E7 E8; rewrite /ev_pk /ev_rp /try_get; case: (aget _ guilty) => [x|] //= h1 h2; exists x => //; split.
    by move: h1; rewrite /public_key_new; case: ifP => //= _ [].
  by move: h2; rewrite /rp_pre /rp_to_precomputed /public_key_new; case: ifP => //= _ [].
move: epk erp => /= epk erp; subst pk rp.
have [Eds Kd] := @mapE_get N (try_get (get_d n2)) (aget (get_d n2)) _ _ (fun j => erefl) E9.
pose hf j := ssrfun.obind (fun e => aget (get_f e) guilty) (aget e2s j).
have [Efs Kf] : fs = [seq Ct N (odflt 0 (hf j) mod (N * N)) | j <- without (akeys (sa_aux a)) guilty] /\
    {in without (akeys (sa_aux a)) guilty, forall j, hf j = Some (odflt 0 (hf j))}.
  apply: (@mapE_get N (fun j => e <%- try_get e2s j ;; try_get (get_f e) guilty)) => [j|].
    by rewrite /hf /try_get; case: (aget e2s j) => //=.
  rewrite -E11; elim: (without _ _) => //= j l ->; congr (ebind _ _).
  by case: (try_get e2s j) => //=.
move: E10 E12; rewrite Eds Efs => /ev_sum_prod [hne [r ed Er]] /ev_sum_prod [_ [t et Et]].
move: E13; rewrite ed et /homomorphic_add /= Z.eqb_refl /= => -[ecd]; subst cd.
move: U E15; case: ok => // _.
case Ev: (dec_verify _ _ _ _ _ _) => [[]|] // _.
exists N, rpw, ((r * t) mod (N * N)), (fun j => odflt 0 (aget (get_d n2) j)), (fun j => odflt 0 (hf j)).
split=> //; first by split=> // j hj; split; [exact: Kd|exact: Kf].
rewrite Zmod_mod (prod_mul (fun j => odflt 0 (aget (get_d n2) j))).
rewrite -(Zmult_mod_idemp_l r) Er -(Zmult_mod_idemp_r t) Et !prod_mod.
by rewrite Zmult_mod_idemp_l Zmult_mod_idemp_r.
Qed.

Lemma prev_np T (as_t : sg_wire C I -> option T) (ev : evd) r : ev_prev_echo as_t ev r <> EvPanic /\ ev_prev_normal as_t ev r <> EvPanic.
Proof.
rewrite /ev_prev_echo /ev_prev_normal /try_get; case: (aget _ r) => [m|] //=.
by rewrite /ev_deser; split; case: (ssrfun.obind _ _).
Qed.

(** With nobody else there is nothing to decrypt. *)
Lemma ev_dec_alone epid a guilty (ev : evd) get_d get_f get_x get_s get_base N rp :
  aget (sa_aux a) guilty = Some (N, rp) -> Z.odd N -> Z.odd (rp_n rp) -> without (akeys (sa_aux a)) guilty = [::] ->
  ev_dec S X positional epid a guilty ev get_d get_f get_x get_s get_base = EvInvalid.
Proof.
move=> ha ho hr hw; rewrite /ev_dec.
case E1: (ev_prev_echo _ ev 1) => [e1||] //=; last by case: (proj1 (prev_np _ _ _) E1).
case E2: (ev_echo_all _ ev 2) => [e2s||] //=; last first.
  by move: E2; rewrite /ev_echo_all /try_get; case: (aget _ _) => //= es /ev_all_np.
case E3: (ev_prev_normal _ ev 2) => [n2||] //=; last by case: (proj2 (prev_np _ _ _) E3).
case E4: (ev_prev_echo _ ev 2) => [e2||] //=; last by case: (proj1 (prev_np _ _ _) E4).
case E5: (ev_prev_normal _ ev 3) => [n3||] //=; last by case: (proj2 (prev_np _ _ _) E5).
case E6: (ev_deser _ _) => [e5||] //=; last by move: E6; rewrite /ev_deser; case: (ssrfun.obind _ _).
by rewrite /ev_pk /ev_rp /try_get ha /= /rp_pre /rp_to_precomputed /public_key_new ho /= hr /= hw.
Qed.

Lemma round5_evidence randomness a guilty ev :
  sg_evidence S H X scheme xcoord positional randomness a guilty R5DecFailed ev = EvOk tt ->
  exists e1 e2s n2 e2 n3 e5,
  [/\ ev_prev_echo (@as_1eb C I) ev 1 = EvOk e1, ev_echo_all (@as_2eb C I) ev 2 = EvOk e2s,
      ev_prev_normal (@as_2nb C I) ev 2 = EvOk n2 & ev_prev_echo (@as_2eb C I) ev 2 = EvOk e2] /\
  [/\ ev_prev_normal (@as_3nb C I) ev 3 = EvOk n3, ev_deser (as_5eb positional) (m_echo (ev_message ev)) = EvOk e5 &
      decryption_fails a guilty [:: HOut (sg_epid H scheme randomness a); HId guilty] (e5_dec e5) (e1_k e1)
        (e2_gamma e2) (n3_delta n3) (gen C)
        (aget (n2_ds n2)) (fun j => ssrfun.obind (fun e => aget (e2_fs e) guilty) (aget e2s j))].
Proof.
move=> U; have [e1 [e2s [n2 [e2 [n3 [e5 [x [h1 [h2 h3 [ex] h4]]]]]]]]] := ev_dec_inv U.
by exists e1, e2s, n2, e2, n3, e5; rewrite ex.
Qed.

Lemma round6_evidence randomness a guilty ev :
  sg_evidence S H X scheme xcoord positional randomness a guilty R6DecFailed ev = EvOk tt ->
  exists e1 e2s n2 e2 n3 e5 share,
  [/\ ev_prev_echo (@as_1eb C I) ev 1 = EvOk e1, ev_echo_all (@as_2eb C I) ev 2 = EvOk e2s,
      ev_prev_normal (@as_2nb C I) ev 2 = EvOk n2 & ev_prev_echo (@as_2eb C I) ev 2 = EvOk e2] /\
  [/\ ev_prev_normal (@as_3nb C I) ev 3 = EvOk n3, ev_deser (as_5eb positional) (m_echo (ev_message ev)) = EvOk e5,
      aget (sa_shares a) guilty = Some share &
      decryption_fails a guilty [:: HOut (sg_epid H scheme randomness a); HId guilty] (e5_dec e5) (e1_k e1)
        share (n3_s n3) (padd C (e2_gamma e2) (sum_pts [seq e2_gamma p.2 | p <- e2s]))
        (aget (n2_hat_ds n2)) (fun j => ssrfun.obind (fun e => aget (e2_hat_fs e) guilty) (aget e2s j))].
Proof.
move=> U; have [e1 [e2s [n2 [e2 [n3 [e5 [x [h1 [h2 h3 ex h4]]]]]]]]] := ev_dec_inv U.
exists e1, e2s, n2, e2, n3, e5, x; split=> //; split=> //.
by move: ex; rewrite /try_get; case: (aget _ _) => // y [->].
Qed.

Lemma alone_evidence randomness a guilty ev N rp :
  sa_aux a = [:: (guilty, (N, rp))] -> Z.odd N -> Z.odd (rp_n rp) ->
  sg_evidence S H X scheme xcoord positional randomness a guilty R5DecFailed ev = EvInvalid /\
  sg_evidence S H X scheme xcoord positional randomness a guilty R6DecFailed ev = EvInvalid.
Proof.
move=> ha ho hr.
have ga : aget (sa_aux a) guilty = Some (N, rp) by rewrite ha /= eqxx.
have wa : without (akeys (sa_aux a)) guilty = [::] by rewrite ha /without /= eqxx.
by split; apply: (ev_dec_alone _ _ _ _ _ _ _ ga ho hr wa).
Qed.
End DecEvidence.
