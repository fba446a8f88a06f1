(** * The parts of the nonce are fixed by the echo broadcasts of round 1. *)
From Coq Require Import ZArith Znumtheory Lia.
From Verif Require Import Base BaseFacts ModArith PaillierModel ZkBase ZkFacts ZkExtract ZkModel ElogModel ElogProofs.
From mathcomp Require Import all_ssreflect.
From Verif Require Import AlgBase AlgFacts ProtoBase ProtoSpec ProtoFacts AgreeSpec CommitSpec
  AuxGenModel SigningModel SigningSpec SigningAlgebra SigningProofs SigningShares SigningMain NonceSpec.
Set Implicit Arguments.
Unset Strict Implicit.
Unset Printing Implicit Defensive.

Section Nonce.
Variables (S : sparams) (C : curve) (I : eqType) (le : rel I) (HO : eqType).
Notation item := (hitem HO I (pt C)).
Notation q := (sp_q S).
Variables (X : xof (seq item) (pt C)).
Hypothesis HC : curve_ok q C.
Hypothesis Pq : Znumtheory.prime q.
Hypothesis HG : gen C <> p0 C.
Hypothesis HX : xof_ok q X.

(** An accepted proof that could answer another challenge is about a true statement. *)
Lemma opened (A : Type) (Y : xof A (pt C)) pf l m x y h aux e : xof_ok q Y ->
  elog_verify C A Y pf (ElogPublic l m x y h) aux = true ->
  (0 <= e < q)%Z -> e <> el_e pf -> answerable l m x y h (el_a pf) (el_n pf) (el_b pf) e ->
  exists v w, [/\ l = pmul C v (gen C), m = padd C (pmul C w (gen C)) (pmul C v x) & y = pmul C w h].
Proof.
move=> OY V he ne [z [u [E1 E2 E3]]].
have q1 : (1 < q)%Z by case: Pq.
have [Ee [F1 [F2 F3]]] := proj1 (elog_accept q C A HC Y pf _ aux) V; rewrite /= in F1 F2 F3.
have re : (0 <= el_e pf < q)%Z by rewrite Ee; apply: (xo_scalar _ _ OY _ _).
have q0 : q <> Z0 by lia.
have [i hi] := scalar_inv q (el_e pf) e Pq re he (not_eq_sym ne).
have D1 := diff_points q C HC _ _ _ _ _ _ F1 E1.
have D2 := diff_points q C HC _ _ _ _ _ _ F2 E2.
have D3 := diff_points q C HC _ _ _ _ _ _ F3 E3.
have sub a b t : padd C (pmul C a t) (popp C (pmul C b t)) = pmul C (a - b)%Z t.
  by rewrite -(pmul_opp q C HC) -(c_mulDl _ _ HC).
rewrite sub in D1; rewrite sub in D3; rewrite (popp_add q C HC) (padd_4 q C HC) !sub in D2.
exists (i * (el_z pf - z))%Z, (i * (el_u pf - u))%Z.
by rewrite -!(c_mulA _ _ HC) -(c_mulDr _ _ HC) D1 D2 D3 !(divide_point q C HC).
Qed.

(** Two openings of the same pair agree. *)
Lemma same_opening (l m x y y' : pt C) v w v' w' :
  l = pmul C v (gen C) -> m = padd C (pmul C w (gen C)) (pmul C v x) -> y = pmul C w (gen C) ->
  l = pmul C v' (gen C) -> m = padd C (pmul C w' (gen C)) (pmul C v' x) -> y' = pmul C w' (gen C) -> y = y'.
Proof.
move=> -> -> -> E1 E2 ->.
have q1 : (1 < q)%Z by case: Pq.
have hv := pmul_inj HC Pq HG E1.
have ev : pmul C v x = pmul C v' x by apply: (pmul_eqm q C HC); [lia|exact: hv].
by move: E2; rewrite ev => /(f_equal (fun t => padd C t (popp C (pmul C v' x)))); rewrite -!(c_addA _ _ HC) (c_addN _ _ HC) !(c_add0 _ _ HC).
Qed.

Lemma recv2_elog (s : sg_round2 C I HO) from m p : sg_recv2 S X s from m = Accept p ->
  exists e2 n2 snd, [/\ m_echo m = Some (S2EB e2), m_normal m = Some (S2NB n2), aget (s2_r1 s) from = Some snd, l2_gamma p = e2_gamma e2 &
    elog_verify C _ X (n2_elog n2) (ElogPublic (l1_b1 snd) (l1_b2 snd) (l1_y snd) (e2_gamma e2) (gen C)) (sg_aux (s2_ctx s) from) = true].
Proof.
rewrite /sg_recv2 => U; have [eb E1 {}U] := vbind_inv U.
have [nb E2 {}U] := vbind_inv U; have [? _ {}U] := vbind_inv U; have [? _ {}U] := vbind_inv U.
have [? _ {}U] := vbind_inv U; have [? _ {}U] := vbind_inv U; have [? _ {}U] := vbind_inv U.
have [sd E3 {}U] := vbind_inv U; have [? _ {}U] := vbind_inv U; have [? _ {}U] := vbind_inv U.
have [? E4 {}U] := vbind_inv U; have [? _ {}U] := vbind_inv U; have [? _ {}U] := vbind_inv U.
have [? _ {}U] := vbind_inv U; have [? _ {}U] := vbind_inv U; have [? _ {}U] := vbind_inv U.
have [? _ {}U] := vbind_inv U; case: U => <- /=.
exists eb, nb, sd; split=> //.
- by move: E1; rewrite /deser; case: (m_echo m) => // -[] //= ? [->].
- by move: E2; rewrite /deser; case: (m_normal m) => // -[] //= ? [->].
- by move: E3; rewrite /safe_get; case: aget => // ? [->].
- by move: E4; rewrite /require; case: elog_verify.
Qed.

Lemma recv1_echo (c : sg_ctx C I HO) from m p : sg_recv1 S X c from m = Accept p ->
  exists e1, [/\ m_echo m = Some (S1EB e1), l1_b1 p = e1_b1 e1, l1_b2 p = e1_b2 e1 & l1_y p = e1_y e1].
Proof.
rewrite /sg_recv1 => U; have [? _ {}U] := vbind_inv U; have [? _ {}U] := vbind_inv U.
have [eb E1 {}U] := vbind_inv U; have [? _ {}U] := vbind_inv U; have [? _ {}U] := vbind_inv U.
have [? _ {}U] := vbind_inv U; have [? _ {}U] := vbind_inv U; have [? _ {}U] := vbind_inv U; have [? _ {}U] := vbind_inv U.
case: U => <-; exists eb; split=> //.
by move: E1; rewrite /deser; case: (m_echo m) => // -[] //= ? [->].
Qed.

(** What is known of a peer [l] once round 3 is reached. *)
Lemma peer_pledge c e r2 r3 m1 m2 o1 o2 s l : sg_until3 S le X c e r2 r3 m1 m2 o1 o2 = Accept s ->
  l \in o1 -> l \in o2 -> l != sx_id c -> not_a_guess q (m1 l) (m2 l) ->
  exists e1 e2 v w, [/\ m_echo (m1 l) = Some (S1EB e1), m_echo (m2 l) = Some (S2EB e2), e1_b1 e1 = pmul C v (gen C),
    e1_b2 e1 = padd C (pmul C w (gen C)) (pmul C v (e1_y e1)) & e2_gamma e2 = pmul C w (gen C)].
Proof.
move=> /until3_inv [s2 [p2 [U2 R2 _]]] h1 h2 nl.
have [p1 R1 [g1 g2 g3]] := until2_inv U2.
have [_ _ k1] := round_inv R1; have [_ _ k2] := round_inv R2.
have [t1 A1 G1] := k1 l h1; have [t2 A2 _] := k2 l h2.
have [e1 [E1 b1 b2 b3]] := recv1_echo A1.
have [e2 [n2 [sd [E2 E3 E4 _ V]]]] := recv2_elog A2.
move: E4; rewrite g2 aget_binsert (negbTE nl) G1 => -[es]; rewrite -es b1 b2 b3 in V.
move=> [f1 [f2 [fn [D1 D2 D3 [ch [c1 c2 c3]]]]]].
move: D1 D2 D3; rewrite E1 E2 E3 => -[d1] [d2] [d3]; subst f1 f2 fn.
have [v [w [o1' o2' o3']]] := opened HX V c1 c2 c3.
by exists e1, e2, v, w.
Qed.

Lemma peer_fixed c e r2 r3 m1 m2 o1 o2 s c' e' r2' r3' m1' m2' o1' o2' s' l P P' :
  sg_until3 S le X c e r2 r3 m1 m2 o1 o2 = Accept s -> sg_until3 S le X c' e' r2' r3' m1' m2' o1' o2' = Accept s' ->
  l \in o1 -> l \in o2 -> l != sx_id c -> l \in o1' -> l \in o2' -> l != sx_id c' ->
  m_echo (m1 l) = m_echo (m1' l) ->
  not_a_guess q (m1 l) (m2 l) -> not_a_guess q (m1' l) (m2' l) ->
  nonce_part (m2 l) P -> nonce_part (m2' l) P' -> P = P'.
Proof.
move=> U U' h1 h2 h3 h1' h2' h3' ee n n' [x E ->] [x' E' ->].
have [e1 [e2 [v [w [a1 a2 a3 a4 a5]]]]] := peer_pledge U h1 h2 h3 n.
have [f1 [f2 [v' [w' [b1 b2 b3 b4 b5]]]]] := peer_pledge U' h1' h2' h3' n'.
move: ee; rewrite a1 b1 => -[ee]; subst f1.
move: E; rewrite a2 => -[<-]; move: E'; rewrite b2 => -[<-].
exact: same_opening a3 a4 a5 b3 b4 b5.
Qed.

(** The combined nonce is the own part plus the parts of the peers. *)
Lemma gamma_sum c e r2 r3 m1 m2 o1 o2 s : party_ok c -> perm_eq o2 (sx_others c) ->
  sg_until3 S le X c e r2 r3 m1 m2 o1 o2 = Accept s ->
  s3_gamma s = padd C (pmul C (sx_gamma c) (gen C)) (sum_pts [seq gamma_of (m_echo (m2 l)) | l <- sx_others c]).
Proof.
move=> hc h2 /until3_inv [s2 [p2 [U2 R2 F2]]].
have [f1 _ _ _ [f5 f6 _ _]] := finalize2_inv F2.
have [p1 _ [g1 _ g3]] := until2_inv U2.
have [hu hn] := party_others hc.
have k2 : perm_eq (akeys [seq (x.1, l2_gamma x.2) | x <- p2]) (sx_others c).
  by rewrite akeys_map_val; exact: perm_trans (round_keys R2) h2.
have my2 : sx_id c \notin akeys [seq (x.1, l2_gamma x.2) | x <- p2] by rewrite (perm_mem k2).
pose f k := if k == sx_id c then pmul C (sx_gamma c) (gen C) else gamma_of (m_echo (m2 k)).
have kp : perm_eq (akeys (s3_gammas s)) (sx_id c :: sx_others c).
  by rewrite f5 g1 (perm_trans (perm_binsert _ _ my2)) // perm_cons.
have uk : uniq (sx_id c :: sx_others c) by rewrite /= hn hu.
have ug : uniq (akeys (s3_gammas s)) by rewrite (perm_uniq kp).
rewrite f6 (sum_avals HC (f := f) ug kp).
  rewrite /= (sum_pts_cons HC) /f eqxx; congr (padd C _ (sum_pts _)).
  by apply/eq_in_map => k hk; case: eqP => // ek; rewrite -ek hk in hn.
move=> k hk; rewrite f5 g1 aget_binsert /f g3; case: eqP => [_|/eqP ne]; first by [].
move: hk; rewrite inE (negbTE ne) /= => hk.
rewrite aget_map_val; have [_ _ /(_ k)] := round_inv R2.
by rewrite (perm_mem h2) => /(_ hk) [pl hr ->] /=; rewrite (recv2_gamma hr).
Qed.

(** ** Two worlds seen by one party *)

Lemma nonce_fixed c e r2 r3 m1 m2 o1 o2 s c' e' r2' r3' m1' m2' o1' o2' s' :
  party_ok c -> party_ok c' -> sx_id c = sx_id c' -> sx_all c = sx_all c' ->
  perm_eq o1 (sx_others c) -> perm_eq o2 (sx_others c) -> perm_eq o1' (sx_others c') -> perm_eq o2' (sx_others c') ->
  sg_until3 S le X c e r2 r3 m1 m2 o1 o2 = Accept s -> sg_until3 S le X c' e' r2' r3' m1' m2' o1' o2' = Accept s' ->
  same_echoes (sx_all c) (sx_id c) m1 m1' ->
  {in without (sx_all c) (sx_id c), forall l, not_a_guess q (m1 l) (m2 l) /\ not_a_guess q (m1' l) (m2' l)} ->
  exists P, s3_gamma s = padd C P (pmul C (sx_gamma c) (gen C)) /\ s3_gamma s' = padd C P (pmul C (sx_gamma c') (gen C)).
Proof.
move=> hc hc' ei ea p1 p2 p1' p2' U U' he hn.
have [hu _ ho] := hc; have [_ _ ho'] := hc'.
have eo : sx_others c = sx_others c' by rewrite ho ho' ei ea.
exists (sum_pts [seq gamma_of (m_echo (m2 l)) | l <- sx_others c]).
rewrite (gamma_sum hc p2 U) (gamma_sum hc' p2' U') -eo; split; first exact: c_addC HC _ _.
rewrite (c_addC _ _ HC); congr (padd C (sum_pts _) _); apply/eq_in_map => l hl.
have hl' := hl; rewrite ho in hl'; have [n n'] := hn l hl'.
have nl : l != sx_id c by move: hl'; rewrite mem_filter => /andP [].
have [e1 [e2 [n2 [_ E _ _]]]] := n; have [e1' [e2' [n2' [_ E' _ _]]]] := n'.
have := peer_fixed (l := l) (P := e2_gamma e2') (P' := e2_gamma e2) U' U.
rewrite !(perm_mem p1, perm_mem p2, perm_mem p1', perm_mem p2') -eo hl -ei nl (he l hl') E E' /=.
by apply=> //; [exists e2'|exists e2].
Qed.

Variables (H : dst -> seq item -> HO) (scheme : seq item).
Variables (xcoord : pt C -> Z) (lift_x : nat -> Z -> option (pt C)) (positional : bool).

Lemma run_r c e r2 r3 m1 m2 m3 m4 o1 o2 o3 o4 sig :
  sg_run S le X xcoord lift_x positional c e r2 r3 m1 m2 m3 m4 o1 o2 o3 o4 = Accept sig ->
  exists2 s, sg_until3 S le X c e r2 r3 m1 m2 o1 o2 = Accept s & sig_r sig = xcoord (s3_gamma s).
Proof.
move=> hr; have [t [pl4 [U4 R4 F4]]] := run_inv hr.
have [s3 [pl3 [U3 R3 F3]]] := until4_inv U4.
exists s3 => //.
have [di [_ _ _ et]] := finalize3_inv HC F3.
move: F4; rewrite /sg_finalize4 et /= /from_scalars.
case: ifP => // _; case: ifP => // _.
by case: (trial_recovery _ _ _ _ _ _ _) => // ? [<-].
Qed.

Lemma start_gamma rnd id entry ra c e : sg_start S H scheme rnd id entry ra = Ok (c, e) -> sx_gamma c = g1_gamma ra.
Proof.
rewrite /sg_start; case: ifP => // _.
do 5 (case: (of_o _) => //= ?).
by case=> <- _.
Qed.

Lemma nonce_chosen rnd rnd' id entry entry' ra ra' c c' e e' r2 r2' r3 r3' m1 m2 m3 m4 m1' m2' m3' m4'
    o1 o2 o3 o4 o1' o2' o3' o4' sig sig' :
  let ids := akeys (zs_public (se_share entry)) in
  let others := without ids id in
  uniq ids -> id \in ids -> akeys (zs_public (se_share entry')) = ids ->
  sg_start S H scheme rnd id entry ra = Ok (c, e) -> sg_start S H scheme rnd' id entry' ra' = Ok (c', e') ->
  perm_eq o1 others -> perm_eq o2 others -> perm_eq o1' others -> perm_eq o2' others ->
  sg_run S le X xcoord lift_x positional c e r2 r3 m1 m2 m3 m4 o1 o2 o3 o4 = Accept sig ->
  sg_run S le X xcoord lift_x positional c' e' r2' r3' m1' m2' m3' m4' o1' o2' o3' o4' = Accept sig' ->
  same_echoes ids id m1 m1' ->
  {in others, forall l, not_a_guess q (m1 l) (m2 l) /\ not_a_guess q (m1' l) (m2' l)} ->
  exists P, sig_r sig = xcoord (padd C P (pmul C (g1_gamma ra) (gen C))) /\
            sig_r sig' = xcoord (padd C P (pmul C (g1_gamma ra') (gen C))).
Proof.
move=> ids others hu hi ep hs hs' p1 p2 p1' p2' hr hr' he hn.
have hp := start_party hu hi hs; have [a1 a2 a3 _ _] := start_inv hs.
have hu' : uniq (akeys (zs_public (se_share entry'))) by rewrite ep.
have hi' : id \in akeys (zs_public (se_share entry')) by rewrite ep.
have hp' := start_party hu' hi' hs'; have [b1 b2 b3 _ _] := start_inv hs'.
have [s U ->] := run_r hr; have [s' U' ->] := run_r hr'.
rewrite -(start_gamma hs) -(start_gamma hs').
have o : sx_others c = others by rewrite a3 a2.
have o' : sx_others c' = others by rewrite b3 b2 ep.
have [] := nonce_fixed hp hp' _ _ _ _ _ _ U U' _ _; rewrite ?o ?o' ?a1 ?b1 ?a2 ?b2 ?ep // => P [-> ->].
by exists P.
Qed.
End Nonce.
