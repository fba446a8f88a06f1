(** * Agreement between the parties of a session: resharing and signing. *)
From Coq Require Import ZArith Znumtheory Lia.
From Verif Require Import Base BaseFacts ModArith EncodingModel PaillierModel ZkBase ZkFacts ZkModel.
From mathcomp Require Import all_ssreflect all_algebra.
From Verif Require Import AlgBase AlgFacts ThresholdModel ShamirModel ShamirSpec ProtoBase ProtoSpec ProtoFacts ReshareModel ReshareProofs AgreeSpec
  AuxGenModel SigningModel SigningSpec SigningAlgebra SigningProofs SigningShares SigningMain.
Set Implicit Arguments.
Unset Strict Implicit.
Unset Printing Implicit Defensive.
Import GRing.Theory.
Local Open Scope ring_scope.

Section Resharing.
Variables (F : fieldType) (V : lmodType F) (g : V) (I : eqType) (le : rel I).

Lemma rs_agree (old old' : option (tshare V I)) n n' news tnew id id' draws draws' s s' d d' own own' m m' ord ord' k k' e :
  total_order le -> uniq news -> nh_old_holders n = nh_old_holders n' ->
  sorted le (nh_old_holders n) -> uniq (nh_old_holders n) ->
  rs_start g old (Some n) news tnew id draws = Ok s -> rs_start g old' (Some n') news tnew id' draws' = Ok s' ->
  (old <> None -> id \in nh_old_holders n) -> (old' <> None -> id' \in nh_old_holders n') ->
  perm_eq ord (r1_expecting s) -> perm_eq ord' (r1_expecting s') ->
  rs_run g le s m ord = Accept k -> rs_run g le s' m' ord' = Accept k' ->
  rs_send s d = Ok own -> rs_send s' d' = Ok own' ->
  heard (nh_old_holders n) id own m e -> heard (nh_old_holders n') id' own' m' e ->
  exists share share', [/\ k = Some share, k' = Some share', ts_threshold share = ts_threshold share',
    ts_share_ids share = ts_share_ids share' & ts_public share = ts_public share'].
Proof.
move=> ho un eo so uo hs hs' hi hi' hp hp' hr hr' ow ow' he he'.
have so' := so; have uo' := uo; rewrite eo in so' uo'.
have [sh [po [si [[a1 a2 a3] [[b1 _ b2 _ _] [c1 c2 _]]]]]] := rs_finished_full ho hs un so uo hi hp hr.
have [sh' [po' [si' [[a1' a2' a3'] [[b1' _ b2' _ _] [c1' c2' _]]]]]] := rs_finished_full ho hs' un so' uo' hi' hp' hr'.
have W (o : option (tshare V I)) nn i dr ss dd ow1 mm pp qq :
    rs_start g o (Some nn) news tnew i dr = Ok ss -> rs_send ss dd = Ok ow1 -> heard (nh_old_holders nn) i ow1 mm e ->
    (i \in nh_old_holders nn -> o <> None) ->
    {in without (nh_old_holders nn) i, forall j, exists d, mm j = Msg (Some (WDM V d)) (Some (WEB (pp j) (qq j))) None} ->
    (forall t, o = Some t -> ts_share_id t = Ok (qq i) /\ pp i = poly_public g (poly_random (ts_secret t) tnew dr)) ->
    {in nh_old_holders nn, forall j, e j = Some (WEB (pp j) (qq j))}.
  move=> h1 h2 h3 h4 h5 h6 j hj; rewrite -(h3 j hj); case: eqP => [ej|/eqP nj]; last first.
    by have [|dd1 ->] := h5 j; first by rewrite mem_filter nj.
  subst j; have [_] := rs_start_inv h1; move: h2; rewrite /rs_send.
  case: (o) (h4 hj) h6 => [t|] // _ h6; case: (r1_old ss) => [od|] // h2 [k1 k2 k3].
  have [l1 l2] := h6 t erefl.
  move: h2; case: (aget _ _) => [z|] //=; case: (poly_evaluate _ _) => [v||] //= [<-] /=.
  by move: k1; rewrite l1 l2 k3 k2 => -[->].
have w := W _ _ _ _ _ _ _ _ _ _ hs ow he a3 c1 c2.
have w' := W _ _ _ _ _ _ _ _ _ _ hs' ow' he' a3' c1' c2'.
exists sh, sh'; split=> //; first by rewrite b2 b2'.
  by rewrite a1 a1'.
have : rs_publics po si (nh_old_holders n) news = rs_publics po' si' (nh_old_holders n') news.
  rewrite -eo; apply: rs_publics_eq => j hj; move: (w j hj); rewrite (w' j _) -?eo // => -[-> ->] //.
by rewrite a2 a2' => -[].
Qed.
End Resharing.

Section Signing.
Variables (S : sparams) (C : curve) (I : eqType) (le : rel I) (HO : eqType).
Notation item := (hitem HO I (pt C)).
Notation q := (sp_q S).
Variables (H : dst -> seq item -> HO) (X : xof (seq item) (pt C)) (scheme : seq item).
Variables (xcoord : pt C -> Z) (lift_x : nat -> Z -> option (pt C)) (positional : bool).
Hypothesis HC : curve_ok q C.
Hypothesis Pq : Znumtheory.prime q.
Hypothesis HX : xcoord_ok q xcoord.

Lemma sg_output c e r2 r3 m1 m2 m3 m4 o1 o2 o3 o4 s2 sig h : party_ok c ->
  perm_eq o2 (sx_others c) -> perm_eq o3 (sx_others c) -> perm_eq o4 (sx_others c) ->
  sg_run S le X xcoord lift_x positional c e r2 r3 m1 m2 m3 m4 o1 o2 o3 o4 = Accept sig ->
  sg_until2 S le X c e r2 m1 o1 = Accept s2 -> heard (sx_all c) (sx_id c) (sg_send2 s2) m2 h ->
  let R := sum_pts [seq gamma_of (h i) | i <- sx_all c] in
  exists z, [/\ Z.le 0 z /\ Z.lt z q, nonce_point xcoord (zs_vkey (sx_share c)) (sx_msg c) (xcoord R) z R &
    from_scalars S xcoord lift_x (xcoord R) z (zs_vkey (sx_share c)) (sx_msg c) = Some sig].
Proof.
move=> hc p2 p3 p4 hr h2 hh R.
have q1 : Z.lt 1 q by case: Pq.
have [t [pl4 [U4 R4 F4]]] := run_inv hr.
have [s3 [pl3 [U3 R3 F3]]] := until4_inv U4.
pose v := Seen c e r2 r3 m1 m2 m3 o1 o2 o3 s2 s3 t.
have hv : reached4 S le X xcoord v by [].
have ER : s4_gamma t = R.
  have [di [_ _ -> _ _]] := seen_delta HC Pq hv; rewrite (seen_gamma HC hv) /=; congr sum_pts.
  by apply/eq_in_map => k hk; rewrite /echo2 /= hh.
have [et hn] := round4_nonce HC q1 hc p3 p4 U4 R4.
exists (Z.modulo (sum_scs S (avals pl4) + s4_sigma t) q); split.
- by apply: Z.mod_pos_bound; lia.
- by rewrite -ER.
- by move: F4; rewrite /sg_finalize4 et ER; case: (from_scalars _ _ _ _ _ _ _) => //= ? [->].
Qed.

Lemma sg_agree_ctx c c' e e' r2 r2' r3 r3' m1 m2 m3 m4 m1' m2' m3' m4' o1 o2 o3 o4 o1' o2' o3' o4' s2 s2' sig sig' h :
  party_ok c -> party_ok c' ->
  sx_all c = sx_all c' -> zs_vkey (sx_share c) = zs_vkey (sx_share c') -> sx_msg c = sx_msg c' ->
  perm_eq o2 (sx_others c) -> perm_eq o3 (sx_others c) -> perm_eq o4 (sx_others c) ->
  perm_eq o2' (sx_others c') -> perm_eq o3' (sx_others c') -> perm_eq o4' (sx_others c') ->
  sg_run S le X xcoord lift_x positional c e r2 r3 m1 m2 m3 m4 o1 o2 o3 o4 = Accept sig ->
  sg_run S le X xcoord lift_x positional c' e' r2' r3' m1' m2' m3' m4' o1' o2' o3' o4' = Accept sig' ->
  sg_until2 S le X c e r2 m1 o1 = Accept s2 -> sg_until2 S le X c' e' r2' m1' o1' = Accept s2' ->
  heard (sx_all c) (sx_id c) (sg_send2 s2) m2 h -> heard (sx_all c') (sx_id c') (sg_send2 s2') m2' h ->
  sig = sig'.
Proof.
move=> hc hc' ea ev em p2 p3 p4 p2' p3' p4' hr hr' u u' hh hh'.
have [z [hz [n1 n2] hf]] := sg_output hc p2 p3 p4 hr u hh.
have [z' [hz' [n1' n2'] hf']] := sg_output hc' p2' p3' p4' hr' u' hh'.
move: n1' n2' hf'; rewrite -ea -ev -em => n1' n2' hf'.
set R := sum_pts _ in n1 n2 hf n1' n2' hf'.
have R0 : R <> p0 C.
  by move=> E; move: hf; rewrite E (xc_zero HX) (from_scalars_refuses _ _ HC) //; left.
have E : z = z'.
  have := pmul_inj HC Pq R0 (etrans n1 (esym n1')).
  by rewrite !Z.mod_small.
by move: hf; rewrite E hf' => -[].
Qed.

Lemma sg_agree rnd rnd' id id' entry entry' ra ra' c c' e e' r2 r2' r3 r3' m1 m2 m3 m4 m1' m2' m3' m4'
    o1 o2 o3 o4 o1' o2' o3' o4' s2 s2' sig sig' h :
  let ids := akeys (zs_public (se_share entry)) in
  uniq ids -> id \in ids -> id' \in ids ->
  zs_public (se_share entry) = zs_public (se_share entry') -> se_message entry = se_message entry' ->
  sg_start S H scheme rnd id entry ra = Ok (c, e) -> sg_start S H scheme rnd' id' entry' ra' = Ok (c', e') ->
  perm_eq o2 (without ids id) -> perm_eq o3 (without ids id) -> perm_eq o4 (without ids id) ->
  perm_eq o2' (without ids id') -> perm_eq o3' (without ids id') -> perm_eq o4' (without ids id') ->
  sg_run S le X xcoord lift_x positional c e r2 r3 m1 m2 m3 m4 o1 o2 o3 o4 = Accept sig ->
  sg_run S le X xcoord lift_x positional c' e' r2' r3' m1' m2' m3' m4' o1' o2' o3' o4' = Accept sig' ->
  sg_until2 S le X c e r2 m1 o1 = Accept s2 -> sg_until2 S le X c' e' r2' m1' o1' = Accept s2' ->
  heard ids id (sg_send2 s2) m2 h -> heard ids id' (sg_send2 s2') m2' h ->
  sig = sig'.
Proof.
move=> ids hu hi hi' ep em hs hs'.
have hp := start_party hu hi hs; have [a1 a2 a3 a4 a5] := start_inv hs.
have hu' : uniq (akeys (zs_public (se_share entry'))) by rewrite -ep.
have hi2 : id' \in akeys (zs_public (se_share entry')) by rewrite -ep.
have hp' := start_party hu' hi2 hs'; have [b1 b2 b3 b4 b5] := start_inv hs'.
move=> p2 p3 p4 p2' p3' p4' hr hr' u u' hh hh'.
have o : sx_others c = without ids id by rewrite a3 a2.
have o' : sx_others c' = without ids id' by rewrite b3 b2 -ep.
apply: (sg_agree_ctx hp hp' _ _ _ _ _ _ _ _ _ hr hr' u u' (h := h)); rewrite ?o ?o' ?a1 ?b1 ?a2 ?b2 -?ep //.
- by rewrite a4 b4 /zs_vkey ep.
- by rewrite a5 b5 em.
Qed.
End Signing.
