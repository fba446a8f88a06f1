(** * Signing evidence that agrees with the receiver's check (property C54). *)
From Coq Require Import ZArith Lia.
From Verif Require Import Base BaseFacts EncodingModel SignedModel PaillierModel ZkBase ZkModel ElogModel.
From mathcomp Require Import all_ssreflect.
From Verif Require Import AlgBase AlgFacts ProtoBase ProtoSpec ProtoFacts AuxGenModel SigningModel SigningSpec SigningAlgebra SigningProofs
  SigningShares SigningEvidenceSpec.
Set Implicit Arguments.
Unset Strict Implicit.
Unset Printing Implicit Defensive.

Lemma mapV_reject E (K : eqType) A B (f : K * A -> recv E B) (l : seq (K * A)) e : uniq (akeys l) -> mapV f l = Reject e ->
  exists j x, aget l j = Some x /\ f (j, x) = Reject e.
Proof.
elim: l => [|[j x] l IH] //= /andP [hj hu].
case Ef: (f (j, x)) => [b|e'||] //=; last by case=> <-; exists j, x; rewrite eqxx.
case Em: (mapV f l) => [bs|e'||] //= [ee]; have [j' [x' [h1 h2]]] := IH hu (etrans Em (f_equal _ ee)).
exists j', x'; split=> //; case: eqP => // e2; move: hj; rewrite -e2; by rewrite (aget_in h1).
Qed.
Lemma mapV_accept E (K : eqType) A B (f : K * A -> recv E B) (l : seq (K * A)) bs : mapV f l = Accept bs ->
  forall j x, aget l j = Some x -> exists b, f (j, x) = Accept b.
Proof.
elim: l bs => [|[j x] l IH] bs //= U j' x'.
have [b E1 {}U] := vbind_inv U; have [bs' E2 _] := vbind_inv U.
by case: eqP => [-> [<-]|_]; [exists b|exact: IH E2 _ _].
Qed.
Lemma vbind_reject E A B (r : recv E A) (k : A -> recv E B) e : (x <!- r ;; k x) = Reject e ->
  r = Reject e \/ exists2 a, r = Accept a & k a = Reject e.
Proof. by case: r => [a|e'||] //= h; [right; exists a|left; case: h => ->]. Qed.
Lemma deser_ok E W T bad (as_t : W -> option T) p t : deser (E := E) bad as_t p = Accept t -> obind as_t p = Some t.
Proof. by case: p => //= x; case: (as_t x) => // ? [->]. Qed.
Lemma deser_proto E W T bad (as_t : W -> option T) p e : deser (E := E) bad as_t p = Reject e -> bad = e.
Proof. by case: p => [x|] /=; [case: (as_t x) => // -[]|case]. Qed.
Lemma ev_deser_ok W T (as_t : W -> option T) p t : obind as_t p = Some t -> ev_deser as_t p = EvOk t.
Proof. by rewrite /ev_deser => ->. Qed.
Lemma safe_get_ok E (K : eqType) A (m : seq (K * A)) k a : safe_get (E := E) m k = Accept a -> aget m k = Some a.
Proof. by rewrite /safe_get; case: aget => // ? [->]. Qed.

Section Evidence.
Variables (S : sparams) (C : curve) (I : eqType) (le : rel I) (HO : eqType).
Notation item := (hitem HO I (pt C)).
Notation q := (sp_q S).
Variables (H : dst -> seq item -> HO) (X : xof (seq item) (pt C)) (scheme : seq item).
Variables (xcoord : pt C -> Z) (positional : bool).
Notation msg := (message (sg_wire C I)).

Lemma start_more randomness id e r c eb : sg_start S H scheme randomness id e r = Ok (c, eb) ->
  [/\ sx_epid c = sg_epid H scheme randomness (assoc_of e), aux_precompute (ai_public (se_aux e)) = Ret (sx_aux c) &
      sx_sk c = ai_sk (se_aux e)].
Proof.
rewrite /sg_start; case: ifP => // _.
case E: (aux_precompute _) => [aux|] //=.
by do 4 (case: (of_o _) => //= ?); case=> <- _.
Qed.

Lemma aux_get (l aux : seq (I * (Z * rpparams))) : aux_precompute l = Ret aux ->
  akeys aux = akeys l /\
  forall j x, aget aux j = Some x -> exists y, [/\ aget l j = Some y, public_key_new y.1 = Ret x.1 & rp_pre y.2 = Ret x.2].
Proof.
rewrite /aux_precompute; elim: l aux => [|[j [n rp]] l IH] aux /=; first by case=> <-.
case En: (public_key_new n) => [n'|] //=; case Er: (rp_pre rp) => [r'|] //=.
case El: (ZkModel.omap _ _) => [aux'|] //= [<-]; have [h1 h2] := IH _ El; split; first by rewrite /akeys /= -!/(akeys _) h1.
by move=> k x /=; case: eqP => [_ [<-]|_ /h2] //; exists (n, rp).
Qed.
Lemma ev_keys (e : sg_entry C I) aux j x : aux_precompute (ai_public (se_aux e)) = Ret aux -> aget aux j = Some x ->
  ev_pk (assoc_of e) j = EvOk x.1 /\ ev_rp (assoc_of e) j = EvOk x.2.
Proof.
move=> /aux_get [_ h] /h [y [h1 h2 h3]].
by rewrite /ev_pk /ev_rp /try_get /= h1 /= h2 h3.
Qed.

(** The receiver. *)
Variables (randomness : seq Z) (me : I) (e : sg_entry C I) (r1 : sg_rand1) (c : sg_ctx C I HO) (eb : r1eb C).
Variables (r2 : sg_rand2 I) (m1 : I -> msg) (o1 : seq I) (s : sg_round2 C I HO).
Hypothesis (hen : entry_ok me e).
Hypothesis (hst : sg_start S H scheme randomness me e r1 = Ok (c, eb)).
Notation ids := (akeys (zs_public (se_share e))).
Hypothesis ho1 : perm_eq o1 (without ids me).
Hypothesis hs : sg_until2 S le X c eb r2 m1 o1 = Accept s.
Variables (guilty : I) (hist : nat -> msg) (echos : nat -> seq (I * sg_wire C I)).
Hypothesis hg : guilty \in without ids me.
Hypothesis hh1 : hist 1 = m1 guilty.
Definition saw1 (j : I) : option (sg_wire C I) := if j == me then Some (S1EB eb) else m_echo (m1 j).
Hypothesis he1 : echoes_as ids guilty saw1 (echos 1).
Notation judge m err := (sg_evidence S H X scheme xcoord positional randomness (assoc_of e) guilty err
  (assemble (@sg_required I err) m hist echos)).

Lemma recv1_inv i m p : sg_recv1 S X c i m = Accept p ->
  exists b y, [/\ m_echo m = Some (S1EB b), aget (sx_aux c) i = Some y & p = r1_payload y.1 b].
Proof.
rewrite /sg_recv1 => U; have [? _ {}U] := vbind_inv U; have [dm _ {}U] := vbind_inv U; have [b Eb {}U] := vbind_inv U.
have [? _ {}U] := vbind_inv U; have [y Ey {}U] := vbind_inv U.
have [? _ {}U] := vbind_inv U; have [? _ {}U] := vbind_inv U; have [? _ {}U] := vbind_inv U; have [? _ {}U] := vbind_inv U.
case: U => <-; exists b, y; split=> //; last exact: safe_get_ok Ey.
by have := deser_ok Eb; case: (m_echo m) => //= -[] //= ? [->].
Qed.

Let hid : sx_id c = me. Proof. by have [] := start_inv hst. Qed.
Let hall : sx_all c = ids. Proof. by have [] := start_inv hst. Qed.
Let hctx : s2_ctx s = c. Proof. by have [? _ []] := until2_inv hs. Qed.

(** Everybody's round 1 data as the receiver keeps them. *)
Lemma r1_get j pl : aget (s2_r1 s) j = Some pl -> j \in ids ->
  exists b y, [/\ saw1 j = Some (S1EB b), aget (sx_aux c) j = Some y & pl = r1_payload y.1 b].
Proof.
have [p1 R1 [_ -> _]] := until2_inv hs; rewrite aget_binsert hid /saw1.
case: eqP => [->|/eqP ne] hpl hj.
  case: hpl => <-; exists eb.
  have [_ Ea Es] := start_more hst; have [ka ga] := aux_get Ea.
  have : me \in akeys (sx_aux c) by rewrite ka (en_keys hen).
  case/in_aget => y hy; exists y; split=> //.
  have [z [h1 h2 _]] := ga _ _ hy; have [rp] := en_own hen; rewrite h1 => -[hz].
  by move: h2; rewrite hz /public_key_new /= Es; case: ifP => // _ [->].
have [_ hmem get] := round_inv R1.
have hjo : j \in o1 by rewrite (perm_mem ho1) mem_filter ne.
by have [t /recv1_inv [b [y [h1 h2 ->]]]] := get _ hjo; rewrite hpl => -[->]; exists b, y.
Qed.

Lemma recv2_reject m err : provable2 err -> sg_recv2 S X s guilty m = Reject (Proto err) -> judge m err = EvOk tt.
Proof.
move=> hp; rewrite /sg_recv2 hctx.
case/vbind_reject => [/deser_proto //|[b Eb]].
case/vbind_reject => [/deser_proto //|[nb En]].
case/vbind_reject => [|[u _]]; first by case: (m_direct m).
case/vbind_reject => [|[y Ey]]; first by rewrite /safe_get; case: aget.
  have {}Ey := safe_get_ok Ey.
have Eids : ev_ids (assoc_of e) guilty = without ids guilty by rewrite /ev_ids /= (en_keys hen).
have {}Eb := deser_ok Eb; have {}En := deser_ok En.
rewrite hall.
case/vbind_reject => [|[? _]].
  rewrite /require; case: eqP => // /eqP h [<-]; by rewrite /sg_evidence /= (ev_deser_ok En) /= Eids h.
case/vbind_reject => [|[? _]].
  rewrite /require; case: eqP => // /eqP h [<-]; by rewrite /sg_evidence /= (ev_deser_ok Eb) /= Eids h.
case/vbind_reject => [|[? Ep]].
  rewrite /require; case: eqP => // /eqP h [<-]; by rewrite /sg_evidence /= (ev_deser_ok En) /= Eids h.
have {}Ep : akeys (n2_psis nb) = without ids guilty by move: Ep; rewrite /require; case: eqP.
case/vbind_reject => [|[snd Es]]; first by rewrite /safe_get; case: aget.
  have {}Es := safe_get_ok Es.
have [Eepid Eaux Esk] := start_more hst.
have [k1 k2] := ev_keys Eaux Ey.
case/vbind_reject.
  rewrite /sg_check_psis hctx => /mapV_reject [|j [pf [Ej]]].
    by rewrite Ep filter_uniq // (en_uniq hen).
  have hj : j \in without ids guilty by rewrite -Ep (aget_in Ej).
  case/vbind_reject => [|[aj Ea]]; first by rewrite /safe_get; case: aget.
  have {}Ea := safe_get_ok Ea.
  case/vbind_reject => [|[pl El]]; first by rewrite /safe_get; case: aget.
  have {}El := safe_get_ok El.
  case/vbind_reject => [|[d Ed]]; first by rewrite /safe_get; case: aget.
  have {}Ed := safe_get_ok Ed.
  case/vbind_reject => [|[f Ef]]; first by rewrite /safe_get; case: aget.
  have {}Ef := safe_get_ok Ef.
  rewrite /=; case Ev: (aff_g_verify _ _ _ _ _ _) => [ok|] //=.
  rewrite /require; case: ok Ev => // Ev [<-].
  have [ka kb] := ev_keys Eaux Ea.
  have [|b1 [yj [h1 h2 h3]]] := r1_get El; first by move: hj; rewrite mem_filter => /andP [].
  have Ee : aget (echos 1) j = Some (S1EB b1) by rewrite (proj2 he1 _ hj).
  rewrite /sg_evidence /ev_aff_g /= /ev_echo_of /= /try_get /= Ee /= (ev_deser_ok Eb) /= (ev_deser_ok En) /= kb /= ka /= k1 /=.
  move: h2; rewrite Ea => -[e2]; rewrite -e2 in h3.
  by rewrite Ed /= Ef /= Ej /=; move: Ev; rewrite /sg_aux Eepid h3 /= => ->.
case=> df _.
case/vbind_reject.
  rewrite /sg_check_psis hctx => h; exfalso; move: h; elim: (n2_hat_psis nb) => [|pj l IH] //=.
  case/vbind_reject; last by case=> ? _; case/vbind_reject => //; case.
  case/vbind_reject => [|[? _]]; first by rewrite /safe_get; case: aget.
  case/vbind_reject => [|[? _]]; first by rewrite /safe_get; case: aget.
  case/vbind_reject => [|[? _]]; first by rewrite /safe_get; case: aget.
  case/vbind_reject => [|[? _]]; first by rewrite /safe_get; case: aget.
  case/vbind_reject => [|[? _]]; first by rewrite /safe_get; case: aget.
  case/vbind_reject => [|[ok _]]; first by case: aff_g_verify.
  case/vbind_reject; last by case.
  rewrite /require; case: ok => // -[ee].
  by move: hp; rewrite -ee; case=> [|[|[|[[]|]]]].
case=> hdf _.
case/vbind_reject; last first.
  case=> _ _; case/vbind_reject => [|[? _]]; first by rewrite /safe_get; case: aget.
  case/vbind_reject => [|[? _]]; first by case: decrypt.
  case/vbind_reject => [|[? _]]; first by rewrite /safe_get; case: aget.
  case/vbind_reject => [|[? _]]; first by case: decrypt.
  case/vbind_reject => [|[? _]]; first by case: scalar_of_secret.
  by case/vbind_reject => [|[? _]]; first by case: scalar_of_secret.
rewrite /require; case: ifP => // Ev [<-].
have gi : guilty \in ids by move: hg; rewrite mem_filter => /andP [].
have gne : (guilty == me) = false by move: hg; rewrite mem_filter => /andP [/negbTE].
have [b1 [yj [h1 _ h3]]] := r1_get Es gi; move: h1; rewrite /saw1 gne => h1.
rewrite /sg_evidence /= /ev_prev_echo /= /try_get /= hh1 /= /ev_deser /= h1 /= -/(ev_deser _ _) -/(ev_deser _ _).
by rewrite (ev_deser_ok En) /= (ev_deser_ok Eb) /= -[X in verify_that (~~ X)]/(elog_verify _ _ _ _ _ _); move: Ev; rewrite /sg_aux Eepid h3 /= => ->.
Qed.

Lemma recv2_accept m err pl : provable2 err -> sg_recv2 S X s guilty m = Accept pl -> judge m err = EvInvalid.
Proof.
move=> hp; rewrite /sg_recv2 hctx => U.
have [b Eb {}U] := vbind_inv U; have [nb En {}U] := vbind_inv U; have [? _ {}U] := vbind_inv U.
have [y Ey {}U] := vbind_inv U; have [? Ed {}U] := vbind_inv U; have [? Ef {}U] := vbind_inv U; have [? Ep {}U] := vbind_inv U.
have [snd Es {}U] := vbind_inv U; have [df Edf {}U] := vbind_inv U; have [hdf _ {}U] := vbind_inv U; have [? El _] := vbind_inv U.
have Eids : ev_ids (assoc_of e) guilty = without ids guilty by rewrite /ev_ids /= (en_keys hen).
have {}Eb := deser_ok Eb; have {}En := deser_ok En; have {}Ey := safe_get_ok Ey; have {}Es := safe_get_ok Es.
have [Eepid Eaux Esk] := start_more hst.
have [k1 k2] := ev_keys Eaux Ey.
move: Ed Ef Ep El; rewrite /require hall; case: eqP => // hd _; case: eqP => // hf _; case: eqP => // hpsi _; case: ifP => // Ev _.
case: hp => [->|[->|[->|[[j ->]|->]]]].
- by rewrite /sg_evidence /= (ev_deser_ok En) /= Eids hd eqxx.
- by rewrite /sg_evidence /= (ev_deser_ok Eb) /= Eids hf eqxx.
- by rewrite /sg_evidence /= (ev_deser_ok En) /= Eids hpsi eqxx.
- rewrite /sg_evidence /ev_aff_g /= /ev_echo_of /= /try_get /=.
  case hj: (j \in without ids guilty); last first.
    by rewrite aget_notin //= (proj1 he1) hj.
  have : j \in akeys (n2_psis nb) by rewrite hpsi.
  case/in_aget => pf Ej.
  have [x] := mapV_accept Edf Ej; rewrite hctx => V.
  have [aj Ea {}V] := vbind_inv V; have [pj Er {}V] := vbind_inv V; have [d Ed {}V] := vbind_inv V; have [f Ef {}V] := vbind_inv V.
  have {}Ea := safe_get_ok Ea; have {}Er := safe_get_ok Er; have {}Ed := safe_get_ok Ed; have {}Ef := safe_get_ok Ef.
  have [ka kb] := ev_keys Eaux Ea.
  have [|b1 [yj [h1 h2 h3]]] := r1_get Er; first by move: hj; rewrite mem_filter => /andP [].
  move: h2; rewrite Ea => -[e2]; rewrite -e2 in h3.
  have Ee : aget (echos 1) j = Some (S1EB b1) by rewrite (proj2 he1 _ hj).
  rewrite Ee /= (ev_deser_ok Eb) /= (ev_deser_ok En) /= kb /= ka /= k1 /= Ed /= Ef /= Ej /=.
  move: V; rewrite /= /sg_aux Eepid h3 /=.
  by case: (aff_g_verify _ _ _ _ _ _) => [[]|].
have gi : guilty \in ids by move: hg; rewrite mem_filter => /andP [].
have gne : (guilty == me) = false by move: hg; rewrite mem_filter => /andP [/negbTE].
have [b1 [yj [h1 _ h3]]] := r1_get Es gi; move: h1; rewrite /saw1 gne => h1.
rewrite /sg_evidence /= /ev_prev_echo /= /try_get /= hh1 /= /ev_deser /= h1 /= -/(ev_deser _ _) -/(ev_deser _ _).
by rewrite (ev_deser_ok En) /= (ev_deser_ok Eb) /=; move: Ev; rewrite /sg_aux Eepid h3 /= => ->.
Qed.
End Evidence.

Lemma ev_all_map (I : eqType) W T B (as_t : W -> option T) (g : T -> B) (G : option W -> B) (l : seq (I * W)) : uniq (akeys l) ->
  (forall k, k \in akeys l -> exists w t, [/\ aget l k = Some w, as_t w = Some t & G (Some w) = g t]) ->
  exists2 r, ev_all as_t l = EvOk r & [seq g p.2 | p <- r] = [seq G (aget l k) | k <- akeys l].
Proof.
elim: l => [|[k w] l IH] /=; first by exists [::].
move=> /andP [hk hu] h.
have [w' [t [/=]]] := h k (mem_head _ _); rewrite eqxx => -[<-] h1 h2.
have [|r hr hm] := IH hu.
  move=> k' hk'; have := h k'; rewrite inE hk' orbT => /(_ isT) /=.
  by case: eqP => // e; move: hk; rewrite -e hk'.
exists ((k, t) :: r); first by rewrite h1 hr.
rewrite /= hm -h2; congr cons; apply/eq_in_map => k' hk'.
by case: eqP => // e; move: hk; rewrite -e -/(akeys _) hk'.
Qed.

Section Round4.
Variables (S : sparams) (C : curve) (I : eqType) (le : rel I) (HO : eqType).
Notation item := (hitem HO I (pt C)).
Notation q := (sp_q S).
Hypotheses (HC : curve_ok q C) (Pq : Znumtheory.prime q).
Variables (H : dst -> seq item -> HO) (X : xof (seq item) (pt C)) (scheme : seq item).
Variables (xcoord : pt C -> Z) (positional : bool).
Notation msg := (message (sg_wire C I)).

Variables (randomness : seq Z) (me : I) (e : sg_entry C I) (r1 : sg_rand1) (v : seen C I HO).
Hypothesis (hen : entry_ok me e).
Hypothesis (hst : sg_start S H scheme randomness me e r1 = Ok (v_ctx v, v_eb v)).
Hypothesis (hv : reached4 S le X xcoord v).
Notation ids := (akeys (zs_public (se_share e))).
Variables (guilty : I) (hist : nat -> msg) (echos : nat -> seq (I * sg_wire C I)).
Hypothesis hg : guilty \in without ids me.
Hypotheses (hh2 : hist 2 = v_m2 v guilty) (hh3 : hist 3 = v_m3 v guilty).
Hypotheses (he2 : echoes_as ids guilty (echo2 v) (echos 2)) (he3 : echoes_as ids guilty (echo3 v) (echos 3)).
Notation judge m err := (sg_evidence S H X scheme xcoord positional randomness (assoc_of e) guilty err
  (assemble (@sg_required I err) m hist echos)).

Let hid : sx_id (v_ctx v) = me. Proof. by have [] := start_inv hst. Qed.
Let hall : sx_all (v_ctx v) = ids. Proof. by have [] := start_inv hst. Qed.
Let hmsg : sx_msg (v_ctx v) = scalar_of_bytes S (se_message e). Proof. by have [] := start_inv hst. Qed.

Lemma echo2_is k : k \in ids -> exists b, echo2 v k = Some (S2EB b).
Proof.
move=> hk; rewrite /echo2; case: eqP => [_|/eqP ne]; first by eexists.
have [s2 [p2 [U2 R2 _]]] := until3_inv (re_3 hv); have [_ _ get] := round_inv R2.
have hko : k \in v_o2 v by rewrite (perm_mem (re_o2 hv)); apply: (others_mem (re_ctx hv)); rewrite ?hall.
have [p U _] := get _ hko; move: U; rewrite /sg_recv2 => U; have [b Eb _] := vbind_inv U.
by exists b; have := deser_ok Eb; case: (m_echo _) => //= -[] //= ? [->].
Qed.
Lemma echo3_is k : k \in ids -> exists d, echo3 v k = Some (S3EB d).
Proof.
move=> hk; rewrite /echo3; case: eqP => [_|/eqP ne]; first by eexists.
have [s3 [p3 [U3 R3 _]]] := until4_inv (re_4 hv); have [_ _ get] := round_inv R3.
have hko : k \in v_o3 v by rewrite (perm_mem (re_o3 hv)); apply: (others_mem (re_ctx hv)); rewrite ?hall.
have [p U _] := get _ hko; move: U; rewrite /sg_recv3 => U; have [? _ {}U] := vbind_inv U; have [b Eb _] := vbind_inv U.
by exists b; have := deser_ok Eb; case: (m_echo _) => //= -[] //= ? [->].
Qed.

Lemma judge4 m sigma : obind (@as_4nb C I) (m_normal m) = Some sigma -> exists td ts,
  [/\ aget (s4_deltas (v_s4 v)) guilty = Some td, aget (s4_ss (v_s4 v)) guilty = Some ts &
   judge m R4InvalidSignatureShare =
     verify_that (~~ sg_share_ok xcoord (s4_gamma (v_s4 v)) td ts (sx_msg (s4_ctx (v_s4 v))) sigma)].
Proof.
move=> Em.
have hu := en_uniq hen.
have gi : guilty \in ids by move: hg; rewrite mem_filter => /andP [].
have gne : (guilty == me) = false by move: hg; rewrite mem_filter => /andP [/negbTE].
have pw := perm_without hu gi.
have hwu : uniq (without ids guilty) by rewrite filter_uniq.
have sub k : k \in without ids guilty -> k \in ids by rewrite mem_filter => /andP [].
have hgo : guilty \in sx_others (v_ctx v) by apply: (others_mem (re_ctx hv)); rewrite ?hall ?hid ?gne.
have [di [hdi hc hgm _ get]] := seen_delta HC Pq hv.
have [n hn] : exists n, m_normal (v_m3 v guilty) = Some (S3NB n).
  have [s3 [p3 [U3 R3 _]]] := until4_inv (re_4 hv); have [_ _ gt] := round_inv R3.
  have hko : guilty \in v_o3 v by rewrite (perm_mem (re_o3 hv)).
  by have [p /recv3_inv [n [_ h _ _]] _] := gt _ hko; exists n.
have [h1 h2] := get _ _ hgo hn.
exists (pmul C di (n3_delta n)), (pmul C di (n3_s n)); split=> //.
have [b2 hb2] := echo2_is gi; have [d3 hd3] := echo3_is gi.
have [|k|r2 hr2 hm2] := @ev_all_map _ _ _ _ (@as_2eb C I) (@e2_gamma C I) (@gamma_of C I) (echos 2).
- by rewrite (proj1 he2).
- rewrite (proj1 he2) => hk; have [b hb] := echo2_is (sub _ hk).
  by exists (S2EB b), b; rewrite (proj2 he2 _ hk).
have [|k|r3 hr3 hm3] := @ev_all_map _ _ _ _ (@as_3eb C I) id (@delta_of C I) (echos 3).
- by rewrite (proj1 he3).
- rewrite (proj1 he3) => hk; have [b hb] := echo3_is (sub _ hk).
  by exists (S3EB b), b; rewrite (proj2 he3 _ hk).
have Eg : padd C (e2_gamma b2) (sum_pts [seq e2_gamma p.2 | p <- r2]) = s4_gamma (v_s4 v).
  rewrite hgm (seen_gamma HC hv) hall (sum_pts_perm HC _ pw) /= (sum_pts_cons HC) hb2 hm2 (proj1 he2) /=.
  by congr (padd C _ (sum_pts _)); apply/eq_in_map => k hk; rewrite (proj2 he2 _ hk).
have Q1 : (1 < q)%Z by case: Pq.
have Ed : ((d3 + sum_scs S (avals r3)) mod q)%Z = sum_scs S [seq delta_of (echo3 v i) | i <- sx_all (v_ctx v)].
  rewrite hall (sum_scs_perm Q1 _ pw) /= !(sum_scs_mod Q1) /= hd3 /= Z.add_mod_idemp_r; last by case: Pq; lia.
  have -> : avals r3 = [seq delta_of (echo3 v i) | i <- without ids guilty].
    rewrite /avals hm3 (proj1 he3); apply/eq_in_map => k hk; by rewrite (proj2 he3 _ hk).
  by [].
rewrite /sg_evidence /= /ev_echo_all /ev_prev_echo /ev_prev_normal /= /try_get /= hr2 /= hh2 hh3.
have e2 : m_echo (v_m2 v guilty) = Some (S2EB b2) by move: hb2; rewrite /echo2 hid gne.
have e3 : m_echo (v_m3 v guilty) = Some (S3EB d3) by move: hd3; rewrite /echo3 hid gne.
by rewrite /ev_deser e2 /= hn /= hr3 /= e3 /= -/(ev_deser _ _) (ev_deser_ok Em) /= Eg Ed hdi /= -hmsg hc.
Qed.

Lemma recv4_reject m : sg_recv4 xcoord (v_s4 v) guilty m = Reject (Proto R4InvalidSignatureShare) ->
  judge m R4InvalidSignatureShare = EvOk tt.
Proof.
rewrite /sg_recv4.
case/vbind_reject => [|[? _]]; first by case: (m_echo m).
case/vbind_reject => [|[? _]]; first by case: (m_direct m).
case/vbind_reject => [/deser_proto //|[sg Es]].
have [td [ts [h1 h2 ->]]] := judge4 (deser_ok Es).
by rewrite /safe_get h1 h2 /= /require; case: sg_share_ok.
Qed.
Lemma recv4_accept m z : sg_recv4 xcoord (v_s4 v) guilty m = Accept z -> judge m R4InvalidSignatureShare = EvInvalid.
Proof.
rewrite /sg_recv4 => U; have [? _ {}U] := vbind_inv U; have [? _ {}U] := vbind_inv U; have [sg Es {}U] := vbind_inv U.
have [td [ts [h1 h2 ->]]] := judge4 (deser_ok Es).
by move: U; rewrite /safe_get h1 h2 /= /require; case: sg_share_ok.
Qed.
End Round4.
