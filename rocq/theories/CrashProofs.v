(** * Messages that crash their receiver: proofs (property C65). *)
From Coq Require Import ZArith.
From Verif Require Import Base EncodingModel SignedModel PaillierModel ZkBase ZkModel.
From mathcomp Require Import all_ssreflect all_algebra.
From Verif Require Import AlgBase AlgFacts ShamirModel ThresholdModel SchModel ProtoBase ProtoFacts KeyInitModel AuxGenModel KeyRefreshModel SigningModel
  SigningEvidence CrashModel.
Set Implicit Arguments.
Unset Strict Implicit.
Unset Printing Implicit Defensive.
Import GRing.Theory.
Local Open Scope ring_scope.

Section Ser.
Variables (V0 : Type) (enc : V0 -> outcome (seq Z)) (inf : V0).
Hypothesis He : forall p, enc p = Panic <-> p = inf.
Lemma serialisesP ps : serialises enc ps <-> (forall p, List.In p ps -> p <> inf).
Proof.
elim: ps => [|p ps IH] /=; first by split.
rewrite /serialises /= -/(serialises enc ps); split.
  case/andP=> h /IH hs q [<-|/hs //] e.
  by move: h; rewrite (proj2 (He p) e).
move=> h; apply/andP; split; last by apply/IH => q hq; apply: h; right.
have : p <> inf by apply: h; left.
by case E: (enc p) => [b|] // hp; case: hp; apply/He.
Qed.
Lemma unserialisable ps p : List.In p ps -> p = inf -> serialises enc ps = false.
Proof. by move=> hi hp; apply/negP => /serialisesP/(_ p hi). Qed.
End Ser.

Section KeyInitCrash.
Variables (F : fieldType) (V : lmodType F) (I : eqType) (HO : eqType) (enc : V -> outcome (seq Z)).
Variables (H : dst -> seq (hitem HO I V) -> HO) (scheme : seq (hitem HO I V)).
Hypothesis He : forall p, enc p = Panic <-> p = 0.
Variables (x a : V) (u rho : seq bool).

Lemma ki_hash_crash d sid id : KeyInitModel.kp_x d = 0 \/ kp_a d = 0 -> @ki_hash_ser F V I HO enc H d sid id = Panic.
Proof.
move=> h; rewrite /ki_hash_ser /hash_ser.
by case: h => h; rewrite (unserialisable He _ h) //=; auto.
Qed.
Lemma ki_hash_same d sid id : KeyInitModel.kp_x d <> 0 -> kp_a d <> 0 -> @ki_hash_ser F V I HO enc H d sid id = Ret (ki_hash H d sid id).
Proof.
move=> h1 h2; rewrite /ki_hash_ser /hash_ser (proj2 (serialisesP He _)) //.
by move=> p /= [<-|[<-|[]]].
Qed.

Lemma ki_crash c cap_vs from m : m_direct m = None -> m_normal m = Some (W2NB HO x a u) -> m_echo m = Some (W2EB V HO rho) ->
  from \in akeys cap_vs -> x = 0 \/ a = 0 -> ki_recv2_ser enc H c cap_vs from m = RPanic.
Proof.
move=> e1 e2 e3 hk h; rewrite /ki_recv2_ser e1 e2 e3 /= /safe_get.
by have [v ->] := in_aget hk; rewrite /= ki_hash_crash.
Qed.
Lemma ki_same c cap_vs from m : (forall x a u, m_normal m = Some (W2NB HO x a u) -> x <> 0 /\ a <> 0) ->
  ki_recv2_ser enc H c cap_vs from m = ki_recv2 H c cap_vs from m.
Proof.
move=> h; rewrite /ki_recv2_ser /ki_recv2.
case: (assert_none _ _) => //= _; case E: (m_normal m) h => [w|] //=.
case: w E => //= x0 a0 u0 E h; have [h1 h2] := h _ _ _ erefl.
case: (deser _ _ _) => //= r; case: (safe_get _ _) => //= v.
by rewrite ki_hash_same.
Qed.
Lemma ki_judge_crash ids randomness guilty cap_v r1 ev : try_get (ev_previous ev) 1%N = EvOk r1 -> m_echo r1 = Some (W1EB V cap_v) ->
  m_normal (ev_message ev) = Some (W2NB HO x a u) -> m_echo (ev_message ev) = Some (W2EB V HO rho) -> x = 0 \/ a = 0 ->
  ki_evidence2_ser enc H scheme ids randomness guilty ev = EvPanic.
Proof. by move=> e1 e2 e3 e4 h; rewrite /ki_evidence2_ser e1 /= e2 e3 e4 /= ki_hash_crash. Qed.
Lemma ki_judge_same g X ids randomness guilty ev : (forall x a u, m_normal (ev_message ev) = Some (W2NB HO x a u) -> x <> 0 /\ a <> 0) ->
  ki_evidence2_ser enc H scheme ids randomness guilty ev = ki_evidence g H X scheme ids randomness guilty R2HashMismatch ev.
Proof.
move=> h; rewrite /ki_evidence2_ser /ki_evidence.
case: (try_get _ _) => //= r; case: (ev_deser _ _) => //= v; case E: (m_normal _) h => [w|] //=.
case: w E => //= x0 a0 u0 E h; have [h1 h2] := h _ _ _ erefl.
by case: (ev_deser _ _) => //= r'; rewrite ki_hash_same.
Qed.
End KeyInitCrash.

Section KeyRefreshCrash.
Variables (S : sparams) (F : fieldType) (V : lmodType F) (g : V) (I : eqType) (le : rel I) (HO : eqType) (enc : V -> outcome (seq Z)).
Variables (H : dst -> seq (hitem HO I V) -> HO) (X : xof (seq (hitem HO I V)) V).
Hypothesis He : forall p, enc p = Panic <-> p = 0.

Lemma h_map_points (m : seq (I * V)) : points_of (h_map HO m) = avals m.
Proof.
rewrite /h_map /=; elim: m => [|[i p] m IH] //=.
by rewrite /= -IH.
Qed.
Lemma InP (p : V) ps : List.In p ps <-> p \in ps.
Proof.
elim: ps => [|q ps IH] /=; first by split.
rewrite in_cons; split.
  by case=> [->|/IH ->]; rewrite ?eqxx ?orbT.
by case/orP=> [/eqP ->|/IH h]; auto.
Qed.
Lemma num_points (r : rpparams) : points_of (h_rp (curveV g) I HO r) = [::] :> seq V.
Proof. by []. Qed.
Lemma nums_points (l : seq Z) : flatten [seq points_of y | y <- [seq (HNum z : hitem HO I V) | z <- l]] = [::].
Proof. by elim: l. Qed.
Lemma prm_points (p : prm_proof) : points_of (h_prm (curveV g) I HO p) = [::] :> seq V.
Proof. by rewrite /h_prm /= !nums_points. Qed.
Lemma kr_points (d : kr_public V I) sid id :
  flatten [seq points_of x | x <- [:: HOut sid; HId id; h_map HO (kp_xs d); h_map HO (kp_ys d); h_map HO (kp_as d); HNum (kp_pk d);
        h_rp (curveV g) I HO (kp_rp d); h_prm (curveV g) I HO (kp_psi d); HBits (kp_rid d); HBits (KeyRefreshModel.kp_u d)]] =
  avals (kp_xs d) ++ avals (kp_ys d) ++ avals (kp_as d).
Proof.
have fc (a : seq V) l : flatten (a :: l) = a ++ flatten l by [].
by rewrite !map_cons !fc !h_map_points prm_points num_points /= !cats0.
Qed.

Lemma kr_hash_crash d sid id : 0 \in avals (kp_xs d) ++ avals (kp_ys d) ++ avals (kp_as d) ->
  @kr_hash_ser F V g I HO enc H d sid id = Panic.
Proof. by move=> h; rewrite /kr_hash_ser /hash_ser kr_points (unserialisable He (p := 0)) //; apply/InP. Qed.
Lemma kr_hash_same d sid id : 0 \notin avals (kp_xs d) ++ avals (kp_ys d) ++ avals (kp_as d) ->
  @kr_hash_ser F V g I HO enc H d sid id = Ret (kr_hash g H d sid id).
Proof.
move=> h; rewrite /kr_hash_ser /hash_ser kr_points (proj2 (serialisesP He _)) // => p /InP hp e.
by rewrite -e hp in h.
Qed.

Lemma kr_crash c cap_vs from m we wn rpw ys rid xs cas pkw psi u pk rp :
  m_direct m = None -> m_echo m = Some we -> as_k2eb le we = Some (rpw, ys, rid) ->
  m_normal m = Some wn -> as_k2nb le wn = Some (xs, cas, pkw, psi, u) ->
  public_key_new pkw = Ret pk -> rp_pre rpw = Ret rp -> from \in akeys cap_vs ->
  0 \in avals xs ++ avals ys ++ avals cas ->
  kr_recv2_ser S g le enc H X c cap_vs from m = RPanic.
Proof.
move=> e1 e2 e3 e4 e5 e6 e7 hk h; rewrite /kr_recv2_ser e1 e2 e4 /= e3 /= e5 /= e6 /= e7 /= /safe_get.
by have [v ->] := in_aget hk; rewrite /= kr_hash_crash.
Qed.
Lemma kr_same c cap_vs from m :
  (forall we rpw ys rid, m_echo m = Some we -> as_k2eb le we = Some (rpw, ys, rid) -> 0 \notin avals ys) ->
  (forall wn xs cas pkw psi u, m_normal m = Some wn -> as_k2nb le wn = Some (xs, cas, pkw, psi, u) -> 0 \notin avals xs ++ avals cas) ->
  kr_recv2_ser S g le enc H X c cap_vs from m = kr_recv2 S g le H X c cap_vs from m.
Proof.
move=> h1 h2; rewrite /kr_recv2_ser /kr_recv2.
case: (assert_none _ _) => //= _; case Ee: (m_echo m) => [we|] //=; case De: (as_k2eb le we) => [[[rpw ys] rid]|] //=.
case En: (m_normal m) => [wn|] //=; case Dn: (as_k2nb le wn) => [[[[[xs cas] pkw] psi] u]|] //=.
case: (lift_o _) => //= pk; case: (lift_o _) => //= rp; case: (safe_get _ _) => //= v.
rewrite kr_hash_same //= !mem_cat; have := h1 _ _ _ _ Ee De; have := h2 _ _ _ _ _ _ En Dn.
by rewrite mem_cat => /norP [/negPf -> /negPf ->] /negPf ->.
Qed.
End KeyRefreshCrash.

Section SigningCrash.
Variables (S : sparams) (C : curve) (I : eqType) (HO : eqType) (enc : pt C -> outcome (seq Z)).
Variables (X : xof (seq (hitem HO I (pt C))) (pt C)).
Hypothesis He : forall p, enc p = Panic <-> p = p0 C.

Definition first_points (m1 : enc_elg_proof C) (e : r1eb C) : seq (pt C) := [:: ee_y m1; ee_z m1; e1_y e; e1_a1 e; e1_a2 e].
Definition second_points (m2 : enc_elg_proof C) (e : r1eb C) : seq (pt C) := [:: ee_y m2; ee_z m2; e1_y e; e1_b1 e; e1_b2 e].

Lemma sg_crash (c : sg_ctx C I HO) from m psi0 psi1 e :
  m_normal m = None -> m_direct m = Some (S1DM psi0 psi1) -> m_echo m = Some (S1EB e) ->
  sx_id c \in akeys (sx_aux c) -> from \in akeys (sx_aux c) ->
  (exists2 p, List.In p (first_points psi0 e) & p = p0 C) ->
  sg_recv1_ser S enc X c from m = RPanic.
Proof.
move=> e1 e2 e3 hi hf [p hp ep]; rewrite /sg_recv1_ser e1 e2 e3 /= /safe_get.
have [mine ->] := in_aget hi; have [theirs ->] /= := in_aget hf.
have := unserialisable He hp ep; rewrite /first_points /enc_elg_verify_ser /= Z.eqb_refl /=.
by move=> ->.
Qed.
Lemma sg_same (c : sg_ctx C I HO) from m :
  (forall psi0 psi1 e, m_direct m = Some (S1DM psi0 psi1) -> m_echo m = Some (S1EB e) ->
     forall p, List.In p (first_points psi0 e ++ second_points psi1 e) -> p <> p0 C) ->
  sg_recv1_ser S enc X c from m = sg_recv1 S X c from m.
Proof.
move=> h; rewrite /sg_recv1_ser /sg_recv1.
case: (assert_none _ _) => //= _; case Ed: (m_direct m) => [wd|] //=; case: wd Ed => // psi0 psi1 Ed.
rewrite [as_1dm _]/= /vbind -/(@vbind _ _ _).
case Ee: (m_echo m) => [we|] //=; case: we Ee => // e Ee /=.
case: (safe_get _ _) => //= mine; case: (safe_get _ _) => //= theirs.
have hh := h _ _ _ Ed Ee.
have s1 : serialises enc (first_points psi0 e) by apply/(serialisesP He) => p hp; apply: hh => /=; move: hp => /=; tauto.
have s2 : serialises enc (second_points psi1 e) by apply/(serialisesP He) => p hp; apply: hh => /=; move: hp => /=; tauto.
by move: s1 s2; rewrite /first_points /second_points /enc_elg_verify_ser /= !Z.eqb_refl /= => -> ->.
Qed.
End SigningCrash.
