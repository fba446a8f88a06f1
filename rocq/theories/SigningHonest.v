(** * An honest signing session ends with a valid signature (property C50). *)
From Coq Require Import ZArith Lia.
From Verif Require Import Base BaseFacts EncodingModel SignedModel SignedSpec PaillierModel PaillierSpec ZkBase ZkModel ZkSpec ZkFacts ElogModel ElogProofs ZkLemmas.
From mathcomp Require Import all_ssreflect.
From Verif Require Import AlgBase AlgFacts ProtoBase ProtoSpec ProtoFacts AuxGenModel SigningSpec SigningModel SigningAlgebra SigningSums
  MtaSpec MtaProofs SigningHonestSpec.
Set Implicit Arguments.
Unset Strict Implicit.
Unset Printing Implicit Defensive.
Local Open Scope Z_scope.

Definition or_else {A} (d : A) (o : outcome A) : A := if o is Ret a then a else d.

Section Honest.
Variables (S : sparams) (C : curve) (I : eqType) (le : rel I) (HO : eqType).
Notation item := (hitem HO I (pt C)).
Notation q := (sp_q S).
Notation w := (uint_w (sp_pail S)).
Notation G := (gen C).
Variables (H : dst -> seq item -> HO) (X : xof (seq item) (pt C)) (scheme : seq item).
Variables (xcoord : pt C -> Z) (lift_x : nat -> Z -> option (pt C)) (positional : bool).
Hypothesis (HG : good_params S) (HC : curve_ok q C) (HXO : xof_ok q X).
Hypothesis ho : total_order le.
Variables (p : parties I) (d : draws I) (randomness text : seq Z).
Hypotheses (hp : parties_ok S le p) (hd : draws_ok S p d).
Variables (o1 o2 o3 o4 : I -> seq I).
Notation ids := (py_ids p).
Hypothesis hord : {in ids, forall i, [/\ perm_eq (o1 i) (without ids i), perm_eq (o2 i) (without ids i),
  perm_eq (o3 i) (without ids i) & perm_eq (o4 i) (without ids i)]}.
Notation N := (py_N p).
Notation x_ := (py_secret p).
Notation k_ i := (g1_k (dr_1 d i)).
Notation g_ i := (g1_gamma (dr_1 d i)).
Notation entry := (entry_of C p text).
Notation epid := (sg_epid H scheme randomness (SgAssoc [seq (j, pmul C (x_ j) G) | j <- ids] [seq (j, (N j, py_rp p j)) | j <- ids] text)).
Notation msg := (scalar_of_bytes S text).

Let HS := good_ok S HG.
Let q1 : 1 < q.
Proof. exact: (proj1 (q_le S HG)). Qed.
Let hu : uniq ids. Proof. exact: pk_uniq hp. Qed.
Let hs : sorted le ids. Proof. exact: pk_sorted hp. Qed.
Let pmm a P : pmul C (a mod q) P = pmul C a P.
Proof. exact: (pmul_modq HC q1). Qed.

Definition sec (z : Z) : signed := or_else (mkS 0 0) (secret_signed_of S z).
Definition val (z : Z) : Z := SignedSpec.sval w (sec z).
Lemma secP z : 0 <= z < q -> [/\ secret_signed_of S z = Ret (sec z), secret_of S (sp_l S) (sec z) (val z) & val z mod q = z].
Proof.
move=> hz; have [x [v [E [hx hv]]]] := share_signed S HG z hz.
have E2 : sec z = x by rewrite /sec E.
have [_ [Ev _]] := hx.
by rewrite /val E2 Ev E; split.
Qed.

Lemma pN i : i \in ids -> [/\ sk_pk (py_sk p i) = N i, Z.odd (N i) = true & modulus_ok S (N i)].
Proof. by move=> /(pk_key hp) /(key_pk S HG) [? [? ?]]. Qed.

Definition rpr (i : I) : rpparams :=
  let r := py_rp p i in RP (rp_n r) (rp_t r mod rp_n r) (rp_s r mod rp_n r).
Lemma rprP i : i \in ids -> setup_ok S (rpr i) /\ rp_pre (py_rp p i) = Ret (rpr i).
Proof.
move=> /(pk_rp hp) [h1 h2]; split; first exact: reduced_setup.
by rewrite /rp_pre /rp_to_precomputed /public_key_new h2.
Qed.
Notation aux := [seq (j, (N j, rpr j)) | j <- ids].

Lemma auxP : aux_precompute [seq (j, (N j, py_rp p j)) | j <- ids] = Ret aux.
Proof.
rewrite /aux_precompute.
suff E l : {subset l <= ids} -> ZkModel.omap (fun x : I * (Z * rpparams) => Base.obind (public_key_new x.2.1) (fun n =>
    Base.obind (rp_pre x.2.2) (fun r => Ret (x.1, (n, r))))) [seq (j, (N j, py_rp p j)) | j <- l] = Ret [seq (j, (N j, rpr j)) | j <- l].
  exact: E.
elim: l => [|i l IH] hl //=.
have hi := hl i (mem_head _ _); have [_ o _] := pN hi.
by rewrite /public_key_new o /= (rprP hi).2 /= IH // => j hj; apply: hl; rewrite inE hj orbT.
Qed.

(** ** Round 1 *)
Definition ciph (i : I) (z rho : Z) : Z := ct_val (or_else (Ct 0 0) (enc (sp_pail S) (N i) (sec z) rho)).
Lemma ciphP i z rho : i \in ids -> 0 <= z < q -> unit_ok (N i) rho ->
  [/\ enc (sp_pail S) (N i) (sec z) rho = Ret (Ct (N i) (ciph i z rho)), paillier_cipher (N i) (val z) rho (ciph i z rho) &
      0 <= ciph i z rho < N i * N i].
Proof.
move=> hi hz hr; have [_ hx _] := secP hz; have [_ _ hN] := pN hi.
have [c [E [h1 h2]]] := encrypt_share S HG _ _ _ _ hN hr hx.
have E2 : ciph i z rho = c by rewrite /ciph E.
by rewrite E2.
Qed.

Definition ctx (i : I) : sg_ctx C I HO :=
  SgCtx msg epid i (without ids i) ids (se_share (entry i)) (py_sk p i) aux
    (k_ i) (g_ i) (g1_a (dr_1 d i)) (g1_b (dr_1 d i)) (g1_rho (dr_1 d i)) (g1_nu (dr_1 d i)).
Notation Y i := (pmul C (g1_y (dr_1 d i)) G).
Notation K i := (ciph i (k_ i) (g1_rho (dr_1 d i))).
Definition eb (i : I) : r1eb C :=
  R1EB (K i) (ciph i (g_ i) (g1_nu (dr_1 d i))) (Y i)
    (pmul C (g1_a (dr_1 d i)) G) (padd C (pmul C (g1_a (dr_1 d i)) (Y i)) (pmul C (k_ i) G))
    (pmul C (g1_b (dr_1 d i)) G) (padd C (pmul C (g1_b (dr_1 d i)) (Y i)) (pmul C (g_ i) G)).

Lemma hstart i : i \in ids -> sg_start S H scheme randomness i (entry i) (dr_1 d i) = Ok (ctx i, eb i).
Proof.
move=> hi; have [rk rg rr rn] := do_1 hd hi; have [pk _ _] := pN hi.
rewrite /sg_start /= eqxx /= auxP /= pk.
have [-> _ _] := secP rg; have [/= -> _ _] := ciphP hi rg rn.
have [/= -> _ _] := secP rk; have [/= -> _ _] := ciphP hi rk rr.
by rewrite /ctx /= akeys_tab.
Qed.

Definition psi0 (from to : I) := enc_elg_new S X (EncElgSecret (sec (k_ from)) (g1_rho (dr_1 d from)) (g1_a (dr_1 d from)))
  (elg0_public (N from) (eb from)) (rpr to) (sg_aux (ctx from) from) (dr_elg d from to).1.
Definition psi1 (from to : I) := enc_elg_new S X (EncElgSecret (sec (g_ from)) (g1_nu (dr_1 d from)) (g1_b (dr_1 d from)))
  (elg1_public (N from) (eb from)) (rpr to) (sg_aux (ctx from) from) (dr_elg d from to).2.

Lemma elg_run from to z rho b pub rnd au : from \in ids -> to \in ids -> 0 <= z < q -> unit_ok (N from) rho ->
  elg_rand_ok S (N from) (rp_n (py_rp p to)) rnd ->
  pub = EncElgPublic (N from) (ct_to_precomputed (N from) (ciph from z rho)) (Y from) (pmul C b G)
          (padd C (pmul C b (Y from)) (pmul C z G)) ->
  exists pf, enc_elg_new S X (EncElgSecret (sec z) rho b) pub (rpr to) au rnd = Ret pf /\
    enc_elg_verify S X pf pub (rpr to) au = Ret true.
Proof.
move=> hf ht hz hr [hrnd hsafe] ->; have [_ hx hm] := secP hz; have [_ _ hN] := pN hf.
have [_ hc hcr] := ciphP hf hz hr; have [hrp _] := rprP ht.
apply: (enc_elg_margin S C (seq item) HG HC X _ _ _ _ _ (val z)) => //=.
- by rewrite Z.mod_small.
- by congr (padd C _ _); rewrite -(pmm (val z)) hm.
Qed.

Lemma psiP from to : from \in ids -> to \in ids -> from != to ->
  exists a b, [/\ psi0 from to = Ret a, psi1 from to = Ret b,
    enc_elg_verify S X a (elg0_public (N from) (eb from)) (rpr to) (sg_aux (ctx from) from) = Ret true &
    enc_elg_verify S X b (elg1_public (N from) (eb from)) (rpr to) (sg_aux (ctx from) from) = Ret true].
Proof.
move=> hf ht ne; have [rk rg rr rn] := do_1 hd hf; have [e0 e1] := do_elg hd hf ht ne.
have [a [A1 A2]] := @elg_run from to _ _ (g1_a (dr_1 d from)) (elg0_public (N from) (eb from)) _ (sg_aux (ctx from) from) hf ht rk rr e0 erefl.
have [b [B1 B2]] := @elg_run from to _ _ (g1_b (dr_1 d from)) (elg1_public (N from) (eb from)) _ (sg_aux (ctx from) from) hf ht rg rn e1 erefl.
by exists a, b.
Qed.

Definition m1 (to from : I) : message (sg_wire C I) :=
  match psi0 from to, psi1 from to with
  | Ret a, Ret b => Msg (Some (S1DM a b)) (Some (S1EB (eb from))) None
  | _, _ => Msg None None None
  end.
Lemma hsend1 from to : from \in ids -> to \in ids -> from != to ->
  sg_send1 S X (ctx from) (eb from) to (dr_elg d from to) = Accept (m1 to from).
Proof.
move=> hf ht ne; have [a [b [A B _ _]]] := psiP hf ht ne; have [rk rg rr rn] := do_1 hd hf.
have [pk _ _] := pN hf.
rewrite /sg_send1 /safe_get aget_tab ht /= pk.
have [-> _ _] := secP rk; have [/= -> _ _] := secP rg.
by rewrite -[enc_elg_new _ _ _ (elg0_public _ _) _ _ _]/(psi0 from to) A /= -[enc_elg_new _ _ _ _ _ _ _]/(psi1 from to) B /= /m1 A B.
Qed.

Definition pl1 (i : I) : r1pl C := r1_payload (N i) (eb i).
Lemma hrecv1 from to : from \in ids -> to \in ids -> from != to ->
  sg_recv1 S X (ctx to) from (m1 to from) = Accept (pl1 from).
Proof.
move=> hf ht ne; have [a [b [A B VA VB]]] := psiP hf ht ne.
rewrite /sg_recv1 /m1 A B /= /safe_get !aget_tab hf ht /=.
by rewrite -[sg_aux (ctx to) from]/(sg_aux (ctx from) from) VA /= VB.
Qed.

(** ** Round 2 *)
Definition no_mta : mta C := Mta (mkS 0 0) 0 0 (Ct 0 0) (Ct 0 0)
  (@AffGProof C 0 0 (p0 C) 0 0 0 0 0 (mkS 0 0) (mkS 0 0) (mkS 0 0) (mkS 0 0) 0 0).
(** The product with [z] party [i] makes for party [j]. *)
Definition mtv (i j : I) (z : Z) (r : mta_rand) : mta C :=
  or_else no_mta (sg_mta S X (N i) (N j) (rpr j) (sg_aux (ctx i) i) (sec z) (pmul C z G) (ct_to_precomputed (N j) (K j)) r).
Definition al (j : I) (m : mta C) : Z :=
  or_else 0 (Base.obind (decrypt (sp_pail S) (py_sk p j) (ct_to_precomputed (N j) (ct_val (mt_d m)))) (scalar_of_secret S)).
Definition be (m : mta C) : Z := or_else 0 (scalar_of_secret S (mt_beta m)).
Lemma mtP i j z r : i \in ids -> j \in ids -> 0 <= z < q -> mta_rand_ok S (N j) (N i) (rp_n (py_rp p j)) r ->
  let m := mtv i j z r in
  [/\ sg_mta S X (N i) (N j) (rpr j) (sg_aux (ctx i) i) (sec z) (pmul C z G) (ct_to_precomputed (N j) (K j)) r = Ret m,
      aff_g_verify S X (mt_psi m) (AffGPublic (N j) (N i) (ct_to_precomputed (N j) (K j)) (ct_to_precomputed (N j) (ct_val (mt_d m)))
        (ct_to_precomputed (N i) (ct_val (mt_f m))) (pmul C z G)) (rpr j) (sg_aux (ctx i) i) = Ret true,
      exists2 a, decrypt (sp_pail S) (py_sk p j) (ct_to_precomputed (N j) (ct_val (mt_d m))) = Ret a &
        scalar_of_secret S a = Ret (al j m),
      scalar_of_secret S (mt_beta m) = Ret (be m) &
      (al j m + be m) mod q = (k_ j * z) mod q].
Proof.
move=> hi hj hz hr /=.
have [_ _ hNi] := pN hi; have [_ hx hxm] := secP hz; have [rk rg rr rn] := do_1 hd hj.
have [_ hk hkm] := secP rk; have [_ hc hcr] := ciphP hj rk rr; have [hrp _] := rprP hj.
have [|m [a [alpha [beta [E [V [D [Ea [Eb [hsum _]]]]]]]]]] :=
  @mta_shares S C I HO HG HC X _ _ _ _ (sg_aux (ctx i) i) _ _ (pmul C z G) _ _ _ _ HXO (pk_key hp hj) hNi hrp hx _ (proj2 (proj2 (proj2 hk))) rr hc hr.
  by rewrite -(pmm (val z)) hxm.
have cE : ct_to_precomputed (N j) (K j) = Ct (N j) (K j) by rewrite /ct_to_precomputed Z.mod_small.
have mE : mtv i j z r = m by rewrite /mtv cE E.
rewrite mE cE; split=> //.
- by exists a => //; rewrite /al D /= Ea.
- by rewrite /be Eb.
rewrite /al D /= Ea /be Eb /= hsum -[in RHS]hkm -[in RHS]hxm.
by rewrite Z.mul_mod_idemp_l ?Z.mul_mod_idemp_r //; lia.
Qed.

Definition mt (i j : I) : mta C := mtv i j (g_ i) (g2_mta (dr_2 d i) j).
Definition ht (i j : I) : mta C := mtv i j (x_ i) (g2_hat (dr_2 d i) j).
Notation gam i := (pmul C (g_ i) G).
Definition elog2 (i : I) : elog_proof C :=
  elog_new q C _ X (ElogSecret (g_ i) (g1_b (dr_1 d i))) (ElogPublic (e1_b1 (eb i)) (e1_b2 (eb i)) (Y i) (gam i) G)
    (sg_aux (ctx i) i) (g2_alpha (dr_2 d i)) (g2_m (dr_2 d i)).
Definition s2 (i : I) : sg_round2 C I HO :=
  SgRound2 (ctx i) [seq (j, mt i j) | j <- without ids i] [seq (j, ht i j) | j <- without ids i]
    [seq (j, pl1 j) | j <- ids] (ct_to_precomputed (N i) (K i)) (gam i) (elog2 i).

Lemma mapV_map E A B D (f : B -> recv E D) (g : A -> B) (l : seq A) : mapV f [seq g a | a <- l] = mapV (fun a => f (g a)) l.
Proof. by elim: l => [|a l IH] //=; rewrite IH. Qed.
Lemma mapV_ok_in E (A : eqType) B (f : A -> recv E B) (g : A -> B) (l : seq A) : {in l, forall a, f a = Accept (g a)} ->
  mapV f l = Accept [seq g a | a <- l].
Proof.
elim: l => [|a l IH] //= h; rewrite h ?mem_head //=.
by rewrite IH // => b hb; apply: h; rewrite inE hb orbT.
Qed.

Let so i : sorted le (without ids i). Proof. exact: sorted_without. Qed.
Let inw i j : j \in without ids i -> j \in ids /\ j != i.
Proof. by rewrite mem_filter => /andP []. Qed.

Lemma huntil2 i : i \in ids -> sg_until2 S le X (ctx i) (eb i) (dr_2 d i) (m1 i) (o1 i) = Accept (s2 i).
Proof.
move=> hi; have [p1 p2 p3 p4] := hord hi; have [rk rg rr rn] := do_1 hd hi; have [pk _ _] := pN hi.
have hsec := pk_secret hp hi.
rewrite /sg_until2 (round_ok (p := pl1) ho (so i) p1) /=; last first.
  by move=> j /inw [hj ne]; exact: hrecv1.
rewrite /sg_finalize1 /= pk.
have [-> _ _] := secP rg; have [/= -> _ _] := secP hsec.
rewrite /safe_get aget_tab hi /=.
rewrite -[r1_payload (N i) (eb i)]/(pl1 i) (binsert_tab ho pl1 hs hu hi).
rewrite (@mapV_ok_in _ _ _ _ (fun j => (j, (mt i j, ht i j)))) /=; last first.
  move=> j /inw [hj ne]; rewrite !aget_tab hj /=.
  have [|hm hh] := do_mta hd hi hj; first by rewrite eq_sym.
  have [/= E1 _ _ _ _] := mtP hi hj rg hm; have [/= E2 _ _ _ _] := mtP hi hj hsec hh.
  by rewrite E1 /= E2.
by rewrite -!map_comp.
Qed.

(** ** Round 3 *)
Definition df (mm : I -> I -> mta C) (j : I) : seq (I * (ciphertext * ciphertext)) :=
  [seq (l, (ct_to_precomputed (N l) (ct_val (mt_d (mm j l))), ct_to_precomputed (N j) (ct_val (mt_f (mm j l))))) | l <- without ids j].
Definition pl2 (i j : I) : r2pl C I := R2Pl (gam j) (al i (mt j i)) (al i (ht j i)) (df mt j) (df ht j).

Lemma aget_map_tab (A : Type) (f : I -> A) s i : aget [seq (j, f j) | j <- s] i = if i \in s then Some (f i) else None.
Proof. exact: aget_tab. Qed.

Lemma hcheck i j (mm : I -> I -> mta C) z rr (get_x : recv (sg_error I) (pt C)) err :
  i \in ids -> j \in ids -> 0 <= z < q ->
  (forall l, mm j l = mtv j l z (rr l)) -> get_x = Accept (pmul C z G) ->
  (forall l, l \in without ids j -> mta_rand_ok S (N l) (N j) (rp_n (py_rp p l)) (rr l)) ->
  sg_check_psis S X (s2 i) j (N j) [seq (l, ct_val (mt_d (mm j l))) | l <- without ids j]
    [seq (l, ct_val (mt_f (mm j l))) | l <- without ids j] get_x err [seq (l, mt_psi (mm j l)) | l <- without ids j] = Accept (df mm j).
Proof.
move=> hi hj hz E -> hr; rewrite /sg_check_psis.
rewrite mapV_map; apply: mapV_ok_in => l hl /=.
have [hl' ne] := inw hl.
rewrite /safe_get !aget_tab hl hl' /=.
have [_ V _ _ _] := mtP hj hl' hz (hr _ hl); rewrite -E in V.
by rewrite -[sg_aux (ctx i) j]/(sg_aux (ctx j) j) V.
Qed.

Lemma hrecv2 i j : i \in ids -> j \in ids -> j != i -> sg_recv2 S X (s2 i) j (sg_send2 (s2 j)) = Accept (pl2 i j).
Proof.
move=> hi hj ne; have [rk rg rr rn] := do_1 hd hj; have hsec := pk_secret hp hj; have [pk _ _] := pN hi.
have hij : i \in without ids j by rewrite mem_filter eq_sym ne.
rewrite /sg_recv2 /= -!map_comp /=.
rewrite /safe_get !aget_tab hj /=.
rewrite !akeys_tab /require eqxx /=.
have hm l : l \in without ids j -> mta_rand_ok S (N l) (N j) (rp_n (py_rp p l)) (g2_mta (dr_2 d j) l).
  by move=> /inw [hl nl]; have [|h1 _] := do_mta hd hj hl; first by rewrite eq_sym.
have hh l : l \in without ids j -> mta_rand_ok S (N l) (N j) (rp_n (py_rp p l)) (g2_hat (dr_2 d j) l).
  by move=> /inw [hl nl]; have [|_ h1] := do_mta hd hj hl; first by rewrite eq_sym.
rewrite (@hcheck i j mt _ _ _ _ hi hj rg (fun=> erefl) erefl hm) /=.
rewrite (@hcheck i j ht _ _ _ _ hi hj hsec (fun=> erefl) erefl hh) /=.
have -> : elog_verify C _ X (elog2 j) (ElogPublic (l1_b1 (pl1 j)) (l1_b2 (pl1 j)) (l1_y (pl1 j)) (gam j) G) (sg_aux (ctx i) j).
  rewrite /pl1 /elog2 /= (c_addC _ _ HC); exact: elog_run.
rewrite /= !aget_tab hij /=.
have [_ _ [a -> E1] _ _] := mtP hj hi rg (hm _ hij); have [_ _ [b -> E2] _ _] := mtP hj hi hsec (hh _ hij).
by rewrite /= E1 /= E2.
Qed.

Definition delta_ (i : I) : Z :=
  (g_ i * k_ i + sum_scs S [seq al i (mt j i) | j <- without ids i] + sum_scs S [seq be (mt i j) | j <- without ids i]) mod q.
Definition chi_ (i : I) : Z :=
  (x_ i * k_ i + sum_scs S [seq al i (ht j i) | j <- without ids i] + sum_scs S [seq be (ht i j) | j <- without ids i]) mod q.
Definition Gam : pt C := pmul C (zsum (fun i => g_ i) ids) G.
Definition elog3 (i : I) : elog_proof C :=
  elog_new q C _ X (ElogSecret (k_ i) (g1_a (dr_1 d i)))
    (ElogPublic (e1_a1 (eb i)) (e1_a2 (eb i)) (Y i) (pmul C (k_ i) Gam) Gam) (sg_aux (ctx i) i) (dr_3 d i).1 (dr_3 d i).2.
Definition s3 (i : I) : sg_round3 C I HO :=
  SgRound3 (ctx i) (ct_to_precomputed (N i) (K i)) Gam (chi_ i) [seq (j, pl1 j) | j <- ids] [seq (j, gam j) | j <- ids]
    (df_matrix i [seq (j, mt i j) | j <- without ids i] [seq (j, df mt j) | j <- without ids i])
    (df_matrix i [seq (j, ht i j) | j <- without ids i] [seq (j, df ht j) | j <- without ids i])
    (delta_ i) (R3NB (pmul C (k_ i) Gam) (elog3 i) (pmul C (chi_ i) Gam))
    [seq (j, mt i j) | j <- without ids i] [seq (j, ht i j) | j <- without ids i].

Lemma omap_tab (A B : Type) (f : A -> outcome B) (h : I -> A) (g : I -> B) s :
  {in s, forall j, f (h j) = Ret (g j)} -> ZkModel.omap (fun x : I * A => f x.2) [seq (j, h j) | j <- s] = Ret [seq g j | j <- s].
Proof.
elim: s => [|j s IH] //= e; rewrite e ?mem_head //= IH // => l hl; apply: e; by rewrite inE hl orbT.
Qed.

Lemma huntil3 i : i \in ids ->
  sg_until3 S le X (ctx i) (eb i) (dr_2 d i) (dr_3 d i) (m1 i) (fun j => sg_send2 (s2 j)) (o1 i) (o2 i) = Accept (s3 i).
Proof.
move=> hi; have [p1 p2 p3 p4] := hord hi; have [rk rg rr rn] := do_1 hd hi; have hsec := pk_secret hp hi.
rewrite /sg_until3 huntil2 //= (round_ok (p := pl2 i) ho (so i) p2) /=; last first.
  by move=> j /inw [hj ne]; exact: hrecv2.
rewrite /sg_finalize2 /= -!map_comp /=.
rewrite (binsert_tab ho (fun j => gam j) hs hu hi) avals_tab (sum_pts_zsum q1 HC) -/Gam.
rewrite (@omap_tab _ _ (fun m => scalar_of_secret S (mt_beta m)) (mt i) (fun j => be (mt i j))) /=; last first.
  move=> j /inw [hj ne]; have [|hm _] := do_mta hd hi hj; first by rewrite eq_sym.
  by have [_ _ _ E _] := mtP hi hj rg hm.
rewrite (@omap_tab _ _ (fun m => scalar_of_secret S (mt_beta m)) (ht i) (fun j => be (ht i j))) /=; last first.
  move=> j /inw [hj ne]; have [|_ hm] := do_mta hd hi hj; first by rewrite eq_sym.
  by have [_ _ _ E _] := mtP hi hj hsec hm.
by rewrite /safe_get aget_tab hi /=.
Qed.

(** ** Round 4 *)
Lemma pairs_share (z : I -> Z) (mm : I -> I -> mta C) (rr : I -> I -> mta_rand) :
  {in ids, forall i, 0 <= z i < q} -> (forall i j, mm i j = mtv i j (z i) (rr i j)) ->
  {in ids &, forall i j, i != j -> mta_rand_ok S (N j) (N i) (rp_n (py_rp p j)) (rr i j)} ->
  zsum (fun i => (z i * k_ i + sum_scs S [seq al i (mm j i) | j <- without ids i] + sum_scs S [seq be (mm i j) | j <- without ids i]) mod q) ids mod q
   = (zsum (fun i => k_ i) ids * zsum z ids) mod q.
Proof.
move=> hz E hr; apply: (@product_of_sums S I q1 (fun i => k_ i) z (fun i j => al i (mm j i)) (fun i j => be (mm i j))) => //.
move=> i j hi hj ne; have hr' := hr _ _ hj hi; rewrite eq_sym ne in hr'.
by have [_ _ _ _] := mtP hj hi (hz _ hj) (hr' isT); rewrite -E.
Qed.
Notation kk := (zsum (fun i => k_ i) ids).
Notation gg := (zsum (fun i => g_ i) ids).
Notation xx := (zsum x_ ids).
Lemma sum_delta : zsum delta_ ids mod q = (kk * gg) mod q.
Proof.
apply: (@pairs_share (fun i => g_ i) mt (fun i j => g2_mta (dr_2 d i) j)) => //.
- by move=> i /(do_1 hd) [].
- by move=> i j hi hj ne; have [] := do_mta hd hi hj ne.
Qed.
Lemma sum_chi : zsum chi_ ids mod q = (kk * xx) mod q.
Proof.
apply: (@pairs_share x_ ht (fun i j => g2_hat (dr_2 d i) j)) => //.
- exact: pk_secret hp.
- by move=> i j hi hj ne; have [] := do_mta hd hi hj ne.
Qed.

Definition pl3 (j : I) : r3pl C := R3Pl (delta_ j) (pmul C (k_ j) Gam) (pmul C (chi_ j) Gam).
Lemma hrecv3 i j : i \in ids -> j \in ids -> sg_recv3 X (s3 i) j (sg_send3 (s3 j)) = Accept (pl3 j).
Proof.
move=> hi hj; rewrite /sg_recv3 /= /safe_get aget_tab hj /= /require.
suff -> : elog_verify C _ X (elog3 j) (ElogPublic (l1_a1 (pl1 j)) (l1_a2 (pl1 j)) (l1_y (pl1 j)) (pmul C (k_ j) Gam) Gam) (sg_aux (ctx i) j) by [].
rewrite /pl1 /elog3 /= (c_addC _ _ HC); exact: elog_run.
Qed.

Definition sigma_ (di : Z) (i : I) : Z := ((k_ i * di) mod q * msg + (chi_ i * di) mod q * xcoord Gam) mod q.
Definition s4 (di : Z) (i : I) : sg_round4 C I HO :=
  SgRound4 (ctx i) Gam [seq (j, pmul C di (pmul C (k_ j) Gam)) | j <- ids] [seq (j, pmul C di (pmul C (chi_ j) Gam)) | j <- ids]
    (sigma_ di i).
Notation vk := (pmul C xx G).
Lemma vkE i : zs_vkey (se_share (entry i)) = vk.
Proof. by rewrite /zs_vkey /= avals_tab (sum_pts_zsum q1 HC). Qed.

Lemma huntil4 i : i \in ids ->
  sg_until4 S le X xcoord (ctx i) (eb i) (dr_2 d i) (dr_3 d i) (m1 i) (fun j => sg_send2 (s2 j)) (fun j => sg_send3 (s3 j)) (o1 i) (o2 i) (o3 i)
    = if inv_mod q ((kk * gg) mod q) is Some di then Accept (ToRound4 (s4 di i)) else RLocal.
Proof.
move=> hi; have [p1 p2 p3 p4] := hord hi.
rewrite /sg_until4 huntil3 //= (round_ok (p := pl3) ho (so i) p3) /=; last first.
  by move=> j /inw [hj _]; exact: hrecv3.
rewrite /sg_finalize3 /= -/(pl3 i) (binsert_tab ho pl3 hs hu hi) -!map_comp /=.
rewrite -[zs_vkey _]/(zs_vkey (se_share (entry i))) vkE.
set sD := sum_scs S _; set pD := sum_pts _; set pS := sum_pts [seq ((fun x : I * r3pl C => l3_cap_s x.2) \o _) _ | _ <- _].
have -> : sD = (kk * gg) mod q by rewrite -sum_delta -sum_scsE.
have -> : pD = pmul C kk Gam by rewrite -(sum_pts_zsum q1 HC).
have -> : pS = pmul C (zsum chi_ ids) Gam by rewrite -(sum_pts_zsum q1 HC).
have e1 : pmul C ((kk * gg) mod q) G = pmul C kk Gam by rewrite pmm /Gam (c_mulA _ _ HC).
have e2 : pmul C (zsum chi_ ids) Gam = pmul C ((kk * gg) mod q) vk.
  rewrite -pmm sum_chi !pmm /Gam !(c_mulA _ _ HC); congr (pmul C _ _); lia.
rewrite e1 (peqb_refl q C HC) /= e2 (peqb_refl q C HC) /=.
by case: (inv_mod _ _) => [di|] //; rewrite /s4 -!map_comp.
Qed.

(** The last round. *)
Hypothesis Pq : Znumtheory.prime q.
Variable di : Z.
Hypothesis Hdi : inv_mod q ((kk * gg) mod q) = Some di.
Let hdi : (kk * gg * di) mod q = 1.
Proof.
have [_ h] := inv_mod_Some q _ _ ltac:(lia) Hdi.
by move: h; rewrite Z.mul_mod_idemp_l ?(Z.mod_1_l q) //; lia.
Qed.

Lemma hrecv4 i j : i \in ids -> j \in ids -> sg_recv4 xcoord (s4 di i) j (sg_send4 (s4 di j)) = Accept (sigma_ di j).
Proof.
move=> hi hj; rewrite /sg_recv4 /= /safe_get !aget_tab hj /= /require /sg_share_ok.
rewrite /sigma_ pmm (c_mulDl _ _ HC) !(c_mulA _ _ HC).
suff [-> ->] : pmul C ((k_ j * di) mod q * msg * gg) G = pmul C (msg * di * k_ j * gg) G /\
   pmul C ((chi_ j * di) mod q * xcoord Gam * gg) G = pmul C (xcoord Gam * di * chi_ j * gg) G by rewrite (peqb_refl q C HC).
have E (a b : Z) : pmul C ((a * di) mod q * b * gg) G = pmul C (b * di * a * gg) G.
  by rewrite -!Z.mul_assoc -pmm Z.mul_mod_idemp_l ?pmm; try lia; congr (pmul C _ _); lia.
by split; exact: E.
Qed.

Definition zz : Z := zsum (sigma_ di) ids mod q.
Lemma hrun i : i \in ids ->
  sg_run S le X xcoord lift_x positional (ctx i) (eb i) (dr_2 d i) (dr_3 d i) (m1 i) (fun j => sg_send2 (s2 j)) (fun j => sg_send3 (s3 j))
    (fun j => sg_send4 (s4 di j)) (o1 i) (o2 i) (o3 i) (o4 i)
    = if from_scalars S xcoord lift_x (xcoord Gam) zz vk msg is Some sig then Accept sig else RLocal.
Proof.
move=> hi; have [p1 p2 p3 p4] := hord hi.
rewrite /sg_run huntil4 // Hdi /= (round_ok (p := sigma_ di) ho (so i) p4) /=; last first.
  by move=> j /inw [hj _]; exact: hrecv4.
rewrite /sg_finalize4 /= -[zs_vkey _]/(zs_vkey (se_share (entry i))) vkE avals_tab sum_scsE //.
have -> : ((zsum (sigma_ di) (without ids i) mod q + sigma_ di i) mod q = zz).
  by rewrite Z.add_mod_idemp_l /zz ?(zsum_without (sigma_ di) hu hi) 1?Z.add_comm //; lia.
by [].
Qed.

Lemma zzE : (zz * gg) mod q = (msg + xx * xcoord Gam) mod q.
Proof.
have wit a b : a mod q = b mod q -> exists c, a = b + c * q.
  move=> h; exists (a / q - b / q); have := Z.div_mod a q; have := Z.div_mod b q; rewrite h; lia.
have [c1 Ec] := wit _ _ sum_chi.
have [c2 Ed] : exists c, kk * gg * di = 1 + c * q by apply: wit; rewrite hdi Z.mod_1_l.
have [c3 Es] : exists c, zsum (sigma_ di) ids = di * (kk * msg + zsum chi_ ids * xcoord Gam) + c * q.
  apply: wit; rewrite -!zsum_mulr -zsum_add -zsum_mull; apply: zsum_mod => // i hi.
  have E a b m r : (a mod q * m + b mod q * r) mod q = (a * m + b * r) mod q.
    rewrite Z.add_mod; last lia; rewrite (Z.mul_mod_idemp_l a); last lia; rewrite (Z.mul_mod_idemp_l b); last lia.
    by rewrite -Z.add_mod; lia.
  by rewrite /sigma_ Z.mod_mod ?E; [congr (_ mod _); lia|lia].
rewrite /zz Z.mul_mod_idemp_l; last lia.
rewrite Es Ec.
set r := xcoord _.
have -> : (di * (kk * msg + (kk * xx + c1 * q) * r) + c3 * q) * gg
   = (kk * gg * di) * (msg + xx * r) + (di * c1 * r * gg + c3 * gg) * q by ring.
rewrite Ed.
have -> : (1 + c2 * q) * (msg + xx * r) + (di * c1 * r * gg + c3 * gg) * q
  = msg + xx * r + (c2 * (msg + xx * r) + di * c1 * r * gg + c3 * gg) * q by ring.
by rewrite Z_mod_plus_full.
Qed.
Lemma zz_range : 0 <= zz < q.
Proof. by apply: Z.mod_pos_bound; lia. Qed.
End Honest.
