(** * Proofs about the life of a key (property C71). *)
From Coq Require Import ZArith Znumtheory Lia.
From Verif Require Import Base SignedModel PaillierModel ZkBase ZkModel ZkSpec.
From mathcomp Require Import all_ssreflect all_algebra.
From mathcomp.zify Require Import ssrZ.
From Verif Require Import AlgBase AlgFacts ThresholdModel ThresholdSpec ThresholdProofs ShareLemmas ShamirSpec SchModel ProtoBase ProtoSpec KeyInitModel KeyInitProofs
  ReshareModel ReshareProofs AuxGenModel AuxHonestSpec AuxGenHonest AuxHonestCase
  KeyRefreshModel KeyRefreshHonest KeyRefreshWitness SigningSpec SigningModel EntryModel EntryProofs MtaSpec SigningHonestSpec SigningHonestMain LifeSpec.
Set Implicit Arguments.
Unset Strict Implicit.
Unset Printing Implicit Defensive.
Import GRing.Theory.
Local Open Scope ring_scope.

(** ** Integers as scalars *)
Section Zf.
Variable F : fieldType.

Lemma zfE z : zf z = (int_of_Z z)%:~R :> F.
Proof. by case: z => [|p|p] //=; rewrite /int_of_Z /= NegzE mulrNz prednK //; apply/ltP; exact: Pos2Nat.is_pos. Qed.
Lemma zfD a b : zf (Z.add a b) = zf a + zf b :> F.
Proof. by rewrite !zfE (raddfD ZInstances.int_of_Z_additive) rmorphD. Qed.
Lemma zfM a b : zf (Z.mul a b) = zf a * zf b :> F.
Proof. by rewrite !zfE (rmorphM ZInstances.int_of_Z_rmorphism) rmorphM. Qed.
Lemma zf1 : zf (Zpos 1) = 1 :> F. Proof. by []. Qed.

Variable q : Z.
Hypotheses (Pq : Znumtheory.prime q) (Eq : zf q = 0 :> F).
Lemma q_gt1 : Z.lt 1 q. Proof. by have := prime_ge_2 q Pq; lia. Qed.
Lemma zf_mod z : zf (Z.modulo z q) = zf z :> F.
Proof.
by rewrite {2}(Z.div_mod z q); [rewrite zfD zfM Eq mul0r add0r|have := q_gt1; lia].
Qed.
Lemma zf_eq0 z : (zf z == 0 :> F) = Z.eqb (Z.modulo z q) Z0.
Proof.
apply/idP/idP => [/eqP h|/Z.eqb_eq h]; last by rewrite -zf_mod h.
apply/Z.eqb_eq; case: (Z.eq_dec (Z.modulo z q) Z0) => // nz.
have [u v hu] : Bezout q z 1.
  apply: rel_prime_bezout; apply: prime_rel_prime => // hd.
  by apply: nz; apply/Z.mod_divide => //; have := q_gt1; lia.
have : zf (Z.add (Z.mul u q) (Z.mul v z)) = 1 :> F by rewrite hu.
by rewrite zfD !zfM Eq h !mulr0 addr0 => /esym/eqP; rewrite oner_eq0.
Qed.
Lemma zf_sum (T : eqType) (s : seq T) (f : T -> Z) : zf (sum_over s f) = \sum_(i <- s) zf (f i) :> F.
Proof. by elim: s => [|i s IH] /=; [rewrite big_nil|rewrite big_cons -IH zfD]. Qed.

Variables (V : lmodType F) (g : V).
Lemma curveV_ok : curve_ok q (curveV g).
Proof.
split=> /=.
- by move=> x y z; rewrite addrA.
- by move=> x y; rewrite addrC.
- by move=> x; rewrite addr0.
- by move=> x; rewrite subrr.
- by move=> a b x; rewrite zfD scalerDl.
- by move=> a x y; rewrite scalerDr.
- by move=> a b x; rewrite zfM scalerA.
- by move=> x; rewrite scale1r.
- by move=> x; rewrite Eq scale0r.
- by move=> x y; split=> [/eqP|/eqP].
Qed.
End Zf.

(** ** Signing with shares and auxiliary data of whatever origin *)
Section Sign.
Variables (S : sparams) (F : fieldType) (V : lmodType F) (g : V) (int_of : F -> Z) (I : eqType) (le : rel I) (HO : eqType).
Notation item := (hitem HO I V).
Variables (H : dst -> seq item -> HO) (X : xof (seq item) V) (scheme : seq item).
Notation C := (curveV g).
Variables (xcoord : V -> Z) (lift_x : nat -> Z -> option V) (positional : bool).
Notation q := (sp_q S).
Hypotheses (HG : good_params S) (HF : scalar_field q int_of) (HX : xof_ok q (X : xof (seq item) (pt C))) (ho : total_order le).
Hypotheses (Pq : Znumtheory.prime q) (Hx : @xcoord_ok q C xcoord) (Hl : @lift_ok C xcoord lift_x).

Lemma odd_q : Z.odd q = true.
Proof. by case: HG => h _; move: h; rewrite /sp_compiles => /andP [/andP [/andP [/andP [_ ->]]]]. Qed.

Lemma sign_from (ids : seq I) sr text (x : F) (ks : I -> kshare V I) (a : I -> aux_info I)
    (sk : I -> skey) (N : I -> Z) (rp : I -> rpparams) (d : draws I) o :
  uniq ids -> sorted le ids -> additive_sharing g ids x ks ->
  {in ids, forall i, [/\ ai_owner (a i) = i, ai_sk (a i) = sk i & ai_public (a i) = [seq (j, (N j, rp j)) | j <- ids]]} ->
  {in ids, forall i, key_of S (sk i) (N i)} ->
  {in ids, forall i, setup_ok S (rp i) /\ Z.odd (rp_n (rp i)) = true} ->
  signing_draws_ok S ids N (fun j => rp_n (rp j)) d -> orders_ok ids o ->
  not_degenerate S g xcoord ids d text x ->
  exists sig, signing_run S g int_of le H X scheme xcoord lift_x positional ids sr text ks a d o sig /\
    signs S g xcoord ids d text x sig.
Proof.
move=> hu hs [hsum hks] ha hk hrp hd hor [n1 n2 n3 n4].
pose p := Parties ids (fun i => int_of (ks_secret (ks i))) sk N rp.
pose ar := Arrivals (o 1%N) (o 2%N) (o 3%N) (o 4%N).
have pok : parties_ok S le p by split=> // i hi; apply: (sf_range HF).
have dok : draws_ok S p d by case: hd => h1 h2 h3; split.
have aok : arrivals_ok p ar by move=> i hi; split; apply: hor.
have Eq := sf_order HF.
have q1 := q_gt1 Pq.
have Ex : zf (joint_key p) = x :> F.
  by rewrite /joint_key zf_sum -hsum; apply: eq_bigr => i _; rewrite (sf_val HF).
have key : pmul C (joint_key p) (gen C) = x *: g by rewrite /= Ex.
have nz z : zf z != 0 :> F -> Z.modulo z q <> Z0 by rewrite (zf_eq0 Pq Eq) => /negbTE /Z.eqb_neq.
have := @honest_signature S C I le HO H X scheme xcoord lift_x positional HG (curveV_ok Eq g) HX ho p d sr text ar
  pok dok aok Pq odd_q Hx Hl.
rewrite key => /(_ _ _ _ _) [] //.
- by apply: nz; rewrite zfM.
- by apply: nz; rewrite zfD zfM Ex.
- by move/eqP: n4.
move=> c [e [m1 [s2 [s3 [s4 [sig [[h1 h2 h3 h4] h5 h6 [r1 r2 r3]]]]]]]].
have newE : {in ids, forall i, sg_new text (zshare_of g int_of (ks i)) (a i) = Ok (entry_of C p text i)}.
  move=> i hi; have [ko kp] := hks i hi; have [ao ask ap] := ha i hi.
  have pubE : [seq (j, ks_secret (ks j) *: g) | j <- ids] = [seq (j, pmul C (py_secret p j) (gen C)) | j <- py_ids p].
    by apply: eq_map => j /=; rewrite (sf_val HF).
  have aE : a i = AuxInfo i (sk i) [seq (j, (N j, rp j)) | j <- ids] by rewrite -{2}ao -ask -ap; case: (a i).
  rewrite /sg_new /= ko ao eqxx kp ap /= /akeys -!map_comp /= eqxx /entry_of /zshare_of ko kp aE.
  by move: pubE => /= ->.
exists sig; split.
  exists (entry_of C p text), c, e, m1, s2, s3, s4; split=> // i hi.
  by split; [apply: h3|apply: h4|apply: h5|apply: h6].
split=> // m ->; case: r3 => u1 [u2 [w [hw hv]]]; split=> //; exists (zf w); split.
- by rewrite -zfM -(zf_mod Pq Eq) hw.
- by move: hv; rewrite /= !zfM.
Qed.
End Sign.

(** ** The sequences *)

Lemma fin_choice (I : eqType) (B : Type) (ids : seq I) (def : I -> B) (P : I -> B -> Prop) :
  (forall i, i \in ids -> exists b, P i b) -> exists f : I -> B, {in ids, forall i, P i (f i)}.
Proof.
elim: ids => [|j ids IH] h; first by exists def.
have [f hf] : exists f : I -> B, {in ids, forall i, P i (f i)}.
  by apply: IH => i hi; apply: h; rewrite inE hi orbT.
have [b hb] := h j (mem_head _ _).
exists (fun i => if i == j then b else f i) => i; rewrite inE; case: eqP => [-> _|_ /= hi] //.
exact: hf.
Qed.
Definition no_rp : rpparams := RP Z0 Z0 Z0.
Definition no_prm : prm_proof := PrmProof nil nil nil.
Definition no_key : skey := SKey (Primes Z0 Z0 Z0) Z0 (mkU Z0 Z0) Z0 Z0 Z0.

Section Sequences.
Variables (S : sparams) (F : fieldType) (V : lmodType F) (g : V) (int_of : F -> Z) (I : eqType) (le : rel I) (HO : eqType).
Notation item := (hitem HO I V).
Variables (H : dst -> seq item -> HO) (X : xof (seq item) V) (Hs : dst -> seq item -> F) (scheme : seq item).
Notation C := (curveV g).
Variables (xcoord : V -> Z) (lift_x : nat -> Z -> option V) (positional debug : bool).
Notation q := (sp_q S).
Variables (T CC N : Type) (as_tweak : T -> option F) (icc : V -> CC) (dtw : V -> CC -> N -> option (T * CC)).
Hypotheses (HG : good_params S) (HF : scalar_field q int_of) (HX : xof_ok q (X : xof (seq item) (pt C))) (ho : total_order le).
Hypotheses (Pq : Znumtheory.prime q) (Hx : @xcoord_ok q C xcoord) (Hl : @lift_ok C xcoord lift_x).
Hypotheses (HD : @detects_composites _ V X).
Hypothesis HW : Z.lt (Z.add (Z.add (Z.add (Z.mul 2 (modulus_bits (sp_pail S))) (sp_l S)) (sp_eps S)) 1) (sp_xw S).

Lemma init_succeeds ids sr (x tau : I -> F) (rho u : I -> seq bool) n o :
  sorted le ids -> uniq ids -> {in ids, forall i, size (rho i) = n} -> orders_ok ids o ->
  (\sum_(i <- ids) x i) *: g != 0 ->
  exists shares, [/\ keygen_run g le H X scheme ids sr x tau rho u o shares,
    additive_sharing g ids (\sum_(i <- ids) x i) shares &
    {in ids, forall i, ks_verifying_key (shares i) = Ok ((\sum_(i <- ids) x i) *: g)}].
Proof.
move=> hs hu hn hor hk; pose c i := KiCtx (without ids i) i (x i) (tau i)
  (KiPublic (x i *: g) (sch_commitment g (tau i)) (rho i) (u i)) (sid_new H scheme sr ids).
have hc : {in ids, forall i, ki_start g H scheme ids sr i (x i) (tau i) (rho i) (u i) = Ok (c i)}.
  by move=> i hi; rewrite /ki_start hi.
have [s [h3 [_ /(_ hk) [shares [h4 h5 _ h6]]]]] := ki_honest X ho hs hu hn hc (hor 1%N) (hor 2%N) (hor 3%N).
by exists shares; split=> //; exists c, s; split.
Qed.

Lemma aux_succeeds ids sr r com rnd n o :
  sorted le ids -> uniq ids -> {in ids, forall i, honest_keys S (r i) (com i)} ->
  {in ids &, forall i j, i != j -> honest_masks S (r i) (Z.mul (ar_rp_p (r j)) (ar_rp_q (r j))) (rnd i j)} ->
  {in ids, forall i, size (ar_rid (r i)) = n} -> orders_ok ids o ->
  exists a sk rp, [/\ aux_run S g le H X scheme ids sr r com rnd o a,
    {in ids, forall i, [/\ ai_owner (a i) = i, ai_sk (a i) = sk i &
       ai_public (a i) = [seq (j, (Z.mul (ar_p (r j)) (ar_q (r j)), rp j)) | j <- ids]]},
    {in ids, forall i, key_of S (sk i) (Z.mul (ar_p (r i)) (ar_q (r i)))},
    {in ids, forall i, setup_ok S (rp i) /\ Z.odd (rp_n (rp i)) = true} &
    {in ids, forall i, rp_n (rp i) = Z.mul (ar_rp_p (r i)) (ar_rp_q (r i))}].
Proof.
move=> hs hu hk hm hn hor.
have [c [d hc]] : exists c d, {in ids, forall i, @ag_start S C I HO H X scheme ids sr i (r i) = Ok (c i, d i)}.
  have st i : i \in ids -> exists cd, @ag_start S C I HO H X scheme ids sr i (r i) = Ok cd.
    by move=> hi; have [c [d E]] := @ag_start_succeeds S C I HO H X scheme HG ids sr i (r i) (com i) hi (hk i hi); exists (c, d).
  have [cd hcd] := fin_choice (fun i => (AgCtx no_key no_rp i [::] (H DSid [::]), AgPublic Z0 no_rp no_prm [::] [::])) st.
  by exists (fun i => (cd i).1), (fun i => (cd i).2) => i hi; rewrite hcd // -surjective_pairing.
have ord3 : {in ids, forall i, [/\ perm_eq (o 1%N i) (without ids i), perm_eq (o 2%N i) (without ids i) & perm_eq (o 3%N i) (without ids i)]}.
  by move=> i hi; split; apply: hor.
have [R [_ [s [m3 [a [h1 h2 h3 h4]]]]]] :=
  @aux_honest_run S C I le HO H X scheme ids sr r com rnd n c d (o 1%N) (o 2%N) (o 3%N) HG HX HD HW ho hs hu hk hm hn hc ord3.
exists a, (fun i => ax_sk (c i)), (fun i => ap_rp (d i)); split.
- by exists c, d, s, m3; split=> // i hi; have [] := h1 i hi.
- exact: h4.
- move=> i hi; have [[_ E _ _] _] := ag_start_honest HG (hk i hi) (hc i hi).
  by exists (ar_p (r i)), (ar_q (r i)); split; [exact: hk_primes (hk i hi)|].
- by move=> i hi; have [_ [_ _ _ h [_ h']]] := ag_start_honest HG (hk i hi) (hc i hi).
- by move=> i hi; have [[_ _ _ h] _] := ag_start_honest HG (hk i hi) (hc i hi).
Qed.

Lemma refresh_succeeds ids sr r com y tau split rnd n o :
  sorted le ids -> uniq ids -> {in ids, forall i, honest_keys S (r i) (com i)} ->
  {in ids &, forall i j, i != j -> honest_masks S (r i) (Z.mul (ar_rp_p (r j)) (ar_rp_q (r j))) (rnd i j)} ->
  {in ids, forall i, size (ar_rid (r i)) = n} -> orders_ok ids o ->
  exists kc a sk rp, [/\ refresh_run S g le H X Hs scheme ids sr r com y tau split rnd o kc a,
    {in ids, forall i, [/\ ai_owner (a i) = i, ai_sk (a i) = sk i &
       ai_public (a i) = [seq (j, (Z.mul (ar_p (r j)) (ar_q (r j)), rp j)) | j <- ids]]},
    {in ids, forall i, key_of S (sk i) (Z.mul (ar_p (r i)) (ar_q (r i)))},
    {in ids, forall i, setup_ok S (rp i) /\ Z.odd (rp_n (rp i)) = true} &
    [/\ {in ids, forall i, rp_n (rp i) = Z.mul (ar_rp_p (r i)) (ar_rp_q (r i))}, \sum_(i <- ids) kc_secret (kc i) = 0 &
    {in ids, forall i, kc_owner (kc i) = i /\ kc_public (kc i) = [seq (j, kc_secret (kc j) *: g) | j <- ids]}]].
Proof.
move=> hs hu hk hm hn hor.
have [c [d hc]] : exists c d, {in ids, forall i, kr_start S g H X scheme ids sr i (r i) (y i) (tau i) (split i) = Ok (c i, d i)}.
  have st i : i \in ids -> exists cd, kr_start S g H X scheme ids sr i (r i) (y i) (tau i) (split i) = Ok cd.
    move=> hi; have [c [d E]] := @kr_start_succeeds S F V g I HO H X scheme HG ids sr i (r i) (com i) (y i) (tau i) (split i) hi (hk i hi).
    by exists (c, d).
  have [cd hcd] := fin_choice (fun i => (KrCtx no_key no_rp [::] [::] [::] i [::] [::] (H DSid [::]),
    KrPublic [::] [::] [::] Z0 no_rp no_prm [::] [::])) st.
  by exists (fun i => (cd i).1), (fun i => (cd i).2) => i hi; rewrite hcd // -surjective_pairing.
have ord3 : {in ids, forall i, [/\ perm_eq (o 1%N i) (without ids i), perm_eq (o 2%N i) (without ids i) & perm_eq (o 3%N i) (without ids i)]}.
  by move=> i hi; split; apply: hor.
have [R [_ [s [m3 [kc [a [h1 h2 h3 h4 h5]]]]]]] :=
  @honest_run S F V g I le HO H X Hs scheme ids sr r com y tau split rnd n c d (o 1%N) (o 2%N) (o 3%N) HG HX HD HW ho hs hu hk hm hn hc ord3.
exists kc, a, (fun i => kx_sk (c i)), (fun i => kp_rp (d i)); split.
- by exists c, d, s, m3; split=> // i hi; have [] := h1 i hi.
- by move=> i hi; have [_ _ e1 e2 e3] := h5 i hi.
- move=> i hi; have [[_ E _ _] _] := kr_start_honest HG (hk i hi) (hc i hi).
  by exists (ar_p (r i)), (ar_q (r i)); split; [exact: hk_primes (hk i hi)|].
- by move=> i hi; have [_ [_ _ _ h [_ h']]] := kr_start_honest HG (hk i hi) (hc i hi).
- split=> // i hi; last by have [e1 e2 _ _ _] := h5 i hi.
  by have [[_ _ _ h] _] := kr_start_honest HG (hk i hi) (hc i hi).
Qed.

Notation sign := (signing_run S g int_of le H X scheme xcoord lift_x positional).

(** KeyInit, KeyRefresh, signing by all. *)
Lemma life_refresh ids sr1 x tau rho u n1 o1 sr2 r com y tau' split rnd n2 o2 :
  sorted le ids -> uniq ids ->
  {in ids, forall i, size (rho i) = n1} -> orders_ok ids o1 ->
  {in ids, forall i, honest_keys S (r i) (com i)} ->
  {in ids &, forall i j, i != j -> honest_masks S (r i) (Z.mul (ar_rp_p (r j)) (ar_rp_q (r j))) (rnd i j)} ->
  {in ids, forall i, size (ar_rid (r i)) = n2} -> orders_ok ids o2 ->
  let key := \sum_(i <- ids) x i in key *: g != 0 ->
  exists shares kc a shares',
  [/\ keygen_run g le H X scheme ids sr1 x tau rho u o1 shares,
      refresh_run S g le H X Hs scheme ids sr2 r com y tau' split rnd o2 kc a,
      {in ids, forall i, ks_update (shares i) (kc i) = Ok (shares' i)} &
      {in ids, forall i, ks_verifying_key (shares i) = Ok (key *: g) /\ ks_verifying_key (shares' i) = Ok (key *: g)}] /\
  forall sr3 text d o3,
    signing_draws_ok S ids (fun i => Z.mul (ar_p (r i)) (ar_q (r i))) (fun i => Z.mul (ar_rp_p (r i)) (ar_rp_q (r i))) d ->
    orders_ok ids o3 -> not_degenerate S g xcoord ids d text key ->
    exists sig, sign ids sr3 text shares' a d o3 sig /\ signs S g xcoord ids d text key sig.
Proof.
move=> hs hu hn1 ho1 hk hm hn2 ho2 key hkey.
have [shares [k1 k2 k3]] := init_succeeds sr1 tau u hs hu hn1 ho1 hkey.
have [kc [a [sk [rp [r1 r2 r3 r4 [r5 r6 r7]]]]]] := refresh_succeeds sr2 y tau' split hs hu hk hm hn2 ho2.
have [shares' [u1 [u2 u3]]] := updateE hu k2 r6 r7.
exists shares, kc, a, shares'; split.
  by split=> // i hi; rewrite (u3 i hi).2 k3.
move=> sr3 text d o3 hd ho3 nd.
apply: (sign_from H scheme positional HG HF HX ho Pq Hx Hl sr3 hu hs u2 r2 r3 r4 _ ho3 nd).
case: hd => d1 d2 d3; split=> // i j hi hj ne; rewrite r5 //; [exact: d2|exact: d3].
Qed.

(** KeyInit, conversion to a threshold key, KeyResharing, derivation of a child
    key, selection of the signers; AuxGen; signing. *)
Lemma life_threshold olds news signers t sr1 x tau rho u n1 o1 rs o2 sr2 r com rnd n2 o3 :
  sorted le olds -> uniq olds -> sorted le news -> uniq news -> sorted le signers -> uniq signers ->
  {subset signers <= news} -> size signers = t -> (1 < t)%N -> big_field F (size olds) -> big_field F (size news) ->
  {in olds, forall i, size (rho i) = n1} -> orders_ok olds o1 ->
  {in news, forall i, perm_eq (o2 i) (without olds i)} ->
  {in news, forall i, honest_keys S (r i) (com i)} ->
  {in news &, forall i j, i != j -> honest_masks S (r i) (Z.mul (ar_rp_p (r j)) (ar_rp_q (r j))) (rnd i j)} ->
  {in news, forall i, size (ar_rid (r i)) = n2} -> orders_ok news o3 ->
  let key := \sum_(i <- olds) x i in key *: g != 0 ->
  exists shares ts nts a,
  [/\ keygen_run g le H X scheme olds sr1 x tau rho u o1 shares /\
        {in olds, forall i, ks_verifying_key (shares i) = Ok (key *: g)},
      {in olds, forall i, ts_from_key_share (shares i) = Ok (ts i) /\ ts_verifying_key (ts i) = Ok (key *: g)},
      reshare_run g le olds news t (key *: g) ts rs o2 nts /\
        threshold_sharing g news t key nts /\ {in news, forall i, ts_verifying_key (nts i) = Ok (key *: g)} &
      aux_run S g le H X scheme news sr2 r com rnd o3 a] /\
  forall path i0 s0, i0 \in news -> child_share g as_tweak icc dtw path (nts i0) = Some s0 ->
  exists x' children ks aux,
  [/\ child_key g as_tweak icc dtw path (key *: g) = Some (x' *: g),
      {in news, forall i, child_share g as_tweak icc dtw path (nts i) = Some (children i)},
      {in signers, forall i, ts_to_key_share debug (children i) signers = Ok (ks i) /\ ks_verifying_key (ks i) = Ok (x' *: g)} &
      {in signers, forall i, aux_subset (a i) signers = Ok (aux i)}] /\
  forall sr3 text d o4,
    signing_draws_ok S signers (fun i => Z.mul (ar_p (r i)) (ar_q (r i))) (fun i => Z.mul (ar_rp_p (r i)) (ar_rp_q (r i))) d ->
    orders_ok signers o4 -> not_degenerate S g xcoord signers d text x' ->
    exists sig, sign signers sr3 text ks aux d o4 sig /\ signs S g xcoord signers d text x' sig.
Proof.
move=> so uo sn un ss us sub st t1 bo bn hn1 ho1 ho2 hk hm hn2 ho3 key hkey.
have tn : (0 < t <= size news)%N by rewrite ltnW // -st uniq_leq_size.
have g0 : g != 0 by apply: contraNneq hkey => ->; rewrite scaler0.
have [shares [k1 k2 k3]] := init_succeeds sr1 tau u so uo hn1 ho1 hkey.
have o0 : (0 < size olds)%N.
  rewrite lt0n size_eq0; apply: contraNneq hkey => E.
  by rewrite /key E big_nil scale0r.
have [ts [f1 [f2 _]]] := from_key_shareE uo bo k2.
have tvk : {in olds, forall i, ts_verifying_key (ts i) = Ok (key *: g)}.
  move=> i hi; have [_ [tt [E1 E2]]] := from_key_share_vkey uo o0 bo k2 hkey hi.
  by move: E1; rewrite f1 // => -[->].
have [c hc] : exists c, forall i, (i \in olds) || (i \in news) ->
     rs_start g (if i \in olds then Some (ts i) else None)
       (if i \in news then Some (NewHolder (key *: g) (size olds) olds) else None) news t i (rs i) = Ok (c i).
  have [|c hc] := @fin_choice I _ (olds ++ news) (fun i => RsRound1 None None [::] 0 i [::] [::]) (fun i c =>
     rs_start g (if i \in olds then Some (ts i) else None)
       (if i \in news then Some (NewHolder (key *: g) (size olds) olds) else None) news t i (rs i) = Ok c).
    move=> i; rewrite mem_cat => hi; rewrite /rs_start.
    have [p [pt [_ _ _ _ hp]]] := f2.
    case E1: (i \in olds) hi => /= hi; last by rewrite hi /=; eexists.
    have [eo _ _ es _] := hp i E1; rewrite /ts_share_id eo es aget_tab E1 /=.
    by eexists.
  by exists c => i hi; apply: hc; rewrite mem_cat.
have [_ [exE [m [s1 [s2 [nts [s3 s4]]]]]]] :=
  rs_honest ho so uo un f2 (fun i hi => hi) uo (leqnn _) bn t1 hc.
have nvk : {in news, forall i, ts_verifying_key (nts i) = Ok (key *: g)}.
  by move=> i hi; rewrite /ts_verifying_key (vkey_point_sharing un tn s3) //= /to_verifying_key (negbTE hkey).
have [a [sk [rp [a1 a2 a3 a4 a5]]]] := aux_succeeds sr2 sn un hk hm hn2 ho3.
exists shares, ts, nts, a; split.
  split=> //; [by move=> i hi; split; [exact: f1|exact: tvk]|split; last by split].
  by exists c, m; split=> // i hi; apply: s4 => //; rewrite exE //; apply: ho2.
move=> path i0 s0 hi0 hs0.
have [x' [children [c1 c2 c3 c4]]] : exists x' children,
    [/\ {in news, forall i, child_share g as_tweak icc dtw path (nts i) = Some (children i)},
        threshold_sharing g news t x' children,
        child_key g as_tweak icc dtw path (key *: g) = Some (x' *: g) & x' *: g != 0].
  case: path hs0 => [p|] /= hs0; last by exists key, nts.
  have [ch [dd [h1 [h2 [h3 h4]]]]] := derive_bip32E g0 un tn s3 hi0 hs0.
  exists (key + dd), ch; split=> //.
  have [_] := h4 i0 hi0; rewrite /ts_verifying_key (vkey_point_sharing un tn h2) //= /to_verifying_key.
  by case: eqP.
have dbg : debug -> size signers = t by [].
have [ks [t2 [t3 t4]]] := to_key_shareE un us sub (eq_leq (esym st)) dbg c4 c2.
have selE : [seq j <- news | j \in signers] = signers.
  apply: (sorted_same ho) => //; [exact: filter_uniq|by apply: sorted_filter => //; case: ho|].
  by move=> j; rewrite mem_filter; case hj: (j \in signers) => //=; exact: sub.
pose aux i := AuxInfo i (sk i) [seq (j, (Z.mul (ar_p (r j)) (ar_q (r j)), rp j)) | j <- signers].
have auxE : {in signers, forall i, aux_subset (a i) signers = Ok (aux i)}.
  move=> i hi; have [e1 e2 e3] := a2 i (sub i hi).
  rewrite /aux_subset e1 hi /= /public_aux_subset e3 filter_map /= -/(preim _ _).
  have -> : [seq x0 <- news | preim (fun j : I => (j, (Z.mul (ar_p (r j)) (ar_q (r j)), rp j))) (fun p => p.1 \in signers) x0] = signers.
    by rewrite -[RHS]selE; apply: eq_filter.
  by rewrite size_map eqxx /= e2.
exists x', children, ks, aux; split; first by split=> // i hi; split; [exact: t2|exact: t4].
move=> sr3 text d o4 hd ho4 nd.
have ok4 (P : I -> Prop) : {in news, forall i, P i} -> {in signers, forall i, P i} by move=> h i /sub; apply: h.
apply: (sign_from H scheme positional HG HF HX ho Pq Hx Hl sr3 us ss t3 _ (ok4 _ a3) (ok4 _ a4) _ ho4 nd) => //.
case: hd => d1 d2 d3; split=> // i j hi hj ne; rewrite a5 ?sub //; [exact: d2|exact: d3].
Qed.
End Sequences.
