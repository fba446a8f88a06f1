(** * Facts about AuxGen. *)
From Coq Require Import ZArith Lia.
From Verif Require Import Base BaseFacts EncodingModel SignedModel PaillierModel ZkBase ZkModel.
From mathcomp Require Import all_ssreflect.
From Verif Require Import AlgBase AlgFacts ProtoBase ProtoSpec ProtoFacts KeyInitProofs AuxGenModel AuxGenSpec.
Set Implicit Arguments.
Unset Strict Implicit.
Unset Printing Implicit Defensive.

Lemma bits_at_least k N : (0 < k)%Z -> (bits N <? k)%Z = false <-> at_least_bits k N.
Proof.
move=> hk; rewrite /at_least_bits Z.ltb_ge.
have [h|h] := Z_le_gt_dec N 0.
- rewrite /bits; have -> : (N <=? 0)%Z = true by apply/Z.leb_le.
  by have := Z.pow_pos_nonneg 2 (k - 1); split; lia.
- have h' : (0 < N)%Z by lia.
  have [b1 b2] := bits_spec _ h'; split=> E.
  + by apply: Z.le_trans b1; apply: Z.pow_le_mono_r; lia.
  + have [//|bad] := Z_le_gt_dec k (bits N); exfalso.
    have := Z.pow_le_mono_r 2 (bits N) (k - 1); lia.
Qed.

Section AuxGen.
Variables (S : sparams) (C : curve) (I : eqType) (le : rel I) (HO : eqType).
Notation item := (hitem HO I (pt C)).
Notation P := (sp_pail S).
Variables (H : dst -> seq item -> HO) (X : xof (seq item) (pt C)) (scheme : seq item).
Notation start := (ag_start S H X scheme).
Notation recv2 := (ag_recv2 S H X).
Notation recv3 := (ag_recv3 S X).
Notation until3 := (ag_until3 S le H X).
Notation run := (ag_run S le H X).
Notation evidence_ok := (ag_evidence S H X scheme).

(** What is committed to in round 1. *)
Notation committed sid j pk rp psi rid u :=
  (H DKeyInit [:: HOut sid; HId j; HNum pk; HSeq [:: HNum (rp_n rp); HNum (rp_t rp); HNum (rp_s rp)];
     HSeq [:: HSeq [seq HNum z | z <- prm_commitment psi]; HBits (prm_challenge psi);
              HSeq [seq HNum z | z <- prm_elems psi]]; HBits rid; HBits u]).

Lemma ag_start_inv ids sr id r c d : start ids sr id r = Ok (c, d) ->
  [/\ id \in ids, ax_id c = id, ax_others c = without ids id, ax_sid c = sid_new H scheme sr ids &
  [/\ ap_rid d = ar_rid r, ap_rp d = ax_rp c, ap_pk d = sk_pk (ax_sk c) &
   exists sec, rp_secret_new P (ar_rp_p r) (ar_rp_q r) (ar_lambda r) = Ret sec /\
   rp_with_secret sec (ar_t r) = Ret (ax_rp c)]].
Proof.
rewrite /ag_start; case: ifP => // /negbFE hid.
case E1: (rp_secret_new _ _ _ _) => [sec|] //=; case E2: (rp_with_secret _ _) => [rp|] //=.
case E3: (prm_new _ _ _ _ _ _) => [psi|] //=; case E4: (public_key_new _) => [pk|] //=.
case E5: (skey_new _ _ _) => [sk|] //= [<- <-]; split=> //=; split=> //; last by exists sec.
move: E5 E4; rewrite /skey_new; case: (primes_new _ _) => [s|] //=.
case: (public_key_new _) => [N|] //= E5 [<-]; move: E5.
case: (oassert _) => //= _; case: (oassert _) => //= _.
case: (oexpect _) => //= ?; case: (oexpect _) => //= ?; case: (oexpect _) => //= ?; case: (oexpect _) => //= ?.
by case: (oassert _) => //= _; case: (oexpect _) => //= ? [<-].
Qed.

Lemma recv2_ok c cap_vs from m p : recv2 c cap_vs from m = Accept p <->
  exists rid rpw pk psi u,
  let rp := reduced rpw in
  [/\ m = Msg None (Some (A2EB rid rpw)) (Some (A2NB pk psi u)), p = AgPayload pk rp rid,
      Z.odd pk /\ Z.odd (rp_n rpw), aget cap_vs from = Some (committed (ax_sid c) from pk rp psi rid u) &
      [/\ big_enough S pk, big_enough S (rp_n rpw) & prm_verify S X psi rp [:: HOut (ax_sid c); HId from] = Ret true]].
Proof.
split.
- rewrite /ag_recv2 /assert_none /deser /safe_get /require.
  case: m => -[d|] [e|] [n|] //=; last by case: (as_a2eb e).
  case: e => //= rid rpw; case: n => //= pk psi u.
  rewrite /public_key_new /rp_pre /rp_to_precomputed /public_key_new.
  case Ep: (Z.odd pk) => //=; case En: (Z.odd (rp_n rpw)) => //=.
  case Ev: (aget cap_vs from) => [v|] //=; case: eqP => //= Eh.
  case Eb: (big_enough S pk) => //=; case Er: (big_enough S (rp_n rpw)) => //=.
  case Eq: (prm_verify _ _ _ _ _) => [[]|] //= [<-].
  by exists rid, rpw, pk, psi, u; split=> //; rewrite -Eh.
- case=> rid [rpw [pk [psi [u [-> -> [o1 o2] hv [b1 b2 hp]]]]]].
  rewrite /ag_recv2 /assert_none /deser /safe_get /require /= hv.
  by rewrite /public_key_new /rp_pre /rp_to_precomputed /public_key_new o1 o2 /= eqxx /= b1 b2 /= hp.
Qed.

Lemma until3_ok c d com m1 m2 o1 o2 s : until3 c d com m1 m2 o1 o2 = Accept s ->
  exists pk rpw psi rid u,
  let rp j := reduced (rpw j) in
  [/\ a3_ctx s = c,
      {in o2, forall j, [/\ m2 j = Msg None (Some (A2EB (rid j) (rpw j))) (Some (A2NB (pk j) (psi j) (u j))),
         m1 j = Msg None (Some (A1EB (committed (ax_sid c) j (pk j) (rp j) (psi j) (rid j) (u j)))) None,
         Z.odd (pk j) /\ Z.odd (rp_n (rpw j)) &
         [/\ big_enough S (pk j), big_enough S (rp_n (rpw j)) &
             prm_verify S X (psi j) (rp j) [:: HOut (ax_sid c); HId j] = Ret true]]},
      a3_payloads s = binsert le [seq (j, AgPayload (pk j) (rp j) (rid j)) | j <- sort le o2]
                        (ax_id c) (AgPayload (ap_pk d) (ap_rp d) (ap_rid d)),
      combined (ap_rid d :: [seq rid j | j <- o2]) (a3_rid s) &
      mod_new S X (ax_sk c) (ag_aux C (ax_sid c) (ax_id c) (a3_rid s)) com = Ret (a3_psi_prime s)].
Proof.
rewrite /ag_until3 => U; have [cap_vs R1 R2] := vbind_inv U; have [v1 v1' v2] := round_inv R1.
have [pl Q] := vbind_inv R2; move=> {U R1 R2}.
rewrite /ag_finalize2; case Ex: xor_all => [rho|] //=; case Em: (mod_new _ _ _ _ _) => [psi'|] //= [<-].
pose dn j := if m_normal (m2 j) is Some (A2NB x a u) then (x, a, u) else (Z0, PrmProof [::] [::] [::], [::]).
pose de j := if m_echo (m2 j) is Some (A2EB r p) then (r, p) else ([::], RP Z0 Z0 Z0).
exists (fun j => (dn j).1.1), (fun j => (de j).2), (fun j => (dn j).1.2), (fun j => (de j).1), (fun j => (dn j).2).
pose rp j := reduced (de j).2.
have K j t : j \in o2 -> recv2 c cap_vs j (m2 j) = Accept t ->
    [/\ m2 j = Msg None (Some (A2EB (de j).1 (de j).2)) (Some (A2NB (dn j).1.1 (dn j).1.2 (dn j).2)),
    m1 j = Msg None (Some (A1EB (committed (ax_sid c) j (dn j).1.1 (rp j) (dn j).1.2 (de j).1 (dn j).2))) None,
    Z.odd (dn j).1.1 /\ Z.odd (rp_n (de j).2),
    [/\ big_enough S (dn j).1.1, big_enough S (rp_n (de j).2) &
        prm_verify S X (dn j).1.2 (rp j) [:: HOut (ax_sid c); HId j] = Ret true] &
    t = AgPayload (dn j).1.1 (rp j) (de j).1].
  move=> hj /recv2_ok [rid [rpw [pk [psi [u [hm -> od hv [b1 b2 hp]]]]]]].
  rewrite /rp /dn /de hm /=; split=> //.
  have jo1 : j \in o1 by rewrite -v1'; exact: aget_in hv.
  have [t1] := v2 _ jo1; rewrite hv => R1 [ev]; subst t1.
  move: R1; rewrite /ag_recv1 /assert_none /deser.
  by case: (m1 j) => -[d'|] [e|] [n|] //=; case: e => //= h [hv']; rewrite hv'.
have tabE : pl = [seq (j, AgPayload (dn j).1.1 (rp j) (de j).1) | j <- sort le o2].
  by apply: (round_tab Q) => j t hj /(K _ _ hj) [].
split=> //=.
- by move=> j hj; have [_ _ q2] := round_inv Q; have [t ht _] := q2 _ hj; have [] := K _ _ hj ht.
- by rewrite tabE.
- move/xor_allP: Ex; apply: combined_perm; rewrite perm_cons tabE -map_comp /=.
  by apply: perm_map; rewrite perm_sort.
Qed.

Lemma ag_finished ids sr id r c d com m1 m2 m3 o1 o2 o3 a :
  (3 <= modulus_bits P)%Z ->
  start ids sr id r = Ok (c, d) -> uniq ids ->
  perm_eq o1 (without ids id) -> perm_eq o2 (without ids id) -> perm_eq o3 (without ids id) ->
  run c d com m1 m2 m3 o1 o2 o3 = Accept a ->
  let sid := sid_new H scheme sr ids in
  [/\ ai_owner a = id, ai_sk a = ax_sk c, perm_eq (akeys (ai_public a)) ids &
      aget (ai_public a) id = Some (sk_pk (ax_sk c), ax_rp c)] /\
  exists pk rpw psi rid u rid_c psi' psi'',
    let rp j := reduced (rpw j) in
    combined (ar_rid r :: [seq rid j | j <- without ids id]) rid_c /\
    {in without ids id, forall j,
      [/\ aget (ai_public a) j = Some (pk j, rp j),
          m2 j = Msg None (Some (A2EB (rid j) (rpw j))) (Some (A2NB (pk j) (psi j) (u j))),
          m1 j = Msg None (Some (A1EB (committed sid j (pk j) (rp j) (psi j) (rid j) (u j)))) None,
          m3 j = Msg (Some (A3DM (psi'' j))) None (Some (A3NB (psi' j))) &
          [/\ at_least_bits (modulus_bits P - 2) (pk j), at_least_bits (modulus_bits P - 2) (rp_n (rp j)),
              prm_verify S X (psi j) (rp j) [:: HOut sid; HId j] = Ret true,
              mod_verify S X (psi' j) (pk j) [:: HOut sid; HId j; HBits rid_c] = Ret true &
              fac_verify S X (psi'' j) (pk j) (ax_rp c) [:: HOut sid; HId j; HBits rid_c] = Ret true]]}.
Proof.
move=> hmb hst hu p1 p2 p3; have hmb' : (0 < modulus_bits P - 2)%Z by lia.
have [hid Eid Eot Esid [Erid Erp Epk _]] := ag_start_inv hst.
rewrite /ag_run => U; have [s S1 S2] := vbind_inv U.
have [pl Q] := vbind_inv S2; move=> {U S2} [<-].
have [pk [rpw [psi [rid [u]]]]] := until3_ok S1; pose rp j := reduced (rpw j); move=> [Ec K Epl Er _].
have ks : sort le o2 =i without ids id by move=> j; rewrite mem_sort (perm_mem p2).
have G j : j \in without ids id -> aget (a3_payloads s) j = Some (AgPayload (pk j) (rp j) (rid j)).
  move=> hj; rewrite Epl /binsert aget_btree aget_aset Eid.
  by have := hj; rewrite mem_filter => /andP [/negbTE -> _]; rewrite aget_tab ks hj.
have Gid : aget (a3_payloads s) id = Some (AgPayload (ap_pk d) (ap_rp d) (ap_rid d)).
  by rewrite Epl /binsert aget_btree aget_aset Eid eqxx.
split.
  rewrite /ag_finalize3 Ec; split=> //=.
  - rewrite (akeys_map_val (fun p => (al_pk p, al_rp p))) Epl /binsert akeys_btree perm_sort akeys_aset ?Eid; last first.
      by rewrite akeys_tab ks mem_filter eqxx.
    rewrite perm_rcons akeys_tab perm_sym.
    by apply: perm_trans (perm_without hu hid) _; rewrite perm_cons perm_sym perm_sort.
  - by rewrite (aget_map_val (fun p => (al_pk p, al_rp p))) Gid /= Epk Erp.
pose psi' j := if m_normal (m3 j) is Some (A3NB p) then p else ModProof Z0 [::] [::].
pose ms0 := mkS Z0 Z0.
pose psi'' j := if m_direct (m3 j) is Some (A3DM p) then p else FacProof ms0 Z0 Z0 Z0 Z0 Z0 ms0 ms0 ms0 ms0 ms0.
exists pk, rpw, psi, rid, u, (a3_rid s), psi', psi''; split.
  by rewrite -Erid; apply: combined_perm Er; rewrite perm_cons; apply: perm_map.
move=> j hj; have [h1 h2 h3 [b1 b2 h4]] := K j (etrans (perm_mem p2 j) hj).
have j3 : j \in o3 by rewrite (perm_mem p3).
have [_ _ /(_ _ j3) [t T1 _]] := round_inv Q.
move: T1; rewrite /ag_recv3 /safe_get G // /assert_none /deser /require.
case Em: (m3 j) => [[dm|] [e|] [w|]] //=; try by case: (as_a3nb w).
case: w Em => //= pf' Em; case: dm Em => //= pf Em.
rewrite Ec /ag_aux Esid.
case E1: (mod_verify _ _ _ _ _) => [[]|] //=; case E2: (fac_verify _ _ _ _ _ _) => [[]|] //= _.
rewrite /psi' /psi'' Em /= (aget_map_val (fun p => (al_pk p, al_rp p))) G //; split=> //; try by rewrite -Esid.
split=> //; try by rewrite -Esid.
- by apply/bits_at_least; [exact: hmb'|apply/negbTE].
- by apply/bits_at_least; [exact: hmb'|apply/negbTE].
Qed.

(** ** Evidence *)

Lemma confirmedP r : confirmed_ev r = true <-> r = EvOk tt.
Proof. by case: r => [[]| |]. Qed.

Lemma ag_round2_evidence ids sr id r c d cap_vs guilty v rid rpw pk psi u hist (echos : nat -> seq (I * ag_wire HO)) :
  start ids sr id r = Ok (c, d) -> @ag_recv1 I HO (hist 1%N) = Accept v -> aget cap_vs guilty = Some v ->
  let m := Msg None (Some (A2EB rid rpw)) (Some (A2NB pk psi u)) in
  let judge e := evidence_ok ids sr guilty e (assemble (ag_required e) m hist echos) in
  recv2 c cap_vs guilty m = RPanic \/
  recv2 c cap_vs guilty m =
    if first_confirmed judge ag_checks2 is Some e then Reject (Proto e)
    else Accept (AgPayload pk (reduced rpw) rid).
Proof.
case/ag_start_inv=> _ _ _ Esid _ R1 Ev m judge.
have R1' : @ag_recv1 I HO (hist 1%N) = Accept v := R1.
have {R1} Eh : ssrfun.Option.bind (@as_a1eb HO) (m_echo (hist 1%N)) = Some v.
  move: R1; rewrite /ag_recv1 /assert_none /deser.
  by case: (hist 1%N) => -[d'|] [e|] [w|] //=; case: (as_a1eb e) => // ? [<-].
rewrite /ag_recv2 /safe_get /require /deser /assert_none Ev /=.
rewrite /first_confirmed /ag_checks2 /judge /ag_evidence /= /ev_deser /= Eh /=.
case Ep: (public_key_new pk) => [pk'|] /=; last by left.
have pkE : pk' = pk by move: Ep; rewrite /public_key_new; case: ifP => // _ [].
case Er: (rp_pre rpw) => [rp|] /=; last by left.
have rpE : rp = reduced rpw.
  by move: Er; rewrite /rp_pre /rp_to_precomputed /public_key_new; case: ifP => // _ /= [].
rewrite Esid /big_enough -!pkE -rpE /verify_that.
have -> : rp_n rpw = rp_n rp by rewrite rpE.
case: eqP => //= _; last by right.
case: (bits pk' <? _)%Z => /=; first by right.
case: (bits (rp_n rp) <? _)%Z => /=; first by right.
case: (prm_verify _ _ _ _ _) => [[]|] /=; [right|right|left]; by rewrite // pkE.
Qed.

Lemma ag_round3_evidence ids sr id r c d com m1 m2 o1 o2 s guilty psi' psi hist echos draws :
  start ids sr id r = Ok (c, d) -> uniq ids ->
  random_quadratic_residue (ar_rp_p r * ar_rp_q r) draws = Some (ar_t r) -> (0 < ar_rp_p r * ar_rp_q r)%Z ->
  perm_eq o1 (without ids id) -> perm_eq o2 (without ids id) ->
  until3 c d com m1 m2 o1 o2 = Accept s ->
  guilty \in without ids id -> hist 2%N = m2 guilty ->
  perm_eq (akeys (echos 2%N)) (without ids guilty) ->
  {in without ids guilty, forall j, aget (echos 2%N) j = m_echo (if j == id then ag_send2 HO d else m2 j)} ->
  let m := Msg (Some (A3DM psi)) None (Some (A3NB psi')) in
  let judge e := evidence_ok ids sr guilty e (assemble (ag_required e) m hist echos) in
  recv3 s guilty m = RPanic \/
  recv3 s guilty m =
    if first_confirmed judge (ag_checks3 id) is Some e then Reject (Proto e) else Accept tt.
Proof.
move=> hst hu hqr hN p1 p2 hs hg hh hk he m judge.
have hN' : (ar_rp_p r * ar_rp_q r)%Z <> Z0 by move: hN; clear; lia.
have [hid Eid Eot Esid [Erid Erp Epk [sec [Esec Ers]]]] := ag_start_inv hst.
have [pk [rpw [psi2 [rid [u]]]]] := until3_ok hs; pose rp j := reduced (rpw j); move=> [Ec K Epl Er _].
have gid : guilty \in ids by move: hg; rewrite mem_filter => /andP [].
have gne : guilty != id by move: hg; rewrite mem_filter => /andP [].
have [K2 _ [opk orp] _] := K _ (etrans (perm_mem p2 guilty) hg).
pose R j := if j == id then ap_rid d else rid j.
pose W j := if j == id then ax_rp c else rpw j.
have echoR j : j \in without ids guilty -> aget (echos 2%N) j = Some (A2EB (R j) (W j)).
  move=> hj; rewrite he // /R /W; case: eqP => [_|/eqP ne]; first by rewrite /ag_send2 /= Erp.
  have [|-> _ _ _] := K j; last by [].
  by rewrite (perm_mem p2) mem_filter ne; move: hj; rewrite mem_filter => /andP [].
have ue : uniq (akeys (echos 2%N)) by rewrite (perm_uniq hk) filter_uniq.
have [|ebs Eebs] := @ev_all_ok _ _ _ (@as_a2eb HO) (echos 2%N) _ ue.
  by move=> j; rewrite (perm_mem hk) => hj; rewrite echoR.
have [ek eg] := ev_all_inv Eebs.
have xorE : xor_all (rid guilty) [seq p.2.1 | p <- ebs] = Ret (a3_rid s).
  apply/xor_allP; apply: combined_perm Er.
  have -> : ebs = [seq (j, (R j, W j)) | j <- akeys ebs].
    rewrite {1}(@atab_eq _ _ ebs ([::], RP Z0 Z0 Z0)) ?ek //; apply/eq_in_map => j; rewrite (perm_mem hk) => hj.
    by rewrite eg echoR.
  rewrite -map_comp ek.
  have -> : ap_rid d = R id by rewrite /R eqxx.
  have -> : rid guilty = R guilty by rewrite /R (negbTE gne).
  have -> : [seq rid j | j <- o2] = [seq R j | j <- o2].
    by apply/eq_in_map => j; rewrite (perm_mem p2) mem_filter => /andP [/negbTE ne _]; rewrite /R ne.
  apply: (@perm_trans _ [seq R j | j <- ids]).
    rewrite -[R id :: _]/([seq R j | j <- id :: o2]) perm_sym; apply: perm_map.
    by apply: perm_trans (perm_without hu hid) _; rewrite perm_cons perm_sym.
  rewrite -[R guilty :: _]/([seq R j | j <- guilty :: akeys (echos 2%N)]); apply: perm_map.
  by apply: perm_trans (perm_without hu gid) _; rewrite perm_cons perm_sym.
have ks : guilty \in sort le o2 by rewrite mem_sort (perm_mem p2).
have G : aget (a3_payloads s) guilty = Some (AgPayload (pk guilty) (rp guilty) (rid guilty)).
  by rewrite Epl /binsert aget_btree aget_aset Eid (negbTE gne) aget_tab ks.
have ign : id \in without ids guilty by rewrite mem_filter eq_sym gne.
have rpE : rp_pre (ax_rp c) = Ret (ax_rp c).
  move: Ers Esec; rewrite /rp_secret_new /rp_with_secret /primes_new.
  case: (csub _ _) => //= ?; case: (csub _ _) => //= ?; case: (oassert _) => //= _.
  case: (oexpect _) => //= l E1 [E2]; subst sec; move: E1 => /=.
  case En: (public_key_new _) => [N|] //=.
  have NE : N = (ar_rp_p r * ar_rp_q r)%Z by move: En; rewrite /public_key_new; case: ifP => // _ [].
  rewrite /pow_unsigned pow_bounded_eq => -[<-].
  rewrite /rp_pre /rp_to_precomputed /= NE; move: En; rewrite NE => -> /=; rewrite Z.mod_mod //.
  move: hqr; rewrite /random_quadratic_residue; case: (random_invertible_residue _ _) => //= z [<-].
  by rewrite Z.mod_mod.
rewrite /ag_recv3 /safe_get /require /deser /assert_none /= G /=.
rewrite /first_confirmed /ag_checks3 /judge /ag_evidence /= /ag_reconstruct_rid /= /ev_deser /= hh K2 /= Eebs /= xorE /=.
rewrite /try_get echoR // /= /W eqxx rpE /= Ec Esid.
have -> : public_key_new (pk guilty) = Ret (pk guilty) by rewrite /public_key_new opk.
rewrite /=; case: (mod_verify _ _ _ _ _) => [[]|] /=; [|by right|by left].
case: (fac_verify _ _ _ _ _ _) => [[]|] /=; [by right|by right; rewrite Eid|by left].
Qed.

End AuxGen.
