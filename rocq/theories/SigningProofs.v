(** * Proofs about the rounds of interactive signing. *)
From Coq Require Import ZArith Znumtheory Lia.
From Verif Require Import Base BaseFacts ModArith PaillierModel ZkBase ZkFacts ZkExtract ZkModel ElogModel.
From mathcomp Require Import all_ssreflect.
From Verif Require Import AlgBase AlgFacts ProtoBase ProtoSpec ProtoFacts AuxGenModel SigningModel SigningSpec SigningAlgebra.
Set Implicit Arguments.
Unset Strict Implicit.
Unset Printing Implicit Defensive.

Section Rounds.
Variables (S : sparams) (C : curve) (I : eqType) (le : rel I) (HO : eqType).
Notation item := (hitem HO I (pt C)).
Notation q := (sp_q S).
Variables (H : dst -> seq item -> HO) (X : xof (seq item) (pt C)) (scheme : seq item).
Variables (xcoord : pt C -> Z) (lift_x : nat -> Z -> option (pt C)) (positional : bool).
Notation msg := (message (sg_wire C I)).
Hypothesis HC : curve_ok q C.
Hypothesis Hq : (1 < q)%Z.

(** *** Shape of an accepted step *)

Lemma perm_binsert (A : Type) (m : seq (I * A)) k (a : A) : k \notin akeys m -> perm_eq (akeys (binsert le m k a)) (k :: akeys m).
Proof. by move=> h; rewrite /binsert akeys_btree perm_sort akeys_aset // perm_rcons. Qed.
Lemma aget_binsert (A : Type) (m : seq (I * A)) k (a : A) j : aget (binsert le m k a) j = if j == k then Some a else aget m j.
Proof. by rewrite /binsert aget_btree aget_aset. Qed.

Lemma finalize2_inv (s : sg_round2 C I HO) rnd p s3 : sg_finalize2 S le X s rnd p = Accept s3 ->
  [/\ s3_ctx s3 = s2_ctx s, s3_r1 s3 = s2_r1 s, s3_mta s3 = s2_mta s, s3_hat s3 = s2_hat s &
   [/\ s3_gammas s3 = binsert le [seq (x.1, l2_gamma x.2) | x <- p] (sx_id (s2_ctx s)) (s2_gamma s),
     s3_gamma s3 = sum_pts (avals (s3_gammas s3)),
     n3_delta (s3_nb s3) = pmul C (sx_k (s2_ctx s)) (s3_gamma s3) &
     n3_s (s3_nb s3) = pmul C (s3_chi s3) (s3_gamma s3)]].
Proof.
rewrite /sg_finalize2 => U.
have [bs _ {}U] := vbind_inv U; have [hbs _ {}U] := vbind_inv U; have [own _ {}U] := vbind_inv U.
by case: U => <-.
Qed.

Lemma finalize3_inv (s : sg_round3 C I HO) p t : sg_finalize3 S le xcoord s p = Accept (ToRound4 t) ->
  let my := sx_id (s3_ctx s) in
  let pls := binsert le p my (R3Pl (s3_delta s) (n3_delta (s3_nb s)) (n3_s (s3_nb s))) in
  let delta := sum_scs S [seq l3_delta x.2 | x <- pls] in
  exists di, [/\ pmul C delta (gen C) = sum_pts [seq l3_cap_delta x.2 | x <- pls],
     sum_pts [seq l3_cap_s x.2 | x <- pls] = pmul C delta (zs_vkey (sx_share (s3_ctx s))),
     inv_mod q delta = Some di &
     t = SgRound4 (s3_ctx s) (s3_gamma s)
      [seq (x.1, pmul C di (l3_cap_delta x.2)) | x <- pls] [seq (x.1, pmul C di (l3_cap_s x.2)) | x <- pls]
      (((sx_k (s3_ctx s) * di) mod q * sx_msg (s3_ctx s) + (s3_chi s * di) mod q * xcoord (s3_gamma s)) mod q)%Z].
Proof.
rewrite /sg_finalize3 /=; set pls := binsert _ _ _ _.
case: ifP => // /negbFE /(c_eqb _ _ HC) h1; case: ifP => // /negbFE /(c_eqb _ _ HC) h2.
by case E: inv_mod => [di|] // [<-]; exists di.
Qed.

Lemma start_inv randomness id e r c eb : sg_start S H scheme randomness id e r = Ok (c, eb) ->
  [/\ sx_id c = id, sx_all c = akeys (zs_public (se_share e)), sx_others c = without (sx_all c) id,
      sx_share c = se_share e & sx_msg c = scalar_of_bytes S (se_message e)].
Proof.
rewrite /sg_start; case: ifP => // _.
do 5 (case: (of_o _) => //= ?).
by case=> <- _.
Qed.

Lemma finalize1_inv c e r2 p1 s2 : sg_finalize1 S le X c e r2 p1 = Accept s2 ->
  [/\ s2_ctx s2 = c, s2_r1 s2 = binsert le p1 (sx_id c) (r1_payload (sk_pk (sx_sk c)) e) &
      s2_gamma s2 = pmul C (sx_gamma c) (gen C)].
Proof.
rewrite /sg_finalize1 => U.
have [g _ {}U] := vbind_inv U; have [x _ {}U] := vbind_inv U; have [cx _ {}U] := vbind_inv U.
by have [ms _ {}U] := vbind_inv U; case: U => <-.
Qed.

Lemma until2_inv c e r2 m1 o1 s2 : sg_until2 S le X c e r2 m1 o1 = Accept s2 ->
  exists2 p1, round_payloads le (fun i => sg_recv1 S X c i (m1 i)) o1 = Accept p1 &
  [/\ s2_ctx s2 = c, s2_r1 s2 = binsert le p1 (sx_id c) (r1_payload (sk_pk (sx_sk c)) e) &
      s2_gamma s2 = pmul C (sx_gamma c) (gen C)].
Proof. by rewrite /sg_until2 => U; have [p1 E {}U] := vbind_inv U; exists p1 => //; exact: finalize1_inv U. Qed.

Lemma until3_inv c e r2 r3 m1 m2 o1 o2 s3 : sg_until3 S le X c e r2 r3 m1 m2 o1 o2 = Accept s3 ->
  exists s2 p2, [/\ sg_until2 S le X c e r2 m1 o1 = Accept s2,
    round_payloads le (fun i => sg_recv2 S X s2 i (m2 i)) o2 = Accept p2 & sg_finalize2 S le X s2 r3 p2 = Accept s3].
Proof.
by rewrite /sg_until3 => U; have [s2 E {}U] := vbind_inv U; have [p2 E2 {}U] := vbind_inv U; exists s2, p2.
Qed.

Lemma until4_inv c e r2 r3 m1 m2 m3 o1 o2 o3 n : sg_until4 S le X xcoord c e r2 r3 m1 m2 m3 o1 o2 o3 = Accept n ->
  exists s3 p3, [/\ sg_until3 S le X c e r2 r3 m1 m2 o1 o2 = Accept s3,
    round_payloads le (fun i => sg_recv3 X s3 i (m3 i)) o3 = Accept p3 & sg_finalize3 S le xcoord s3 p3 = Accept n].
Proof.
by rewrite /sg_until4 => U; have [s3 E {}U] := vbind_inv U; have [p3 E2 {}U] := vbind_inv U; exists s3, p3.
Qed.

Lemma until3_ctx c e r2 r3 m1 m2 o1 o2 s3 : sg_until3 S le X c e r2 r3 m1 m2 o1 o2 = Accept s3 ->
  s3_ctx s3 = c /\ n3_delta (s3_nb s3) = pmul C (sx_k c) (s3_gamma s3) /\
  n3_s (s3_nb s3) = pmul C (s3_chi s3) (s3_gamma s3).
Proof.
move=> /until3_inv [s2 [p2 [/until2_inv [p1 _ [h1 h2 h3]] _ /finalize2_inv [f1 f2 f3 f4 [f5 f6 f7 f8]]]]].
by rewrite f1 h1 f7 h1 f8.
Qed.

Lemma recv4_inv (t : sg_round4 C I HO) i m sg : sg_recv4 xcoord t i m = Accept sg ->
  exists td ts, [/\ aget (s4_deltas t) i = Some td, aget (s4_ss t) i = Some ts,
    m = Msg None None (Some (S4NB sg)) &
    pmul C sg (s4_gamma t) = padd C (pmul C (sx_msg (s4_ctx t)) td) (pmul C (xcoord (s4_gamma t)) ts)].
Proof.
rewrite /sg_recv4; case: m => [dm em nm] /=.
case: em => //=; case: dm => //=; case: nm => //= -[] //= sg'.
rewrite /safe_get; case: aget => // td; case: aget => //= ts.
by rewrite /require; case E: sg_share_ok => //= -[<-]; exists td, ts; split=> //; apply/(c_eqb _ _ HC).
Qed.

(** *** The sum of accepted shares *)

Lemma avals_fun (A B : Type) (f : A -> B) (m : seq (I * A)) d : uniq (akeys m) ->
  [seq f x.2 | x <- m] = [seq f (odflt d (aget m i)) | i <- akeys m].
Proof. by move=> hu; rewrite {1}(atab_eq d hu) -map_comp. Qed.

Lemma aget_some (A : Type) (m : seq (I * A)) i d : i \in akeys m -> aget m i = Some (odflt d (aget m i)).
Proof. by move=> /in_aget [a ->]. Qed.

Lemma shares_sum (s : sg_round3 C I HO) p3 t (p4 : seq (I * Z)) :
  n3_delta (s3_nb s) = pmul C (sx_k (s3_ctx s)) (s3_gamma s) ->
  n3_s (s3_nb s) = pmul C (s3_chi s) (s3_gamma s) ->
  uniq (akeys p3) -> sx_id (s3_ctx s) \notin akeys p3 ->
  sg_finalize3 S le xcoord s p3 = Accept (ToRound4 t) ->
  perm_eq (akeys p4) (akeys p3) ->
  (forall i sg, aget p4 i = Some sg -> exists td ts, [/\ aget (s4_deltas t) i = Some td, aget (s4_ss t) i = Some ts &
    pmul C sg (s4_gamma t) = padd C (pmul C (sx_msg (s4_ctx t)) td) (pmul C (xcoord (s4_gamma t)) ts)]) ->
  pmul C ((sum_scs S (avals p4) + s4_sigma t) mod q)%Z (s4_gamma t) =
  padd C (pmul C (sx_msg (s3_ctx s)) (gen C)) (pmul C (xcoord (s4_gamma t)) (zs_vkey (sx_share (s3_ctx s)))).
Proof.
move=> own1 own2 u3 my3 /finalize3_inv /=.
set my := sx_id _; set own := R3Pl _ _ _; set pls := binsert _ _ _ _; set delta := sum_scs S _.
move=> [di [eD eS Ei ->]] hp /= hsh.
set c := s3_ctx s in hsh *; set gam := s3_gamma s in hsh *; set m := sx_msg c in hsh *; set r := xcoord gam in hsh *.
have kp : perm_eq (akeys pls) (my :: akeys p4).
  by rewrite (perm_trans (perm_binsert _ my3)) // perm_cons perm_sym.
have upls : uniq (akeys pls) by rewrite (perm_uniq kp) /= (perm_mem hp) my3 (perm_uniq hp) u3.
have u4 : uniq (akeys p4) by rewrite (perm_uniq hp).
pose D i := l3_cap_delta (odflt own (aget pls i)); pose SS i := l3_cap_s (odflt own (aget pls i)).
have share i sg : aget p4 i = Some sg -> pmul C sg gam = padd C (pmul C (m * di) (D i)) (pmul C (r * di) (SS i)).
  move=> /hsh [td [ts []]]; rewrite (aget_map_val (fun y : r3pl C => pmul C di (l3_cap_delta y))) (aget_map_val (fun y : r3pl C => pmul C di (l3_cap_s y))) /D /SS; case: (aget pls i) => // pl [<-] [<-] ->.
  by rewrite !(c_mulA _ _ HC).
have ownsh : pmul C (((sx_k c * di) mod q * m + (s3_chi s * di) mod q * r) mod q)%Z gam
             = padd C (pmul C (m * di) (D my)) (pmul C (r * di) (SS my)).
  rewrite /D /SS /pls aget_binsert eqxx /= own1 own2 (pmul_modq HC) // (c_mulDl _ _ HC) !(c_mulA _ _ HC).
  congr (padd C _ _); apply: (pmul_eqm q C HC); try lia; rewrite /eqm Z.mul_mod_idemp_l; try lia; rewrite -?/c; congr (_ mod _)%Z; ring.
rewrite (pmul_modq HC) // (c_mulDl _ _ HC) ownsh (sum_scs_pmul HC) // /avals -map_comp.
rewrite (eq_map (_ : _ =1 (fun x : I * Z => pmul C x.2 gam))) // (avals_fun (fun z => pmul C z gam) 0%Z u4).
have -> : [seq pmul C (odflt 0%Z (aget p4 i)) gam | i <- akeys p4] =
          [seq padd C (pmul C (m * di) (D i)) (pmul C (r * di) (SS i)) | i <- akeys p4].
  by apply/eq_in_map => i hi; apply: share; exact: aget_some.
rewrite (c_addC _ _ HC) -(sum_pts_cons HC).
rewrite -[_ :: _]/([seq padd C (pmul C (m * di) (D i)) (pmul C (r * di) (SS i)) | i <- my :: akeys p4]).
rewrite (sum_pts_add HC).
have E a (f : r3pl C -> pt C) : sum_pts [seq pmul C (a * di) (f (odflt own (aget pls i))) | i <- my :: akeys p4]
           = pmul C (a * di) (sum_pts [seq f x.2 | x <- pls]).
  rewrite (sum_pts_pmul HC) (avals_fun f own upls) -map_comp.
  by apply: (sum_pts_perm HC); rewrite perm_sym.
rewrite !E -eD eS !(c_mulA _ _ HC).
have [h1 h2] := inv_mod_Some q delta di ltac:(lia) Ei.
have F a x : pmul C (a * di * delta) x = pmul C a x.
  apply: (pmul_eqm q C HC); first by lia.
  rewrite /eqm -Z.mul_assoc (Z.mul_comm di) -Z.mul_mod_idemp_r ?h2; try lia.
  by rewrite Z.mul_mod_idemp_r ?Z.mul_1_r //; lia.
by rewrite !F.
Qed.

(** *** One party's run *)

Record party_ok (c : sg_ctx C I HO) : Prop := PartyOk {
  po_uniq : uniq (sx_all c);
  po_in : sx_id c \in sx_all c;
  po_others : sx_others c = without (sx_all c) (sx_id c) }.

Lemma start_party randomness id e r c eb : uniq (akeys (zs_public (se_share e))) -> id \in akeys (zs_public (se_share e)) ->
  sg_start S H scheme randomness id e r = Ok (c, eb) -> party_ok c.
Proof. by move=> hu hi /start_inv [h1 h2 h3 h4 h5]; split; rewrite ?h2 ?h1 ?h3 ?h2. Qed.

Lemma party_others c : party_ok c -> uniq (sx_others c) /\ sx_id c \notin sx_others c.
Proof. by case=> hu _ ->; rewrite /without filter_uniq // mem_filter eqxx. Qed.

Lemma round_keys (E T : Type) (f : I -> recv E T) o m : round_payloads le f o = Accept m -> perm_eq (akeys m) o.
Proof. by move=> /round_inv [-> _ _]; rewrite perm_sort. Qed.

Lemma round4_nonce c e r2 r3 m1 m2 m3 m4 o1 o2 o3 o4 t p4 : party_ok c ->
  perm_eq o3 (sx_others c) -> perm_eq o4 (sx_others c) ->
  sg_until4 S le X xcoord c e r2 r3 m1 m2 m3 o1 o2 o3 = Accept (ToRound4 t) ->
  round_payloads le (fun i => sg_recv4 xcoord t i (m4 i)) o4 = Accept p4 ->
  s4_ctx t = c /\
  nonce_point xcoord (zs_vkey (sx_share c)) (sx_msg c) (xcoord (s4_gamma t))
    ((sum_scs S (avals p4) + s4_sigma t) mod q)%Z (s4_gamma t).
Proof.
move=> hc h3 h4 /until4_inv [s3 [p3 [U3 R3 F3]]] R4.
have [hu hn] := party_others hc.
have [e1 [e2 e3]] := until3_ctx U3.
have et : s4_ctx t = c by have [di [_ _ _ ->]] := finalize3_inv F3.
have k3 := perm_trans (round_keys R3) h3; have k4 := perm_trans (round_keys R4) h4.
split=> //; split=> //; rewrite -{1 2}e1; apply: (shares_sum _ _ _ _ F3); rewrite ?e1 //.
- by rewrite (perm_uniq k3).
- by rewrite (perm_mem k3).
- by rewrite (perm_trans k4) // perm_sym.
- move=> i sg hi; have [_ hk hr] := round_inv R4.
  have ho : i \in o4 by rewrite -hk; apply/negP => /negP /aget_notin; rewrite hi.
  by have [z /recv4_inv [td [ts [h1 h2 _ h]]]] := hr i ho; rewrite hi => -[->]; exists td, ts.
Qed.

End Rounds.

Section Run.
Variables (S : sparams) (C : curve) (I : eqType) (le : rel I) (HO : eqType).
Notation item := (hitem HO I (pt C)).
Notation q := (sp_q S).
Variables (H : dst -> seq item -> HO) (X : xof (seq item) (pt C)) (scheme : seq item).
Variables (xcoord : pt C -> Z) (lift_x : nat -> Z -> option (pt C)) (positional : bool).
Notation msg := (message (sg_wire C I)).
Hypothesis HC : curve_ok q C.
Hypothesis Pq : Znumtheory.prime q.
Hypothesis Oq : Z.odd q = true.
Hypothesis HX : xcoord_ok q xcoord.
Hypothesis HL : lift_ok xcoord lift_x.
Let q1 : (1 < q)%Z. Proof. by case: Pq. Qed.

Lemma run_inv c e r2 r3 m1 m2 m3 m4 o1 o2 o3 o4 sig :
  sg_run S le X xcoord lift_x positional c e r2 r3 m1 m2 m3 m4 o1 o2 o3 o4 = Accept sig ->
  exists t p4, [/\ sg_until4 S le X xcoord c e r2 r3 m1 m2 m3 o1 o2 o3 = Accept (ToRound4 t),
    round_payloads le (fun i => sg_recv4 xcoord t i (m4 i)) o4 = Accept p4 &
    sg_finalize4 S xcoord lift_x t p4 = Accept sig].
Proof.
rewrite /sg_run => U; have [n E {}U] := vbind_inv U; case: n E U => t E U.
- by have [p4 E4 {}U] := vbind_inv U; exists t, p4.
- by have [p4 E4 {}U] := vbind_inv U.
- by have [p4 E4 {}U] := vbind_inv U.
Qed.

Lemma finalize4_cases c (t : sg_round4 C I HO) p4 : s4_ctx t = c ->
  nonce_point xcoord (zs_vkey (sx_share c)) (sx_msg c) (xcoord (s4_gamma t))
    ((sum_scs S (avals p4) + s4_sigma t) mod q)%Z (s4_gamma t) ->
  let r := xcoord (s4_gamma t) in
  let z := ((sum_scs S (avals p4) + s4_sigma t) mod q)%Z in
  (r = 0%Z \/ z = 0%Z \/ zs_vkey (sx_share c) = p0 C) /\ sg_finalize4 S xcoord lift_x t p4 = RLocal \/
  exists2 sig, sg_finalize4 S xcoord lift_x t p4 = Accept sig &
    [/\ sig_r sig = r, sig_s sig = z \/ sig_s sig = (q - z)%Z, (0 < sig_s sig <= (q - 1) / 2)%Z,
        ecdsa_valid q xcoord (zs_vkey (sx_share c)) (sx_msg c) (sig_r sig) (sig_s sig) &
        exists2 R, lift_x (sig_id sig) r = Some R &
          nonce_point xcoord (zs_vkey (sx_share c)) (sx_msg c) r (sig_s sig) R].
Proof.
move=> et hn /=; rewrite /sg_finalize4 et.
set r := xcoord _ in hn *; set z := (_ mod q)%Z in hn *; set vk := zs_vkey _ in hn *.
have hr : (0 <= r < q)%Z by exact: xc_range HX _.
have hz : (0 <= z < q)%Z by apply: Z.mod_pos_bound; lia.
have [r0|r0] := Z.eq_dec r 0; first by left; split; [left|rewrite (from_scalars_refuses _ _ HC)]; auto.
have [z0|z0] := Z.eq_dec z 0; first by left; split; [right; left|rewrite (from_scalars_refuses _ _ HC)]; auto.
case Ev: (peqb C vk (p0 C)).
  by move/(c_eqb _ _ HC): Ev => v0; left; split; [right; right|rewrite (from_scalars_refuses _ _ HC)]; auto.
have v0 : vk <> p0 C by move=> /(c_eqb _ _ HC); rewrite Ev.
right; have hv : ecdsa_valid q xcoord vk (sx_msg c) r z by apply: (nonce_valid HC) hn => //; lia.
have [sig Es] := from_scalars_complete HC Pq Oq HX HL v0 hv.
rewrite Es; exists sig => //.
have [h1 h2 h3 h4 h5] := from_scalars_sound HC Pq Oq HL hr hz Es.
by rewrite h1.
Qed.

Lemma run_cases c e r2 r3 m1 m2 m3 m4 o1 o2 o3 o4 t : party_ok c ->
  perm_eq o3 (sx_others c) -> perm_eq o4 (sx_others c) ->
  sg_until4 S le X xcoord c e r2 r3 m1 m2 m3 o1 o2 o3 = Accept (ToRound4 t) ->
  (forall i, i \in sx_others c -> exists z, sg_recv4 xcoord t i (m4 i) = Accept z) ->
  exists z, [/\ (0 <= z < q)%Z, nonce_point xcoord (zs_vkey (sx_share c)) (sx_msg c) (xcoord (s4_gamma t)) z (s4_gamma t) &
  let r := xcoord (s4_gamma t) in
  (r = 0%Z \/ z = 0%Z \/ zs_vkey (sx_share c) = p0 C) /\
     sg_run S le X xcoord lift_x positional c e r2 r3 m1 m2 m3 m4 o1 o2 o3 o4 = RLocal \/
  exists2 sig, sg_run S le X xcoord lift_x positional c e r2 r3 m1 m2 m3 m4 o1 o2 o3 o4 = Accept sig &
    [/\ sig_r sig = r, sig_s sig = z \/ sig_s sig = (q - z)%Z & ecdsa_valid q xcoord (zs_vkey (sx_share c)) (sx_msg c) (sig_r sig) (sig_s sig)]].
Proof.
move=> hc h3 h4 U4 hs.
have [p4 R4] : exists p4, round_payloads le (fun i => sg_recv4 xcoord t i (m4 i)) o4 = Accept p4.
  rewrite /round_payloads.
  have [m ->] : exists m, receive_all (fun i => sg_recv4 xcoord t i (m4 i)) o4 = Accept m; last by eexists.
  have {}hs i : i \in o4 -> exists z, sg_recv4 xcoord t i (m4 i) = Accept z by rewrite (perm_mem h4); exact: hs.
  elim: o4 hs {h4} => [|i o4 IH] hs; first by eexists.
  have [z /= ->] := hs i (mem_head _ _); have [|m /= ->] := IH; last by eexists.
  by move=> j hj; apply: hs; rewrite inE hj orbT.
have [et hn] := round4_nonce HC q1 hc h3 h4 U4 R4.
exists ((sum_scs S (avals p4) + s4_sigma t) mod q)%Z; split=> //; first by apply: Z.mod_pos_bound; lia.
rewrite /sg_run U4 /= R4 /=.
by case: (finalize4_cases et hn) => [|[sig -> [k1 k2 k3 k4 k5]]]; [left|right; exists sig].
Qed.

Lemma run_valid c e r2 r3 m1 m2 m3 m4 o1 o2 o3 o4 sig : party_ok c ->
  perm_eq o3 (sx_others c) -> perm_eq o4 (sx_others c) ->
  sg_run S le X xcoord lift_x positional c e r2 r3 m1 m2 m3 m4 o1 o2 o3 o4 = Accept sig ->
  [/\ ecdsa_valid q xcoord (zs_vkey (sx_share c)) (sx_msg c) (sig_r sig) (sig_s sig), (sig_s sig <= (q - 1) / 2)%Z &
      exists2 R, lift_x (sig_id sig) (sig_r sig) = Some R &
        nonce_point xcoord (zs_vkey (sx_share c)) (sx_msg c) (sig_r sig) (sig_s sig) R].
Proof.
move=> hc h3 h4 /run_inv [t [p4 [U4 R4 F4]]].
have [et hn] := round4_nonce HC q1 hc h3 h4 U4 R4.
case: (finalize4_cases et hn) => [[_]|]; rewrite F4 // => -[_ [<-] [-> k2 [k3 k3'] k4 k5]].
by split.
Qed.

End Run.
