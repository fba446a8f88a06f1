(** * Two honest parties in the same signing session: signature shares. *)
From Coq Require Import ZArith Znumtheory Lia.
From Verif Require Import Base BaseFacts ModArith PaillierModel ZkBase ZkFacts ZkExtract ZkModel ElogModel.
From mathcomp Require Import all_ssreflect.
From Verif Require Import AlgBase AlgFacts ProtoBase ProtoSpec ProtoFacts AuxGenModel SigningModel SigningSpec SigningAlgebra SigningProofs.
Set Implicit Arguments.
Unset Strict Implicit.
Unset Printing Implicit Defensive.

Section Shares.
Variables (S : sparams) (C : curve) (I : eqType) (le : rel I) (HO : eqType).
Notation item := (hitem HO I (pt C)).
Notation q := (sp_q S).
Variables (X : xof (seq item) (pt C)).
Variables (xcoord : pt C -> Z).
Notation msg := (message (sg_wire C I)).
Hypothesis HC : curve_ok q C.
Hypothesis Pq : Znumtheory.prime q.
Let q1 : (1 < q)%Z. Proof. by case: Pq. Qed.

(** What one party has seen when it enters round 4, together with its own
    states. *)
Record seen := Seen {
  v_ctx : sg_ctx C I HO; v_eb : r1eb C; v_rnd2 : sg_rand2 I; v_rnd3 : Z * Z;
  v_m1 : I -> msg; v_m2 : I -> msg; v_m3 : I -> msg;
  v_o1 : seq I; v_o2 : seq I; v_o3 : seq I;
  v_s2 : sg_round2 C I HO; v_s3 : sg_round3 C I HO; v_s4 : sg_round4 C I HO }.
Notation v_id v := (sx_id (v_ctx v)).

Record reached4 (v : seen) : Prop := Reached4 {
  re_ctx : party_ok (v_ctx v);
  re_o2 : perm_eq (v_o2 v) (sx_others (v_ctx v));
  re_o3 : perm_eq (v_o3 v) (sx_others (v_ctx v));
  re_2 : sg_until2 S le X (v_ctx v) (v_eb v) (v_rnd2 v) (v_m1 v) (v_o1 v) = Accept (v_s2 v);
  re_3 : sg_until3 S le X (v_ctx v) (v_eb v) (v_rnd2 v) (v_rnd3 v) (v_m1 v) (v_m2 v) (v_o1 v) (v_o2 v) = Accept (v_s3 v);
  re_4 : sg_until4 S le X xcoord (v_ctx v) (v_eb v) (v_rnd2 v) (v_rnd3 v) (v_m1 v) (v_m2 v) (v_m3 v)
           (v_o1 v) (v_o2 v) (v_o3 v) = Accept (ToRound4 (v_s4 v)) }.

(** What [v] holds as the echo broadcast of party [k] in rounds 2 and 3: its
    own if [k] is itself. *)
Definition echo2 (v : seen) (k : I) : option (sg_wire C I) :=
  m_echo (if k == v_id v then sg_send2 (v_s2 v) else v_m2 v k).
Definition echo3 (v : seen) (k : I) : option (sg_wire C I) :=
  m_echo (if k == v_id v then sg_send3 (v_s3 v) else v_m3 v k).

Definition gamma_of (e : option (sg_wire C I)) : pt C :=
  if e is Some w then if as_2eb w is Some b then e2_gamma b else p0 C else p0 C.
Definition delta_of (e : option (sg_wire C I)) : Z :=
  if e is Some w then if as_3eb w is Some d then d else 0%Z else 0%Z.

Lemma recv2_gamma (s : sg_round2 C I HO) from m p : sg_recv2 S X s from m = Accept p -> l2_gamma p = gamma_of (m_echo m).
Proof.
rewrite /sg_recv2 => U; have [eb E1 {}U] := vbind_inv U.
have [nb _ {}U] := vbind_inv U; have [? _ {}U] := vbind_inv U; have [? _ {}U] := vbind_inv U.
have [? _ {}U] := vbind_inv U; have [? _ {}U] := vbind_inv U; have [? _ {}U] := vbind_inv U.
have [? _ {}U] := vbind_inv U; have [? _ {}U] := vbind_inv U; have [? _ {}U] := vbind_inv U.
have [? _ {}U] := vbind_inv U; have [? _ {}U] := vbind_inv U; have [? _ {}U] := vbind_inv U.
have [? _ {}U] := vbind_inv U; have [? _ {}U] := vbind_inv U; have [? _ {}U] := vbind_inv U.
have [? _ {}U] := vbind_inv U; case: U => <- /=.
by move: E1; rewrite /deser /gamma_of; case: (m_echo m) => // x; case: as_2eb => // ? [->].
Qed.

Lemma recv3_inv (s : sg_round3 C I HO) from m p : sg_recv3 X s from m = Accept p ->
  exists n, [/\ l3_delta p = delta_of (m_echo m), m_normal m = Some (S3NB n), l3_cap_delta p = n3_delta n & l3_cap_s p = n3_s n].
Proof.
rewrite /sg_recv3 => U; have [? _ {}U] := vbind_inv U; have [d E1 {}U] := vbind_inv U.
have [n E2 {}U] := vbind_inv U; have [? _ {}U] := vbind_inv U; have [? _ {}U] := vbind_inv U.
case: U => <- /=; exists n; split=> //.
- by move: E1; rewrite /deser /delta_of; case: (m_echo m) => // x; case: as_3eb => // ? [->].
- by move: E2; rewrite /deser; case: (m_normal m) => // -[] //= ? [->].
Qed.

Lemma sum_avals (m : seq (I * pt C)) (f : I -> pt C) ids : uniq (akeys m) -> perm_eq (akeys m) ids ->
  (forall i, i \in ids -> aget m i = Some (f i)) -> sum_pts (avals m) = sum_pts [seq f i | i <- ids].
Proof.
move=> hu hp h; rewrite -(sum_pts_perm HC f hp) /avals (avals_fun (fun x => x) (p0 C) hu); congr sum_pts.
by apply/eq_in_map => i hi; rewrite h // -(perm_mem hp).
Qed.

Lemma others_mem (c : sg_ctx C I HO) k : party_ok c -> k \in sx_all c -> k != sx_id c -> k \in sx_others c.
Proof. by case=> _ _ -> hk ne; rewrite /without mem_filter ne. Qed.

Lemma seen_gamma v : reached4 v ->
  s3_gamma (v_s3 v) = sum_pts [seq gamma_of (echo2 v i) | i <- sx_all (v_ctx v)].
Proof.
case=> hc h2 h3 U2 U3 _; have [s2 [p2 [U2' R2 F2]]] := until3_inv U3.
move: U2'; rewrite U2 => -[es]; rewrite -es in R2 F2.
have [f1 f2 f3 f4 [f5 f6 f7 f8]] := finalize2_inv F2.
have [p1 _ [g1 g2 g3]] := until2_inv U2.
have [hu hn] := party_others hc.
have k2 : perm_eq (akeys [seq (x.1, l2_gamma x.2) | x <- p2]) (sx_others (v_ctx v)).
  by rewrite akeys_map_val; exact: perm_trans (round_keys R2) h2.
have my2 : v_id v \notin akeys [seq (x.1, l2_gamma x.2) | x <- p2] by rewrite (perm_mem k2).
have kp : perm_eq (akeys (s3_gammas (v_s3 v))) (sx_all (v_ctx v)).
  rewrite f5 g1 (perm_trans (perm_binsert _ _ my2)) //.
  rewrite perm_sym; case: hc => hu' hi ho; rewrite (perm_trans (perm_without hu' hi)) // perm_cons -ho.
  by rewrite perm_sym.
rewrite f6; apply: (sum_avals _ kp); first by rewrite (perm_uniq kp); case: hc.
move=> k hk; rewrite f5 g1 aget_binsert /echo2; case: eqP => [_|/eqP ne]; first by [].
rewrite aget_map_val; have [_ _ /(_ k)] := round_inv R2.
rewrite (perm_mem h2) => /(_ (others_mem hc hk ne)) [pl hr ->] /=.
by rewrite (recv2_gamma hr).
Qed.

Lemma seen_delta v : reached4 v -> exists di,
  [/\ inv_mod q (sum_scs S [seq delta_of (echo3 v i) | i <- sx_all (v_ctx v)]) = Some di,
      s4_ctx (v_s4 v) = v_ctx v, s4_gamma (v_s4 v) = s3_gamma (v_s3 v),
      s4_sigma (v_s4 v) = (((sx_k (v_ctx v) * di) mod q * sx_msg (v_ctx v) + (s3_chi (v_s3 v) * di) mod q * xcoord (s3_gamma (v_s3 v))) mod q)%Z &
      forall k n, k \in sx_others (v_ctx v) -> m_normal (v_m3 v k) = Some (S3NB n) ->
        aget (s4_deltas (v_s4 v)) k = Some (pmul C di (n3_delta n)) /\ aget (s4_ss (v_s4 v)) k = Some (pmul C di (n3_s n))].
Proof.
case=> hc h2 h3 U2 U3 U4; have [s3 [p3 [U3' R3 F3]]] := until4_inv U4.
move: U3'; rewrite U3 => -[es]; rewrite -es in R3 F3.
have [hu hn] := party_others hc.
have [e1 [e2 e3]] := until3_ctx U3.
have k3 := perm_trans (round_keys R3) h3.
have [di [_ _ hd ->]] := finalize3_inv HC F3; rewrite e1 in hd *.
set own := R3Pl _ _ _ in hd *; set pls := binsert le p3 _ _ in hd *.
have my3 : v_id v \notin akeys p3 by rewrite (perm_mem k3).
have kp : perm_eq (akeys pls) (sx_all (v_ctx v)).
  rewrite (perm_trans (perm_binsert _ _ my3)) //.
  rewrite perm_sym; case: hc => hu' hi ho; rewrite (perm_trans (perm_without hu' hi)) // perm_cons -ho.
  by rewrite perm_sym.
have get k : k \in sx_others (v_ctx v) -> exists2 pl, sg_recv3 X (v_s3 v) k (v_m3 v k) = Accept pl & aget pls k = Some pl.
  move=> hk; have [_ _ /(_ k)] := round_inv R3; rewrite (perm_mem h3) => /(_ hk) [pl h1 h1'].
  by exists pl => //; rewrite aget_binsert (_ : (k == v_id v) = false) //; apply/negbTE; apply: contraNneq hn => <-.
exists di; split=> //.
- rewrite -hd; congr inv_mod; rewrite (avals_fun (@l3_delta C) own) ?(perm_uniq kp); last by case: hc.
  rewrite -(sum_scs_perm q1 (fun i => delta_of (echo3 v i)) kp); congr sum_scs; apply/eq_in_map => k; rewrite (perm_mem kp) => hk.
  rewrite /echo3; case: eqP => [->|/eqP ne]; first by rewrite /pls aget_binsert eqxx.
  by have [|pl /recv3_inv [n [h1 _ _ _]] ->] := get k; [exact: (others_mem hc)|rewrite /= h1].
- move=> k n hk hnb; have [pl /recv3_inv [n' [_]]] := get k hk; rewrite hnb => -[<-] h1 h2' hg.
  rewrite /= (aget_map_val (fun y : r3pl C => pmul C di (l3_cap_delta y))) (aget_map_val (fun y : r3pl C => pmul C di (l3_cap_s y))).
  by rewrite hg /= h1 h2'.
Qed.

(** [i] and [j] are honest parties of one session: same parties, same message,
    the same echo broadcasts in rounds 2 and 3 (what the echo rounds of the
    protocol engine establish), and [i] got [j]'s round 3 broadcast. *)
Record same_session (vi vj : seen) : Prop := SameSession {
  sm_all : sx_all (v_ctx vi) = sx_all (v_ctx vj);
  sm_msg : sx_msg (v_ctx vi) = sx_msg (v_ctx vj);
  sm_e2 : forall k, k \in sx_all (v_ctx vi) -> echo2 vi k = echo2 vj k;
  sm_e3 : forall k, k \in sx_all (v_ctx vi) -> echo3 vi k = echo3 vj k;
  sm_m3 : m_normal (v_m3 vi (v_id vj)) = m_normal (sg_send3 (v_s3 vj)) }.

Lemma share_equation vi vj : reached4 vi -> reached4 vj -> same_session vi vj -> v_id vi != v_id vj ->
  exists td ts, [/\ aget (s4_deltas (v_s4 vi)) (v_id vj) = Some td, aget (s4_ss (v_s4 vi)) (v_id vj) = Some ts,
    s4_gamma (v_s4 vi) = s4_gamma (v_s4 vj) &
    pmul C (s4_sigma (v_s4 vj)) (s4_gamma (v_s4 vi)) =
      padd C (pmul C (sx_msg (v_ctx vi)) td) (pmul C (xcoord (s4_gamma (v_s4 vi))) ts)].
Proof.
move=> hi hj [h1 h2 h3 h4 h5] ne.
have eg : s3_gamma (v_s3 vi) = s3_gamma (v_s3 vj).
  by rewrite (seen_gamma hi) (seen_gamma hj) -h1; congr sum_pts; apply/eq_in_map => k hk; rewrite h3.
have [di [hdi ci gi si geti]] := seen_delta hi.
have [dj [hdj cj gj sj getj]] := seen_delta hj.
have ed : di = dj.
  have E : sum_scs S [seq delta_of (echo3 vi i) | i <- sx_all (v_ctx vi)] = sum_scs S [seq delta_of (echo3 vj i) | i <- sx_all (v_ctx vj)].
    by rewrite -h1; congr sum_scs; apply/eq_in_map => k hk; rewrite h4.
  by move: hdi; rewrite E hdj => -[].
have hk : v_id vj \in sx_others (v_ctx vi).
  apply: (others_mem (re_ctx hi)); last by rewrite eq_sym.
  by rewrite h1; case: (re_ctx hj).
have [td ts] := geti _ _ hk h5.
have [_ [e2 e3]] := until3_ctx (re_3 hj); rewrite e2 in td; rewrite e3 in ts.
exists (pmul C di (pmul C (sx_k (v_ctx vj)) (s3_gamma (v_s3 vj)))), (pmul C di (pmul C (s3_chi (v_s3 vj)) (s3_gamma (v_s3 vj)))).
split=> //; first by rewrite gi gj eg.
rewrite gi eg sj -ed h2 (pmul_modq HC q1) (c_mulDl _ _ HC) !(c_mulA _ _ HC).
by congr (padd C _ _); apply: (pmul_eqm q C HC); try lia; rewrite /eqm Z.mul_mod_idemp_l; try lia; congr (_ mod _)%Z; ring.
Qed.

Lemma pmul_inj a b x : x <> p0 C -> pmul C a x = pmul C b x -> (a mod q = b mod q)%Z.
Proof.
move=> hx E.
have hab : pmul C (a - b) x = p0 C.
  by rewrite (_ : a - b = a + -1 * b)%Z; [|lia]; rewrite (c_mulDl _ _ HC) -(c_mulA _ _ HC) -(popp_mul _ _ HC) E (c_addN _ _ HC).
have [d0|d0] := Z.eq_dec ((a - b) mod q) 0.
  have [k hk] : (q | a - b)%Z by apply/Z.mod_divide => //; lia.
  by rewrite (_ : a = b + k * q)%Z ?Z.mod_add; lia.
case: hx; have hr : (0 < (a - b) mod q < q)%Z by have := Z.mod_pos_bound (a - b) q; lia.
have [u _ [_ hu]] := inv_mod_prime Pq hr.
by rewrite -(pmul_inv HC Pq x hu) (pmul_modq HC q1) hab (pmul_p0 _ _ HC).
Qed.

(** [i] accepts [j]'s share, and nothing else from [j]. *)
Lemma share_accepted vi vj z : reached4 vi -> reached4 vj -> same_session vi vj -> v_id vi != v_id vj ->
  s4_gamma (v_s4 vi) <> p0 C ->
  (sg_recv4 xcoord (v_s4 vi) (v_id vj) (Msg None None (Some (S4NB z))) = Accept z <-> (z mod q = s4_sigma (v_s4 vj))%Z) /\
  (sg_recv4 xcoord (v_s4 vi) (v_id vj) (Msg None None (Some (S4NB z))) = Reject (Proto R4InvalidSignatureShare) <-> (z mod q <> s4_sigma (v_s4 vj))%Z).
Proof.
move=> hi hj hs ne g0; have [td [ts [ht hs' eg eq]]] := share_equation hi hj hs ne.
have [di [_ ci _ _ _]] := seen_delta hi.
have [dj [_ _ _ sj _]] := seen_delta hj.
have sr : (0 <= s4_sigma (v_s4 vj) < q)%Z by rewrite sj; apply: Z.mod_pos_bound; lia.
rewrite /sg_recv4 /= /safe_get ht hs' /= ci /require /sg_share_ok -eq.
case E: (peqb C _ _) => /=.
- move/(c_eqb _ _ HC): E => /(pmul_inj g0); rewrite (Z.mod_small (s4_sigma _)) //.
- have E' : (z mod q <> s4_sigma (v_s4 vj))%Z.
    move=> E2; move: E; rewrite -E2 (pmul_modq HC q1) => /negP []; exact/(c_eqb _ _ HC).
  by split; split=> // h; case: (E' h).
Qed.

Lemma own_share_accepted vi vj : reached4 vi -> reached4 vj -> same_session vi vj -> v_id vi != v_id vj ->
  sg_recv4 xcoord (v_s4 vi) (v_id vj) (sg_send4 (v_s4 vj)) = Accept (s4_sigma (v_s4 vj)).
Proof.
move=> hi hj hs ne; have [td [ts [ht hs' eg eq]]] := share_equation hi hj hs ne.
have [di [_ ci _ _ _]] := seen_delta hi.
rewrite /sg_recv4 /= /safe_get ht hs' /= ci /require /sg_share_ok -eq.
by rewrite (_ : peqb C _ _ = true) //; apply/(c_eqb _ _ HC).
Qed.

End Shares.
