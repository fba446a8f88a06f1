(** * No-small-factor proof: completeness, the width edge, acceptance, extraction. *)
From Coq Require Import ZArith Znumtheory List Bool Lia.
From Verif Require Import Base BaseFacts SignedModel SignedSpec SignedProofs EncodingModel ConversionModel
  ConversionProofs IntLemmas ModArith RsaFacts PaillierModel PaillierSpec PaillierProofs RpProofs ZkBase ZkModel ZkSpec
  ZkFacts ZkExtract.
Import ListNotations.
Open Scope Z_scope.

(** A check [com(v, r) = T * C^e] on received commitments; [e] may be negative. *)
Lemma rp_check_signed S rp w w1 w2 xe e be x v bx y r b_y T Cm (k : outcome bool) :
  setup_ok S rp -> has w xe e be -> has w1 x v bx -> has w2 y r b_y ->
  ((l <~ rp_commit_pub rp w1 w2 x y ;;
    z <~ rpc_pow_pub rp w (rpc_to_precomputed rp Cm) xe ;;
    check (l =? rpc_mul rp (rpc_to_precomputed rp T) z) k) = Ret true <->
   (exists z, unit_power (rp_n rp) Cm e z /\
      rp_opens (rp_n rp) (rp_s rp) (rp_t rp) v r ((T * z) mod rp_n rp)) /\ k = Ret true).
Proof.
  intros Hset Ke Kx Ky. assert (Hset' := Hset). destruct Hset' as (Hn & Hs & Ht & Gs & Gt).
  rewrite (commit_pub_has S _ _ _ _ _ _ _ _ _ Hset Kx Ky). cbn [obind].
  unfold rpc_pow_pub, rpc_to_precomputed, rpc_mul. rewrite obind_true.
  assert (HC0 : 0 <= Cm mod rp_n rp) by (apply Z.mod_pos_bound; lia).
  split.
  - intros (z & Hz & Hk). apply (pow_pub_iff w) in Hz; [|lia|apply Ke|auto].
    rewrite (has_sval _ _ _ _ Ke) in Hz. rewrite unit_power_mod_base in Hz by lia.
    apply check_true in Hk. destruct Hk as [Hk1 Hk2]. split; auto. exists z. split; auto.
    apply rp_opens_comv; auto; try lia. apply Z.eqb_eq in Hk1. rewrite Hk1. now rewrite Z.mul_mod_idemp_l by lia.
  - intros ((z & Hz & Ho) & Hk). exists z. split.
    + apply (pow_pub_iff w); [lia|apply Ke|auto|]. rewrite (has_sval _ _ _ _ Ke). now rewrite unit_power_mod_base by lia.
    + apply check_true. split; auto. apply rp_opens_comv in Ho; auto; try lia.
      apply Z.eqb_eq. rewrite Z.mul_mod_idemp_l by lia. now symmetry.
Qed.

Lemma has_positive w v b : 1 <= w -> 0 <= b < w -> 0 <= v < 2 ^ b ->
  exists x, sec_new_positive w v b = Some x /\ has w x v b.
Proof.
  intros Hw Hb Hv. pose proof (pow2_le b (w - 1) ltac:(lia)). pose proof (pow2_pred w ltac:(lia)).
  exists (mkS b v).
  assert (E : sec_new_positive w v b = Some (mkS b v)).
  { apply sec_new_positive_spec; try lia. repeat split; lia. }
  split; auto. destruct (sec_new_positive_wf w v b _ Hw ltac:(lia) ltac:(lia) E) as [W V].
  split; [now apply W|]. split; auto.
Qed.

Section Fac.
Variables (S : sparams) (C : curve) (A : Type).
Notation P := (sp_pail S).
Notation w := (uint_w (sp_pail S)).
Notation ww := (wide_w (sp_pail S)).
Notation xw := (sp_xw S).
Hypothesis HS : sp_ok S.



Lemma fac_challenge_has (X : xof A (pt C)) cp cq ca cb ct N0 setup aux : xof_ok (sp_q S) X ->
  exists e v, fac_challenge S X cp cq ca cb ct N0 setup aux = Ret e /\ has w e v (sp_l S) /\ pm_interval (sp_l S) v.
Proof.
  intros HX. unfold fac_challenge.
  set (h := x_uint _ _ _ _).
  assert (Hh : 0 <= h < 2 ^ sp_l S) by (apply (xo_uint _ _ HX); destruct HS; lia).
  destruct (xof_range_spec w (sp_l S) h) as (e & E & W & B & V); [destruct HS; lia|auto|].
  exists e, (h - (2 ^ (sp_l S - 1) - 1)). split; auto. split; [repeat split; auto; apply W|].
  unfold pm_interval. assert (2 ^ sp_l S = 2 * 2 ^ (sp_l S - 1)).
  { rewrite <- Z.pow_succ_r by (destruct HS; lia). f_equal. lia. }
  lia.
Qed.

Lemma bits_pow2 n : 0 <= n -> bits (2 ^ n) = n + 1.
Proof.
  intros Hn. unfold bits. destruct (Z.leb_spec (2 ^ n) 0); [pose proof (pow2_pos n Hn); lia|].
  rewrite Z.log2_pow2 by lia. lia.
Qed.

(** The prover up to its last subtraction. *)
Lemma fac_new_upto (X : xof A (pt C)) sk0 setup aux rnd p q :
  xof_ok (sp_q S) X ->
  0 < p < 2 ^ prime_bits P -> 0 < q < 2 ^ prime_bits P -> modulus_ok S (p * q) ->
  pr_p (sk_primes sk0) = p -> pr_q (sk_primes sk0) = q -> sk_pk sk0 = p * q ->
  setup_ok S setup -> fac_rand_ok S (p * q) (rp_n setup) rnd ->
  exists r rv penx nu mu x y e ev z1 z2 w1 w2,
  let N := rp_n setup in let s := rp_s setup in let t := rp_t setup in
  let cp := comv N s t p mu in
  let cq := comv N s t q nu in
  let ca := comv N s t (fac_mask S (fr_alpha rnd)) x in
  let cb := comv N s t (fac_mask S (fr_beta rnd)) y in
  let ct := comv N s t (q * fac_mask S (fr_alpha rnd) + 0) (nu * fac_mask S (fr_alpha rnd) + rv) in
  fac_new S X sk0 setup aux rnd =
   (v <~ sec_sub xw r penx ;; v <~ sec_to_public xw v ;; Ret (FacProof e cp cq ca cb ct z1 z2 w1 w2 v)) /\
  fac_challenge S X cp cq ca cb ct (p * q) setup aux = Ret e /\
  has xw r rv (sp_l S + sp_eps S + bits (p * q * N)) /\
  (exists bp, has xw penx (p * ev * nu) bp /\ bp + 1 < xw) /\
  has w e ev (sp_l S) /\ pm_interval (sp_l S) ev /\
  (exists b, has ww z1 (fac_mask S (fr_alpha rnd) + p * ev) b) /\
  (exists b, has ww z2 (fac_mask S (fr_beta rnd) + q * ev) b) /\
  (exists b, has ww w1 (x + mu * ev) b) /\
  (exists b, has ww w2 (y + nu * ev) b).
Proof.
  intros HX Hp Hq HN0 Ep Eq EN Hset [Da Db Dmu Dnu Dr Dx Dy].
  assert (Hset' := Hset). destruct Hset' as (Hn & Hs & Ht & Gs & Gt).
  assert (Hbits : 0 < bits (rp_n setup) <= modulus_bits P) by (apply bits_modulus; destruct HS; lia).
  assert (Hprod : 0 < p * q * rp_n setup < 2 ^ (2 * modulus_bits P)).
  { destruct HN0 as [H1 H2]. split; [clear - H1 Hn; nia|].
    replace (2 * modulus_bits P) with (modulus_bits P + modulus_bits P) by lia.
    rewrite Z.pow_add_r by (destruct HS; lia). clear - H1 H2 Hn. nia. }
  assert (Hbits2 : 0 < bits (p * q * rp_n setup) <= 2 * modulus_bits P).
  { apply bits_modulus; [destruct HS; lia|exact Hprod]. }
  assert (Hpb : 2 <= prime_bits P) by (destruct HS; lia).
  assert (Ebits : bits (2 ^ (prime_bits P - 2)) = prime_bits P - 1) by (rewrite bits_pow2 by lia; lia).
  assert (Hs2 : 0 < 2 ^ (prime_bits P - 2)) by (apply Z.pow_pos_nonneg; lia).
  assert (Hwu : ww <= xw) by (destruct HS; lia).
  unfold fac_new. cbv zeta. rewrite EN.
  assert (Eshl : oshl w 1 (prime_bits P - 2) = Some (2 ^ (prime_bits P - 2))).
  { unfold oshl. rewrite (proj2 (Z.ltb_lt _ _)) by (destruct HS; lia). rewrite Z.mul_1_l, Z.mod_small; auto.
    split; [lia|]. apply Z.pow_lt_mono_r; destruct HS; lia. }
  rewrite Eshl. cbn [oexpect obind].
  run_ex (sample_scaled_has S HS (sp_l S + sp_eps S) (2 ^ (prime_bits P - 2)) (fr_alpha rnd)) alpha Ka; [destruct HS; lia..|].
  run_ex (sample_scaled_has S HS (sp_l S + sp_eps S) (2 ^ (prime_bits P - 2)) (fr_beta rnd)) beta Kb; [destruct HS; lia..|].
  run_ex (sample_scaled_has S HS (sp_l S) (rp_n setup) (fr_mu rnd)) mu Kmu; [destruct HS; lia..|].
  run_ex (sample_scaled_has S HS (sp_l S) (rp_n setup) (fr_nu rnd)) nu Knu; [destruct HS; lia..|].
  rewrite random_range_scaled_wide_eq.
  run_ex (has_scaled w xw (sp_l S + sp_eps S) (p * q * rp_n setup) (fr_r rnd)) r Kr; [destruct HS; lia..|].
  run_ex (sample_scaled_has S HS (sp_l S + sp_eps S) (rp_n setup) (fr_x rnd)) x Kx; [destruct HS; lia..|].
  run_ex (sample_scaled_has S HS (sp_l S + sp_eps S) (rp_n setup) (fr_y rnd)) y Ky; [destruct HS; lia..|].
  fold (mask_scaled (sp_l S + sp_eps S) (2 ^ (prime_bits P - 2)) (fr_alpha rnd)) in Ka.
  fold (mask_scaled (sp_l S + sp_eps S) (2 ^ (prime_bits P - 2)) (fr_beta rnd)) in Kb.
  fold (fac_mask S (fr_alpha rnd)) in Ka. fold (fac_mask S (fr_beta rnd)) in Kb.
  set (av := fac_mask S (fr_alpha rnd)) in *. set (bv := fac_mask S (fr_beta rnd)) in *.
  set (muv := fr_mu rnd - _) in *. set (nuv := fr_nu rnd - _) in *.
  set (rv := fr_r rnd - _) in *. set (xv := fr_x rnd - _) in *. set (yv := fr_y rnd - _) in *.
  clearbody av bv muv nuv rv xv yv.
  unfold p_signed, q_signed. rewrite Ep, Eq.
  destruct (has_positive w p (prime_bits P)) as (ps & Eps & Kp); [destruct HS; lia..|].
  destruct (has_positive w q (prime_bits P)) as (qs & Eqs & Kq); [destruct HS; lia..|].
  rewrite Eps, Eqs. cbn [oexpect obind].
  rewrite (commit_sec_has S _ _ _ _ _ _ _ _ _ Hset Kp Kmu). cbn [obind].
  rewrite (commit_sec_has S _ _ _ _ _ _ _ _ _ Hset Kq Knu). cbn [obind].
  rewrite (commit_sec_has S _ _ _ _ _ _ _ _ _ Hset Ka Kx). cbn [obind].
  rewrite (commit_sec_has S _ _ _ _ _ _ _ _ _ Hset Kb Ky). cbn [obind].
  rewrite (rpc_pow_sec_has S setup _ _ _ _ _ _ Hset Ka). cbn [obind].
  destruct (rp_commit_zero_value_ok setup xw r (proj1 Hn) Ht Gs Gt (has_wf _ _ _ _ Kr)) as [Ezr _].
  rewrite Ezr, (has_sval _ _ _ _ Kr). cbn [obind].
  rewrite (rpc_mul_comv S) by auto.
  set (cp := comv _ _ _ p muv). set (cq := comv _ _ _ q nuv). set (ca := comv _ _ _ av xv).
  set (cb := comv _ _ _ bv yv). set (ct := comv _ _ _ _ (nuv * av + rv)).
  destruct (fac_challenge_has X cp cq ca cb ct (p * q) setup aux HX) as (e & ev & Ee & Ke & Re).
  rewrite Ee. cbn [obind].
  run_ex (has_pub_wide _ ww _ _ _ Ke) ew Kew; [destruct HS; lia..|].
  run_ex (has_mul _ _ _ _ _ _ _ Kp Ke) pe Kpe; [destruct HS; lia..|].
  run_ex (has_wide _ ww _ _ _ Kpe) pew Kpew; [destruct HS; lia..|].
  run_ex (has_add _ _ _ _ _ _ _ Ka Kpew) z1 Kz1; [destruct HS; lia..|].
  rewrite (has_public _ _ _ _ Kz1). cbn [obind].
  run_ex (has_mul _ _ _ _ _ _ _ Kq Ke) qe Kqe; [destruct HS; lia..|].
  run_ex (has_wide _ ww _ _ _ Kqe) qew Kqew; [destruct HS; lia..|].
  run_ex (has_add _ _ _ _ _ _ _ Kb Kqew) z2 Kz2; [destruct HS; lia..|].
  rewrite (has_public _ _ _ _ Kz2). cbn [obind].
  run_ex (has_mul _ _ _ _ _ _ _ Kmu Kew) mue Kmue; [destruct HS; lia..|].
  run_ex (has_add _ _ _ _ _ _ _ Kx Kmue) w1 Kw1; [destruct HS; lia..|].
  rewrite (has_public _ _ _ _ Kw1). cbn [obind].
  run_ex (has_mul _ _ _ _ _ _ _ Knu Kew) nue Knue; [destruct HS; lia..|].
  run_ex (has_add _ _ _ _ _ _ _ Ky Knue) w2 Kw2; [destruct HS; lia..|].
  rewrite (has_public _ _ _ _ Kw2). cbn [obind].
  destruct (has_mul_wide _ w _ _ _ _ _ _ Kp Ke) as (pew2 & E2 & Kpew2). rewrite E2. clear E2. cbn [obind].
  rewrite <- (so_ww2 _ HS) in Kpew2.
  run_ex (has_mul _ _ _ _ _ _ _ Kpew2 Knu) pen Kpen; [destruct HS; lia..|].
  run_ex (has_wide _ xw _ _ _ Kpen) penx Kpenx; [destruct HS; lia..|].
  exists r, rv, penx, nuv, muv, xv, yv, e, ev, z1, z2, w1, w2.
  split; [reflexivity|]. split; [exact Ee|]. split; [exact Kr|].
  split; [eexists; split; [exact Kpenx|destruct HS; lia]|].
  split; [exact Ke|]. split; [exact Re|]. split; [eauto|]. split; [eauto|]. split; eauto.
Qed.

(** With one bit more than [SELF_CONSISTENT] asks for, the proof is produced and
    accepted exactly when both responses are in range. *)
Theorem fac_run (X : xof A (pt C)) sk0 setup aux rnd p q :
  xof_ok (sp_q S) X ->
  0 < p < 2 ^ prime_bits P -> 0 < q < 2 ^ prime_bits P -> modulus_ok S (p * q) ->
  pr_p (sk_primes sk0) = p -> pr_q (sk_primes sk0) = q -> sk_pk sk0 = p * q ->
  setup_ok S setup -> fac_rand_ok S (p * q) (rp_n setup) rnd ->
  sp_l S + sp_eps S + bits (p * q * rp_n setup) + 1 < xw ->
  exists pf r e, fac_new S X sk0 setup aux rnd = Ret pf /\
    fac_verify S X pf (p * q) setup aux = Ret r /\
    e = sval w (fac_e pf) /\ pm_interval (sp_l S) e /\
    (r = true <->
      pm_interval (sp_l S + sp_eps S + prime_bits P - 2) (fac_mask S (fr_alpha rnd) + p * e) /\
      pm_interval (sp_l S + sp_eps S + prime_bits P - 2) (fac_mask S (fr_beta rnd) + q * e)).
Proof.
  intros HX Hp Hq HN0 Ep Eq EN Hset Hrnd Hxw.
  destruct (fac_new_upto X sk0 setup aux rnd p q HX Hp Hq HN0 Ep Eq EN Hset Hrnd)
    as (r & rv & penx & nu & mu & x & y & e & ev & z1 & z2 & w1 & w2 & Enew & Ech & Kr & (bp & Kpx & Hbp) & Ke & Re &
        (b1 & Kz1) & (b2 & Kz2) & (b3 & Kw1) & (b4 & Kw2)).
  cbv zeta in Enew, Ech. rewrite Enew. clear Enew.
  destruct (has_sub _ _ _ _ _ _ _ Kr Kpx) as (v & Ev & Kv); [lia|].
  rewrite Ev. cbn [obind]. rewrite (has_public _ _ _ _ Kv). cbn [obind].
  set (av := fac_mask S (fr_alpha rnd)) in *. set (bv := fac_mask S (fr_beta rnd)) in *. clearbody av bv.
  assert (Hset' := Hset). destruct Hset' as (Hn & Hs & Ht & Gs & Gt).
  set (L := sp_l S + sp_eps S + prime_bits P - 2) in *.
  destruct (has_in_range _ _ _ _ L Kz1) as (rg1 & Erg1 & Hrg1); [unfold L; destruct HS; lia|].
  destruct (has_in_range _ _ _ _ L Kz2) as (rg2 & Erg2 & Hrg2); [unfold L; destruct HS; lia|].
  eexists _, (rg1 && rg2), ev. split; [reflexivity|].
  cbn [fac_e]. split; [|split; [symmetry; apply Ke|split; [exact Re|]]].
  2:{ now rewrite andb_true_iff, Hrg1, Hrg2. }
  unfold fac_verify. cbv zeta. cbn [fac_e fac_p fac_q fac_a fac_b fac_t fac_z1 fac_z2 fac_w1 fac_w2 fac_v].
  rewrite Ech. cbn [obind]. rewrite (proj2 (s_eqb_eq e e) eq_refl). cbn [check]. fold L.
  rewrite Erg1. cbn [obind]. destruct rg1; cbn [check andb]; [|reflexivity].
  rewrite Erg2. cbn [obind]. destruct rg2; cbn [check]; [|reflexivity].
  destruct (modulus_signed_ok P (p * q) (so_par _ HS) (mod_pos S HS)) as (n0 & En0 & Wn0 & Vn0);
    [destruct HN0; lia|].
  rewrite En0. cbn [obind].
  destruct (rp_commit_zero_randomizer_ok setup ww n0 (proj1 Hn) Hs Gs Gt Wn0) as [_ Ezr].
  rewrite Ezr, Vn0. cbn [obind].
  rewrite !rpc_pre_comv with (S := S) by auto.
  rewrite (commit_pub_has S _ _ _ _ _ _ _ _ _ Hset Kz1 Kw1). cbn [obind].
  rewrite (rpc_pow_pub_has S setup _ _ _ _ _ _ Hset Ke). cbn [obind].
  rewrite (rpc_mul_comv S) by auto. rewrite Z.eqb_refl. cbn [check].
  rewrite (commit_pub_has S _ _ _ _ _ _ _ _ _ Hset Kz2 Kw2). cbn [obind].
  rewrite (rpc_pow_pub_has S setup _ _ _ _ _ _ Hset Ke). cbn [obind].
  rewrite (rpc_mul_comv S) by auto. rewrite Z.eqb_refl. cbn [check].
  rewrite (rpc_pow_pub_has S setup _ _ _ _ _ _ Hset Kz1). cbn [obind].
  destruct (rp_commit_zero_value_ok setup xw v (proj1 Hn) Ht Gs Gt (has_wf _ _ _ _ Kv)) as [_ Ezv].
  rewrite Ezv, (has_sval _ _ _ _ Kv). cbn [obind].
  rewrite (rpc_pow_pub_has S setup _ _ _ _ _ _ Hset Ke). cbn [obind].
  rewrite !(rpc_mul_comv S) by auto.
  rewrite (proj2 (Z.eqb_eq _ _)); [reflexivity|]. f_equal; ring.
Qed.

(** At the edge allowed by [SELF_CONSISTENT] the prover panics for every draw. *)
Theorem fac_edge (X : xof A (pt C)) sk0 setup aux rnd p q :
  xof_ok (sp_q S) X ->
  0 < p < 2 ^ prime_bits P -> 0 < q < 2 ^ prime_bits P -> modulus_ok S (p * q) ->
  pr_p (sk_primes sk0) = p -> pr_q (sk_primes sk0) = q -> sk_pk sk0 = p * q ->
  setup_ok S setup -> fac_rand_ok S (p * q) (rp_n setup) rnd ->
  xw <= sp_l S + sp_eps S + bits (p * q * rp_n setup) + 1 ->
  fac_new S X sk0 setup aux rnd = Panic.
Proof.
  intros HX Hp Hq HN0 Ep Eq EN Hset Hrnd Hxw.
  destruct (fac_new_upto X sk0 setup aux rnd p q HX Hp Hq HN0 Ep Eq EN Hset Hrnd)
    as (r & rv & penx & nu & mu & x & y & e & ev & z1 & z2 & w1 & w2 & Enew & Ech & Kr & (bp & Kpx & Hbp) & _).
  cbv zeta in Enew. rewrite Enew. rewrite (has_sub_panics _ _ _ _ _ _ _ Kr Kpx); [reflexivity|lia].
Qed.

Theorem fac_accept (X : xof A (pt C)) pf N0 setup aux :
  xof_ok (sp_q S) X -> modulus_ok S N0 -> setup_ok S setup ->
  wf ww (fac_z1 pf) -> wf ww (fac_z2 pf) -> wf ww (fac_w1 pf) -> wf ww (fac_w2 pf) -> wf xw (fac_v pf) ->
  let N := rp_n setup in let s := rp_s setup in let t := rp_t setup in
  let e := sval w (fac_e pf) in
  let z1 := sval ww (fac_z1 pf) in
  let z2 := sval ww (fac_z2 pf) in
  fac_verify S X pf N0 setup aux = Ret true <->
    fac_challenge S X (fac_p pf) (fac_q pf) (fac_a pf) (fac_b pf) (fac_t pf) N0 setup aux = Ret (fac_e pf) /\
    pm_interval (sp_l S + sp_eps S + prime_bits P - 2) z1 /\
    pm_interval (sp_l S + sp_eps S + prime_bits P - 2) z2 /\
    (exists pe, unit_power N (fac_p pf) e pe /\
       rp_opens N s t z1 (sval ww (fac_w1 pf)) ((fac_a pf * pe) mod N)) /\
    (exists qe, unit_power N (fac_q pf) e qe /\
       rp_opens N s t z2 (sval ww (fac_w2 pf)) ((fac_b pf * qe) mod N)) /\
    (exists qz tv re, unit_power N (fac_q pf) z1 qz /\ unit_power N t (sval xw (fac_v pf)) tv /\
       unit_power N s (N0 * e) re /\ (qz * tv) mod N = (fac_t pf * re) mod N).
Proof.
  intros HX HN0 Hset W1 W2 W3 W4 W5 N s t e z1 z2.
  pose proof (has_self _ _ W1) as K1. fold z1 in K1. pose proof (has_self _ _ W2) as K2. fold z2 in K2.
  pose proof (has_self _ _ W3) as K3. pose proof (has_self _ _ W4) as K4. pose proof (has_self _ _ W5) as K5.
  unfold fac_verify. cbv zeta.
  destruct (fac_challenge_has X (fac_p pf) (fac_q pf) (fac_a pf) (fac_b pf) (fac_t pf) N0 setup aux HX)
    as (es & ev & Ee & Ke & Re).
  rewrite Ee. cbn [obind]. rewrite check_true, s_eqb_eq.
  apply and_iff_cond2; [split; congruence|]. intros Hee _. rewrite Hee in *. clear Ee Hee.
  assert (Ev : ev = e) by (symmetry; apply Ke). rewrite Ev in *. clear Ev ev.
  set (L := sp_l S + sp_eps S + prime_bits P - 2) in *.
  destruct (has_in_range _ _ _ _ L K1) as (rg & Erg & Hrg); [unfold L; destruct HS; lia|].
  rewrite Erg. cbn [obind]. rewrite check_true, Hrg. apply and_iff_compat_l.
  destruct (has_in_range _ _ _ _ L K2) as (rg2 & Erg2 & Hrg2); [unfold L; destruct HS; lia|].
  rewrite Erg2. cbn [obind]. rewrite check_true, Hrg2. apply and_iff_compat_l.
  destruct (modulus_signed_ok P N0 (so_par _ HS) (mod_pos S HS)) as (n0 & En0 & Wn0 & Vn0);
    [destruct HN0; lia|].
  assert (Hset' := Hset). destruct Hset' as (Hn & Hs & Ht & Gs & Gt).
  rewrite En0. cbn [obind].
  destruct (rp_commit_zero_randomizer_ok setup ww n0 (proj1 Hn) Hs Gs Gt Wn0) as [_ Ezr].
  rewrite Ezr, Vn0. cbn [obind].
  rewrite (rp_check_signed S setup w ww ww _ _ _ _ _ _ _ _ _ (fac_a pf) (fac_p pf) _ Hset Ke K1 K3).
  apply and_iff_compat_l.
  rewrite (rp_check_signed S setup w ww ww _ _ _ _ _ _ _ _ _ (fac_b pf) (fac_q pf) _ Hset Ke K2 K4).
  apply and_iff_compat_l.
  destruct (rp_commit_zero_value_ok setup xw (fac_v pf) (proj1 Hn) Ht Gs Gt W5) as [_ Ezv].
  rewrite Ezv. rewrite (rpc_pow_pub_has S setup _ _ _ _ _ _ Hset Ke). cbn [obind].
  rewrite Z.mul_0_l. rewrite obind_true. cbn [obind].
  unfold rpc_pow_pub, rpc_to_precomputed, rpc_mul. fold N s t.
  assert (HN' : 0 < N) by (fold N in Hn; lia).
  assert (Ecs : forall a, comv N s t a 0 = zpow N s a).
  { intros a. apply eqm_small with N; [apply comv_range; lia|apply zpow_range; lia|]. rewrite comv_eqm.
    rewrite (zpow_nonneg N t 0) by lia. rewrite Z.pow_0_r. apply eqm_eq. ring. }
  assert (Ect : forall a, comv N s t 0 a = zpow N t a).
  { intros a. apply eqm_small with N; [apply comv_range; lia|apply zpow_range; lia|]. rewrite comv_eqm.
    rewrite (zpow_nonneg N s 0) by lia. rewrite Z.pow_0_r. apply eqm_eq. ring. }
  rewrite Ecs, Ect.
  assert (HQ0 : 0 <= fac_q pf mod N) by (apply Z.mod_pos_bound; fold N in Hn; lia).
  split.
  - intros (qz & Hqz & Hk). apply (pow_pub_iff ww) in Hqz; [|fold N in Hn; lia|auto|auto].
    fold z1 in Hqz. rewrite unit_power_mod_base in Hqz by (fold N in Hn; lia).
    apply check_true in Hk. destruct Hk as [Hk _]. apply Z.eqb_eq in Hk.
    exists qz, (zpow N t (sval xw (fac_v pf))), (zpow N s (N0 * e)).
    split; auto. split; [apply unit_power_zpow; auto; lia|]. split; [apply unit_power_zpow; auto; lia|].
    rewrite Hk. now rewrite Z.mul_mod_idemp_l by (fold N in Hn; lia).
  - intros (qz & tv & re & Hqz & Htv & Hre & Hk). exists qz. split.
    + apply (pow_pub_iff ww); [fold N in Hn; lia|auto|auto|]. fold z1. now rewrite unit_power_mod_base by (fold N in Hn; lia).
    + apply unit_power_zpow in Htv, Hre; auto; try lia. subst tv re. apply check_true. split; auto.
      apply Z.eqb_eq. rewrite Z.mul_mod_idemp_l by (fold N in Hn; lia). exact Hk.
Qed.

Theorem fac_extract (X1 X2 : xof A (pt C)) pf1 pf2 N0 setup aux1 aux2 :
  xof_ok (sp_q S) X1 -> xof_ok (sp_q S) X2 -> modulus_ok S N0 -> setup_ok S setup ->
  (forall pf, pf = pf1 \/ pf = pf2 ->
    wf ww (fac_z1 pf) /\ wf ww (fac_z2 pf) /\ wf ww (fac_w1 pf) /\ wf ww (fac_w2 pf) /\ wf xw (fac_v pf)) ->
  Z.gcd (fac_p pf1) (rp_n setup) = 1 -> Z.gcd (fac_q pf1) (rp_n setup) = 1 ->
  Z.gcd (fac_a pf1) (rp_n setup) = 1 -> Z.gcd (fac_b pf1) (rp_n setup) = 1 -> Z.gcd (fac_t pf1) (rp_n setup) = 1 ->
  fac_p pf2 = fac_p pf1 -> fac_q pf2 = fac_q pf1 -> fac_a pf2 = fac_a pf1 -> fac_b pf2 = fac_b pf1 ->
  fac_t pf2 = fac_t pf1 ->
  fac_verify S X1 pf1 N0 setup aux1 = Ret true ->
  fac_verify S X2 pf2 N0 setup aux2 = Ret true ->
  let N := rp_n setup in let s := rp_s setup in let t := rp_t setup in
  let de := sval w (fac_e pf1) - sval w (fac_e pf2) in
  exists dz1 dz2 dw1 dw2 dv,
    Z.abs dz1 < 2 ^ (sp_l S + sp_eps S + prime_bits P - 2) /\
    Z.abs dz2 < 2 ^ (sp_l S + sp_eps S + prime_bits P - 2) /\
    Z.abs de < 2 ^ sp_l S /\
    (exists c, unit_power N (fac_p pf1) de c /\ rp_opens N s t dz1 dw1 c) /\
    (exists c, unit_power N (fac_q pf1) de c /\ rp_opens N s t dz2 dw2 c) /\
    (exists c, unit_power N (fac_q pf1) dz1 c /\ rp_opens N s t (N0 * de) (- dv) c) /\
    rp_opens N s t (N0 * de * de - dz1 * dz2) (- (dv * de + dw2 * dz1)) 1.
Proof.
  intros HX1 HX2 HN0 Hset Hw Gp Gq Ga Gb GT Ep Eq Ea Eb Et V1 V2 N s t de.
  destruct (Hw pf1 (or_introl eq_refl)) as (W11 & W12 & W13 & W14 & W15).
  destruct (Hw pf2 (or_intror eq_refl)) as (W21 & W22 & W23 & W24 & W25).
  apply (fac_accept X1 pf1 N0 setup aux1 HX1 HN0 Hset W11 W12 W13 W14 W15) in V1.
  apply (fac_accept X2 pf2 N0 setup aux2 HX2 HN0 Hset W21 W22 W23 W24 W25) in V2.
  rewrite Ep, Eq, Ea, Eb, Et in V2.
  destruct V1 as (C1 & R11 & R12 & (pe1 & U1 & O1) & (qe1 & U2 & O2) & (qz1 & tv1 & re1 & U3 & U4 & U5 & Q1)).
  destruct V2 as (C2 & R21 & R22 & (pe2 & U1' & O1') & (qe2 & U2' & O2') & (qz2 & tv2 & re2 & U3' & U4' & U5' & Q2)).
  fold N s t in U1, O1, U2, O2, U3, U4, U5, Q1, U1', O1', U2', O2', U3', U4', U5', Q2, Gp, Gq, Ga, Gb, GT.
  destruct (fac_challenge_has X1 (fac_p pf1) (fac_q pf1) (fac_a pf1) (fac_b pf1) (fac_t pf1) N0 setup aux1 HX1)
    as (es1 & ev1 & Ee1 & Ke1 & Re1).
  destruct (fac_challenge_has X2 (fac_p pf1) (fac_q pf1) (fac_a pf1) (fac_b pf1) (fac_t pf1) N0 setup aux2 HX2)
    as (es2 & ev2 & Ee2 & Ke2 & Re2).
  rewrite C1 in Ee1. injection Ee1 as <-. rewrite C2 in Ee2. injection Ee2 as <-.
  pose proof (has_sval _ _ _ _ Ke1) as E1. pose proof (has_sval _ _ _ _ Ke2) as E2.
  unfold de. rewrite E1, E2 in *. clear de.
  destruct Hset as (Hn & Hs & Ht & Gs & Gt). fold N s t in Hn, Hs, Ht, Gs, Gt.
  assert (HN : 1 < N) by lia. assert (HN' : 0 < N) by lia.
  apply unit_power_zpow in U1, U2, U3, U4, U5, U1', U2', U3', U4', U5'; auto.
  apply rp_opens_comv in O1, O2, O1', O2'; auto. subst.
  set (e1 := sval w (fac_e pf1)) in *. set (e2 := sval w (fac_e pf2)) in *.
  set (a1 := sval ww (fac_z1 pf1)) in *. set (a2 := sval ww (fac_z1 pf2)) in *.
  set (b1 := sval ww (fac_z2 pf1)) in *. set (b2 := sval ww (fac_z2 pf2)) in *.
  set (c1 := sval ww (fac_w1 pf1)) in *. set (c2 := sval ww (fac_w1 pf2)) in *.
  set (d1 := sval ww (fac_w2 pf1)) in *. set (d2 := sval ww (fac_w2 pf2)) in *.
  set (v1 := sval xw (fac_v pf1)) in *. set (v2 := sval xw (fac_v pf2)) in *.
  assert (F1 : zpow N (fac_p pf1) (e1 - e2) = comv N s t (a1 - a2) (c1 - c2)).
  { apply comv_diff with (T := fac_a pf1); auto; [rewrite <- O1|rewrite <- O1']; now rewrite eqm_mod. }
  assert (F2 : zpow N (fac_q pf1) (e1 - e2) = comv N s t (b1 - b2) (d1 - d2)).
  { apply comv_diff with (T := fac_b pf1); auto; [rewrite <- O2|rewrite <- O2']; now rewrite eqm_mod. }
  assert (F3 : zpow N (fac_q pf1) (a1 - a2) = comv N s t (N0 * (e1 - e2)) (- (v1 - v2))).
  { apply eqm_small with N; [apply zpow_range; lia|apply comv_range; lia|].
    change (eqm N (zpow N (fac_q pf1) a1 * zpow N t v1) (fac_t pf1 * zpow N s (N0 * e1))) in Q1.
    change (eqm N (zpow N (fac_q pf1) a2 * zpow N t v2) (fac_t pf1 * zpow N s (N0 * e2))) in Q2.
    apply gauss_eqm with (fac_t pf1 * zpow N s (N0 * e2) * zpow N t v1);
      [lia|apply gcd_mul_1; [apply gcd_mul_1; auto|]; apply zpow_gcd; auto|].
    transitivity (zpow N t v2 * (zpow N (fac_q pf1) a1 * zpow N t v1)).
    - rewrite <- Q2. replace a1 with (a2 + (a1 - a2)) at 2 by lia. rewrite (zpow_add N _ a2) by auto.
      apply eqm_eq. ring.
    - rewrite Q1, comv_eqm. replace (N0 * e1) with (N0 * e2 + N0 * (e1 - e2)) by ring.
      rewrite (zpow_add N s (N0 * e2)) by auto.
      replace (zpow N t v2) with (zpow N t (v1 + - (v1 - v2))) by (f_equal; lia).
      rewrite (zpow_add N t v1) by auto. apply eqm_eq. ring. }
  exists (a1 - a2), (b1 - b2), (c1 - c2), (d1 - d2), (v1 - v2).
  split; [apply pm_diff; auto; destruct HS; lia|]. split; [apply pm_diff; auto; destruct HS; lia|].
  split; [apply pm_diff; auto; destruct HS; lia|].
  split; [exists (zpow N (fac_p pf1) (e1 - e2)); split; [now apply unit_power_zpow|now apply rp_opens_comv]|].
  split; [exists (zpow N (fac_q pf1) (e1 - e2)); split; [now apply unit_power_zpow|now apply rp_opens_comv]|].
  split; [exists (zpow N (fac_q pf1) (a1 - a2)); split; [now apply unit_power_zpow|now apply rp_opens_comv]|].
  apply rp_opens_comv; auto.
  (* Q^(da * de) computed in two ways *)
  assert (G1 : zpow N (fac_q pf1) ((a1 - a2) * (e1 - e2)) = comv N s t (N0 * (e1 - e2) * (e1 - e2)) (- (v1 - v2) * (e1 - e2))).
  { rewrite <- (comv_zpow N s t (N0 * (e1 - e2)) (- (v1 - v2))) by auto. rewrite <- F3.
    apply eqm_small with N; [now apply zpow_range|now apply zpow_range|]. now apply zpow_mul. }
  assert (G2 : zpow N (fac_q pf1) ((a1 - a2) * (e1 - e2)) = comv N s t ((b1 - b2) * (a1 - a2)) ((d1 - d2) * (a1 - a2))).
  { rewrite (Z.mul_comm (a1 - a2)). rewrite <- (comv_zpow N s t (b1 - b2) (d1 - d2)) by auto. rewrite <- F2.
    apply eqm_small with N; [now apply zpow_range|now apply zpow_range|]. now apply zpow_mul. }
  rewrite G1 in G2. 
  apply eqm_small with N; [lia|apply comv_range; lia|].
  apply gauss_eqm with (comv N s t ((b1 - b2) * (a1 - a2)) ((d1 - d2) * (a1 - a2))); [lia|now apply comv_gcd|].
  rewrite Z.mul_1_r. rewrite <- G2 at 1. rewrite <- (eqm_mod N (_ * comv _ _ _ _ _)). rewrite comv_add by auto.
  apply eqm_eq. f_equal; ring.
Qed.
End Fac.
