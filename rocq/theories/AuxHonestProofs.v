(** * An honest party's auxiliary data and proofs are accepted. *)
From Coq Require Import ZArith Znumtheory Lia List.
From Verif Require Import Base BaseFacts ModArith SignedModel SignedSpec PaillierModel PaillierSpec PaillierProofs PaillierLemmas
  ZkBase ZkModel ZkSpec ZkFacts ZkLemmas PrmProofs ModProofs RpProofs FacProofs.
From mathcomp Require Import ssreflect ssrbool eqtype ssrnat seq.
From Verif Require Import ProtoBase AuxGenModel AuxGenSpec AuxHonestSpec.
Set Implicit Arguments.
Unset Strict Implicit.
Unset Printing Implicit Defensive.
Local Open Scope Z_scope.

Lemma big_of_pow S N : 0 < modulus_bits (sp_pail S) - 2 -> 2 ^ (modulus_bits (sp_pail S) - 2) <= N ->
  big_enough S N = true.
Proof.
move=> h1 h2; rewrite /big_enough.
have hp := Z.pow_pos_nonneg 2 (modulus_bits (sp_pail S) - 2).
have hN : 0 < N by lia.
have [b1 b2] := bits_spec _ hN.
have -> // : (bits N <? modulus_bits (sp_pail S) - 2) = false.
apply Z.ltb_ge.
have [//|bad] := Z_le_gt_dec (modulus_bits (sp_pail S) - 2) (bits N); exfalso.
have := Z.pow_le_mono_r 2 (bits N) (modulus_bits (sp_pail S) - 2); lia.
Qed.

Lemma odd_big p : prime p -> 2 < p -> Z.odd p = true.
Proof.
move=> hp h2; case E: (Z.odd p) => //.
have ev : Z.even p = true by rewrite -Z.negb_odd E.
move/Zeven_bool_iff: ev => /Zeven_ex [k hk].
have hd : (2 | p) by exists k; lia.
have := prime_divisors p hp 2 hd; lia.
Qed.

Section Honest.
Variables (S : sparams) (C : curve) (A : Type) (X : xof A (pt C)).
Hypothesis (HG : good_params S) (HX : xof_ok (sp_q S) X).
Notation P := (sp_pail S).
Variables (r : ag_rand) (com : Z).
Hypothesis HK : honest_keys S r com.

Lemma honest_start aux : exists sec rp psi sk,
  (rp_secret_new P (ar_rp_p r) (ar_rp_q r) (ar_lambda r) = Ret sec /\ rp_with_secret sec (ar_t r) = Ret rp /\
   prm_new S X sec rp aux (ar_draws r) = Ret psi /\ prm_verify S X psi rp aux = Ret true) /\
  (public_key_new (ar_p r * ar_q r) = Ret (ar_p r * ar_q r) /\ skey_new P (ar_p r) (ar_q r) = Ret sk /\
   sk_pk sk = ar_p r * ar_q r /\ pr_p (sk_primes sk) = ar_p r /\ pr_q (sk_primes sk) = ar_q r) /\
  (big_enough S (ar_p r * ar_q r) = true /\ big_enough S (rp_n rp) = true) /\
  rp_n rp = ar_rp_p r * ar_rp_q r /\ reduced rp = rp /\ setup_ok S rp /\ Z.odd (rp_n rp) = true /\
  Z.odd (ar_p r * ar_q r) = true.
Proof.
have hs := good_ok _ HG; have hp := so_par _ hs.
have pc : p_self_consistent P = true.
  by case: HG => + _; rewrite /sp_compiles; case: (p_self_consistent _) => //; rewrite ?andFb.
have hb : 60 < prime_bits P by have := so_l _ hs; have := so_eps _ hs; have := so_prime _ hs; have := so_kappa _ hs; lia.
have hmb : modulus_bits P = 2 * prime_bits P by case: hp.
case: HK => -[Pp [Pq [Hne [Mp [Mq [Rp Rq]]]]]] [rPp [rPq rne]] rRp rRq hl [qd hqd] [ld fd] _.
have e4 : 2 ^ prime_bits P = 4 * 2 ^ (prime_bits P - 2).
  have {1}-> : prime_bits P = 2 + (prime_bits P - 2) by lia.
  by rewrite Z.pow_add_r //; lia.
have e2 : 2 ^ (prime_bits P - 1) = 2 * 2 ^ (prime_bits P - 2).
  have {1}-> : prime_bits P - 1 = 1 + (prime_bits P - 2) by lia.
  by rewrite Z.pow_add_r //; lia.
have e1 : 2 ^ (modulus_bits P - 2) = 4 * (2 ^ (prime_bits P - 2) * 2 ^ (prime_bits P - 2)).
  have -> : modulus_bits P - 2 = 2 + (prime_bits P - 2) + (prime_bits P - 2) by lia.
  rewrite (Z.pow_add_r 2 (2 + (prime_bits P - 2)) (prime_bits P - 2)) ?(Z.pow_add_r 2 2 (prime_bits P - 2)); lia.
have h4 : 4 <= 2 ^ (prime_bits P - 2) by apply: (Z.pow_le_mono_r 2 2); lia.
have op := odd_big rPp; have oq := odd_big rPq.
have {op} op : Z.odd (ar_rp_p r) = true by apply: op; lia.
have {oq} oq : Z.odd (ar_rp_q r) = true by apply: oq; lia.
have [sec [rp [E1 [E2 [En [Et [Es [Rs [Rt [Gs [Gt _]]]]]]]]]]] :=
  rp_generation _ _ _ _ _ _ pc rPp rPq op oq (proj2 rRp) (proj2 rRq) hl hqd.
have [psi [F1 [F2 _]]] := prm_run _ _ _ hp X _ _ _ _ _ _ _ aux _ rPp rPq rne op oq (proj2 rRp) (proj2 rRq) hl E1 hqd E2 ld fd.
have [sk K1] := keygen_succeeds _ _ _ pc (conj Pp (conj Pq (conj Hne (conj Mp (conj Mq (conj Rp Rq)))))).
have K2 := skey_new_inv _ _ _ _ hp Pp Pq (proj2 Rp) (proj2 Rq) K1.
have oN : Z.odd (ar_p r * ar_q r) = true by rewrite Z.odd_mul (ko_op _ _ _ _ K2) (ko_oq _ _ _ _ K2).
have orN : Z.odd (ar_rp_p r * ar_rp_q r) = true by rewrite Z.odd_mul op oq.
have [m1 m2] : 1 < ar_rp_p r * ar_rp_q r < 2 ^ modulus_bits P /\ 2 <= modulus_bits P.
  by apply: (modulus_bound _ _ _ hp); lia.
exists sec, rp, psi, sk; split=> //; split.
  by rewrite /public_key_new oN (ko_pk _ _ _ _ K2) (ko_primes _ _ _ _ K2).
split; first split.
- apply: big_of_pow; first lia.
  rewrite e1; move: Rp Rq h4; clear; nia.
- apply: big_of_pow; first lia.
  rewrite e1 En; rewrite e2 in rRp rRq; move: rRp rRq h4; clear; nia.
- split=> //; split.
    by rewrite /reduced Et En !Z.mod_small // -{1}En -{1}Et; case: (rp).
  by rewrite /setup_ok En Et; repeat split; try lia.
Qed.

Lemma honest_mod sk aux : detects_composites X -> skey_new P (ar_p r) (ar_q r) = Ret sk ->
  exists pf, mod_new S X sk aux com = Ret pf /\ mod_verify S X pf (ar_p r * ar_q r) aux = Ret true.
Proof.
move=> hd E; case: HK => -[Pp [Pq [Hne [Mp [Mq [Rp Rq]]]]]] _ _ _ _ _ _ [sk' [draws [y [b [E' [hy ->]]]]]].
move: E'; rewrite E => -[?]; subst sk'.
have pc : p_self_consistent P = true.
  by case: HG => + _; rewrite /sp_compiles; case: (p_self_consistent _) => //; rewrite ?andFb.
have [pf [h1 [_ [_ h2]]]] := mod_honest _ _ _ X _ _ _ _ _ b aux HX pc Pp Pq Mp Mq (proj2 Rp) (proj2 Rq) E hy.
exists pf; split=> //; rewrite h2 hd //.
have := prime_ge_2 _ Pp; have := prime_ge_2 _ Pq => g1 g2 hpr.
have hdv : (ar_p r | ar_p r * ar_q r) by exists (ar_q r); lia.
have := prime_divisors _ hpr _ hdv; nia.
Qed.

Lemma honest_fac sk setup aux rnd : skey_new P (ar_p r) (ar_q r) = Ret sk -> setup_ok S setup ->
  honest_masks S r (rp_n setup) rnd -> 2 * modulus_bits P + sp_l S + sp_eps S + 1 < sp_xw S ->
  exists pf, fac_new S X sk setup aux rnd = Ret pf /\ fac_verify S X pf (ar_p r * ar_q r) setup aux = Ret true.
Proof.
move=> E hsu [hm ha hb] hxw.
case: HK => -[Pp [Pq [Hne [Mp [Mq [Rp Rq]]]]]] _ _ _ _ _ _ _.
have hs := good_ok _ HG; have hp := so_par _ hs.
have K2 := skey_new_inv _ _ _ _ hp Pp Pq (proj2 Rp) (proj2 Rq) E.
have g1 := prime_ge_2 _ Pp; have g2 := prime_ge_2 _ Pq.
have [m1 m2] : 1 < ar_p r * ar_q r < 2 ^ modulus_bits P /\ 2 <= modulus_bits P.
  by apply: (modulus_bound _ _ _ hp); lia.
have kp := ko_primes _ _ _ _ K2.
apply: (fac_margin S C A HG X sk setup aux rnd (ar_p r) (ar_q r)) => //; try lia; try by rewrite kp.
exact: (ko_pk _ _ _ _ K2).
Qed.
End Honest.
