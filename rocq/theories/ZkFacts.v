(** * Step lemmas for the zero-knowledge proof models. *)
From Coq Require Import ZArith Znumtheory List Bool Lia.
From Verif Require Import Base BaseFacts SignedModel SignedSpec SignedProofs EncodingModel ConversionModel
  ConversionProofs IntLemmas ModArith PaillierModel PaillierSpec PaillierProofs RpProofs ZkBase ZkModel ZkSpec.
Import ListNotations.
Open Scope Z_scope.

(** [x] is well formed at width [w], denotes [v], declares the bound [b]. *)
Definition has (w : Z) (x : signed) (v b : Z) : Prop := wf w x /\ sval w x = v /\ bound x = b.

Lemma has_self w x : wf w x -> has w x (sval w x) (bound x).
Proof. now split. Qed.

Lemma has_abs w x v b : has w x v b -> Z.abs v < 2 ^ b /\ 0 <= b < w.
Proof. intros (H & <- & <-). now destruct H as (? & ? & ?). Qed.

Lemma has_add w x y u v a b : has w x u a -> has w y v b -> Z.max a b + 1 < w ->
  exists z, sec_add w x y = Ret z /\ has w z (u + v) (Z.max a b + 1).
Proof.
  intros (Hx & <- & <-) (Hy & <- & <-) H. unfold sec_add.
  destruct (checked_add_spec w x y Hx Hy) as [Hn Hs].
  destruct (sec_checked_add w x y) as [z|].
  - exists z. split; auto. destruct (Hs z eq_refl) as (? & ? & ?). now split.
  - destruct Hn as [Hn _]. specialize (Hn eq_refl). lia.
Qed.
Lemma has_sub w x y u v a b : has w x u a -> has w y v b -> Z.max a b + 1 < w ->
  exists z, sec_sub w x y = Ret z /\ has w z (u - v) (Z.max a b + 1).
Proof.
  intros (Hx & <- & <-) (Hy & <- & <-) H. unfold sec_sub.
  destruct (checked_sub_spec w x y Hx Hy) as [Hn Hs].
  destruct (sec_checked_sub w x y) as [z|].
  - exists z. split; auto. destruct (Hs z eq_refl) as (? & ? & ?). now split.
  - destruct Hn as [Hn _]. specialize (Hn eq_refl). lia.
Qed.
Lemma has_mul w x y u v a b : has w x u a -> has w y v b -> a + b < w ->
  exists z, sec_mul w x y = Ret z /\ has w z (u * v) (a + b).
Proof.
  intros (Hx & <- & <-) (Hy & <- & <-) H. unfold sec_mul.
  destruct (checked_mul_spec w x y Hx Hy) as [Hn Hs].
  destruct (sec_checked_mul w x y) as [z|].
  - exists z. split; auto. destruct (Hs z eq_refl) as (? & ? & ?). now split.
  - destruct Hn as [Hn _]. specialize (Hn eq_refl). lia.
Qed.
Lemma has_mul_panics w x y u v a b : has w x u a -> has w y v b -> w <= a + b -> sec_mul w x y = Panic.
Proof.
  intros (Hx & <- & <-) (Hy & <- & <-) H. unfold sec_mul.
  destruct (checked_mul_spec w x y Hx Hy) as [Hn Hs]. now rewrite (proj2 Hn H).
Qed.
Lemma has_sub_panics w x y u v a b : has w x u a -> has w y v b -> w <= Z.max a b + 1 -> sec_sub w x y = Panic.
Proof.
  intros (Hx & <- & <-) (Hy & <- & <-) H. unfold sec_sub.
  destruct (checked_sub_spec w x y Hx Hy) as [Hn Hs]. now rewrite (proj2 Hn H).
Qed.
Lemma has_mul_wide w wr x y u v a b : has w x u a -> has wr y v b ->
  exists z, sec_mul_wide_public w wr x y = Ret z /\ has (w + wr) z (u * v) (a + b).
Proof.
  intros (Hx & <- & <-) (Hy & <- & <-).
  destruct (mul_wide_spec w wr x y Hx Hy) as (z & ? & ? & ? & ?). exists z. repeat split; auto; apply H0.
Qed.
Lemma has_wide w ww x v b : has w x v b -> w <= ww ->
  exists z, sec_to_wide w ww x = Ret z /\ has ww z v b.
Proof.
  intros (Hx & <- & <-) H. destruct (sec_to_wide_spec w ww x H Hx) as (z & ? & ? & ? & ?).
  exists z. split; auto. now split.
Qed.
Lemma has_pub_wide w ww x v b : has w x v b -> w <= ww ->
  exists z, pub_to_wide w ww x = Ret z /\ has ww z v b.
Proof.
  intros (Hx & <- & <-) H. destruct (pub_to_wide_spec w ww x H Hx) as (z & ? & ? & ? & ?).
  exists z. split; auto. now split.
Qed.
Lemma has_public w x v b : has w x v b -> sec_to_public w x = Ret x.
Proof.
  intros (Hx & <- & <-). pose proof (wf_elim _ _ Hx) as (? & ? & ? & ? & ?).
  apply sec_to_public_spec; auto; try lia. apply Hx.
Qed.
Lemma has_neg w x v b : has w x v b -> has w (sec_neg w x) (- v) b.
Proof. intros (Hx & <- & <-). destruct (sec_neg_spec w x Hx). now split. Qed.
Lemma has_pub_neg w x v b : has w x v b -> has w (pub_neg w x) (- v) b.
Proof. rewrite pub_neg_sec. apply has_neg. Qed.
Lemma has_zero w : 1 <= w -> has w s_zero 0 0.
Proof. intros H. destruct (s_zero_wf w H). now split. Qed.
Lemma has_one w : 2 <= w -> has w pub_one 1 1.
Proof. intros H. destruct (pub_one_wf w H). now split. Qed.
Lemma has_range w e draw : 0 < e < w -> 0 <= draw < 2 ^ e ->
  exists x, sec_random_range w e draw = Ret x /\ has w x (draw - (2 ^ (e - 1) - 1)) e.
Proof.
  intros H Hd. destruct (random_range_spec w e draw H Hd) as (x & ? & ? & ? & ?).
  exists x. split; auto. now split.
Qed.
Lemma has_scaled w ww e scale draw : 0 < e < w -> w <= ww -> 0 < scale -> e + bits scale < ww ->
  0 <= draw < scale * 2 ^ e ->
  exists x, sec_random_range_scaled w ww e scale draw = Ret x /\
    has ww x (draw - (scale * 2 ^ (e - 1) - 1)) (e + bits scale).
Proof.
  intros H1 H2 H3 H4 Hd. destruct (random_range_scaled_spec w ww e scale draw H1 H2 H3 H4 Hd) as (x & ? & ? & ? & ?).
  exists x. split; auto. now split.
Qed.
Lemma has_in_range w x v b e : has w x v b -> 1 <= e <= w ->
  exists r, pub_in_range w x e = Ret r /\ (r = true <-> pm_interval e v).
Proof. intros (Hx & <- & <-) He. now apply pub_in_range_spec. Qed.
Lemma has_assert_range w x v b e : has w x v b -> 1 <= e -> pm_interval e v ->
  sec_assert_range w x e = Ret tt.
Proof.
  intros (Hx & <- & <-) He Hv. unfold sec_assert_range.
  destruct (sec_in_range_spec w x e Hx He) as (r & -> & Hr). cbn.
  now rewrite (proj2 Hr (or_intror Hv)).
Qed.

(** Powers whose base need not be a unit: a result other than a panic is a
    signed power. *)
Lemma pow_pub_inv w m b x r : 1 < m -> wf w x -> 0 <= b -> pow_pub w m b x = Ret r -> unit_power m b (sval w x) r.
Proof.
  intros Hm Hx Hb. rewrite pow_pub_spec by auto. unfold unit_power.
  destruct (Z.ltb_spec (sval w x) 0) as [Hn|Hn].
  - destruct (inv_mod m ((b ^ (- sval w x)) mod m)) as [i|] eqn:E; [|discriminate].
    cbn. intros [= <-]. apply inv_mod_Some in E; [|lia]. destruct E as [E1 E2].
    split; [auto|]. split; [lia|]. intros _.
    rewrite Z.mul_mod_idemp_l in E2 by lia. rewrite Z.mul_comm. exact E2.
  - intros [= <-]. split; [apply Z.mod_pos_bound; lia|]. split; [auto|lia].
Qed.

Lemma unit_power_unique m b v r1 r2 : 1 < m -> unit_power m b v r1 -> unit_power m b v r2 -> r1 = r2.
Proof.
  intros Hm (R1 & P1 & N1) (R2 & P2 & N2). destruct (Z.lt_ge_cases v 0) as [Hv|Hv].
  - specialize (N1 Hv). specialize (N2 Hv). apply eqm_small with m; auto.
    assert (Hg : Z.gcd (b ^ (- v)) m = 1).
    { apply gcd_mul_1_inv with r1. rewrite Z.mul_comm. rewrite (eqm_gcd m _ 1); [apply Z.gcd_1_l|lia|exact N1]. }
    apply gauss_eqm with (b ^ (- v)); [lia|auto|]. rewrite !(Z.mul_comm (b ^ (- v))). unfold eqm. congruence.
  - rewrite P1, P2; auto.
Qed.
Lemma pow_pub_iff w m b x r : 1 < m -> wf w x -> 0 <= b -> (pow_pub w m b x = Ret r <-> unit_power m b (sval w x) r).
Proof.
  intros Hm Hx Hb. split; [now apply pow_pub_inv|]. intros Hr.
  destruct (pow_pub w m b x) as [r'|] eqn:E.
  - apply pow_pub_inv in E; auto. f_equal. now apply unit_power_unique with m b (sval w x).
  - exfalso. apply pow_pub_panic in E; auto. destruct E as [Hg Hv]. destruct Hr as (_ & _ & Hr). specialize (Hr Hv).
    apply Hg. apply gcd_pow_1_inv with (- sval w x); [lia|].
    apply gcd_mul_1_inv with r. rewrite Z.mul_comm. rewrite (eqm_gcd m _ 1); [apply Z.gcd_1_l|lia|exact Hr].
Qed.
Lemma unit_power_nonneg m b v r : 0 < m -> 0 <= v -> (unit_power m b v r <-> r = (b ^ v) mod m).
Proof.
  intros Hm Hv. unfold unit_power. split; [tauto|]. intros ->. split; [apply Z.mod_pos_bound; lia|]. split; [auto|lia].
Qed.
Lemma unit_power_mod_base m b v r : 0 < m -> (unit_power m (b mod m) v r <-> unit_power m b v r).
Proof.
  intros Hm. unfold unit_power.
  assert (E : forall k, ((b mod m) ^ k) mod m = (b ^ k) mod m) by (intros; apply eqm_pow, eqm_mod).
  assert (E2 : forall k, (r * (b mod m) ^ k) mod m = (r * b ^ k) mod m).
  { intros k. rewrite <- Z.mul_mod_idemp_r, E, Z.mul_mod_idemp_r by lia. reflexivity. }
  rewrite E, E2. reflexivity.
Qed.

(** ** Parameters *)

Record sp_ok (S : sparams) : Prop := SpOk {
  so_par : params_ok (sp_pail S);
  so_conv : conv_params_ok (sp_q S) (sp_num_bits S) (sp_slen S) (sp_L S) (sp_LW S);
  so_w : uint_w (sp_pail S) = BITS (sp_L S);
  so_ww : wide_w (sp_pail S) = BITS (sp_LW S);
  so_ww2 : wide_w (sp_pail S) = uint_w (sp_pail S) + uint_w (sp_pail S);
  so_xw : wide_w (sp_pail S) <= sp_xw S;
  so_kappa : sp_num_bits S = sp_kappa S /\ 2 <= sp_kappa S;
  so_l : sp_kappa S <= sp_l S /\ 21 <= sp_l S;
  so_eps : sp_l S + sp_kappa S <= sp_eps S;
  so_lp : 3 * sp_l S + sp_eps S <= sp_lp S;
  so_mod : sp_lp S + sp_eps S + 21 <= modulus_bits (sp_pail S);
  so_prime : 2 * sp_l S + sp_eps S = prime_bits (sp_pail S);
  so_mod2 : modulus_bits (sp_pail S) = 2 * prime_bits (sp_pail S);
  so_uw : modulus_bits (sp_pail S) <= uint_w (sp_pail S);
  so_wide : 2 * modulus_bits (sp_pail S) <= wide_w (sp_pail S);
  so_xwide : 2 * modulus_bits (sp_pail S) + sp_l S + sp_eps S < sp_xw S }.

Lemma BITS_64 L : BITS L = 64 * Z.of_nat L.
Proof. unfold BITS. lia. Qed.

Lemma sp_okP S : sp_compiles S = true -> sp_self_consistent S = true -> sp_ok S.
Proof.
  unfold sp_compiles, sp_self_consistent. intros Hc Hs.
  repeat rewrite andb_true_iff in Hc. repeat rewrite andb_true_iff in Hs.
  repeat rewrite Z.eqb_eq in *. repeat rewrite Z.leb_le in *. repeat rewrite Z.ltb_lt in *.
  rewrite Nat.leb_le in Hc.
  destruct Hc as [[[[[[[[[[Hp Hw] Hww] Hh] Hw2] Hx] Hq] Ho] Hb] Hs1] Hs2].
  destruct Hs as [[[[[[H1 H2] H3] H4] H5] H6] H7].
  pose proof (params_okP _ Hp) as Hpo. destruct Hpo as (P1 & P2 & P3 & P4 & P5 & P6).
  assert (Hk : 2 <= sp_num_bits S).
  { rewrite <- Hb. unfold bits. destruct (Z.leb_spec (sp_q S) 0); [lia|].
    pose proof (Z.log2_le_mono 2 (sp_q S) ltac:(lia)). change (Z.log2 2) with 1 in *. lia. }
  assert (Hconv : conv_params_ok (sp_q S) (sp_num_bits S) (sp_slen S) (sp_L S) (sp_LW S)).
  { unfold conv_params_ok. rewrite BITS_64 in *. repeat split; auto; try lia. }
  split; auto; try lia. now apply params_okP.
Qed.

(** ** Lists of computations *)

Lemma omap_ok {A B} (f : A -> outcome B) (R : A -> B -> Prop) l :
  Forall (fun x => exists y, f x = Ret y /\ R x y) l -> exists ys, omap f l = Ret ys /\ Forall2 R l ys.
Proof.
  induction 1 as [|x l (y & Hy & HR) _ (ys & Hys & HF)]; cbn.
  - exists []. split; auto.
  - exists (y :: ys). rewrite Hy. cbn. rewrite Hys. cbn. split; auto.
Qed.
Lemma oforall_true {A} (f : A -> outcome bool) l : oforall f l = Ret true <-> Forall (fun x => f x = Ret true) l.
Proof.
  induction l as [|x l IH]; cbn; [split; auto|].
  destruct (f x) as [[|]|] eqn:E; cbn; rewrite ?IH.
  - split; [intros; constructor; auto|now inversion 1].
  - split; [discriminate|inversion 1; congruence].
  - split; [discriminate|inversion 1; congruence].
Qed.
Lemma oforall_ok {A} (f : A -> outcome bool) (Q : A -> Prop) l :
  Forall (fun x => exists b, f x = Ret b /\ (b = true <-> Q x)) l ->
  exists b, oforall f l = Ret b /\ (b = true <-> Forall Q l).
Proof.
  induction 1 as [|x l (b & Hb & HQ) _ (bs & Hbs & HF)]; cbn.
  - exists true. split; auto. split; auto.
  - rewrite Hb. cbn. destruct b; cbn.
    + exists bs. split; auto. rewrite HF. split; intros H; [constructor; tauto|now inversion H].
    + exists false. split; auto. split; [discriminate|]. intros H. inversion H. subst. tauto.
Qed.
Lemma check_true b k : check b k = Ret true <-> b = true /\ k = Ret true.
Proof. destruct b; cbn; split; intros; try tauto; intuition congruence. Qed.
Lemma check_ok b k (Q : Prop) : (exists r, k = Ret r /\ (r = true <-> Q)) ->
  exists r, check b k = Ret r /\ (r = true <-> b = true /\ Q).
Proof.
  intros (r & -> & H). destruct b; cbn; [exists r|exists false]; split; auto; rewrite ?H; intuition congruence.
Qed.
Lemma obind_true {A} (x : outcome A) k : obind x k = Ret true <-> exists v : A, x = Ret v /\ k v = Ret true.
Proof.
  destruct x as [v|]; cbn; split.
  - intros H. now exists v.
  - now intros (v' & [= <-] & H).
  - discriminate.
  - now intros (v' & [=] & H).
Qed.
Lemma oassert_true b : oassert b = Ret tt <-> b = true.
Proof. destruct b; cbn; split; congruence. Qed.
Lemma obind_oassert {B} b (k : unit -> outcome B) r : obind (oassert b) k = Ret r <-> b = true /\ k tt = Ret r.
Proof. destruct b; cbn; split; intros; try tauto; intuition congruence. Qed.

Lemma bits_eqb_eq a b : bits_eqb a b = true <-> a = b.
Proof.
  revert b. induction a as [|x a IH]; destruct b as [|y b]; cbn; try (split; congruence).
  rewrite andb_true_iff, IH, Bool.eqb_true_iff. split; [intros [-> ->]; auto|intros [= -> ->]; auto].
Qed.
Lemma bits_eqb_refl a : bits_eqb a a = true.
Proof. now apply bits_eqb_eq. Qed.
Lemma zs_eqb_eq a b : zs_eqb a b = true <-> a = b.
Proof.
  revert b. induction a as [|x a IH]; destruct b as [|y b]; cbn; try (split; congruence).
  rewrite andb_true_iff, IH, Z.eqb_eq. split; [intros [-> ->]; auto|intros [= -> ->]; auto].
Qed.
Lemma s_eqb_eq x y : s_eqb x y = true <-> x = y.
Proof.
  destruct x, y. unfold s_eqb. cbn. rewrite andb_true_iff, !Z.eqb_eq.
  split; [intros [-> ->]; auto|intros [= -> ->]; auto].
Qed.
Lemma ct_eqb_eq x y : ct_eqb x y = true <-> x = y.
Proof.
  destruct x, y. unfold ct_eqb. cbn. rewrite andb_true_iff, !Z.eqb_eq.
  split; [intros [-> ->]; auto|intros [= -> ->]; auto].
Qed.

(** ** The curve *)
Section CurveFacts.
Variables (q : Z) (C : curve).
Hypothesis HC : curve_ok q C.

Lemma p_cancel x y z : padd C x y = padd C x z -> y = z.
Proof.
  intros H. rewrite <- (c_add0 _ _ HC y), <- (c_add0 _ _ HC z), <- (c_addN _ _ HC x).
  rewrite !(c_addA _ _ HC), !(c_addC _ _ HC _ x). now rewrite H.
Qed.
Lemma pmul_p0 a : pmul C a (p0 C) = p0 C.
Proof.
  apply p_cancel with (pmul C a (p0 C)). rewrite <- (c_mulDr _ _ HC), !(c_add0 _ _ HC). reflexivity.
Qed.
Lemma pmul_0 x : pmul C 0 x = p0 C.
Proof.
  apply p_cancel with (pmul C 0 x). rewrite <- (c_mulDl _ _ HC), (c_add0 _ _ HC). reflexivity.
Qed.
Lemma pmul_mod a x : q <> 0 -> pmul C (a mod q) x = pmul C a x.
Proof.
  intros Hq. rewrite (Z_div_mod_eq_full a q) at 2.
  rewrite (c_mulDl _ _ HC), (Z.mul_comm q), <- (c_mulA _ _ HC), (c_order _ _ HC), pmul_p0.
  rewrite (c_addC _ _ HC). now rewrite (c_add0 _ _ HC).
Qed.
Lemma pmul_eqm a b x : q <> 0 -> eqm q a b -> pmul C a x = pmul C b x.
Proof. intros Hq H. rewrite <- (pmul_mod a), <- (pmul_mod b) by auto. now rewrite H. Qed.
Lemma popp_mul x : popp C x = pmul C (-1) x.
Proof.
  apply p_cancel with x. rewrite (c_addN _ _ HC).
  rewrite <- (c_mul1 _ _ HC x) at 1. rewrite <- (c_mulDl _ _ HC). symmetry. apply pmul_0.
Qed.
Lemma padd_swap a b c d : padd C (padd C a b) (padd C c d) = padd C (padd C a c) (padd C b d).
Proof.
  rewrite <- !(c_addA _ _ HC). f_equal. rewrite !(c_addA _ _ HC). f_equal. apply (c_addC _ _ HC).
Qed.
Lemma peqb_refl x : peqb C x x = true.
Proof. now apply (c_eqb _ _ HC). Qed.
End CurveFacts.

(** ** Keys and setups as the proofs use them *)


Lemma has_wf w x v b : has w x v b -> wf w x.
Proof. now intros (? & ? & ?). Qed.
Lemma has_sval w x v b : has w x v b -> sval w x = v.
Proof. now intros (? & ? & ?). Qed.

Lemma bits_modulus m N : 0 <= m -> 0 < N < 2 ^ m -> 0 < bits N <= m.
Proof.
  intros Hm HN. split.
  - unfold bits. destruct (Z.leb_spec N 0); [lia|]. pose proof (Z.log2_nonneg N). lia.
  - apply bits_le; lia.
Qed.

Section Ops.
Variable S : sparams.
Hypothesis HS : sp_ok S.
Notation P := (sp_pail S).
Notation w := (uint_w (sp_pail S)).
Notation ww := (wide_w (sp_pail S)).

Lemma mod_pos : 1 <= modulus_bits P.
Proof. destruct HS. lia. Qed.

Lemma signed_of_scalar_has e : 0 <= e < sp_q S ->
  exists x, signed_of_scalar S e = Ret x /\ has w x e (sp_kappa S).
Proof.
  intros He. destruct (public_signed_from_scalar_spec _ _ _ _ _ (so_conv _ HS) e He) as (x & ? & ? & ? & Hb).
  exists x. unfold signed_of_scalar. split; auto. unfold has. rewrite (so_w _ HS).
  destruct (so_kappa _ HS) as [<- _]. auto.
Qed.
Lemma scalar_of_signed_has x v b : has w x v b -> scalar_of_signed S x = Ret (v mod sp_q S).
Proof.
  intros (Hx & <- & _). rewrite (so_w _ HS) in *.
  now apply (scalar_from_signed_spec _ _ _ _ _ (so_conv _ HS)).
Qed.
Lemma scalar_of_secret_has x v b : has w x v b -> scalar_of_secret S x = Ret (v mod sp_q S).
Proof.
  intros (Hx & <- & _). rewrite (so_w _ HS) in *.
  now apply (scalar_from_signed_spec _ _ _ _ _ (so_conv _ HS)).
Qed.
Lemma scalar_of_wide_signed_has x v b : has ww x v b -> scalar_of_wide_signed S x = Ret (v mod sp_q S).
Proof.
  intros (Hx & <- & _). rewrite (so_ww _ HS) in *.
  now apply (scalar_from_wide_signed_spec _ _ _ _ _ (so_conv _ HS)).
Qed.
Lemma scalar_of_wide_secret_has x v b : has ww x v b -> scalar_of_wide_secret S x = Ret (v mod sp_q S).
Proof.
  intros (Hx & <- & _). rewrite (so_ww _ HS) in *.
  now apply (scalar_from_wide_signed_spec _ _ _ _ _ (so_conv _ HS)).
Qed.

Lemma enc_has N x v b rho : modulus_ok S N -> 0 <= rho -> has w x v b ->
  enc P N x rho = Ret (Ct N (encv N v rho)).
Proof. intros HN Hr (Hx & <- & _). apply enc_ok; auto. apply HS. apply mod_pos. Qed.
Lemma enc_wide_has N x v b rho : modulus_ok S N -> 0 <= rho -> has ww x v b ->
  enc_wide P N x rho = Ret (Ct N (encv N v rho)).
Proof. intros HN Hr (Hx & <- & _). apply enc_wide_ok; auto. apply HS. apply mod_pos. Qed.
Lemma enc_public_has N x v b rho : modulus_ok S N -> 0 <= rho -> has w x v b ->
  enc_public P N x rho = Ret (Ct N (encv N v rho)).
Proof. intros HN Hr (Hx & <- & _). apply enc_public_ok; auto. apply HS. apply mod_pos. Qed.
Lemma enc_public_wide_has N x v b rho : modulus_ok S N -> 0 <= rho -> has ww x v b ->
  enc_public_wide P N x rho = Ret (Ct N (encv N v rho)).
Proof. intros HN Hr (Hx & <- & _). apply enc_public_wide_ok; auto. apply HS. apply mod_pos. Qed.

Lemma commit_sec_has rp w1 w2 x v b y r c : setup_ok S rp -> has w1 x v b -> has w2 y r c ->
  rp_commit_sec rp w1 w2 x y = Ret (comv (rp_n rp) (rp_s rp) (rp_t rp) v r).
Proof.
  intros (Hn & Hs & Ht & Gs & Gt) (Hx & <- & _) (Hy & <- & _). apply rp_commit_sec_ok; auto. lia.
Qed.
Lemma commit_pub_has rp w1 w2 x v b y r c : setup_ok S rp -> has w1 x v b -> has w2 y r c ->
  rp_commit_pub rp w1 w2 x y = Ret (comv (rp_n rp) (rp_s rp) (rp_t rp) v r).
Proof.
  intros (Hn & Hs & Ht & Gs & Gt) (Hx & <- & _) (Hy & <- & _). apply rp_commit_pub_ok; auto. lia.
Qed.
Lemma rpc_pow_pub_has rp w1 v r x e b : setup_ok S rp -> has w1 x e b ->
  rpc_pow_pub rp w1 (comv (rp_n rp) (rp_s rp) (rp_t rp) v r) x
  = Ret (comv (rp_n rp) (rp_s rp) (rp_t rp) (v * e) (r * e)).
Proof.
  intros (Hn & Hs & Ht & Gs & Gt) (Hx & <- & _). unfold rpc_pow_pub.
  rewrite pow_pub_zpow; auto; try lia.
  - rewrite comv_zpow; auto. lia.
  - apply comv_range; lia.
  - apply comv_gcd; auto; lia.
Qed.
Lemma rpc_pow_sec_has rp w1 v r x e b : setup_ok S rp -> has w1 x e b ->
  rpc_pow_sec rp w1 (comv (rp_n rp) (rp_s rp) (rp_t rp) v r) x
  = Ret (comv (rp_n rp) (rp_s rp) (rp_t rp) (v * e) (r * e)).
Proof.
  intros (Hn & Hs & Ht & Gs & Gt) (Hx & <- & _). unfold rpc_pow_sec.
  rewrite pow_sec_zpow; auto; try lia.
  - rewrite comv_zpow; auto. lia.
  - apply comv_range; lia.
  - apply comv_gcd; auto; lia.
Qed.
Lemma rpc_mul_comv rp v1 r1 v2 r2 : setup_ok S rp ->
  rpc_mul rp (comv (rp_n rp) (rp_s rp) (rp_t rp) v1 r1) (comv (rp_n rp) (rp_s rp) (rp_t rp) v2 r2)
  = comv (rp_n rp) (rp_s rp) (rp_t rp) (v1 + v2) (r1 + r2).
Proof. intros (Hn & Hs & Ht & Gs & Gt). apply comv_add; auto. lia. Qed.
Lemma rpc_pre_comv rp v r : setup_ok S rp ->
  rpc_to_precomputed rp (comv (rp_n rp) (rp_s rp) (rp_t rp) v r) = comv (rp_n rp) (rp_s rp) (rp_t rp) v r.
Proof. intros (Hn & _). apply Z.mod_small. apply comv_range. lia. Qed.
Lemma ct_pre_encv N m rho : modulus_ok S N -> ct_to_precomputed N (encv N m rho) = Ct N (encv N m rho).
Proof. intros (Hn & _). unfold ct_to_precomputed. rewrite Z.mod_small; auto. apply encv_range. lia. Qed.
Lemma hmul_pub_has N m rho w1 x v b : modulus_ok S N -> Z.gcd rho N = 1 -> has w1 x v b ->
  homomorphic_mul_pub w1 (Ct N (encv N m rho)) x = Ret (Ct N (encv N (m * v) (zpow N rho v))).
Proof. intros HN Hg (Hx & <- & _). apply homomorphic_mul_pub_ok; auto. apply HN. Qed.
Lemma hmul_sec_has N m rho w1 x v b : modulus_ok S N -> Z.gcd rho N = 1 -> has w1 x v b ->
  homomorphic_mul_sec w1 (Ct N (encv N m rho)) x = Ret (Ct N (encv N (m * v) (zpow N rho v))).
Proof. intros HN Hg (Hx & <- & _). apply homomorphic_mul_sec_ok; auto. apply HN. Qed.
Lemma masked_has N rho coeff x e b : modulus_ok S N -> Z.gcd rho N = 1 -> has w x e b ->
  to_masked P N rho coeff x = Ret ((zpow N rho e * coeff) mod N).
Proof. intros HN Hg (Hx & <- & _). apply to_masked_ok; auto. apply HN. Qed.

Lemma sample_has e draw : 0 < e < w -> 0 <= draw < 2 ^ e ->
  exists x, sample S e draw = Ret x /\ has w x (draw - (2 ^ (e - 1) - 1)) e.
Proof. apply has_range. Qed.
Lemma sample_scaled_has e scale draw : 0 < e < w -> 0 < scale -> e + bits scale < ww ->
  0 <= draw < scale * 2 ^ e ->
  exists x, sample_scaled S e scale draw = Ret x /\
    has ww x (draw - (scale * 2 ^ (e - 1) - 1)) (e + bits scale).
Proof. intros. apply has_scaled; auto. destruct HS as [Hp _ _ _ _ _ _ _ _ _ _ _ _ _ _ _]. apply Hp. Qed.

Lemma encv_same N m1 r1 m2 r2 : 0 < N -> m1 = m2 -> eqm N r1 r2 -> encv N m1 r1 = encv N m2 r2.
Proof. intros HN -> H. now apply encv_rand_mod. Qed.

End Ops.

Lemma and_iff_cond (P Q R : Prop) : (P -> (Q <-> R)) -> (P /\ Q <-> P /\ R).
Proof. tauto. Qed.
Lemma and_iff_cond2 (P P' Q R : Prop) : (P <-> P') -> (P -> P' -> (Q <-> R)) -> (P /\ Q <-> P' /\ R).
Proof. tauto. Qed.
Lemma and_iff_compat2 (P P' Q R : Prop) : (P <-> P') -> (Q <-> R) -> (P /\ Q <-> P' /\ R).
Proof. tauto. Qed.
Lemma eqm_mul_l n a b c : eqm n b c -> eqm n (a * b) (a * c).
Proof. intros H. now rewrite H. Qed.
Lemma hmul_pub_nonneg x e w N c : 1 < N -> wf w x -> sval w x = e -> 0 <= c -> 0 <= e ->
  homomorphic_mul_pub w (Ct N c) x = Ret (Ct N ((c ^ e) mod (N * N))).
Proof.
  intros HN Hx <- Hc He. unfold homomorphic_mul_pub. cbn. rewrite pow_pub_nonneg; auto. nia.
Qed.

(** Run one step: [lem] says the computation at the head returns some [z]. *)
Ltac run_ex lem z H :=
  let E := fresh "E" in
  destruct lem as (z & E & H); [try lia ..|rewrite E; clear E; cbn [obind]].

(** ** Affine combinations of a ciphertext *)

(** [c^x * enc(m, rho)] modulo [N^2]. *)
Definition affv (N c x m rho : Z) : Z := (zpow (N * N) c x * encv N m rho) mod (N * N).

Section Affv.
Variables (N c : Z).
Hypothesis HN : 1 < N.
Hypothesis Hc : Z.gcd c N = 1.
Let n2 : 0 < N * N.
Proof. nia. Qed.
Let Hc2 : Z.gcd c (N * N) = 1.
Proof. apply gcd_sq; auto. lia. Qed.

Lemma affv_range x m rho : 0 <= affv N c x m rho < N * N.
Proof. apply Z.mod_pos_bound. nia. Qed.
Lemma affv_eqm x m rho : eqm (N * N) (affv N c x m rho) (zpow (N * N) c x * encv N m rho).
Proof. apply eqm_mod. Qed.
Lemma affv_gcd2 x m rho : Z.gcd rho N = 1 -> Z.gcd (affv N c x m rho) (N * N) = 1.
Proof.
  intros Hr. unfold affv. rewrite gcd_mod_l by lia. apply gcd_mul_1; [now apply zpow_gcd|].
  now apply encv_gcd2.
Qed.
Lemma affv_gcd x m rho : Z.gcd rho N = 1 -> Z.gcd (affv N c x m rho) N = 1.
Proof. intros Hr. apply gcd_sq; [lia|]. now apply affv_gcd2. Qed.
Lemma affv_same x m r r' : eqm N r r' -> affv N c x m r = affv N c x m r'.
Proof. intros H. unfold affv. rewrite (encv_rand_mod N m r r'); auto. lia. Qed.
Lemma affv_mul x m r x' m' r' :
  (affv N c x m r * affv N c x' m' r') mod (N * N) = affv N c (x + x') (m + m') ((r * r') mod N).
Proof.
  change (eqm (N * N) (affv N c x m r * affv N c x' m' r') (zpow (N * N) c (x + x') * encv N (m + m') ((r * r') mod N))).
  rewrite <- (encv_mul N m r m' r') by auto. rewrite eqm_mod.
  rewrite zpow_add by auto. rewrite !affv_eqm. apply eqm_eq. ring.
Qed.
Lemma affv_mul_enc x m r m' r' :
  (affv N c x m r * encv N m' r') mod (N * N) = affv N c x (m + m') ((r * r') mod N).
Proof.
  change (eqm (N * N) (affv N c x m r * encv N m' r') (zpow (N * N) c x * encv N (m + m') ((r * r') mod N))).
  rewrite <- (encv_mul N m r m' r') by auto. rewrite eqm_mod.
  rewrite affv_eqm. apply eqm_eq. ring.
Qed.
Lemma affv_zpow x m r e : Z.gcd r N = 1 ->
  zpow (N * N) (affv N c x m r) e = affv N c (x * e) (m * e) (zpow N r e).
Proof.
  intros Hr. apply eqm_small with (N * N); [now apply zpow_range|apply affv_range|].
  rewrite (zpow_eqm (N * N) _ (zpow (N * N) c x * encv N m r)); [|auto|now apply affv_gcd2|apply affv_eqm].
  rewrite (affv_eqm (x * e)). rewrite (zpow_mul _ c) by auto. rewrite <- encv_zpow by auto.
  apply zpow_mul_base; auto; [now apply zpow_gcd|now apply encv_gcd2].
Qed.
Lemma affv_c_zpow x v m r : affv N c (x + v) m r = (zpow (N * N) c v * affv N c x m r) mod (N * N).
Proof.
  change (eqm (N * N) (zpow (N * N) c (x + v) * encv N m r) (zpow (N * N) c v * affv N c x m r)).
  rewrite affv_eqm, zpow_add by auto. apply eqm_eq. ring.
Qed.

Lemma hmul_sec_unit w x v b : 0 <= c -> has w x v b ->
  homomorphic_mul_sec w (Ct N c) x = Ret (Ct N (zpow (N * N) c v)).
Proof.
  intros H0 (Hx & <- & _). unfold homomorphic_mul_sec. cbn. rewrite pow_sec_zpow; auto. nia.
Qed.
Lemma hmul_pub_unit w x v b : 0 <= c -> has w x v b ->
  homomorphic_mul_pub w (Ct N c) x = Ret (Ct N (zpow (N * N) c v)).
Proof.
  intros H0 (Hx & <- & _). unfold homomorphic_mul_pub. cbn. rewrite pow_pub_zpow; auto. nia.
Qed.
End Affv.

Lemma hadd_eq N a b : homomorphic_add (Ct N a) (Ct N b) = Ret (Ct N ((a * b) mod (N * N))).
Proof. unfold homomorphic_add. cbn. now rewrite Z.eqb_refl. Qed.
Lemma hsub_unit N a b : 1 < N -> Z.gcd b N = 1 ->
  homomorphic_sub (Ct N a) (Ct N b) = Ret (Ct N ((a * zinv (N * N) b) mod (N * N))).
Proof.
  intros HN Hb. unfold homomorphic_sub, homomorphic_neg. cbn. rewrite inv_mod_zinv; [|nia|apply gcd_sq; auto; lia].
  cbn. apply hadd_eq.
Qed.

(** Steps of a verifier that raise an arbitrary received ciphertext to a signed
    power: they return exactly when the power exists. *)
Lemma hmul_pub_bind {B} w N c x v b (k : ciphertext -> outcome B) r : 1 < N -> 0 <= c -> has w x v b ->
  (obind (homomorphic_mul_pub w (Ct N c) x) k = Ret r <->
   exists cz, unit_power (N * N) c v cz /\ k (Ct N cz) = Ret r).
Proof.
  intros HN Hc (Hx & <- & _). unfold homomorphic_mul_pub. cbn [ct_pk ct_val].
  assert (H2 : 1 < N * N) by nia. split.
  - destruct (pow_pub w (N * N) c x) as [y|] eqn:E; cbn; [|discriminate].
    intros H. exists y. split; [|exact H]. now apply (pow_pub_iff w).
  - intros (cz & Hu & H). apply (pow_pub_iff w) in Hu; auto. rewrite Hu. exact H.
Qed.
Lemma ex_and_iff {T} (U E E' : T -> Prop) (R R' : Prop) : (forall t, E t <-> E' t) -> (R <-> R') ->
  ((exists t, U t /\ (E t /\ R)) <-> (exists t, U t /\ E' t) /\ R').
Proof.
  intros HE HR. split.
  - intros (t & Hu & He & Hr). split; [exists t; split; auto; now apply HE|now apply HR].
  - intros ((t & Hu & He) & Hr). exists t. repeat split; auto; [now apply HE|now apply HR].
Qed.

(** The check [T * C^e = com(v, r)] on received commitments, for a non-negative [e]. *)
Lemma rp_check S rp w w1 w2 xe e be x v bx y r b_y T Cm : 
  setup_ok S rp -> has w xe e be -> 0 <= e -> has w1 x v bx -> has w2 y r b_y ->
  ((l <~ rp_commit_pub rp w1 w2 x y ;;
    z <~ rpc_pow_pub rp w (rpc_to_precomputed rp Cm) xe ;;
    check (l =? rpc_mul rp (rpc_to_precomputed rp T) z) (Ret true)) = Ret true <->
   rp_opens (rp_n rp) (rp_s rp) (rp_t rp) v r ((T * Cm ^ e) mod rp_n rp)).
Proof.
  intros Hset Ke He Kx Ky. assert (Hset' := Hset). destruct Hset' as (Hn & Hs & Ht & Gs & Gt).
  rewrite (commit_pub_has S _ _ _ _ _ _ _ _ _ Hset Kx Ky). cbn [obind].
  unfold rpc_pow_pub, rpc_to_precomputed.
  rewrite pow_pub_nonneg; [|lia|apply Ke|apply Z.mod_pos_bound; lia|rewrite (has_sval _ _ _ _ Ke); lia].
  rewrite (has_sval _ _ _ _ Ke). cbn [obind]. rewrite check_true, Z.eqb_eq.
  rewrite rp_opens_comv by (auto; lia). unfold rpc_mul.
  rewrite <- Z.mul_mod by lia.
  assert (Em : (T * (Cm mod rp_n rp) ^ e) mod rp_n rp = (T * Cm ^ e) mod rp_n rp).
  { apply (eqm_mul_l (rp_n rp)). apply eqm_pow, eqm_mod. }
  rewrite Em. split; [intros [-> _]; auto|intros ->; auto].
Qed.
Lemma rp_check_then S rp w w1 w2 xe e be x v bx y r b_y T Cm :
  setup_ok S rp -> has w xe e be -> 0 <= e -> has w1 x v bx -> has w2 y r b_y ->
  exists b, (forall (k : outcome bool), (l <~ rp_commit_pub rp w1 w2 x y ;;
    z <~ rpc_pow_pub rp w (rpc_to_precomputed rp Cm) xe ;;
    check (l =? rpc_mul rp (rpc_to_precomputed rp T) z) k) = check b k) /\
   (b = true <-> rp_opens (rp_n rp) (rp_s rp) (rp_t rp) v r ((T * Cm ^ e) mod rp_n rp)).
Proof.
  intros Hset Ke He Kx Ky. pose proof (rp_check S rp w w1 w2 xe e be x v bx y r b_y T Cm Hset Ke He Kx Ky) as Hc.
  assert (Hset' := Hset). destruct Hset' as (Hn & Hs & Ht & Gs & Gt).
  rewrite (commit_pub_has S _ _ _ _ _ _ _ _ _ Hset Kx Ky) in *. cbn [obind] in *.
  unfold rpc_pow_pub, rpc_to_precomputed in *.
  assert (Ep : exists z, pow_pub w (rp_n rp) (Cm mod rp_n rp) xe = Ret z).
  { rewrite pow_pub_nonneg; [eauto|lia|apply Ke|apply Z.mod_pos_bound; lia|rewrite (has_sval _ _ _ _ Ke); lia]. }
  destruct Ep as (z & Ep). rewrite Ep in *.
  cbn [obind] in *. eexists. split; [reflexivity|].
  rewrite <- Hc. rewrite check_true. tauto.
Qed.


Lemma parallel_run {R E C L} (commit : R -> outcome (E * C)) (respond : E * bool -> outcome L)
    (ver : bool * C * L -> outcome bool) (Q : R * bool -> Prop) rnds :
  Forall (fun r => exists ec, commit r = Ret ec /\
    forall b, exists l, respond (fst ec, b) = Ret l /\
      exists res, ver (b, snd ec, l) = Ret res /\ (res = true <-> Q (r, b))) rnds ->
  exists ecs, omap commit rnds = Ret ecs /\ length ecs = length rnds /\
    forall e, length e = length rnds ->
      exists ls, omap respond (combine (map fst ecs) e) = Ret ls /\ length ls = length rnds /\
        exists res, oforall ver (combine (combine e (map snd ecs)) ls) = Ret res /\
          (res = true <-> Forall Q (combine rnds e)).
Proof.
  induction 1 as [|r rnds (ec & Hc & Hr) _ (ecs & Hcs & Hlen & IH)].
  - exists []. split; [reflexivity|]. split; [reflexivity|]. intros [|] He; [|discriminate].
    exists []. split; [reflexivity|]. split; [reflexivity|]. exists true. split; [reflexivity|]. split; auto.
    intros _. constructor.
  - exists (ec :: ecs). cbn [omap]. rewrite Hc. cbn [obind]. rewrite Hcs. cbn [obind].
    split; [reflexivity|]. split; [cbn; now rewrite Hlen|]. intros [|b e] He; [discriminate|].
    destruct (IH e ltac:(cbn in He; congruence)) as (ls & Hls & Hll & res & Hres & HQ).
    destruct (Hr b) as (l & Hl & rb & Hrb & HQb).
    exists (l :: ls). cbn [map combine omap]. rewrite Hl. cbn [obind]. rewrite Hls. cbn [obind].
    split; [reflexivity|]. split; [cbn; now rewrite Hll|].
    cbn [oforall]. rewrite Hrb. cbn [obind]. destruct rb; cbn [check].
    + exists res. split; [exact Hres|]. rewrite HQ. split; intros H; [constructor; tauto|now inversion H].
    + exists false. split; [reflexivity|]. split; [discriminate|]. intros H. inversion H. subst. tauto.
Qed.

Lemma pt_bit q C (HC : curve_ok q C) (e : bool) x y :
  (if e then padd C x y else x) = padd C x (pmul C (b2z e) y).
Proof.
  destruct e; cbn [b2z].
  - now rewrite (c_mul1 _ _ HC).
  - rewrite (pmul_0 q C HC), (c_add0 _ _ HC). reflexivity.
Qed.
Lemma ct_bit N a d (e : bool) : 1 < N ->
  (if e then homomorphic_add (ct_to_precomputed N a) (Ct N d) else Ret (ct_to_precomputed N a))
  = Ret (Ct N ((a * d ^ b2z e) mod (N * N))).
Proof.
  intros HN. unfold ct_to_precomputed. destruct e; cbn [b2z].
  - rewrite hadd_eq, Z.pow_1_r, Z.mul_mod_idemp_l by nia. reflexivity.
  - rewrite Z.pow_0_r, Z.mul_1_r. reflexivity.
Qed.
Lemma ct_bit_sub {B} N a d (e : bool) (k : ciphertext -> outcome B) r : 1 < N -> 0 <= d ->
  (obind (if e then homomorphic_sub (ct_to_precomputed N a) (Ct N d) else Ret (ct_to_precomputed N a)) k = Ret r <->
   exists di, unit_power (N * N) d (- b2z e) di /\ k (Ct N ((a * di) mod (N * N))) = Ret r).
Proof.
  intros HN Hd. assert (H2 : 1 < N * N) by nia. unfold ct_to_precomputed. destruct e; cbn [b2z].
  - unfold homomorphic_sub, homomorphic_neg. cbn [ct_pk ct_val].
    assert (HU : forall di, unit_power (N * N) d (- (1)) di <-> 0 <= di < N * N /\ eqm (N * N) (d * di) 1).
    { intros di. unfold unit_power. change (- - (1)) with 1. rewrite Z.pow_1_r.
      rewrite (Z.mul_comm d di). unfold eqm. rewrite (Z.mod_1_l (N * N)) by lia. split; [intros (R & _ & H)|intros (R & H)]; repeat split; auto; try lia. }
    destruct (inv_mod (N * N) d) as [i|] eqn:E; cbn [oexpect obind].
    + apply inv_mod_Some in E; [|lia]. destruct E as [E1 E2]. rewrite hadd_eq. cbn [obind].
      rewrite Z.mul_mod_idemp_l by nia. split.
      * intros H. exists i. split; auto. apply HU. split; auto.
      * intros (di & Hu & H). apply HU in Hu. destruct Hu as [U1 U2].
        assert (di = i); [|now subst di].
        apply eqm_small with (N * N); auto. apply gauss_eqm with d; [lia| |].
        -- apply gcd_mul_1_inv with i. rewrite (eqm_gcd (N * N) _ 1); [apply Z.gcd_1_l|lia|exact E2].
        -- rewrite U2. symmetry. exact E2.
    + split; [discriminate|]. intros (di & Hu & _). exfalso. apply HU in Hu.
      apply inv_mod_None in E; [|lia]. apply E. apply gcd_mul_1_inv with di.
      rewrite (eqm_gcd (N * N) _ 1); [apply Z.gcd_1_l|lia|apply Hu].
  - cbn [obind]. split.
    + intros H. exists 1. split; [|now rewrite Z.mul_1_r]. unfold unit_power. cbn.
      rewrite Z.mod_1_l by lia. repeat split; auto; lia.
    + intros (di & (_ & Hu & _) & H). rewrite (Hu (Z.le_refl 0)) in H. cbn in H.
      rewrite Z.mod_1_l in H by lia. now rewrite Z.mul_1_r in H.
Qed.

Lemma Forall_combine3 {B C L} (Q : B * C * L -> Prop) e cs ls : length e = length cs -> length e = length ls ->
  (Forall Q (combine (combine e cs) ls) <->
   forall i b c l, nth_error e i = Some b -> nth_error cs i = Some c -> nth_error ls i = Some l -> Q (b, c, l)).
Proof.
  revert cs ls. induction e as [|b e IH]; intros [|c cs] [|l ls] H1 H2; try discriminate; cbn [combine].
  - split; [|constructor]. intros _ [|i] ? ? ?; discriminate.
  - specialize (IH cs ls ltac:(cbn in H1; congruence) ltac:(cbn in H2; congruence)). split.
    + intros H. inversion H as [|? ? Hh Ht]; subst. intros [|i] b' c' l'; cbn; [congruence|].
      apply IH. exact Ht.
    + intros H. constructor; [apply (H 0%nat); reflexivity|]. apply IH. intros i. apply (H (Datatypes.S i)).
Qed.
Lemma Forall_combine3_wf {B C L} (W : L -> Prop) (F : B * C * L -> outcome bool) (G : B * C * L -> Prop) e cs ls :
  Forall W ls -> (forall t, W (snd t) -> (F t = Ret true <-> G t)) ->
  (Forall (fun t => F t = Ret true) (combine (combine e cs) ls) <-> Forall G (combine (combine e cs) ls)).
Proof.
  intros HW HF.
  assert (H : Forall (fun t => W (snd t)) (combine (combine e cs) ls)).
  { apply Forall_forall. intros [bc l] Hin. apply in_combine_r in Hin. rewrite Forall_forall in HW. now apply HW. }
  induction H as [|t ts Ht _ IH]; [split; constructor|].
  split; intros K; inversion K; subst; constructor; try (now apply HF); now apply IH.
Qed.
