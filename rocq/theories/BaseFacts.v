(** * Facts about [Base]. *)
From Coq Require Import ZArith List Bool Lia Znumtheory Zpow_facts.
From Verif Require Import Base.
Open Scope Z_scope.

Lemma pow2_pos e : 0 <= e -> 0 < 2 ^ e.
Proof. intros; apply Z.pow_pos_nonneg; lia. Qed.

Lemma pow2_le a b : a <= b -> 2 ^ a <= 2 ^ b.
Proof. intros; apply Z.pow_le_mono_r; lia. Qed.

Lemma pow2_lt a b : 0 <= b -> a < b -> 2 ^ a < 2 ^ b.
Proof. intros; apply Z.pow_lt_mono_r; lia. Qed.

Lemma pow2_S a : 0 <= a -> 2 ^ (a + 1) = 2 * 2 ^ a.
Proof. intros; rewrite Z.pow_add_r by lia; change (2 ^ 1) with 2; ring. Qed.

Lemma pow2_pred a : 0 < a -> 2 ^ a = 2 * 2 ^ (a - 1).
Proof. intros; rewrite <- (pow2_S (a - 1)) by lia; f_equal; lia. Qed.

Lemma bits_nonneg x : 0 <= bits x.
Proof.
  unfold bits; destruct (Z.leb_spec x 0); [lia|].
  pose proof (Z.log2_nonneg x); lia.
Qed.

Lemma bits_le x b : 0 <= x -> 0 <= b -> (bits x <= b <-> x < 2 ^ b).
Proof.
  intros Hx Hb; unfold bits; destruct (Z.leb_spec x 0).
  - pose proof (pow2_pos b Hb); lia.
  - rewrite (Z.log2_lt_pow2 x b) by lia; lia.
Qed.

Lemma bits_spec x : 0 < x -> 2 ^ (bits x - 1) <= x < 2 ^ bits x.
Proof.
  intros; unfold bits; destruct (Z.leb_spec x 0); [lia|].
  pose proof (Z.log2_spec x ltac:(lia)).
  replace (Z.log2 x + 1 - 1) with (Z.log2 x) by lia.
  replace (Z.log2 x + 1) with (Z.succ (Z.log2 x)) by lia; lia.
Qed.

Lemma bits_lt_pow x : 0 <= x -> x < 2 ^ bits x.
Proof. intros; apply bits_le; auto using bits_nonneg; lia. Qed.

Lemma mod_unique a m r k : a = m * k + r -> 0 <= r < m -> a mod m = r.
Proof. intros; symmetry; apply (Z.mod_unique a m k r); lia. Qed.

Lemma msb_spec w v : 1 <= w -> 0 <= v < 2 ^ w -> msb w v = (2 ^ (w - 1) <=? v).
Proof.
  intros Hw Hv; unfold msb.
  rewrite (pow2_pred w) in Hv by lia.
  pose proof (pow2_pos (w - 1) ltac:(lia)).
  symmetry; apply Bool.eq_iff_eq_true; rewrite Z.leb_le.
  rewrite Z.testbit_true by lia.
  split; intro.
  - assert (E : v / 2 ^ (w - 1) = 1) by (symmetry; apply (Z.div_unique v (2 ^ (w - 1)) 1 (v - 2 ^ (w - 1))); lia).
    rewrite E; reflexivity.
  - destruct (Z_lt_le_dec v (2 ^ (w - 1))); [|lia].
    rewrite Z.div_small in H0 by lia. discriminate.
Qed.

(** ** The extended Euclidean algorithm *)

Lemma egcd_inv fuel : forall m a r0 r1 s0 s1 g s,
  (m | r0 - s0 * a) -> (m | r1 - s1 * a) ->
  egcd fuel r0 r1 s0 s1 = (g, s) -> (m | g - s * a).
Proof.
  induction fuel as [|f IH]; cbn; intros m a r0 r1 s0 s1 g s H0 H1 E.
  - inversion E; subst; auto.
  - destruct (Z.eqb_spec r1 0).
    + inversion E; subst; auto.
    + eapply IH; [exact H1| |exact E].
      replace (r0 mod r1 - (s0 - r0 / r1 * s1) * a)
        with ((r0 - s0 * a) - (r0 / r1) * (r1 - s1 * a))
        by (rewrite (Z.mod_eq r0 r1) by lia; ring).
      apply Z.divide_sub_r; auto.
      apply Z.divide_mul_r; auto.
Qed.

Lemma egcd_gcd fuel : forall r0 r1 s0 s1,
  0 <= r1 -> r1 <= r0 -> r0 * r1 < 2 ^ Z.of_nat fuel ->
  fst (egcd fuel r0 r1 s0 s1) = Z.gcd r0 r1.
Proof.
  induction fuel as [|f IH]; intros r0 r1 s0 s1 H1 H01 Hb.
  - cbn in Hb |- *.
    assert (r1 = 0) by nia. subst. rewrite Z.gcd_0_r. lia.
  - cbn [egcd]. destruct (Z.eqb_spec r1 0).
    + subst. cbn. rewrite Z.gcd_0_r. lia.
    + pose proof (Z.mod_pos_bound r0 r1 ltac:(lia)).
      rewrite IH; try lia.
      * rewrite Z.gcd_comm, Z.gcd_mod by lia. apply Z.gcd_comm.
      * assert (2 * (r0 mod r1) <= r0).
        { pose proof (Z.div_mod r0 r1 ltac:(lia)).
          assert (1 <= r0 / r1) by (apply Z.div_le_lower_bound; lia). nia. }
        rewrite Nat2Z.inj_succ, Z.pow_succ_r in Hb by lia. nia.
Qed.

Lemma inv_mod_Some m a x : 0 < m -> inv_mod m a = Some x ->
  0 <= x < m /\ (a * x) mod m = 1 mod m.
Proof.
  intros Hm; unfold inv_mod.
  destruct (egcd _ m (a mod m) 0 1) as [g s] eqn:E.
  destruct (Z.eqb_spec g 1); [|discriminate].
  intros H; inversion H; subst; clear H.
  pose proof (Z.mod_pos_bound s m Hm). split; [lia|].
  rewrite Z.mul_mod_idemp_r by lia.
  apply (egcd_inv _ m (a mod m)) in E.
  - destruct E as [k Hk].
    assert (1 mod m = (s * (a mod m)) mod m).
    { replace 1 with (s * (a mod m) + k * m) at 1 by lia. apply Z.mod_add; lia. }
    rewrite H0, Z.mul_mod_idemp_r by lia. f_equal; ring.
  - exists 1; lia.
  - exists 0; lia.
Qed.

Lemma inv_mod_gcd m a : 0 < m ->
  (exists x, inv_mod m a = Some x) <-> Z.gcd a m = 1.
Proof.
  intros Hm.
  assert (Hg : fst (egcd (Z.to_nat (2 * bits m + 2)) m (a mod m) 0 1) = Z.gcd a m).
  { pose proof (Z.mod_pos_bound a m Hm).
    rewrite egcd_gcd; try lia.
    - rewrite Z.gcd_comm, Z.gcd_mod by lia. apply Z.gcd_comm.
    - pose proof (bits_nonneg m). pose proof (bits_spec m Hm).
      rewrite Z2Nat.id by lia.
      replace (2 * bits m + 2) with (bits m + bits m + 1 + 1) by ring.
      rewrite !pow2_S, Z.pow_add_r by lia. nia. }
  unfold inv_mod.
  destruct (egcd _ m (a mod m) 0 1) as [g s]; cbn in Hg; subst g.
  destruct (Z.eqb_spec (Z.gcd a m) 1); split; eauto.
  - intros [x Hx]; discriminate.
  - intro; contradiction.
Qed.

Lemma inv_mod_None m a : 0 < m -> (inv_mod m a = None <-> Z.gcd a m <> 1).
Proof.
  intros Hm; rewrite <- (inv_mod_gcd m a Hm).
  destruct (inv_mod m a); split; intros; try discriminate; auto.
  - exfalso; apply H; eauto.
  - intros [x Hx]; discriminate.
Qed.

Lemma inverse_unique m a x y : 0 < m ->
  (a * x) mod m = 1 mod m -> (a * y) mod m = 1 mod m -> x mod m = y mod m.
Proof.
  intros Hm Hx Hy.
  rewrite <- (Z.mul_1_r x), <- Z.mul_mod_idemp_r, <- Hy, Z.mul_mod_idemp_r by lia.
  replace (x * (a * y)) with (a * x * y) by ring.
  rewrite <- Z.mul_mod_idemp_l, Hx, Z.mul_mod_idemp_l by lia. f_equal; ring.
Qed.

Lemma inv_mod_unique m a x : 0 < m -> 0 <= x < m -> (a * x) mod m = 1 mod m ->
  inv_mod m a = Some x.
Proof.
  intros Hm Hr Hx.
  assert (Hg : Z.gcd a m = 1).
  { apply Zgcd_1_rel_prime. apply bezout_rel_prime.
    destruct (Z.eq_dec m 1) as [->|Hm1].
    - apply (Bezout_intro a 1 1 0 1); ring.
    - rewrite (Z.mod_small 1 m) in Hx by lia.
      apply (Bezout_intro a m 1 x (- (a * x / m))).
      pose proof (Z.div_mod (a * x) m ltac:(lia)). lia. }
  apply inv_mod_gcd in Hg as [y Hy]; auto.
  pose proof (inv_mod_Some m a y Hm Hy) as [Hy1 Hy2].
  pose proof (inverse_unique m a x y Hm Hx Hy2) as E.
  rewrite !Z.mod_small in E by lia. subst; auto.
Qed.

Lemma gcd_pow_1 a m n : 0 <= n -> Z.gcd a m = 1 -> Z.gcd (a ^ n) m = 1.
Proof.
  intros Hn H. apply Zgcd_1_rel_prime. apply rel_prime_sym.
  apply rel_prime_Zpower_r; auto.
  apply rel_prime_sym, Zgcd_1_rel_prime; auto.
Qed.

Lemma gcd_pow_1_inv a m n : 0 < n -> Z.gcd (a ^ n) m = 1 -> Z.gcd a m = 1.
Proof.
  intros Hn H. pose proof (Z.gcd_nonneg a m).
  assert (D : (Z.gcd a m | 1)).
  { rewrite <- H. apply Z.gcd_greatest; [|apply Z.gcd_divide_r].
    replace n with (Z.succ (n - 1)) by lia. rewrite Z.pow_succ_r by lia.
    apply Z.divide_mul_l, Z.gcd_divide_l. }
  apply Z.divide_1_r_nonneg in D; auto.
Qed.

Lemma gcd_mod_l a m : m <> 0 -> Z.gcd (a mod m) m = Z.gcd a m.
Proof. intros; rewrite Z.gcd_mod by lia. apply Z.gcd_comm. Qed.

(** ** Exponentiation by squaring *)
Lemma powm_pos_eq m a e : powm_pos m a e = (a ^ Zpos e) mod m.
Proof.
  induction e as [e IH|e IH|]; cbn [powm_pos].
  - rewrite IH, Pos2Z.inj_xI, Z.pow_add_r, Z.mul_comm, Z.pow_1_r by lia.
    rewrite Z.pow_mul_r by lia. rewrite (Z.pow_2_r a), Z.pow_mul_l.
    rewrite Zmult_mod_idemp_r, (Z.mul_comm a). rewrite <- Zmult_mod_idemp_l.
    rewrite <- (Zmult_mod (a ^ Zpos e) (a ^ Zpos e) m). rewrite Zmult_mod_idemp_l. reflexivity.
  - rewrite IH, Pos2Z.inj_xO, Z.pow_mul_r by lia.
    rewrite (Z.pow_2_r a), Z.pow_mul_l. symmetry. apply Zmult_mod.
  - rewrite Z.pow_1_r. reflexivity.
Qed.
Lemma powm_eq m a e : powm m a e = (a ^ e) mod m.
Proof.
  destruct e as [|p|p]; cbn [powm].
  - now rewrite Z.pow_0_r.
  - apply powm_pos_eq.
  - rewrite Z.pow_neg_r by lia. now rewrite Zmod_0_l.
Qed.
Lemma pow_bounded_eq m b e eb : pow_bounded m b e eb = (b ^ (e mod 2 ^ eb)) mod m.
Proof. apply powm_eq. Qed.
