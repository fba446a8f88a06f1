(** * Modular arithmetic over [Z]: congruences, signed powers of units, and
    first-order expansion modulo [n^2].  Facts only; used by the Paillier,
    ring-Pedersen and proof-system developments. *)
From Coq Require Import ZArith Znumtheory Lia List Setoid Morphisms Bool.
From Verif Require Import Base BaseFacts.
Open Scope Z_scope.

(** [a] and [b] are congruent modulo [n]. *)
Definition eqm (n a b : Z) : Prop := a mod n = b mod n.

#[global] Instance eqm_equiv n : Equivalence (eqm n).
Proof. split; unfold eqm; red; intros; congruence. Qed.

#[global] Instance eqm_add n : Proper (eqm n ==> eqm n ==> eqm n) Z.add.
Proof. intros a b H c d H'. unfold eqm in *. rewrite Zplus_mod, H, H', <- Zplus_mod. auto. Qed.
#[global] Instance eqm_sub n : Proper (eqm n ==> eqm n ==> eqm n) Z.sub.
Proof. intros a b H c d H'. unfold eqm in *. rewrite Zminus_mod, H, H', <- Zminus_mod. auto. Qed.
#[global] Instance eqm_mul n : Proper (eqm n ==> eqm n ==> eqm n) Z.mul.
Proof. intros a b H c d H'. unfold eqm in *. rewrite Zmult_mod, H, H', <- Zmult_mod. auto. Qed.
#[global] Instance eqm_opp n : Proper (eqm n ==> eqm n) Z.opp.
Proof.
  intros a b H. rewrite <- (Z.sub_0_l a), <- (Z.sub_0_l b). now rewrite H.
Qed.

Lemma eqm_mod n a : eqm n (a mod n) a.
Proof. unfold eqm. apply Zmod_mod. Qed.
Lemma eqm_refl n a : eqm n a a.
Proof. reflexivity. Qed.
Lemma eqm_eq n a b : a = b -> eqm n a b.
Proof. now intros ->. Qed.
Lemma eqm_small n a b : 0 <= a < n -> 0 <= b < n -> eqm n a b -> a = b.
Proof. unfold eqm. intros. rewrite !Z.mod_small in *; auto. Qed.
Lemma eqm_divide n a b : 0 < n -> (eqm n a b <-> (n | a - b)).
Proof.
  intros Hn. unfold eqm. split.
  - intros H. exists (a / n - b / n).
    rewrite (Z.div_mod a n), (Z.div_mod b n) at 1 by lia. rewrite H. ring.
  - intros [k Hk]. replace a with (b + k * n) by lia. now rewrite Z_mod_plus_full.
Qed.
Lemma eqm_0 n a : 0 < n -> (eqm n a 0 <-> (n | a)).
Proof. intros. rewrite eqm_divide by auto. now rewrite Z.sub_0_r. Qed.
Lemma eqm_weaken n m a b : 0 < n -> 0 < m -> (m | n) -> eqm n a b -> eqm m a b.
Proof.
  intros Hn Hm Hd H. rewrite eqm_divide in * by auto. now apply Z.divide_trans with n.
Qed.
Lemma eqm_add_mult n a k : eqm n (a + k * n) a.
Proof. unfold eqm. now rewrite Z_mod_plus_full. Qed.

Lemma eqm_pow n a b e : eqm n a b -> eqm n (a ^ e) (b ^ e).
Proof.
  intros H. destruct (Z.le_gt_cases 0 e) as [He|He].
  - revert e He. apply natlike_ind; [reflexivity|].
    intros e He IH. rewrite !Z.pow_succ_r by auto. now rewrite IH, H.
  - rewrite !Z.pow_neg_r by auto. reflexivity.
Qed.
#[global] Instance eqm_pow_proper n : Proper (eqm n ==> eq ==> eqm n) Z.pow.
Proof. intros a b H e e' ->. now apply eqm_pow. Qed.

(** Cancelling an invertible factor. *)
Lemma gauss_eqm n a b c : 0 < n -> Z.gcd a n = 1 -> eqm n (a * b) (a * c) -> eqm n b c.
Proof.
  intros Hn Hg H. rewrite eqm_divide in * by auto.
  apply Z.gauss with a; [|now rewrite Z.gcd_comm].
  now replace (a * (b - c)) with (a * b - a * c) by ring.
Qed.

Lemma eqm_crt p q a b : 0 < p -> 0 < q -> Z.gcd p q = 1 ->
  eqm p a b -> eqm q a b -> eqm (p * q) a b.
Proof.
  intros Hp Hq Hg H1 H2. rewrite eqm_divide in * by nia.
  destruct H1 as [k Hk]. rewrite Hk in H2.
  assert (Hd : (q | k)).
  { apply Z.gauss with p; [|now rewrite Z.gcd_comm]. now rewrite Z.mul_comm. }
  destruct Hd as [j ->]. exists j. rewrite Hk. ring.
Qed.

Lemma eqm_gcd n a b : 0 < n -> eqm n a b -> Z.gcd a n = Z.gcd b n.
Proof.
  intros Hn H. rewrite <- (gcd_mod_l a n), <- (gcd_mod_l b n) by lia. now rewrite H.
Qed.

Lemma gcd_mul_1 a b n : Z.gcd a n = 1 -> Z.gcd b n = 1 -> Z.gcd (a * b) n = 1.
Proof.
  intros Ha Hb. apply Zgcd_1_rel_prime. apply rel_prime_sym.
  apply rel_prime_mult; apply rel_prime_sym; now apply Zgcd_1_rel_prime.
Qed.
Lemma gcd_mul_1_inv a b n : Z.gcd (a * b) n = 1 -> Z.gcd a n = 1.
Proof.
  intros H. apply Zgcd_1_rel_prime in H. apply Zgcd_1_rel_prime.
  apply rel_prime_sym. apply rel_prime_sym in H.
  apply rel_prime_sym, rel_prime_div with (a * b).
  - now apply rel_prime_sym.
  - now exists b; ring.
Qed.
Lemma gcd_sq a n : 0 < n -> (Z.gcd a (n * n) = 1 <-> Z.gcd a n = 1).
Proof.
  intros Hn. rewrite !(Z.gcd_comm a). split.
  - apply gcd_mul_1_inv.
  - intros H. now apply gcd_mul_1.
Qed.
Lemma gcd_mul_split a p q : Z.gcd a (p * q) = 1 <-> Z.gcd a p = 1 /\ Z.gcd a q = 1.
Proof.
  rewrite !(Z.gcd_comm a). split.
  - intros H. split.
    + now apply gcd_mul_1_inv with q.
    + apply gcd_mul_1_inv with p. now rewrite Z.mul_comm.
  - intros []. now apply gcd_mul_1.
Qed.
Lemma gcd_opp a n : Z.gcd (- a) n = Z.gcd a n.
Proof. apply Z.gcd_opp_l. Qed.

(** ** Inverses and signed powers of units *)

(** The inverse of a unit (0 when there is none). *)
Definition zinv (n b : Z) : Z := match inv_mod n b with Some i => i | None => 0 end.

(** The signed power of a unit, in [0, n). *)
Definition zpow (n b e : Z) : Z :=
  if e <? 0 then (zinv n b ^ (- e)) mod n else (b ^ e) mod n.

Lemma zinv_spec n b : 0 < n -> Z.gcd b n = 1 -> eqm n (b * zinv n b) 1.
Proof.
  intros Hn Hg. unfold zinv. destruct (inv_mod n b) eqn:E.
  - apply inv_mod_Some in E; auto. apply E.
  - apply inv_mod_None in E; auto. contradiction.
Qed.
Lemma zinv_unique n b x : 0 < n -> eqm n (b * x) 1 -> eqm n x (zinv n b).
Proof.
  intros Hn H.
  assert (Hg : Z.gcd b n = 1).
  { apply gcd_mul_1_inv with x. rewrite (eqm_gcd n _ 1) by auto. apply Z.gcd_1_l. }
  apply gauss_eqm with b; auto. rewrite H. symmetry. now apply zinv_spec.
Qed.
Lemma zinv_gcd n b : 0 < n -> Z.gcd b n = 1 -> Z.gcd (zinv n b) n = 1.
Proof.
  intros Hn Hg. apply gcd_mul_1_inv with b.
  rewrite (eqm_gcd n _ 1); auto; [apply Z.gcd_1_l|].
  rewrite Z.mul_comm. now apply zinv_spec.
Qed.
Lemma zinv_eqm n b c : 0 < n -> Z.gcd b n = 1 -> eqm n b c -> eqm n (zinv n b) (zinv n c).
Proof.
  intros Hn Hg H. apply zinv_unique; auto. rewrite <- H. now apply zinv_spec.
Qed.
Lemma zinv_range n b : 0 < n -> 0 <= zinv n b < n.
Proof.
  intros Hn. unfold zinv. destruct (inv_mod n b) eqn:E; [|lia].
  apply inv_mod_Some in E; tauto.
Qed.
Lemma inv_mod_zinv n b : 0 < n -> Z.gcd b n = 1 -> inv_mod n b = Some (zinv n b).
Proof.
  intros Hn Hg. unfold zinv. destruct (inv_mod n b) eqn:E; auto.
  apply inv_mod_None in E; auto. contradiction.
Qed.
Lemma zinv_mul n a b : 0 < n -> Z.gcd a n = 1 -> Z.gcd b n = 1 ->
  eqm n (zinv n (a * b)) (zinv n a * zinv n b).
Proof.
  intros Hn Ha Hb. symmetry. apply zinv_unique; auto.
  replace (a * b * (zinv n a * zinv n b)) with ((a * zinv n a) * (b * zinv n b)) by ring.
  now rewrite !zinv_spec.
Qed.
Lemma zinv_zinv n a : 0 < n -> Z.gcd a n = 1 -> eqm n (zinv n (zinv n a)) a.
Proof.
  intros Hn Ha. symmetry. apply zinv_unique; auto.
  rewrite Z.mul_comm. now apply zinv_spec.
Qed.
Lemma zinv_pow n a e : 0 < n -> Z.gcd a n = 1 -> 0 <= e ->
  eqm n (zinv n (a ^ e)) (zinv n a ^ e).
Proof.
  intros Hn Ha He. symmetry. apply zinv_unique; auto.
  rewrite <- Z.pow_mul_l. rewrite zinv_spec by auto. now rewrite Z.pow_1_l.
Qed.

Lemma zpow_range n b e : 0 < n -> 0 <= zpow n b e < n.
Proof. intros. unfold zpow. destruct (e <? 0); apply Z.mod_pos_bound; lia. Qed.
Lemma zpow_nonneg n b e : 0 <= e -> eqm n (zpow n b e) (b ^ e).
Proof. intros. unfold zpow. destruct (Z.ltb_spec e 0); [lia|]. apply eqm_mod. Qed.
Lemma zpow_neg n b e : e <= 0 -> eqm n (zpow n b e) (zinv n b ^ (- e)).
Proof.
  intros. unfold zpow. destruct (Z.ltb_spec e 0).
  - apply eqm_mod.
  - assert (e = 0) by lia. subst. apply eqm_mod.
Qed.
Lemma zpow_eqm n b c e : 0 < n -> Z.gcd b n = 1 -> eqm n b c -> zpow n b e = zpow n c e.
Proof.
  intros Hn Hg H. unfold zpow. destruct (e <? 0).
  - apply eqm_pow. now apply zinv_eqm.
  - now apply eqm_pow.
Qed.
Lemma zpow_gcd n b e : 0 < n -> Z.gcd b n = 1 -> Z.gcd (zpow n b e) n = 1.
Proof.
  intros Hn Hg. unfold zpow. destruct (Z.ltb_spec e 0).
  - rewrite gcd_mod_l by lia. apply gcd_pow_1; [lia|]. now apply zinv_gcd.
  - rewrite gcd_mod_l by lia. apply gcd_pow_1; [lia|auto].
Qed.
Lemma zpow_0 n b : eqm n (zpow n b 0) 1.
Proof. now rewrite zpow_nonneg by lia. Qed.
Lemma zpow_1 n b : eqm n (zpow n b 1) b.
Proof. rewrite zpow_nonneg by lia. now rewrite Z.pow_1_r. Qed.

(** Multiplying out a negative power. *)
Lemma zpow_neg_cancel n b e : 0 < n -> Z.gcd b n = 1 -> 0 <= e ->
  eqm n (zpow n b (- e) * b ^ e) 1.
Proof.
  intros Hn Hg He. rewrite zpow_neg by lia. rewrite Z.opp_involutive.
  rewrite <- Z.pow_mul_l, (Z.mul_comm (zinv n b)). rewrite zinv_spec by auto.
  now rewrite Z.pow_1_l.
Qed.

Lemma zpow_add n b x y : 0 < n -> Z.gcd b n = 1 ->
  eqm n (zpow n b (x + y)) (zpow n b x * zpow n b y).
Proof.
  intros Hn Hg.
  (* multiply both sides by b^k with k large enough *)
  set (k := Z.abs x + Z.abs y).
  assert (Hshift : forall e, - k <= e -> eqm n (zpow n b e * b ^ k) (b ^ (e + k))).
  { intros e He. destruct (Z.le_gt_cases 0 e).
    - rewrite zpow_nonneg by lia. now rewrite Z.pow_add_r by lia.
    - replace k with ((- e) + (e + k)) at 1 by lia. rewrite Z.pow_add_r by lia.
      rewrite Z.mul_assoc.
      replace e with (- (- e)) at 1 by lia.
      rewrite zpow_neg_cancel by lia. now rewrite Z.mul_1_l. }
  assert (Hk : Z.gcd (b ^ (k + k)) n = 1) by (apply gcd_pow_1; auto; lia).
  apply gauss_eqm with (b ^ (k + k)); auto.
  rewrite !(Z.mul_comm (b ^ (k + k))). rewrite Z.pow_add_r by lia.
  rewrite Z.mul_assoc, Hshift by lia. rewrite <- Z.pow_add_r by lia.
  replace (zpow n b x * zpow n b y * (b ^ k * b ^ k))
    with ((zpow n b x * b ^ k) * (zpow n b y * b ^ k)) by ring.
  rewrite !Hshift by lia. rewrite <- Z.pow_add_r by lia.
  apply eqm_eq. f_equal. lia.
Qed.
Lemma zpow_opp n b x : 0 < n -> Z.gcd b n = 1 -> eqm n (zpow n b (- x) * zpow n b x) 1.
Proof.
  intros. rewrite <- zpow_add by auto. replace (- x + x) with 0 by lia. apply zpow_0.
Qed.
Lemma zpow_opp_zinv n b x : 0 < n -> Z.gcd b n = 1 -> eqm n (zpow n b (- x)) (zinv n (zpow n b x)).
Proof.
  intros. apply zinv_unique; auto. rewrite Z.mul_comm. now apply zpow_opp.
Qed.
Lemma zpow_sub n b x y : 0 < n -> Z.gcd b n = 1 ->
  eqm n (zpow n b (x - y)) (zpow n b x * zpow n b (- y)).
Proof. intros. rewrite <- zpow_add by auto. apply eqm_eq. f_equal. Qed.
Lemma zpow_mul_base n a b e : 0 < n -> Z.gcd a n = 1 -> Z.gcd b n = 1 ->
  eqm n (zpow n (a * b) e) (zpow n a e * zpow n b e).
Proof.
  intros Hn Ha Hb. destruct (Z.le_gt_cases 0 e).
  - rewrite !zpow_nonneg by lia. now rewrite Z.pow_mul_l.
  - rewrite !zpow_neg by lia. rewrite zinv_mul by auto. now rewrite Z.pow_mul_l.
Qed.
Lemma zpow_zinv n b e : 0 < n -> Z.gcd b n = 1 -> eqm n (zpow n (zinv n b) e) (zpow n b (- e)).
Proof.
  intros Hn Hb. destruct (Z.le_gt_cases 0 e).
  - rewrite zpow_nonneg, zpow_neg by lia. now rewrite Z.opp_involutive.
  - rewrite zpow_neg, zpow_nonneg by lia. now rewrite zinv_zinv.
Qed.
Lemma zpow_mul n b x y : 0 < n -> Z.gcd b n = 1 ->
  eqm n (zpow n b (x * y)) (zpow n (zpow n b x) y).
Proof.
  intros Hn Hg.
  assert (Hpos : forall x y, 0 <= y -> eqm n (zpow n b (x * y)) (zpow n b x ^ y)).
  { intros x' y' Hy. revert y' Hy. apply natlike_ind.
    - rewrite Z.mul_0_r. apply zpow_0.
    - intros y' Hy IH. rewrite Z.pow_succ_r by auto.
      replace (x' * Z.succ y') with (x' + x' * y') by lia.
      rewrite zpow_add by auto. now rewrite IH. }
  destruct (Z.le_gt_cases 0 y).
  - rewrite Hpos by auto. now rewrite (zpow_nonneg n (zpow n b x) y) by auto.
  - replace (x * y) with ((- x) * (- y)) by ring. rewrite Hpos by lia.
    rewrite (zpow_neg n (zpow n b x)) by lia.
    apply eqm_pow. now apply zpow_opp_zinv.
Qed.
Lemma zpow_base1 n e : 0 < n -> eqm n (zpow n 1 e) 1.
Proof.
  intros Hn. destruct (Z.le_gt_cases 0 e).
  - rewrite zpow_nonneg by auto. now rewrite Z.pow_1_l.
  - rewrite zpow_neg by lia.
    rewrite <- (zinv_unique n 1 1) by (auto; reflexivity). rewrite Z.pow_1_l; [reflexivity|lia].
Qed.

(** ** Arithmetic modulo [n^2] *)

Lemma pow_first_order n x k e : 0 <= e ->
  eqm (n * n) ((x + k * n) ^ e) (x ^ e + e * x ^ (e - 1) * (k * n)).
Proof.
  revert e. apply natlike_ind.
  - rewrite !Z.pow_0_r. apply eqm_eq. ring.
  - intros e He IH. rewrite !Z.pow_succ_r by auto. rewrite IH.
    replace (Z.succ e - 1) with e by lia.
    destruct (Z.eq_dec e 0) as [->|He0].
    + rewrite !Z.pow_0_r. apply eqm_eq. ring.
    + replace (x ^ e) with (x * x ^ (e - 1)) by
        (rewrite <- Z.pow_succ_r by lia; f_equal; lia).
      transitivity (x * (x * x ^ (e - 1)) + Z.succ e * (x * x ^ (e - 1)) * (k * n)
                    + (e * x ^ (e - 1) * k * k) * (n * n)).
      * apply eqm_eq. unfold Z.succ. ring.
      * apply eqm_add_mult.
Qed.

(** The [n]-th power is well defined on residues modulo [n]. *)
Lemma pow_n_lift n a b : 0 < n -> eqm n a b -> eqm (n * n) (a ^ n) (b ^ n).
Proof.
  intros Hn H. apply eqm_divide in H; auto. destruct H as [k Hk].
  replace a with (b + k * n) by lia. rewrite pow_first_order by lia.
  replace (b ^ n + n * b ^ (n - 1) * (k * n)) with (b ^ n + (b ^ (n - 1) * k) * (n * n)) by ring.
  apply eqm_add_mult.
Qed.

(** [1 + m n] behaves additively modulo [n^2]. *)
Lemma one_plus_mul n x y : eqm (n * n) ((1 + x * n) * (1 + y * n)) (1 + (x + y) * n).
Proof.
  replace ((1 + x * n) * (1 + y * n)) with (1 + (x + y) * n + (x * y) * (n * n)) by ring.
  apply eqm_add_mult.
Qed.
Lemma one_plus_eqm n x y : 0 < n -> (eqm n x y <-> eqm (n * n) (1 + x * n) (1 + y * n)).
Proof.
  intros Hn. rewrite !eqm_divide by nia. split; intros [k Hk].
  - exists k. replace (1 + x * n - (1 + y * n)) with ((x - y) * n) by ring. rewrite Hk. ring.
  - exists k. apply Z.mul_reg_r with n; [lia|]. lia.
Qed.
Lemma one_plus_gcd n x : 0 < n -> Z.gcd (1 + x * n) n = 1.
Proof.
  intros Hn. rewrite (eqm_gcd n _ 1); auto; [apply Z.gcd_1_l|]. apply eqm_add_mult.
Qed.
Lemma one_plus_gcd2 n x : 0 < n -> Z.gcd (1 + x * n) (n * n) = 1.
Proof. intros. apply gcd_sq; auto. now apply one_plus_gcd. Qed.
Lemma one_plus_zinv n x : 0 < n -> eqm (n * n) (zinv (n * n) (1 + x * n)) (1 + (- x) * n).
Proof.
  intros. symmetry. apply zinv_unique; [nia|]. rewrite one_plus_mul.
  apply eqm_eq. ring.
Qed.
Lemma one_plus_pow n x e : 0 < n -> 0 <= e -> eqm (n * n) ((1 + x * n) ^ e) (1 + (x * e) * n).
Proof.
  intros Hn He. rewrite pow_first_order by auto.
  destruct (Z.eq_dec e 0) as [->|]; [rewrite Z.pow_0_r, !Z.mul_0_l, Z.mul_0_r; apply eqm_eq; ring|].
  rewrite !Z.pow_1_l by lia. apply eqm_eq. ring.
Qed.
Lemma one_plus_zpow n x e : 0 < n -> eqm (n * n) (zpow (n * n) (1 + x * n) e) (1 + (x * e) * n).
Proof.
  intros Hn. destruct (Z.le_gt_cases 0 e).
  - rewrite zpow_nonneg by auto. now apply one_plus_pow.
  - rewrite zpow_neg by lia. rewrite one_plus_zinv by auto.
    rewrite one_plus_pow by lia. apply eqm_eq. ring.
Qed.

Lemma eqm_mod_l p q a : 0 < p -> 0 < q -> eqm p (a mod (p * q)) a.
Proof.
  intros. apply eqm_weaken with (p * q); try nia; [apply Z.divide_factor_l|apply eqm_mod].
Qed.
Lemma eqm_mod_r p q a : 0 < p -> 0 < q -> eqm q (a mod (p * q)) a.
Proof. intros. rewrite Z.mul_comm. now apply eqm_mod_l. Qed.
