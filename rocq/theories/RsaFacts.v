(** * Number theory of a modulus with two prime factors (facts only). *)
From Coq Require Import ZArith Znumtheory Lia List Setoid Morphisms Bool.
From Verif Require Import Base BaseFacts ModArith FermatZ.
Open Scope Z_scope.

Lemma prime_gcd p a : prime p -> (Z.gcd a p = 1 <-> ~ (p | a)).
Proof.
  intros Hp. pose proof (prime_ge_2 _ Hp). split.
  - intros Hg Hd. assert (H1 : (p | Z.gcd a p)) by (apply Z.gcd_greatest; auto; apply Z.divide_refl).
    rewrite Hg in H1. apply Z.divide_1_r_nonneg in H1; lia.
  - intros Hd. apply Zgcd_1_rel_prime. apply rel_prime_sym. now apply prime_rel_prime.
Qed.

Lemma fermat_unit p a : prime p -> Z.gcd a p = 1 -> eqm p (a ^ (p - 1)) 1.
Proof.
  intros Hp Hg. pose proof (prime_ge_2 _ Hp).
  apply gauss_eqm with a; try lia.
  rewrite <- Z.pow_succ_r by lia. replace (Z.succ (p - 1)) with p by lia.
  rewrite Z.mul_1_r. apply (fermat_Z a Hp).
Qed.

Lemma primes_coprime p q : prime p -> prime q -> p <> q -> Z.gcd p q = 1.
Proof.
  intros Hp Hq Hne. apply prime_gcd; auto. intros Hd.
  pose proof (prime_ge_2 _ Hp). pose proof (prime_ge_2 _ Hq).
  destruct (prime_divisors _ Hp _ Hd) as [|[|[|]]]; lia.
Qed.

Lemma euler_pq p q a : prime p -> prime q -> p <> q -> Z.gcd a (p * q) = 1 ->
  eqm (p * q) (a ^ ((p - 1) * (q - 1))) 1.
Proof.
  intros Hp Hq Hne Hg. apply gcd_mul_split in Hg. destruct Hg as [Ha Hb].
  pose proof (prime_ge_2 _ Hp). pose proof (prime_ge_2 _ Hq).
  apply eqm_crt; try lia; [now apply primes_coprime| |].
  - rewrite Z.pow_mul_r by lia. rewrite (fermat_unit p a) by auto. rewrite Z.pow_1_l by lia. reflexivity.
  - rewrite Z.mul_comm, Z.pow_mul_r by lia. rewrite (fermat_unit q a) by auto.
    rewrite Z.pow_1_l by lia. reflexivity.
Qed.

(** Exponents may be reduced modulo the totient. *)
Lemma euler_exp p q a d e : prime p -> prime q -> p <> q -> Z.gcd a (p * q) = 1 ->
  0 <= d -> 0 <= e -> eqm ((p - 1) * (q - 1)) d e -> eqm (p * q) (a ^ d) (a ^ e).
Proof.
  intros Hp Hq Hne Hg Hd He H.
  pose proof (prime_ge_2 _ Hp). pose proof (prime_ge_2 _ Hq).
  set (phi := (p - 1) * (q - 1)) in *. assert (Hphi : 0 < phi) by (unfold phi; nia).
  assert (Hred : forall x, 0 <= x -> eqm (p * q) (a ^ x) (a ^ (x mod phi))).
  { intros x Hx. rewrite (Z.div_mod x phi) at 1 by lia.
    pose proof (Z.mod_pos_bound x phi Hphi). pose proof (Z.div_pos x phi Hx Hphi).
    rewrite Z.pow_add_r, Z.pow_mul_r by nia. unfold phi at 1. rewrite euler_pq by auto.
    rewrite Z.pow_1_l by auto. now rewrite Z.mul_1_l. }
  rewrite Hred by auto. rewrite (Hred e) by auto. red in H. now rewrite H.
Qed.

(** Primes of similar size: the modulus is coprime to its totient. *)
Lemma totient_coprime p q : prime p -> prime q -> p <> q -> Z.odd p = true -> Z.odd q = true ->
  p < 2 * q -> q < 2 * p -> Z.gcd (p * q) ((p - 1) * (q - 1)) = 1.
Proof.
  intros Hp Hq Hne Op Oq H1 H2.
  pose proof (prime_ge_2 _ Hp). pose proof (prime_ge_2 _ Hq).
  apply Zodd_bool_iff in Op. apply Zodd_bool_iff in Oq.
  apply Zodd_ex in Op. apply Zodd_ex in Oq. destruct Op as [a Ea]. destruct Oq as [b Eb].
  assert (Hnd : forall r s, prime r -> prime s -> r <> s -> s < 2 * r ->
            (exists a, r = 2 * a + 1) -> (exists b, s = 2 * b + 1) ->
            Z.gcd r (r - 1) = 1 /\ Z.gcd r (s - 1) = 1).
  { intros r s Hr Hs Hrs Hlt [a' Ea'] [b' Eb'].
    pose proof (prime_ge_2 _ Hr). pose proof (prime_ge_2 _ Hs).
    split; rewrite Z.gcd_comm; apply prime_gcd; auto; intros Hd.
    - apply Z.divide_pos_le in Hd; lia.
    - destruct Hd as [k Hk]. assert (k = 1) by nia. lia. }
  destruct (Hnd p q) as [A1 A2]; eauto.
  destruct (Hnd q p) as [B1 B2]; eauto.
  apply gcd_mul_split. split; apply gcd_mul_1; auto.
Qed.

(** ** Squares modulo a prime that is 3 modulo 4 *)

Definition is_square_mod (m x : Z) : Prop := exists y, eqm m (y * y) x.

Lemma sqrt_candidate p y : prime p -> p mod 4 = 3 ->
  eqm p (((y * y) ^ (p / 4 + 1)) * ((y * y) ^ (p / 4 + 1))) (y * y).
Proof.
  intros Hp H4. pose proof (prime_ge_2 _ Hp).
  pose proof (Z.div_mod p 4 ltac:(lia)) as Ed.
  assert (0 <= p / 4) by (apply Z.div_pos; lia).
  rewrite <- Z.pow_mul_l.
  replace (y * y * (y * y)) with (y ^ 4) by ring.
  rewrite <- Z.pow_mul_r by lia.
  replace (4 * (p / 4 + 1)) with (Z.succ p) by lia.
  rewrite Z.pow_succ_r by lia. now rewrite (fermat_Z y Hp : eqm p _ _).
Qed.

(** Either [x] or [-x] is a square, and for units not both. *)
Lemma prime_sub1_half p x : prime p -> p mod 4 = 3 -> Z.gcd x p = 1 ->
  eqm p (x ^ ((p - 1) / 2)) 1 \/ eqm p (x ^ ((p - 1) / 2)) (-1).
Proof.
  intros Hp H4 Hg. pose proof (prime_ge_2 _ Hp).
  pose proof (Z.div_mod p 4 ltac:(lia)) as Ed. set (k := p / 4) in *.
  assert (0 <= k) by (apply Z.div_pos; lia).
  assert (Eh : (p - 1) / 2 = 2 * k + 1).
  { symmetry. apply Z.div_unique with 0; lia. }
  rewrite Eh. set (h := x ^ (2 * k + 1)).
  assert (Hsq : eqm p (h * h) 1).
  { unfold h. rewrite <- Z.pow_add_r by lia. replace (2 * k + 1 + (2 * k + 1)) with (p - 1) by lia.
    now apply fermat_unit. }
  apply eqm_divide in Hsq; [|lia].
  replace (h * h - 1) with ((h - 1) * (h - (-1))) in Hsq by ring.
  apply prime_mult in Hsq; auto. rewrite !eqm_divide by lia. tauto.
Qed.

Lemma square_or_neg p x : prime p -> p mod 4 = 3 -> Z.gcd x p = 1 ->
  is_square_mod p x \/ is_square_mod p (- x).
Proof.
  intros Hp H4 Hg. pose proof (prime_ge_2 _ Hp).
  pose proof (Z.div_mod p 4 ltac:(lia)) as Ed. set (k := p / 4) in *.
  assert (0 <= k) by (apply Z.div_pos; lia).
  assert (Eh : (p - 1) / 2 = 2 * k + 1).
  { symmetry. apply Z.div_unique with 0; lia. }
  assert (E : x ^ (k + 1) * x ^ (k + 1) = x * x ^ ((p - 1) / 2)).
  { rewrite Eh. rewrite <- Z.pow_add_r, <- Z.pow_succ_r by lia. f_equal. lia. }
  destruct (prime_sub1_half p x Hp H4 Hg) as [Hx|Hx]; [left|right]; exists (x ^ (k + 1));
    rewrite E, Hx; apply eqm_eq; ring.
Qed.

Lemma not_square_neg p x : prime p -> p mod 4 = 3 -> Z.gcd x p = 1 ->
  is_square_mod p x -> ~ is_square_mod p (- x).
Proof.
  intros Hp H4 Hg [y Hy] [z Hz]. pose proof (prime_ge_2 _ Hp).
  pose proof (Z.div_mod p 4 ltac:(lia)) as Ed. set (k := p / 4) in *.
  assert (0 <= k) by (apply Z.div_pos; lia).
  assert (Gu : forall u v, eqm p (u * u) v -> Z.gcd v p = 1 -> eqm p (v ^ (2 * k + 1)) 1).
  { intros u v Huv Hv. rewrite <- Huv. replace (u * u) with (u ^ 2) by ring.
    rewrite <- Z.pow_mul_r by lia. replace (2 * (2 * k + 1)) with (p - 1) by lia.
    apply fermat_unit; auto. apply gcd_mul_1_inv with u. rewrite (eqm_gcd p _ v); auto. lia. }
  pose proof (Gu y x Hy Hg) as H1.
  pose proof (Gu z (- x) Hz ltac:(now rewrite gcd_opp)) as H2.
  replace (- x) with (-1 * x) in H2 by ring.
  rewrite Z.pow_mul_l, H1 in H2.
  rewrite Z.pow_add_r, Z.pow_mul_r in H2 by lia.
  change ((-1) ^ 2) with 1 in H2. rewrite Z.pow_1_l in H2 by lia.
  apply eqm_divide in H2; [|lia]. apply Z.divide_abs_r in H2.
  cbn in H2. apply Z.divide_pos_le in H2; lia.
Qed.

Lemma square_mul p a b : is_square_mod p a -> is_square_mod p b -> is_square_mod p (a * b).
Proof.
  intros [x Hx] [y Hy]. exists (x * y). rewrite <- Hx, <- Hy. apply eqm_eq. ring.
Qed.

Lemma square_eqm p a b : eqm p a b -> is_square_mod p a -> is_square_mod p b.
Proof. intros H [y Hy]. exists y. now rewrite Hy. Qed.

Lemma square_unit_root p y x : 0 < p -> eqm p (y * y) x -> Z.gcd x p = 1 -> Z.gcd y p = 1.
Proof. intros Hp H Hg. apply gcd_mul_1_inv with y. rewrite (eqm_gcd p _ x); auto. Qed.

Lemma square_cancel p a b : 0 < p -> Z.gcd a p = 1 ->
  is_square_mod p a -> is_square_mod p (a * b) -> is_square_mod p b.
Proof.
  intros Hp Hg [x Hx] [y Hy].
  assert (Hgx : Z.gcd x p = 1) by now apply square_unit_root with a.
  exists (zinv p x * y).
  replace (zinv p x * y * (zinv p x * y)) with (zinv p x * zinv p x * (y * y)) by ring.
  rewrite Hy, <- Hx.
  replace (zinv p x * zinv p x * (x * x * b)) with ((x * zinv p x) * (x * zinv p x) * b) by ring.
  rewrite zinv_spec by auto. apply eqm_eq. ring.
Qed.

(** Joining residues. *)
Lemma crt_exists p q a b : 0 < p -> 0 < q -> Z.gcd p q = 1 ->
  exists x, eqm p x a /\ eqm q x b.
Proof.
  intros Hp Hq Hg. exists (a + p * (zinv q p * (b - a))). split.
  - rewrite Z.mul_comm. apply eqm_add_mult.
  - rewrite Z.mul_assoc. rewrite zinv_spec by auto. apply eqm_eq. ring.
Qed.

Lemma square_pq p q x : 0 < p -> 0 < q -> Z.gcd p q = 1 ->
  (is_square_mod (p * q) x <-> is_square_mod p x /\ is_square_mod q x).
Proof.
  intros Hp Hq Hg. split.
  - intros [y Hy]. split; exists y.
    + apply eqm_weaken with (p * q); auto; [nia|]. apply Z.divide_factor_l.
    + apply eqm_weaken with (p * q); auto; [nia|]. apply Z.divide_factor_r.
  - intros [[a Ha] [b Hb]]. destruct (crt_exists p q a b Hp Hq Hg) as [y [H1 H2]].
    exists y. apply eqm_crt; auto; [rewrite H1|rewrite H2]; auto.
Qed.

(** Trial division, to exhibit concrete primes in examples. *)
Definition prime_check (p : Z) : bool :=
  (1 <? p) && forallb (fun d => negb (p mod (Z.of_nat d) =? 0)) (seq 2 (Z.to_nat p - 2)).

Lemma prime_check_ok p : prime_check p = true -> prime p.
Proof.
  unfold prime_check. rewrite andb_true_iff, Z.ltb_lt, forallb_forall. intros [H1 H].
  apply prime_alt. split; auto. intros n Hn Hd.
  assert (Hin : In (Z.to_nat n) (seq 2 (Z.to_nat p - 2))) by (apply in_seq; lia).
  specialize (H _ Hin). rewrite Z2Nat.id in H by lia.
  apply Z.mod_divide in Hd; [|lia]. rewrite Hd in H. discriminate.
Qed.
