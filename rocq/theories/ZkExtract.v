(** * Algebra of special soundness: differences of accepting transcripts. *)
From Coq Require Import ZArith Znumtheory List Bool Lia Setoid.
From Verif Require Import ConversionProofs Base BaseFacts SignedModel SignedSpec SignedProofs ModArith RsaFacts PaillierModel PaillierSpec
  PaillierProofs RpProofs ZkBase ZkModel ZkSpec ZkFacts.
Import ListNotations.
Open Scope Z_scope.

Lemma key_exists P p q : params_ok P -> keygen_primes (prime_bits P) p q -> exists sk, key_ok P p q sk.
Proof.
  intros HP (Hp & Hq & Hne & Mp & Mq & Rp & Rq).
  apply mod4_odd in Mp. apply mod4_odd in Mq.
  pose proof (prime_ge_2 _ Hp). pose proof (prime_ge_2 _ Hq).
  pose proof (pow_gt1_pos (prime_bits P) p ltac:(lia) ltac:(lia)).
  assert (E : 2 ^ prime_bits P = 4 * 2 ^ (prime_bits P - 2)).
  { replace (prime_bits P) with (2 + (prime_bits P - 2)) at 1 by lia. rewrite Z.pow_add_r by lia. reflexivity. }
  destruct (skey_new_ok P p q) as (sk & Hsk); auto; try lia; [apply totient_coprime; auto; lia|].
  exists sk. apply (skey_new_inv P p q sk HP Hp Hq); auto; lia.
Qed.

Lemma keygen_modulus P p q : params_ok P -> keygen_primes (prime_bits P) p q -> 1 < p * q < 2 ^ modulus_bits P.
Proof.
  intros HP K. destruct (key_exists P p q HP K) as (sk & HK).
  destruct (key_facts P p q sk HP HK) as (? & ? & HN & ?). exact HN.
Qed.

Lemma encrypts_encv N c m : 1 < N -> (encrypts N c m <-> exists rho, Z.gcd rho N = 1 /\ c = encv N m rho).
Proof.
  intros HN. unfold encrypts. split; intros (rho & Hg & H); exists rho; split; auto; now apply encv_textbook.
Qed.
Lemma encv_encrypts N m rho : 1 < N -> Z.gcd rho N = 1 -> encrypts N (encv N m rho) m.
Proof. intros HN Hg. apply encrypts_encv; auto. now exists rho. Qed.
Lemma encrypts_gcd N c m : 1 < N -> encrypts N c m -> Z.gcd c N = 1.
Proof. intros HN H. apply encrypts_encv in H; auto. destruct H as (rho & Hg & ->). now apply encv_gcd. Qed.
Lemma encrypts_range N c m : 1 < N -> encrypts N c m -> 0 <= c < N * N.
Proof. intros HN H. apply encrypts_encv in H; auto. destruct H as (rho & Hg & ->). apply encv_range. lia. Qed.
Lemma encrypts_mul N c1 m1 c2 m2 : 1 < N -> encrypts N c1 m1 -> encrypts N c2 m2 ->
  encrypts N ((c1 * c2) mod (N * N)) (m1 + m2).
Proof.
  intros HN H1 H2. apply encrypts_encv in H1, H2; auto.
  destruct H1 as (r1 & G1 & ->), H2 as (r2 & G2 & ->). rewrite encv_mul by auto.
  apply encv_encrypts; auto. rewrite gcd_mod_l by lia. now apply gcd_mul_1.
Qed.
Lemma encrypts_zpow N c m k : 1 < N -> encrypts N c m -> encrypts N (zpow (N * N) c k) (m * k).
Proof.
  intros HN H. apply encrypts_encv in H; auto. destruct H as (r & G & ->).
  rewrite encv_zpow by auto. apply encv_encrypts; auto. apply zpow_gcd; auto. lia.
Qed.
Lemma encrypts_power N c m k r : 1 < N -> encrypts N c m -> unit_power (N * N) c k r -> encrypts N r (m * k).
Proof.
  intros HN H Hp. apply unit_power_zpow in Hp; [|nia|].
  - subst r. now apply encrypts_zpow.
  - apply gcd_sq; [lia|]. now apply encrypts_gcd with m.
Qed.
Lemma encrypts_pow N c m k : 1 < N -> encrypts N c m -> 0 <= k -> encrypts N ((c ^ k) mod (N * N)) (m * k).
Proof.
  intros HN H Hk. replace ((c ^ k) mod (N * N)) with (zpow (N * N) c k).
  - now apply encrypts_zpow.
  - unfold zpow. destruct (Z.ltb_spec k 0); [lia|reflexivity].
Qed.
Lemma encrypts_mod_plain N c m m' : 1 < N -> eqm N m m' -> encrypts N c m -> encrypts N c m'.
Proof.
  intros HN Hm H. apply encrypts_encv in H; auto. apply encrypts_encv; auto.
  destruct H as (r & G & ->). exists r. split; auto. apply encv_plain_mod; auto. lia.
Qed.

Section Unique.
Variables (P : pparams) (p q : Z).
Hypothesis HP : params_ok P.
Hypothesis K : keygen_primes (prime_bits P) p q.
Notation N := (p * q).

Lemma encrypts_exists c : 0 <= c < N * N -> Z.gcd c N = 1 -> exists m, encrypts N c m.
Proof.
  intros Hc Hg. destruct (key_exists P p q HP K) as (sk & HK).
  destruct (key_facts P p q sk HP HK) as (? & ? & HN & ?).
  destruct (cipher_recovered P p q sk HP HK c Hc Hg) as (m & rho & _ & _ & _ & _ & Hr & ->).
  exists (sval (uint_w P) m). apply encv_encrypts; auto. apply HN.
Qed.
Lemma encrypts_unique c m1 m2 : encrypts N c m1 -> encrypts N c m2 -> eqm N m1 m2.
Proof.
  intros H1 H2. destruct (key_exists P p q HP K) as (sk & HK).
  destruct (key_facts P p q sk HP HK) as (? & ? & HN & ?).
  apply encrypts_encv in H1, H2; try lia. destruct H1 as (r1 & G1 & E1), H2 as (r2 & G2 & E2).
  destruct (decrypt_encv P p q sk HP HK m1 r1 G1) as (x & Ex & _ & (C1 & _)).
  destruct (decrypt_encv P p q sk HP HK m2 r2 G2) as (y & Ey & _ & (C2 & _)).
  rewrite <- E1 in Ex. rewrite <- E2 in Ey. assert (x = y) by congruence. subst y.
  unfold eqm. congruence.
Qed.

(** Numbers smaller than the primes are invertible. *)
Lemma small_coprime d b : 0 <= b -> b <= prime_bits P - 1 -> d <> 0 -> Z.abs d < 2 ^ b -> Z.gcd d N = 1.
Proof.
  intros Hb1 Hb Hd Ha. destruct K as (Hp & Hq & Hne & Mp & Mq & Rp & Rq).
  assert (H : 2 ^ b <= 2 * 2 ^ (prime_bits P - 2)).
  { replace (2 * 2 ^ (prime_bits P - 2)) with (2 ^ (prime_bits P - 1)).
    - apply Z.pow_le_mono_r; lia.
    - destruct (Z.le_gt_cases 2 (prime_bits P)).
      + replace (prime_bits P - 1) with (1 + (prime_bits P - 2)) by lia. rewrite Z.pow_add_r by lia. reflexivity.
      + assert (prime_bits P = 1) by lia. pose proof (prime_ge_2 _ Hp).
        replace (2 ^ prime_bits P) with 2 in * by (now rewrite H0). lia. }
  assert (Hpow : 0 <= 2 ^ (prime_bits P - 2)) by (apply Z.pow_nonneg; lia).
  apply gcd_mul_split. split; apply Zgcd_1_rel_prime; apply rel_prime_sym.
  - apply prime_rel_prime; auto. intros (k & Hk). assert (k <> 0) by nia. nia.
  - apply prime_rel_prime; auto. intros (k & Hk). assert (k <> 0) by nia. nia.
Qed.
End Unique.

(** ** Scalars *)
Lemma scalar_inv q e1 e2 : prime q -> 0 <= e1 < q -> 0 <= e2 < q -> e1 <> e2 ->
  exists i, eqm q (i * (e1 - e2)) 1.
Proof.
  intros Hq H1 H2 Hne. pose proof (prime_ge_2 _ Hq).
  exists (zinv q (e1 - e2)). rewrite Z.mul_comm. apply zinv_spec; [lia|].
  apply Zgcd_1_rel_prime. apply rel_prime_sym. apply prime_rel_prime; auto.
  intros (k & Hk). assert (k = 0 \/ k <= -1 \/ 1 <= k) by lia. nia.
Qed.

Section CurveDiff.
Variables (q : Z) (C : curve).
Hypothesis HC : curve_ok q C.
Lemma padd_move x y z : x = padd C y z -> padd C x (popp C y) = z.
Proof.
  intros ->. rewrite (c_addC _ _ HC y z), <- (c_addA _ _ HC), (c_addN _ _ HC), (c_add0 _ _ HC). reflexivity.
Qed.
Lemma popp_p x : popp C (popp C x) = x.
Proof. rewrite !(popp_mul q C HC), (c_mulA _ _ HC). apply (c_mul1 _ _ HC). Qed.
Lemma pmul_opp a x : pmul C (- a) x = popp C (pmul C a x).
Proof. rewrite (popp_mul q C HC), (c_mulA _ _ HC). reflexivity || (f_equal; lia). Qed.
Lemma popp_add x y : popp C (padd C x y) = padd C (popp C x) (popp C y).
Proof. rewrite !(popp_mul q C HC). apply (c_mulDr _ _ HC). Qed.

(** Two answers to one commitment. *)
Lemma diff_points u1 u2 z b e1 e2 : u1 = padd C z (pmul C e1 b) -> u2 = padd C z (pmul C e2 b) ->
  padd C u1 (popp C u2) = pmul C (e1 - e2) b.
Proof.
  intros -> ->. rewrite popp_add, <- pmul_opp.
  rewrite (padd_swap q C HC), (c_addN _ _ HC), (c_addC _ _ HC), (c_add0 _ _ HC), <- (c_mulDl _ _ HC).
  reflexivity.
Qed.
Lemma divide_point i e b : q <> 0 -> eqm q (i * e) 1 -> pmul C i (pmul C e b) = b.
Proof.
  intros Hq H. rewrite (c_mulA _ _ HC), (pmul_eqm q C HC _ 1); auto. apply (c_mul1 _ _ HC).
Qed.
End CurveDiff.

(** ** Commitments *)
Lemma comv_diff N s t v1 r1 v2 r2 T S e1 e2 : 1 < N -> Z.gcd s N = 1 -> Z.gcd t N = 1 ->
  Z.gcd T N = 1 -> Z.gcd S N = 1 ->
  eqm N (comv N s t v1 r1) (T * zpow N S e1) -> eqm N (comv N s t v2 r2) (T * zpow N S e2) ->
  zpow N S (e1 - e2) = comv N s t (v1 - v2) (r1 - r2).
Proof.
  intros HN Gs Gt GT GS H1 H2. apply eqm_small with N; [apply zpow_range; lia|apply comv_range; lia|].
  apply gauss_eqm with (T * zpow N S e2); [lia|apply gcd_mul_1; auto; apply zpow_gcd; auto; lia|].
  transitivity (T * (zpow N S e2 * zpow N S (e1 - e2))); [apply eqm_eq; ring|].
  rewrite <- zpow_add by (auto; lia). replace (e2 + (e1 - e2)) with e1 by lia.
  rewrite <- H1, <- H2. symmetry.
  rewrite <- (eqm_mod N (_ * _)). rewrite comv_add by (auto; lia).
  apply eqm_eq. f_equal; lia.
Qed.

Lemma abs_quot_le a d e : e <> 0 -> a = d * e -> Z.abs d <= Z.abs a.
Proof. intros He ->. rewrite Z.abs_mul. assert (1 <= Z.abs e) by lia. pose proof (Z.abs_nonneg d). nia. Qed.

(** ** Plaintext relations behind the verification equations *)
Section PlainRel.
Variables (P : pparams) (p q : Z).
Hypothesis HP : params_ok P.
Hypothesis K : keygen_primes (prime_bits P) p q.
Let N := p * q.
Lemma N_gt1 : 1 < N.
Proof.
  destruct (key_exists P p q HP K) as (sk & HK). destruct (key_facts P p q sk HP HK) as (? & ? & HN & ?). apply HN.
Qed.
Lemma wire_encrypts a : Z.gcd a N = 1 -> exists m, encrypts N (a mod (N * N)) m.
Proof.
  intros Hg. pose proof N_gt1. apply (encrypts_exists P p q HP K).
  - apply Z.mod_pos_bound. fold N. nia.
  - fold N. apply gcd_sq in Hg; [|lia]. apply gcd_sq; [lia|]. rewrite gcd_mod_l; auto. nia.
Qed.
(** [c^z1 * enc(z2) = a * d^e]. *)
Lemma affine_plain c cm d dm a am z1 z2 r e cz ez :
  encrypts N c cm -> encrypts N d dm -> encrypts N (a mod (N * N)) am -> 0 <= e ->
  unit_power (N * N) c z1 cz -> paillier_cipher N z2 r ez ->
  (cz * ez) mod (N * N) = (a * d ^ e) mod (N * N) -> eqm N (cm * z1 + z2) (am + dm * e).
Proof.
  intros Hc Hd Ha He Hu Hz Heq. pose proof N_gt1 as HN.
  assert (Hcz : encrypts N cz (cm * z1)) by (eapply encrypts_power; eauto).
  assert (R : encrypts N ((a * d ^ e) mod (N * N)) (am + dm * e)).
  { rewrite Z.mul_mod by nia. apply encrypts_mul; auto. apply encrypts_pow; auto. }
  assert (Hez : encrypts N ez z2).
  { exists r. split; auto. apply encv_textbook in Hz; auto.
    apply (encv_gcd N z2 r HN). rewrite <- Hz.
    apply gcd_mul_1_inv with cz. rewrite Z.mul_comm.
    apply encrypts_gcd in R; auto. rewrite <- Heq in R.
    rewrite <- gcd_sq in R by lia. rewrite gcd_mod_l in R by nia. now rewrite gcd_sq in R by lia. }
  apply (encrypts_unique P p q HP K ((a * d ^ e) mod (N * N))); fold N; auto.
  rewrite <- Heq. apply encrypts_mul; auto.
Qed.
(** [enc(z) = a * d^e], signed exponent. *)
Lemma linear_plain d dm a am z r e de :
  encrypts N d dm -> encrypts N (a mod (N * N)) am -> unit_power (N * N) d e de ->
  paillier_cipher N z r ((a * de) mod (N * N)) -> eqm N z (am + dm * e).
Proof.
  intros Hd Ha Hu Hz. pose proof N_gt1 as HN.
  assert (R : encrypts N ((a * de) mod (N * N)) (am + dm * e)).
  { rewrite <- Z.mul_mod_idemp_l by nia. apply encrypts_mul; auto. eapply encrypts_power; eauto. }
  apply (encrypts_unique P p q HP K ((a * de) mod (N * N))); fold N; auto.
  exists r. split; auto. apply (encv_gcd N z r HN). apply encv_textbook in Hz; auto. rewrite <- Hz.
  now apply encrypts_gcd with (am + dm * e).
Qed.
Lemma divide_plain c m x y : encrypts N c m -> Z.gcd y N = 1 -> eqm N (m * y) (x * y) -> encrypts N c x.
Proof.
  intros Hc Hg H. pose proof N_gt1. apply encrypts_mod_plain with m; auto. apply gauss_eqm with y; [lia|auto|].
  rewrite !(Z.mul_comm y). exact H.
Qed.
End PlainRel.

(** Two openings of [T * S^e1] and [T * S^e2] open [S^(e1-e2)]. *)
Lemma rp_open_diff N s t v1 r1 v2 r2 T S e1 e2 : 1 < N -> Z.gcd s N = 1 -> Z.gcd t N = 1 ->
  Z.gcd T N = 1 -> Z.gcd S N = 1 -> 0 <= e1 -> 0 <= e2 ->
  rp_opens N s t v1 r1 ((T * S ^ e1) mod N) -> rp_opens N s t v2 r2 ((T * S ^ e2) mod N) ->
  exists c, unit_power N S (e1 - e2) c /\ rp_opens N s t (v1 - v2) (r1 - r2) c.
Proof.
  intros HN Gs Gt GT GS H1 H2 O1 O2. exists (zpow N S (e1 - e2)). split.
  - apply unit_power_zpow; auto; lia.
  - apply rp_opens_comv; auto; try lia. apply rp_opens_comv in O1, O2; auto; try lia.
    apply comv_diff with (T := T); auto.
    + rewrite <- O1, eqm_mod. apply eqm_mul_l. symmetry. apply zpow_nonneg. lia.
    + rewrite <- O2, eqm_mod. apply eqm_mul_l. symmetry. apply zpow_nonneg. lia.
Qed.
Lemma pm_diff e a b : 1 <= e -> pm_interval e a -> pm_interval e b -> Z.abs (a - b) < 2 ^ e.
Proof.
  unfold pm_interval. intros He Ha Hb.
  assert (2 ^ e = 2 * 2 ^ (e - 1)). { rewrite <- Z.pow_succ_r by lia. f_equal. lia. }
  lia.
Qed.

Lemma chal_diff_small S e1 e2 : sp_ok S -> 0 <= e1 < sp_q S -> 0 <= e2 < sp_q S -> Z.abs (e1 - e2) < 2 ^ sp_kappa S.
Proof.
  intros HS H1 H2. destruct (q_lt _ _ _ _ _ (so_conv _ HS)) as (Hql & _).
  destruct (so_kappa _ HS) as [E _]. rewrite E in Hql. lia.
Qed.
