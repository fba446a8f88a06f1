(** * Final forms of the Paillier and ring-Pedersen statements. *)
From Coq Require Import ZArith Znumtheory Lia List Setoid Morphisms Bool.
From Verif Require Import Base BaseFacts SignedModel SignedSpec SignedProofs IntLemmas.
From Verif Require Import ModArith RsaFacts PaillierModel PaillierSpec PaillierProofs RnsProofs RpProofs.
Import ListNotations.
Open Scope Z_scope.

Lemma mbits_pos P N : params_ok P -> 1 < N < 2 ^ modulus_bits P -> 1 <= modulus_bits P.
Proof.
  intros HP HN. destruct (Z.le_gt_cases 1 (modulus_bits P)); auto.
  assert (2 ^ modulus_bits P <= 2 ^ 0) by (apply pow2_le; lia). cbn in *. lia.
Qed.

Lemma encrypt_textbook P N rho : p_self_consistent P = true -> 1 < N < 2 ^ modulus_bits P -> 0 <= rho ->
  (forall x, wf (uint_w P) x ->
     exists c, enc P N x rho = Ret (Ct N c) /\ enc_public P N x rho = Ret (Ct N c) /\
               paillier_cipher N (sval (uint_w P) x) rho c) /\
  (forall x, wf (wide_w P) x ->
     exists c, enc_wide P N x rho = Ret (Ct N c) /\ enc_public_wide P N x rho = Ret (Ct N c) /\
               paillier_cipher N (sval (wide_w P) x) rho c).
Proof.
  intros HP HN Hr. apply params_okP in HP. pose proof (mbits_pos P N HP HN).
  split; intros x Hx.
  - rewrite enc_ok, enc_public_ok by auto. eexists. rewrite encv_textbook by lia. eauto.
  - rewrite enc_wide_ok, enc_public_wide_ok by auto. eexists. rewrite encv_textbook by lia. eauto.
Qed.

Lemma decrypt_inverts P p q sk m rho c : p_self_consistent P = true -> prime p -> prime q ->
  p < 2 ^ prime_bits P -> q < 2 ^ prime_bits P -> skey_new P p q = Ret sk ->
  Z.gcd rho (p * q) = 1 -> paillier_cipher (p * q) m rho c ->
  exists r, decrypt P sk (Ct (p * q) c) = Ret r /\ wf (uint_w P) r /\
    centred (p * q) m (sval (uint_w P) r) /\
    (- (p * q) < 2 * m < p * q -> sval (uint_w P) r = m).
Proof.
  intros HP Hp Hq Bp Bq Hsk Hg Hc. apply params_okP in HP.
  pose proof (skey_new_inv P p q sk HP Hp Hq Bp Bq Hsk) as HK.
  destruct (key_facts P p q sk HP HK) as (? & ? & HN & ? & ? & ?).
  apply encv_textbook in Hc; [|lia]. subst c.
  destruct (decrypt_encv P p q sk HP HK m rho Hg) as (r & E & Hw & Hc).
  exists r. split; auto. split; auto. split; auto.
  intros Hm. now apply (centred_small P p q sk HP HK m).
Qed.

Lemma decrypt_total P p q sk v : p_self_consistent P = true -> prime p -> prime q ->
  p < 2 ^ prime_bits P -> q < 2 ^ prime_bits P -> skey_new P p q = Ret sk ->
  0 <= v < (p * q) * (p * q) ->
  exists r, decrypt P sk (Ct (p * q) v) = Ret r /\ wf (uint_w P) r /\
   - (p * q) < 2 * sval (uint_w P) r < p * q.
Proof.
  intros HP Hp Hq Bp Bq Hsk Hv. apply params_okP in HP.
  pose proof (skey_new_inv P p q sk HP Hp Hq Bp Bq Hsk) as HK.
  destruct (decrypt_gen P p q sk HP HK v Hv) as (r & E & Hw & Hc).
  exists r. split; auto. split; auto. apply Hc.
Qed.

Lemma hom_add N m1 r1 c1 m2 r2 c2 : 1 < N -> paillier_cipher N m1 r1 c1 -> paillier_cipher N m2 r2 c2 ->
  exists c, homomorphic_add (Ct N c1) (Ct N c2) = Ret (Ct N c) /\
    paillier_cipher N (m1 + m2) ((r1 * r2) mod N) c.
Proof.
  intros HN H1 H2. apply encv_textbook in H1; auto. apply encv_textbook in H2; auto. subst.
  rewrite homomorphic_add_ok by auto. eexists; split; [reflexivity|]. now apply encv_textbook.
Qed.

Lemma hom_sub N m1 r1 c1 m2 r2 c2 : 1 < N -> Z.gcd r2 N = 1 ->
  paillier_cipher N m1 r1 c1 -> paillier_cipher N m2 r2 c2 ->
  exists c i, homomorphic_sub (Ct N c1) (Ct N c2) = Ret (Ct N c) /\ (r2 * i) mod N = 1 mod N /\
    paillier_cipher N (m1 - m2) ((r1 * i) mod N) c.
Proof.
  intros HN Hg H1 H2. apply encv_textbook in H1; auto. apply encv_textbook in H2; auto. subst.
  rewrite homomorphic_sub_ok by auto. eexists; exists (zinv N r2). split; [reflexivity|].
  split; [apply zinv_spec; auto; lia|]. now apply encv_textbook.
Qed.

Lemma hom_mul N m rho c w x : 1 < N -> Z.gcd rho N = 1 -> wf w x -> paillier_cipher N m rho c ->
  exists d r, homomorphic_mul_pub w (Ct N c) x = Ret (Ct N d) /\
    homomorphic_mul_sec w (Ct N c) x = Ret (Ct N d) /\
    unit_power N rho (sval w x) r /\ paillier_cipher N (m * sval w x) r d.
Proof.
  intros HN Hg Hx Hc. apply encv_textbook in Hc; auto. subst.
  rewrite homomorphic_mul_pub_ok, homomorphic_mul_sec_ok by auto.
  do 2 eexists. repeat (split; [reflexivity|]). rewrite unit_power_zpow by auto.
  split; [reflexivity|]. now apply encv_textbook.
Qed.

Lemma hom_mul_panics N v w x : 1 < N -> 0 <= v -> wf w x ->
  (homomorphic_mul_pub w (Ct N v) x = Panic <-> Z.gcd v N <> 1 /\ sval w x < 0) /\
  (homomorphic_mul_sec w (Ct N v) x = Panic <-> Z.gcd v N <> 1 /\ sval w x <> 0).
Proof.
  intros HN Hv Hx. unfold homomorphic_mul_pub, homomorphic_mul_sec. cbn [ct_pk ct_val].
  rewrite <- !(gcd_sq v N) by lia.
  rewrite <- pow_pub_panic, <- pow_sec_panic; try (nia || eassumption).
  split.
  - destruct (pow_pub w (N * N) v x); cbn [obind]; split; congruence.
  - destruct (pow_sec w (N * N) v x); cbn [obind]; split; congruence.
Qed.

Lemma randomizer_recovered P p q sk m rho c : p_self_consistent P = true -> prime p -> prime q ->
  p < 2 ^ prime_bits P -> q < 2 ^ prime_bits P -> skey_new P p q = Ret sk ->
  0 <= rho < p * q -> Z.gcd rho (p * q) = 1 -> paillier_cipher (p * q) m rho c ->
  derive_randomizer P sk (Ct (p * q) c) = Ret rho.
Proof.
  intros HP Hp Hq Bp Bq Hsk Hr Hg Hc. apply params_okP in HP.
  pose proof (skey_new_inv P p q sk HP Hp Hq Bp Bq Hsk) as HK.
  destruct (key_facts P p q sk HP HK) as (? & ? & HN & ? & ? & ?).
  apply encv_textbook in Hc; [|lia]. subst c. now apply (derive_encv P p q sk HP HK).
Qed.

Lemma ciphertext_opened P p q sk c : p_self_consistent P = true -> prime p -> prime q ->
  p < 2 ^ prime_bits P -> q < 2 ^ prime_bits P -> skey_new P p q = Ret sk ->
  0 <= c < (p * q) * (p * q) -> Z.gcd c (p * q) = 1 ->
  exists m rho, decrypt P sk (Ct (p * q) c) = Ret m /\
    derive_randomizer P sk (Ct (p * q) c) = Ret rho /\
    0 <= rho < p * q /\ Z.gcd rho (p * q) = 1 /\
    paillier_cipher (p * q) (sval (uint_w P) m) rho c.
Proof.
  intros HP Hp Hq Bp Bq Hsk Hr Hg. apply params_okP in HP.
  pose proof (skey_new_inv P p q sk HP Hp Hq Bp Bq Hsk) as HK.
  destruct (key_facts P p q sk HP HK) as (? & ? & HN & ? & ? & ?).
  destruct (cipher_recovered P p q sk HP HK c Hr Hg) as (m & rho & E1 & E2 & _ & R & G & V).
  exists m, rho. split; auto. split; auto. split; auto. split; auto. apply encv_textbook in V; [auto|lia].
Qed.

Lemma sigma_reencryption P N x a z e rho r : p_self_consistent P = true -> 1 < N < 2 ^ modulus_bits P ->
  wf (uint_w P) x -> wf (uint_w P) a -> wf (uint_w P) z -> wf (uint_w P) e ->
  sval (uint_w P) z = sval (uint_w P) a + sval (uint_w P) e * sval (uint_w P) x ->
  0 <= rho -> Z.gcd rho N = 1 -> 0 <= r ->
  exists w cx ca ce c, to_masked P N rho r e = Ret w /\
    enc P N x rho = Ret cx /\ enc P N a r = Ret ca /\
    homomorphic_mul_pub (uint_w P) cx e = Ret ce /\ homomorphic_add ce ca = Ret c /\
    enc_public P N z w = Ret c.
Proof.
  intros HP HN Hx Ha Hz He Hv Hr Hg Hr'. apply params_okP in HP. pose proof (mbits_pos P N HP HN).
  rewrite to_masked_ok by (auto; lia). rewrite !enc_ok by auto.
  set (W := uint_w P) in *.
  exists ((zpow N rho (sval W e) * r) mod N), (Ct N (encv N (sval W x) rho)), (Ct N (encv N (sval W a) r)),
    (Ct N (encv N (sval W x * sval W e) (zpow N rho (sval W e)))),
    (Ct N (encv N (sval W x * sval W e + sval W a) ((zpow N rho (sval W e) * r) mod N))).
  split; [reflexivity|]. split; [reflexivity|]. split; [reflexivity|].
  split; [apply homomorphic_mul_pub_ok; auto; lia|].
  split; [apply homomorphic_add_ok; lia|].
  rewrite enc_public_ok; auto; [|apply Z.mod_pos_bound; lia].
  fold W. rewrite Hv. do 3 f_equal. ring.
Qed.

Lemma rns_roundtrip P p q sk : p_self_consistent P = true -> prime p -> prime q ->
  p < 2 ^ prime_bits P -> q < 2 ^ prime_bits P -> skey_new P p q = Ret sk ->
  (forall x, 0 <= x < p * q -> exists ab, rns_split P sk x = Ret ab /\ rns_join P sk ab = Ret x) /\
  (forall a b, 0 <= a < p -> 0 <= b < q -> exists x, rns_join P sk (a, b) = Ret x /\
     0 <= x < p * q /\ rns_split P sk x = Ret (a, b)).
Proof.
  intros HP Hp Hq Bp Bq Hsk. apply params_okP in HP.
  pose proof (skey_new_inv P p q sk HP Hp Hq Bp Bq Hsk) as HK.
  destruct (key_facts P p q sk HP HK) as (? & ? & HN & ? & ? & ?).
  pose proof HP as (HP1 & HP2 & HP3 & HP4 & HP5 & HP6).
  pose proof (pow2_le (modulus_bits P) (uint_w P) ltac:(lia)).
  split.
  - intros x Hx. eexists. rewrite (rns_split_ok P p q sk HP HK) by lia. split; [reflexivity|].
    now apply (rns_join_split P p q sk HP HK).
  - intros a b Ha Hb. destruct (rns_join_ok P p q sk HP HK a b Ha Hb) as (x & E & Rx & Ea & Eb).
    exists x. split; auto. split; auto. rewrite (rns_split_ok P p q sk HP HK) by lia.
    now rewrite Ea, Eb.
Qed.

Lemma rns_sqrt_exact P p q sk x : p_self_consistent P = true -> prime p -> prime q ->
  p mod 4 = 3 -> q mod 4 = 3 ->
  p < 2 ^ prime_bits P -> q < 2 ^ prime_bits P -> skey_new P p q = Ret sk -> 0 <= x < p * q ->
  exists ab, rns_split P sk x = Ret ab /\
  (square_mod (p * q) x -> exists rt y, rns_sqrt P sk ab = Some rt /\ rns_join P sk rt = Ret y /\
     0 <= y < p * q /\ (y * y) mod (p * q) = x /\ square_mod (p * q) y) /\
  (~ square_mod (p * q) x -> rns_sqrt P sk ab = None).
Proof.
  intros HP Hp Hq P4 Q4 Bp Bq Hsk Hx. apply params_okP in HP.
  pose proof (skey_new_inv P p q sk HP Hp Hq Bp Bq Hsk) as HK.
  destruct (key_facts P p q sk HP HK) as (? & ? & HN & ? & ? & ?).
  pose proof HP as (HP1 & HP2 & HP3 & HP4 & HP5 & HP6).
  pose proof (pow2_le (modulus_bits P) (uint_w P) ltac:(lia)).
  exists (x mod p, x mod q). split; [apply (rns_split_ok P p q sk HP HK); lia|].
  pose proof (rns_sqrt_spec P p q sk HP HK x P4 Q4) as S. unfold square_mod.
  destruct (rns_sqrt P sk (x mod p, x mod q)) as [rt|].
  - destruct S as [Sx (y & Ey & Ry & Yy & Sy)]. split.
    + intros _. exists rt, y. repeat split; auto; try lia. red in Yy. rewrite Yy.
      now apply Z.mod_small.
    + intros N. exfalso. now apply N.
  - split; auto. intros C. exfalso. now apply S.
Qed.

Lemma nonsquare_sampler P p q sk draws y b : p_self_consistent P = true -> prime p -> prime q ->
  p mod 4 = 3 -> q mod 4 = 3 ->
  p < 2 ^ prime_bits P -> q < 2 ^ prime_bits P -> skey_new P p q = Ret sk ->
  random_quadratic_residue (p * q) draws = Some y ->
  0 <= nonsquare_residue sk y b < p * q /\ Z.gcd (nonsquare_residue sk y b) (p * q) = 1 /\
  ~ square_mod (p * q) (nonsquare_residue sk y b) /\
  (forall v, Z.gcd v (p * q) = 1 -> exists s t : bool, forall s' t' : bool,
     (fourth_power_mod (p * q) ((if s' then -1 else 1) * (if t' then nonsquare_residue sk y b else 1) * v)
      <-> s' = s /\ t' = t)).
Proof.
  intros HP Hp Hq P4 Q4 Bp Bq Hsk Hy. apply params_okP in HP.
  pose proof (skey_new_inv P p q sk HP Hp Hq Bp Bq Hsk) as HK.
  unfold random_quadratic_residue in Hy.
  destruct (random_invertible_residue (p * q) draws) as [r|] eqn:E; [|discriminate].
  apply residue_found in E. destruct E as [_ Gr]. inversion Hy; subst y. clear Hy.
  pose proof (nonsquare_ok P p q sk HP HK r b P4 Q4 Gr) as H. cbv zeta in H.
  destruct H as (R & G & X & S). set (w := nonsquare_residue _ _ _) in *.
  split; auto. split; auto. split; auto. intros v Gv.
  destruct (four_candidates P p q sk HP HK w v P4 Q4 G Gv X) as (s & t & F).
  exists s, t. intros s' t'. rewrite (fourth_root_N P p q sk HP HK) by auto. apply F.
Qed.

(** ** Ring-Pedersen *)

Definition rp_units (rp : rpparams) : Prop :=
  1 < rp_n rp /\ 0 <= rp_s rp < rp_n rp /\ 0 <= rp_t rp < rp_n rp /\
  Z.gcd (rp_s rp) (rp_n rp) = 1 /\ Z.gcd (rp_t rp) (rp_n rp) = 1.

Lemma rp_commit_correct rp w1 w2 v r : 1 < rp_n rp -> 0 <= rp_s rp -> 0 <= rp_t rp ->
  Z.gcd (rp_s rp) (rp_n rp) = 1 -> Z.gcd (rp_t rp) (rp_n rp) = 1 -> wf w1 v -> wf w2 r ->
  exists c, rp_commit_sec rp w1 w2 v r = Ret c /\ rp_commit_pub rp w1 w2 v r = Ret c /\
    rp_opens (rp_n rp) (rp_s rp) (rp_t rp) (sval w1 v) (sval w2 r) c.
Proof.
  intros. rewrite rp_commit_sec_ok, rp_commit_pub_ok by auto. eexists.
  rewrite rp_opens_comv by auto. eauto.
Qed.

Lemma rp_homomorphic N s t : 1 < N -> Z.gcd s N = 1 -> Z.gcd t N = 1 ->
  (forall v1 r1 c1 v2 r2 c2, rp_opens N s t v1 r1 c1 -> rp_opens N s t v2 r2 c2 ->
     rp_opens N s t (v1 + v2) (r1 + r2) (rpc_mul (RP N t s) c1 c2)) /\
  (forall v r c w e, rp_opens N s t v r c -> wf w e ->
     exists d, rpc_pow_pub (RP N t s) w c e = Ret d /\ rpc_pow_sec (RP N t s) w c e = Ret d /\
       rp_opens N s t (v * sval w e) (r * sval w e) d).
Proof.
  intros HN Gs Gt. split.
  - intros v1 r1 c1 v2 r2 c2 H1 H2. apply rp_opens_comv in H1; auto. apply rp_opens_comv in H2; auto.
    apply rp_opens_comv; auto. subst. unfold rpc_mul. cbn [rp_n]. apply comv_add; auto; lia.
  - intros v r c w e H He. apply rp_opens_comv in H; auto. subst c.
    pose proof (comv_range N s t v r ltac:(lia)).
    pose proof (comv_gcd N s t v r ltac:(lia) Gs Gt).
    unfold rpc_pow_pub, rpc_pow_sec. cbn [rp_n].
    rewrite pow_pub_zpow, pow_sec_zpow by (auto; lia). eexists. split; [reflexivity|].
    split; [reflexivity|]. apply rp_opens_comv; auto. apply comv_zpow; auto; lia.
Qed.

Lemma rp_generation P p q draw draws t : p_self_consistent P = true -> prime p -> prime q ->
  Z.odd p = true -> Z.odd q = true -> p < 2 ^ prime_bits P -> q < 2 ^ prime_bits P ->
  0 <= draw < (p - 1) * (q - 1) / 4 -> random_quadratic_residue (p * q) draws = Some t ->
  exists sec rp, rp_secret_new P p q draw = Ret sec /\ rp_with_secret sec t = Ret rp /\
  rp_n rp = p * q /\ rp_t rp = t /\ rp_s rp = (t ^ draw) mod (p * q) /\
  0 <= rp_s rp < p * q /\ 0 <= t < p * q /\
  Z.gcd (rp_s rp) (p * q) = 1 /\ Z.gcd t (p * q) = 1 /\
  square_mod (p * q) (rp_s rp) /\ square_mod (p * q) t.
Proof.
  intros HP Hp Hq Op Oq Bp Bq Hd Ht. apply params_okP in HP.
  pose proof (prime_ge_2 _ Hp). pose proof (prime_ge_2 _ Hq).
  destruct (modulus_bound P p q HP) as [HN Hmb]; try lia.
  assert (Hlim : 0 <= draw < rp_lambda_limit P (Primes p q ((p - 1) * (q - 1)))).
  { unfold rp_lambda_limit, wshr. cbn [pr_totient]. change (2 ^ 2) with 4.
    destruct (Z.ltb_spec 2 (uint_w P)); auto.
    pose proof HP as (HP1 & HP2 & HP3 & HP4 & HP5 & HP6).
    assert (p <> 2) by (intros ->; discriminate Op). assert (q <> 2) by (intros ->; discriminate Oq).
    assert (modulus_bits P = 2) by lia. replace (modulus_bits P) with 2 in HN by lia.
    change (2 ^ 2) with 4 in HN. nia. }
  destruct (rp_secret_total P p q draw HP Hp Hq Op Oq Bp Bq Hlim) as (sec & E1 & E2).
  destruct (E2 t) as (rp & E3). exists sec, rp. split; auto. split; auto.
  destruct (rp_generated P p q draws draw sec t rp HP Hp Hq Op Oq Bp Bq Hd E1 Ht E3)
    as (A1 & A2 & _ & A4 & A5 & A6 & A7 & A8 & A9 & A10).
  repeat split; auto; lia.
Qed.

Lemma wrong_key_panics P sk c : ct_pk c <> sk_pk sk ->
  decrypt P sk c = Panic /\ derive_randomizer P sk c = Panic.
Proof.
  intros H. unfold decrypt, derive_randomizer.
  destruct (Z.eqb_spec (sk_pk sk) (ct_pk c)); [congruence|auto].
Qed.

Lemma even_modulus_panics N : public_key_new N = Panic <-> (2 | N).
Proof.
  unfold public_key_new. rewrite <- Z.negb_even. destruct (Z.even N) eqn:E; cbn; split; intros H; auto; try discriminate.
  - apply Z.even_spec in E. destruct E as (k & ->). exists k. lia.
  - destruct H as (k & ->). rewrite Z.even_mul in E. cbn in E. rewrite orb_true_r in E. discriminate.
Qed.

Lemma odd_modulus_kept N n : public_key_new N = Ret n -> n = N /\ N mod 2 = 1.
Proof.
  unfold public_key_new. destruct (Z.odd N) eqn:E; intros H; inversion H; subst. split; auto.
  rewrite Zmod_odd, E. auto.
Qed.
