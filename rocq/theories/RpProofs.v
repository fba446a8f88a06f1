(** * Ring-Pedersen parameters and commitments. *)
From Coq Require Import ZArith Znumtheory Lia List Setoid Morphisms Bool.
From Verif Require Import Base BaseFacts SignedModel SignedSpec SignedProofs IntLemmas.
From Verif Require Import ModArith RsaFacts PaillierModel PaillierSpec PaillierProofs RnsProofs.
Import ListNotations.
Open Scope Z_scope.

Lemma unit_power_zpow m b v r : 1 < m -> Z.gcd b m = 1 -> (unit_power m b v r <-> r = zpow m b v).
Proof.
  intros Hm Hg. split.
  - intros (Hr & H1 & H2). apply eqm_small with m; auto; [apply zpow_range; lia|].
    destruct (Z.le_gt_cases 0 v).
    + rewrite H1 by auto. rewrite eqm_mod, zpow_nonneg by auto. reflexivity.
    + specialize (H2 ltac:(lia)). change (eqm m (r * b ^ (- v)) 1) in H2.
      apply gauss_eqm with (b ^ (- v)); [lia|apply gcd_pow_1; auto; lia|].
      rewrite Z.mul_comm, H2. rewrite Z.mul_comm. symmetry.
      replace v with (- (- v)) at 1 by lia. apply zpow_neg_cancel; auto; lia.
  - intros ->. split; [apply zpow_range; lia|]. split; intros Hv.
    + unfold zpow. destruct (Z.ltb_spec v 0); [lia|reflexivity].
    + replace v with (- (- v)) at 1 by lia. apply zpow_neg_cancel; auto; lia.
Qed.

(** The commitment value as a formula. *)
Definition comv (N s t v r : Z) : Z := (zpow N s v * zpow N t r) mod N.

Lemma rp_opens_comv N s t v r c : 1 < N -> Z.gcd s N = 1 -> Z.gcd t N = 1 ->
  (rp_opens N s t v r c <-> c = comv N s t v r).
Proof.
  intros HN Hs Ht. split.
  - intros (a & b & Ha & Hb & ->). apply unit_power_zpow in Ha; auto.
    apply unit_power_zpow in Hb; auto. subst. reflexivity.
  - intros ->. exists (zpow N s v), (zpow N t r). rewrite !unit_power_zpow; auto.
Qed.

Lemma comv_range N s t v r : 0 < N -> 0 <= comv N s t v r < N.
Proof. intros. apply Z.mod_pos_bound. lia. Qed.
Lemma comv_eqm N s t v r : eqm N (comv N s t v r) (zpow N s v * zpow N t r).
Proof. apply eqm_mod. Qed.
Lemma comv_gcd N s t v r : 0 < N -> Z.gcd s N = 1 -> Z.gcd t N = 1 -> Z.gcd (comv N s t v r) N = 1.
Proof.
  intros. unfold comv. rewrite gcd_mod_l by lia. apply gcd_mul_1; now apply zpow_gcd.
Qed.
Lemma comv_add N s t v1 r1 v2 r2 : 0 < N -> Z.gcd s N = 1 -> Z.gcd t N = 1 ->
  (comv N s t v1 r1 * comv N s t v2 r2) mod N = comv N s t (v1 + v2) (r1 + r2).
Proof.
  intros. unfold comv at 3. match goal with |- ?a mod _ = ?b mod _ => change (eqm N a b) end.
  rewrite !comv_eqm, !zpow_add by auto. apply eqm_eq. ring.
Qed.
Lemma comv_zpow N s t v r e : 0 < N -> Z.gcd s N = 1 -> Z.gcd t N = 1 ->
  zpow N (comv N s t v r) e = comv N s t (v * e) (r * e).
Proof.
  intros HN Hs Ht. apply eqm_small with N; auto; [now apply zpow_range|now apply comv_range|].
  rewrite (comv_eqm N s t (v * e)).
  rewrite (zpow_eqm N (comv N s t v r) (zpow N s v * zpow N t r)); auto;
    [|now apply comv_gcd|apply comv_eqm].
  rewrite zpow_mul_base by (auto; now apply zpow_gcd).
  rewrite !zpow_mul by auto. reflexivity.
Qed.

Lemma rp_commit_sec_ok rp w1 w2 v r : 1 < rp_n rp -> 0 <= rp_s rp -> 0 <= rp_t rp ->
  Z.gcd (rp_s rp) (rp_n rp) = 1 -> Z.gcd (rp_t rp) (rp_n rp) = 1 -> wf w1 v -> wf w2 r ->
  rp_commit_sec rp w1 w2 v r = Ret (comv (rp_n rp) (rp_s rp) (rp_t rp) (sval w1 v) (sval w2 r)).
Proof.
  intros. unfold rp_commit_sec. rewrite pow_sec_zpow by auto. cbn [obind].
  rewrite pow_sec_zpow by auto. reflexivity.
Qed.
Lemma rp_commit_pub_ok rp w1 w2 v r : 1 < rp_n rp -> 0 <= rp_s rp -> 0 <= rp_t rp ->
  Z.gcd (rp_s rp) (rp_n rp) = 1 -> Z.gcd (rp_t rp) (rp_n rp) = 1 -> wf w1 v -> wf w2 r ->
  rp_commit_pub rp w1 w2 v r = Ret (comv (rp_n rp) (rp_s rp) (rp_t rp) (sval w1 v) (sval w2 r)).
Proof.
  intros. unfold rp_commit_pub. rewrite pow_pub_zpow by auto. cbn [obind].
  rewrite pow_pub_zpow by auto. reflexivity.
Qed.

Lemma rp_commit_sec_panics rp w1 w2 v r : 1 < rp_n rp -> 0 <= rp_s rp -> 0 <= rp_t rp ->
  wf w1 v -> wf w2 r ->
  (rp_commit_sec rp w1 w2 v r = Panic <->
   (Z.gcd (rp_s rp) (rp_n rp) <> 1 /\ sval w1 v <> 0) \/ (Z.gcd (rp_t rp) (rp_n rp) <> 1 /\ sval w2 r <> 0)).
Proof.
  intros HN Hs Ht Hv Hr. unfold rp_commit_sec.
  pose proof (pow_sec_panic w1 (rp_n rp) (rp_s rp) v HN Hv Hs) as A.
  pose proof (pow_sec_panic w2 (rp_n rp) (rp_t rp) r HN Hr Ht) as B.
  destruct (pow_sec w1 (rp_n rp) (rp_s rp) v); cbn [obind].
  - destruct (pow_sec w2 (rp_n rp) (rp_t rp) r); cbn [obind].
    + split; [discriminate|]. intros [H|H]; [apply A in H|apply B in H]; discriminate.
    + split; auto. intros _. right. now apply B.
  - split; auto. intros _. left. now apply A.
Qed.

Lemma rp_commit_zero_value_ok rp w r : 1 < rp_n rp -> 0 <= rp_t rp ->
  Z.gcd (rp_s rp) (rp_n rp) = 1 -> Z.gcd (rp_t rp) (rp_n rp) = 1 -> wf w r ->
  rp_commit_zero_value_sec rp w r = Ret (comv (rp_n rp) (rp_s rp) (rp_t rp) 0 (sval w r)) /\
  rp_commit_zero_value_pub rp w r = Ret (comv (rp_n rp) (rp_s rp) (rp_t rp) 0 (sval w r)).
Proof.
  intros HN Ht Gs Gt Hr. unfold rp_commit_zero_value_sec, rp_commit_zero_value_pub.
  rewrite pow_sec_zpow, pow_pub_zpow by auto.
  assert (E : zpow (rp_n rp) (rp_t rp) (sval w r) = comv (rp_n rp) (rp_s rp) (rp_t rp) 0 (sval w r)).
  { apply eqm_small with (rp_n rp); [apply zpow_range; lia|apply comv_range; lia|].
    rewrite comv_eqm, zpow_0. now rewrite Z.mul_1_l. }
  now rewrite E.
Qed.
Lemma rp_commit_zero_randomizer_ok rp w v : 1 < rp_n rp -> 0 <= rp_s rp ->
  Z.gcd (rp_s rp) (rp_n rp) = 1 -> Z.gcd (rp_t rp) (rp_n rp) = 1 -> wf w v ->
  rp_commit_zero_randomizer_sec rp w v = Ret (comv (rp_n rp) (rp_s rp) (rp_t rp) (sval w v) 0) /\
  rp_commit_zero_randomizer_pub rp w v = Ret (comv (rp_n rp) (rp_s rp) (rp_t rp) (sval w v) 0).
Proof.
  intros HN Ht Gs Gt Hr. unfold rp_commit_zero_randomizer_sec, rp_commit_zero_randomizer_pub.
  rewrite pow_sec_zpow, pow_pub_zpow by auto.
  assert (E : zpow (rp_n rp) (rp_s rp) (sval w v) = comv (rp_n rp) (rp_s rp) (rp_t rp) (sval w v) 0).
  { apply eqm_small with (rp_n rp); [apply zpow_range; lia|apply comv_range; lia|].
    rewrite comv_eqm, zpow_0. now rewrite Z.mul_1_r. }
  now rewrite E.
Qed.

(** ** Generated parameters *)

Lemma residue_found N draws r : random_invertible_residue N draws = Some r ->
  In r draws /\ Z.gcd r N = 1.
Proof.
  induction draws as [|x l IH]; cbn; [discriminate|]. unfold is_invertible.
  destruct (Z.eqb_spec (Z.gcd x N) 1).
  - intros E; inversion E; subst. auto.
  - intros E. apply IH in E. tauto.
Qed.

Lemma qr_found N draws t : 1 < N -> random_quadratic_residue N draws = Some t ->
  0 <= t < N /\ Z.gcd t N = 1 /\ is_square_mod N t.
Proof.
  intros HN. unfold random_quadratic_residue.
  destruct (random_invertible_residue N draws) as [r|] eqn:E; [|discriminate].
  apply residue_found in E. destruct E as [_ Hg]. intros E; inversion E; subst.
  split; [apply Z.mod_pos_bound; lia|]. split.
  - rewrite gcd_mod_l by lia. apply gcd_mul_1; rewrite gcd_mod_l by lia; auto.
  - exists (r mod N). symmetry. apply eqm_mod.
Qed.

Lemma totient_quarter p q : 3 <= p -> 3 <= q -> Z.odd p = true -> Z.odd q = true ->
  1 <= (p - 1) * (q - 1) / 4.
Proof.
  intros. apply Z.div_le_lower_bound; nia.
Qed.

Lemma rp_generated P p q draws draw sec t rp : params_ok P ->
  prime p -> prime q -> Z.odd p = true -> Z.odd q = true ->
  p < 2 ^ prime_bits P -> q < 2 ^ prime_bits P ->
  0 <= draw < (p - 1) * (q - 1) / 4 ->
  rp_secret_new P p q draw = Ret sec ->
  random_quadratic_residue (p * q) draws = Some t ->
  rp_with_secret sec t = Ret rp ->
  rp_n rp = p * q /\ rp_t rp = t /\ uword (rps_lambda sec) = draw /\
  rp_s rp = (t ^ draw) mod (p * q) /\
  0 <= rp_s rp < p * q /\ 0 <= t < p * q /\
  Z.gcd (rp_s rp) (p * q) = 1 /\ Z.gcd t (p * q) = 1 /\
  is_square_mod (p * q) (rp_s rp) /\ is_square_mod (p * q) t.
Proof.
  intros HP Hp Hq Op Oq Bp Bq Hd E1 E2 E3.
  pose proof (prime_ge_2 _ Hp). pose proof (prime_ge_2 _ Hq).
  destruct (modulus_bound P p q HP) as [HN Hmb]; try lia.
  unfold rp_secret_new, primes_new, csub in E1.
  rewrite (proj2 (Z.leb_le 1 p)), (proj2 (Z.leb_le 1 q)) in E1 by lia. cbn [oexpect obind] in E1.
  destruct (oassert _) in E1; [|discriminate]. cbn [obind] in E1.
  destruct (unsigned_new _ _ _) as [l|] eqn:El in E1; [|discriminate]. cbn [oexpect obind] in E1.
  inversion E1; subst sec. clear E1.
  apply unsigned_new_inv in El; try lia. destruct El as (-> & Hb & Hl).
  unfold rp_with_secret in E3. cbn [rps_primes pr_p pr_q rps_lambda] in E3.
  unfold public_key_new in E3. destruct (Z.odd (p * q)); [|discriminate]. cbn [obind] in E3.
  rewrite pow_unsigned_spec in E3 by (cbn; lia). cbn [obind uword] in E3. inversion E3; subst rp.
  cbn [rp_n rp_t rp_s rps_lambda uword].
  destruct (qr_found (p * q) draws t ltac:(lia) E2) as (Rt & Gt & St).
  repeat split; auto; try (apply Z.mod_pos_bound; lia); try lia.
  - rewrite gcd_mod_l by lia. apply gcd_pow_1; auto; lia.
  - destruct St as [y Hy]. exists (y ^ draw). rewrite eqm_mod, <- Hy. now rewrite Z.pow_mul_l.
Qed.

Lemma rp_secret_total P p q draw : params_ok P ->
  prime p -> prime q -> Z.odd p = true -> Z.odd q = true ->
  p < 2 ^ prime_bits P -> q < 2 ^ prime_bits P ->
  0 <= draw < rp_lambda_limit P (Primes p q ((p - 1) * (q - 1))) ->
  exists sec, rp_secret_new P p q draw = Ret sec /\
   forall t, exists rp, rp_with_secret sec t = Ret rp.
Proof.
  intros HP Hp Hq Op Oq Bp Bq Hd.
  pose proof (prime_ge_2 _ Hp). pose proof (prime_ge_2 _ Hq).
  assert (p <> 2) by (intros ->; discriminate Op). assert (q <> 2) by (intros ->; discriminate Oq).
  destruct (modulus_bound P p q HP) as [HN Hmb]; try lia.
  unfold rp_secret_new, primes_new, csub.
  rewrite (proj2 (Z.leb_le 1 p)), (proj2 (Z.leb_le 1 q)) by lia. cbn [oexpect obind].
  destruct (Z.eqb_spec (rp_lambda_limit P (Primes p q ((p - 1) * (q - 1)))) 0); [lia|].
  cbn [negb oassert obind].
  pose proof HP as (HP1 & HP2 & HP3 & HP4 & HP5 & HP6).
  assert (Hl : draw < 2 ^ (modulus_bits P - 2)).
  { unfold rp_lambda_limit, wshr in Hd. cbn [pr_totient] in Hd. change (2 ^ 2) with 4 in Hd.
    assert (E4 : 2 ^ modulus_bits P = 4 * 2 ^ (modulus_bits P - 2)).
    { replace (modulus_bits P) with (2 + (modulus_bits P - 2)) at 1 by lia. rewrite Z.pow_add_r by lia. reflexivity. }
    pose proof (pow2_pos (modulus_bits P - 2) ltac:(lia)).
    destruct (2 <? uint_w P); [|lia].
    assert ((p - 1) * (q - 1) / 4 <= 2 ^ (modulus_bits P - 2)).
    { apply Z.div_le_upper_bound; nia. }
    lia. }
  rewrite unsigned_new_ok by lia. cbn [oexpect obind].
  eexists; split; [reflexivity|]. intros t. unfold rp_with_secret, public_key_new.
  cbn [rps_primes pr_p pr_q rps_lambda]. rewrite Z.odd_mul, Op, Oq. cbn [andb obind].
  unfold pow_unsigned. cbn [obind]. eexists; reflexivity.
Qed.
