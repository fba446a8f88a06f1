(** * Proofs about the Paillier model. *)
From Coq Require Import ZArith Znumtheory Lia List Setoid Morphisms Bool.
From Verif Require Import Base BaseFacts SignedModel SignedSpec SignedProofs IntLemmas.
From Verif Require Import ModArith RsaFacts PaillierModel PaillierSpec.
Import ListNotations.
Open Scope Z_scope.

(** ** Exponentiation of units is the signed power *)

Lemma pow_pub_zpow w m b x : 1 < m -> wf w x -> 0 <= b -> Z.gcd b m = 1 ->
  pow_pub w m b x = Ret (zpow m b (sval w x)).
Proof.
  intros Hm Hx Hb Hg. rewrite pow_pub_spec by auto. unfold zpow.
  destruct (Z.ltb_spec (sval w x) 0); auto.
  assert (Hgp : Z.gcd (b ^ (- sval w x) mod m) m = 1).
  { rewrite gcd_mod_l by lia. apply gcd_pow_1; [lia|auto]. }
  rewrite inv_mod_zinv by lia || auto. cbn. f_equal.
  apply eqm_small with m; [apply zinv_range; lia|apply Z.mod_pos_bound; lia|].
  rewrite (eqm_mod m (zinv m b ^ _)).
  rewrite (zinv_eqm m _ (b ^ (- sval w x))); [|lia|auto|apply eqm_mod].
  apply zinv_pow; lia || auto.
Qed.
Lemma pow_sec_zpow w m b x : 1 < m -> wf w x -> 0 <= b -> Z.gcd b m = 1 ->
  pow_sec w m b x = Ret (zpow m b (sval w x)).
Proof. intros. rewrite pow_agree_units by auto. now apply pow_pub_zpow. Qed.

(** Non-negative public exponents need no inverse. *)
Lemma pow_pub_nonneg w m b x : 1 < m -> wf w x -> 0 <= b -> 0 <= sval w x ->
  pow_pub w m b x = Ret ((b ^ sval w x) mod m).
Proof.
  intros. rewrite pow_pub_spec by auto. destruct (Z.ltb_spec (sval w x) 0); auto; lia.
Qed.

Lemma pow_unsigned_spec m b x : 0 <= uword x < 2 ^ ubound x ->
  pow_unsigned m b x = Ret ((b ^ uword x) mod m).
Proof. intros. unfold pow_unsigned. rewrite pow_bounded_eq. now rewrite (Z.mod_small (uword x)). Qed.

Lemma unsigned_new_ok w v b : 0 <= v -> 0 <= b <= w -> v < 2 ^ b -> unsigned_new w v b = Some (mkU b v).
Proof.
  intros Hv Hb H. unfold unsigned_new. apply bits_le in H; try lia.
  rewrite (proj2 (Z.leb_le b w)), (proj2 (Z.leb_le _ b)) by lia. reflexivity.
Qed.
Lemma unsigned_new_inv w v b u : 0 <= v -> 0 <= b -> unsigned_new w v b = Some u ->
  u = mkU b v /\ b <= w /\ v < 2 ^ b.
Proof.
  intros Hv Hb. unfold unsigned_new.
  destruct (Z.leb_spec b w), (Z.leb_spec (bits v) b); cbn; try discriminate.
  intros E; inversion E. repeat split; auto. apply bits_le; auto.
Qed.

(** ** Parameters *)

Definition params_ok (P : pparams) : Prop :=
  modulus_bits P = 2 * prime_bits P /\ prime_bits P <= half_w P /\
  modulus_bits P <= uint_w P /\ half_w P <= uint_w P /\
  modulus_bits P * 2 <= wide_w P /\ uint_w P <= wide_w P.

Lemma params_okP P : p_self_consistent P = true -> params_ok P.
Proof.
  unfold p_self_consistent, params_ok. rewrite !andb_true_iff, !Z.eqb_eq, !Z.leb_le. tauto.
Qed.

Lemma modulus_signed_ok P N : params_ok P -> 1 <= modulus_bits P -> 0 <= N < 2 ^ modulus_bits P ->
  exists e, modulus_signed P N = Ret e /\ wf (wide_w P) e /\ sval (wide_w P) e = N.
Proof.
  intros (Hm & Hh & Hu & Hhu & Hw & Huw) Hm1 HN. unfold modulus_signed, pub_new_positive.
  destruct (pub_new_from_abs_ok (wide_w P) N (modulus_bits P) false) as (e & E & He & _ & Hv);
    try lia.
  rewrite E. exists e. cbn. auto.
Qed.

(** ** Encryption *)

(** The ciphertext value, as a formula. *)
Definition encv (N m rho : Z) : Z := ((1 + m * N) * rho ^ N) mod (N * N).

Lemma encv_range N m rho : 0 < N -> 0 <= encv N m rho < N * N.
Proof. intros. apply Z.mod_pos_bound. nia. Qed.
Lemma encv_eqm N m rho : eqm (N * N) (encv N m rho) ((1 + m * N) * rho ^ N).
Proof. apply eqm_mod. Qed.

Lemma encv_textbook N m rho c : 1 < N -> (paillier_cipher N m rho c <-> c = encv N m rho).
Proof.
  intros HN.
  assert (Hpos : 0 <= m -> eqm (N * N) ((1 + N) ^ m) (1 + m * N)).
  { intros. replace (1 + N) with (1 + 1 * N) by ring. rewrite one_plus_pow by lia.
    apply eqm_eq. ring. }
  assert (Hneg : m < 0 -> eqm (N * N) ((1 + N) ^ (- m)) (1 + (- m) * N)).
  { intros. replace (1 + N) with (1 + 1 * N) by ring. rewrite one_plus_pow by lia.
    apply eqm_eq. ring. }
  assert (Hcancel : eqm (N * N) ((1 + m * N) * (1 + - m * N)) 1).
  { rewrite one_plus_mul. apply eqm_eq. ring. }
  split.
  - intros (Hr & H1 & H2). apply eqm_small with (N * N); auto; [now apply encv_range; lia|].
    destruct (Z.le_gt_cases 0 m).
    + rewrite H1 by auto. rewrite eqm_mod, encv_eqm. now rewrite Hpos.
    + specialize (H2 ltac:(lia)). rewrite encv_eqm.
      change (eqm (N * N) (c * (1 + N) ^ (- m)) (rho ^ N)) in H2.
      rewrite <- H2, Hneg by lia.
      replace ((1 + m * N) * (c * (1 + - m * N))) with (c * ((1 + m * N) * (1 + - m * N))) by ring.
      rewrite Hcancel. now rewrite Z.mul_1_r.
  - intros ->. split; [now apply encv_range; lia|]. split; intros Hm.
    + apply eqm_small with (N * N); [now apply encv_range; lia|apply Z.mod_pos_bound; nia|].
      rewrite eqm_mod, encv_eqm. now rewrite Hpos.
    + change (eqm (N * N) (encv N m rho * (1 + N) ^ (- m)) (rho ^ N)).
      rewrite encv_eqm, Hneg by lia.
      replace ((1 + m * N) * rho ^ N * (1 + - m * N)) with ((1 + m * N) * (1 + - m * N) * rho ^ N) by ring.
      rewrite Hcancel. now rewrite Z.mul_1_l.
Qed.

Lemma encv_plain_mod N m m' rho : 0 < N -> eqm N m m' -> encv N m rho = encv N m' rho.
Proof.
  intros HN H. apply one_plus_eqm in H; auto. unfold encv. 
  change (eqm (N * N) ((1 + m * N) * rho ^ N) ((1 + m' * N) * rho ^ N)). now rewrite H.
Qed.
Lemma encv_rand_mod N m rho rho' : 0 < N -> eqm N rho rho' -> encv N m rho = encv N m rho'.
Proof.
  intros HN H. unfold encv.
  change (eqm (N * N) ((1 + m * N) * rho ^ N) ((1 + m * N) * rho' ^ N)).
  now rewrite (pow_n_lift N rho rho').
Qed.
Lemma encv_gcd N m rho : 1 < N -> (Z.gcd (encv N m rho) N = 1 <-> Z.gcd rho N = 1).
Proof.
  intros HN. unfold encv.
  assert (E : Z.gcd (((1 + m * N) * rho ^ N) mod (N * N)) N = Z.gcd (rho ^ N) N).
  { apply eqm_gcd; [lia|].
    rewrite eqm_mod_l by lia. rewrite (eqm_add_mult N 1 m). now rewrite Z.mul_1_l. }
  rewrite E. split; intros H; [apply gcd_pow_1_inv in H; auto; lia|apply gcd_pow_1; auto; lia].
Qed.

Lemma enc_inner_ok P N abs rho neg : params_ok P -> 1 < N < 2 ^ modulus_bits P -> 1 <= modulus_bits P ->
  0 <= rho -> enc_inner P N abs rho neg = Ret (Ct N (encv N (if neg then - abs else abs) rho)).
Proof.
  intros HP HN Hm Hr. unfold enc_inner.
  destruct (modulus_signed_ok P N HP Hm ltac:(lia)) as (e & -> & He & Hv). cbn [obind].
  assert (Hn2 : 1 < N * N) by nia.
  rewrite pow_pub_nonneg; auto; [|apply Z.mod_pos_bound; lia|lia].
  cbn [obind]. rewrite Hv. do 2 f_equal. unfold encv. 
  match goal with |- ?a mod _ = ?b mod _ => change (eqm (N * N) a b) end.
  rewrite !eqm_mod. destruct neg; rewrite ?eqm_mod; apply eqm_eq; ring.
Qed.

Lemma enc_inner_sval P N w x rho : params_ok P -> 1 < N < 2 ^ modulus_bits P -> 1 <= modulus_bits P ->
  0 <= rho -> wf w x ->
  enc_inner P N (Z.abs (sval w x)) rho (is_negative w x) = Ret (Ct N (encv N (sval w x) rho)).
Proof.
  intros HP HN Hm Hr Hx. rewrite enc_inner_ok by auto.
  destruct Hx as (Hw & Hb & _). rewrite is_negative_spec by lia.
  do 3 f_equal. destruct (Z.ltb_spec (sval w x) 0); lia.
Qed.

Lemma enc_ok P N x rho : params_ok P -> 1 < N < 2 ^ modulus_bits P -> 1 <= modulus_bits P ->
  0 <= rho -> wf (uint_w P) x -> enc P N x rho = Ret (Ct N (encv N (sval (uint_w P) x) rho)).
Proof.
  intros HP HN Hm Hr Hx. unfold enc. rewrite sec_abs_spec by auto. now apply enc_inner_sval.
Qed.
Lemma enc_wide_ok P N x rho : params_ok P -> 1 < N < 2 ^ modulus_bits P -> 1 <= modulus_bits P ->
  0 <= rho -> wf (wide_w P) x -> enc_wide P N x rho = Ret (Ct N (encv N (sval (wide_w P) x) rho)).
Proof.
  intros HP HN Hm Hr Hx. unfold enc_wide. rewrite sec_abs_spec by auto. now apply enc_inner_sval.
Qed.
Lemma enc_public_ok P N x rho : params_ok P -> 1 < N < 2 ^ modulus_bits P -> 1 <= modulus_bits P ->
  0 <= rho -> wf (uint_w P) x -> enc_public P N x rho = Ret (Ct N (encv N (sval (uint_w P) x) rho)).
Proof.
  intros HP HN Hm Hr Hx. unfold enc_public. pose proof Hx as (Hw & Hb & Ha).
  rewrite pub_abs_spec by lia. now apply enc_inner_sval.
Qed.
Lemma enc_public_wide_ok P N x rho : params_ok P -> 1 < N < 2 ^ modulus_bits P -> 1 <= modulus_bits P ->
  0 <= rho -> wf (wide_w P) x -> enc_public_wide P N x rho = Ret (Ct N (encv N (sval (wide_w P) x) rho)).
Proof.
  intros HP HN Hm Hr Hx. unfold enc_public_wide. pose proof Hx as (Hw & Hb & Ha).
  rewrite pub_abs_spec by lia. now apply enc_inner_sval.
Qed.

(** ** The secret key *)

Record key_ok (P : pparams) (p q : Z) (sk : skey) : Prop := KeyOk {
  ko_p : prime p; ko_q : prime q; ko_ne : p <> q;
  ko_op : Z.odd p = true; ko_oq : Z.odd q = true;
  ko_bp : p < 2 ^ prime_bits P; ko_bq : q < 2 ^ prime_bits P;
  ko_primes : sk_primes sk = Primes p q ((p - 1) * (q - 1));
  ko_pk : sk_pk sk = p * q;
  ko_gcd : Z.gcd (p * q) ((p - 1) * (q - 1)) = 1;
  ko_it_r : 0 <= sk_inv_totient sk < p * q;
  ko_it : eqm (p * q) ((p - 1) * (q - 1) * sk_inv_totient sk) 1;
  ko_im_b : ubound (sk_inv_modulus sk) = modulus_bits P;
  ko_im_r : 0 <= uword (sk_inv_modulus sk) < (p - 1) * (q - 1);
  ko_im : eqm ((p - 1) * (q - 1)) (p * q * uword (sk_inv_modulus sk)) 1;
  ko_ip_r : 0 <= sk_inv_p_mod_q sk < q;
  ko_ip : eqm q (p * sk_inv_p_mod_q sk) 1;
  ko_u_r : 0 <= sk_u sk < p * q;
  ko_u_p : eqm p (sk_u sk) (-1);
  ko_u_q : eqm q (sk_u sk) 1 }.


Lemma pow_gt1_pos b p : 2 <= p -> p < 2 ^ b -> 1 < b.
Proof.
  intros Hp Hb. destruct (Z.le_gt_cases b 1); auto.
  assert (2 ^ b <= 2 ^ 1) by (apply pow2_le; lia). lia.
Qed.

Lemma modulus_bound P p q : params_ok P -> 2 <= p < 2 ^ prime_bits P -> 2 <= q < 2 ^ prime_bits P ->
  1 < p * q < 2 ^ modulus_bits P /\ 2 <= modulus_bits P.
Proof.
  intros (-> & _) Hp Hq. pose proof (pow_gt1_pos (prime_bits P) p ltac:(lia) ltac:(lia)).
  replace (2 * prime_bits P) with (prime_bits P + prime_bits P) by lia.
  rewrite Z.pow_add_r by lia. split; [split|lia]; [nia|]. apply Z.mul_lt_mono_nonneg; lia.
Qed.

Lemma skey_new_inv P p q sk : params_ok P -> prime p -> prime q ->
  p < 2 ^ prime_bits P -> q < 2 ^ prime_bits P -> skey_new P p q = Ret sk -> key_ok P p q sk.
Proof.
  intros HP Hp Hq Bp Bq. pose proof (prime_ge_2 _ Hp). pose proof (prime_ge_2 _ Hq).
  destruct (modulus_bound P p q HP) as [HN Hmb]; try lia.
  unfold skey_new, primes_new, csub.
  rewrite (proj2 (Z.leb_le 1 p)), (proj2 (Z.leb_le 1 q)) by lia. cbn [oexpect obind pr_totient].
  unfold public_key_new. destruct (Z.odd (p * q)) eqn:Eo; [|discriminate]. cbn [obind].
  destruct (Z.odd p) eqn:Op; [|discriminate]. destruct (Z.odd q) eqn:Oq; [|discriminate].
  cbn [oassert obind].
  assert (Hp3 : 3 <= p). { assert (p <> 2) by (intros ->; discriminate). lia. }
  assert (Hq3 : 3 <= q). { assert (q <> 2) by (intros ->; discriminate). lia. }
  set (phi := (p - 1) * (q - 1)) in *. assert (Hphi : 1 < phi) by (unfold phi; nia).
  destruct (inv_mod (p * q) phi) as [it|] eqn:Eit; [|discriminate]. cbn [oexpect obind].
  destruct (inv_mod phi (p * q)) as [im|] eqn:Eim; [|discriminate]. cbn [oexpect obind].
  destruct (unsigned_new (uint_w P) im (modulus_bits P)) as [u|] eqn:Eu; [|discriminate]. cbn [oexpect obind].
  destruct (inv_mod q p) as [ip|] eqn:Eip; [|discriminate]. cbn [oexpect obind].
  apply inv_mod_Some in Eit; [|lia]. destruct Eit as [Rit Eit].
  pose proof Eim as Eim0.
  apply inv_mod_Some in Eim; [|lia]. destruct Eim as [Rim Eim].
  apply inv_mod_Some in Eip; [|lia]. destruct Eip as [Rip Eip].
  apply unsigned_new_inv in Eu; try lia. destruct Eu as (-> & _ & _).
  set (t := (ip + ip - 1) mod q).
  assert (Ht : 0 <= t < q) by (apply Z.mod_pos_bound; lia).
  destruct (Z.ltb_spec (t * p + p) (2 ^ uint_w P)); [|discriminate]. cbn [oassert obind].
  rewrite (proj2 (Z.leb_le 1 (t * p + p))) by nia. cbn [oexpect obind].
  intros E. inversion E; subst sk; clear E.
  assert (Hg : Z.gcd (p * q) phi = 1).
  { destruct (Z.eq_dec (Z.gcd (p * q) phi) 1); auto. apply (inv_mod_None phi (p * q)) in n; [|lia].
    congruence. }
  assert (Hne : p <> q).
  { intros ->. change (eqm q (q * ip) 1) in Eip.
    assert (E0 : eqm q (q * ip) 0) by (apply eqm_0; [lia|apply Z.divide_factor_l]).
    rewrite E0 in Eip. red in Eip. rewrite Z.mod_0_l, Z.mod_1_l in Eip; lia. }
  constructor; cbn [sk_primes sk_pk sk_inv_totient sk_inv_modulus sk_inv_p_mod_q sk_u ubound uword]; auto.
  - apply Z.mod_pos_bound; lia.
  - rewrite eqm_mod_l by lia.
    replace (t * p + p - 1) with (-1 + (t + 1) * p) by ring. apply eqm_add_mult.
  - rewrite eqm_mod_r by lia.
    unfold t. rewrite eqm_mod.
    replace ((ip + ip - 1) * p + p - 1) with (2 * (p * ip) - 1) by ring.
    change (eqm q (p * ip) 1) in Eip. rewrite Eip. reflexivity.
Qed.

Lemma skey_new_ok P p q : params_ok P -> prime p -> prime q -> p <> q ->
  Z.odd p = true -> Z.odd q = true -> Z.gcd (p * q) ((p - 1) * (q - 1)) = 1 ->
  p < 2 ^ prime_bits P -> q < 2 ^ prime_bits P -> exists sk, skey_new P p q = Ret sk.
Proof.
  intros HP Hp Hq Hne Op Oq Hg Bp Bq. pose proof (prime_ge_2 _ Hp). pose proof (prime_ge_2 _ Hq).
  destruct (modulus_bound P p q HP) as [HN Hmb]; try lia.
  assert (Hp3 : 3 <= p). { assert (p <> 2) by (intros ->; discriminate). lia. }
  assert (Hq3 : 3 <= q). { assert (q <> 2) by (intros ->; discriminate). lia. }
  unfold skey_new, primes_new, csub.
  rewrite (proj2 (Z.leb_le 1 p)), (proj2 (Z.leb_le 1 q)) by lia. cbn [oexpect obind pr_totient].
  unfold public_key_new. rewrite Z.odd_mul, Op, Oq. cbn [oassert obind andb].
  set (phi := (p - 1) * (q - 1)) in *. assert (Hphi : 1 < phi) by (unfold phi; nia).
  rewrite (inv_mod_zinv (p * q) phi) by (lia || now rewrite Z.gcd_comm). cbn [oexpect obind].
  rewrite (inv_mod_zinv phi (p * q)) by (lia || auto). cbn [oexpect obind].
  pose proof (zinv_range phi (p * q) ltac:(lia)).
  assert (phi < p * q) by (unfold phi; nia).
  destruct HP as (HP1 & HP2 & HP3 & HP4 & HP5 & HP6).
  rewrite unsigned_new_ok by lia. cbn [oexpect obind].
  rewrite (inv_mod_zinv q p) by (lia || now apply primes_coprime). cbn [oexpect obind].
  set (t := (_ + _ - 1) mod q). assert (0 <= t < q) by (apply Z.mod_pos_bound; lia).
  assert (2 ^ modulus_bits P <= 2 ^ uint_w P) by (apply pow2_le; lia).
  rewrite (proj2 (Z.ltb_lt (t * p + p) _)) by nia. cbn [oassert obind].
  rewrite (proj2 (Z.leb_le 1 (t * p + p))) by nia. cbn [oexpect obind].
  eexists; reflexivity.
Qed.

Lemma mod4_odd p : p mod 4 = 3 -> Z.odd p = true.
Proof.
  intros H. pose proof (Z.div_mod p 4 ltac:(lia)). rewrite H in H0. rewrite H0.
  rewrite Z.add_comm. replace (3 + 4 * (p / 4)) with (1 + 2 * (1 + 2 * (p / 4))) by ring.
  rewrite Z.odd_add_mul_2. reflexivity.
Qed.

Lemma keygen_succeeds P p q : p_self_consistent P = true -> keygen_primes (prime_bits P) p q ->
  exists sk, skey_new P p q = Ret sk.
Proof.
  intros HP (Hp & Hq & Hne & Mp & Mq & Rp & Rq). apply params_okP in HP.
  apply mod4_odd in Mp. apply mod4_odd in Mq.
  pose proof (prime_ge_2 _ Hp). pose proof (prime_ge_2 _ Hq).
  pose proof (pow_gt1_pos (prime_bits P) p ltac:(lia) ltac:(lia)).
  assert (E : 2 ^ prime_bits P = 4 * 2 ^ (prime_bits P - 2)).
  { replace (prime_bits P) with (2 + (prime_bits P - 2)) at 1 by lia. rewrite Z.pow_add_r by lia. reflexivity. }
  apply skey_new_ok; auto; try lia. apply totient_coprime; auto; lia.
Qed.

Lemma keygen_equal_primes_panics P p : prime p -> skey_new P p p = Panic.
Proof.
  intros Hp. pose proof (prime_ge_2 _ Hp).
  unfold skey_new, primes_new, csub.
  rewrite (proj2 (Z.leb_le 1 p)) by lia. cbn [oexpect obind pr_totient].
  unfold public_key_new. destruct (Z.odd (p * p)); [|reflexivity]. cbn [obind].
  destruct (Z.odd p); [|reflexivity]. cbn [oassert obind].
  destruct (inv_mod (p * p) _); [|reflexivity]. cbn [oexpect obind].
  destruct (inv_mod _ (p * p)); [|reflexivity]. cbn [oexpect obind].
  destruct (unsigned_new _ _ _); [|reflexivity]. cbn [oexpect obind].
  replace (inv_mod p p) with (@None Z); [reflexivity|].
  symmetry. apply inv_mod_None; [lia|]. rewrite Z.gcd_diag. lia.
Qed.

Section Key.
Variables (P : pparams) (p q : Z) (sk : skey).
Hypotheses (HP : params_ok P) (HK : key_ok P p q sk).
Let N := p * q.
Let phi := (p - 1) * (q - 1).

Lemma key_facts : 3 <= p /\ 3 <= q /\ 1 < N < 2 ^ modulus_bits P /\ 2 <= modulus_bits P /\
  1 < phi < N /\ Z.odd N = true.
Proof.
  pose proof (prime_ge_2 _ (ko_p _ _ _ _ HK)). pose proof (prime_ge_2 _ (ko_q _ _ _ _ HK)).
  destruct (modulus_bound P p q HP) as [HN Hmb];
    [pose proof (ko_bp _ _ _ _ HK); lia|pose proof (ko_bq _ _ _ _ HK); lia|].
  pose proof (ko_op _ _ _ _ HK) as Op. pose proof (ko_oq _ _ _ _ HK) as Oq.
  assert (p <> 2) by (intros ->; discriminate Op). assert (q <> 2) by (intros ->; discriminate Oq).
  unfold N, phi in *. rewrite Z.odd_mul, Op, Oq. repeat split; auto; nia.
Qed.

Lemma key_totient : totient_unsigned P (sk_primes sk) = Ret (mkU (modulus_bits P) phi).
Proof.
  destruct key_facts as (? & ? & ? & ? & ? & ?).
  unfold totient_unsigned. rewrite (ko_primes _ _ _ _ HK). cbn [pr_totient].
  destruct HP as (? & ? & ? & ? & ? & ?). rewrite unsigned_new_ok; auto; lia.
Qed.

(** What decryption computes, for any ciphertext value. *)
Lemma decrypt_gen v : 0 <= v < N * N ->
  exists r, decrypt P sk (Ct N v) = Ret r /\ wf (uint_w P) r /\
    centred N (((v ^ phi - 1) mod (N * N)) / N * sk_inv_totient sk) (sval (uint_w P) r).
Proof.
  intros Hv. destruct key_facts as (Hp & Hq & HN & Hmb & Hphi & Ho).
  unfold decrypt. cbn [ct_pk ct_val]. rewrite (ko_pk _ _ _ _ HK). fold N.
  rewrite Z.eqb_refl. cbn [oassert obind]. rewrite key_totient. cbn [obind].
  rewrite pow_unsigned_spec; [|cbn; lia]. cbn [obind uword].
  assert (Hn2 : 1 < N * N) by nia.
  assert (E : (v ^ phi mod (N * N) - 1 mod (N * N)) mod (N * N) = (v ^ phi - 1) mod (N * N)).
  { match goal with |- ?a mod _ = ?b mod _ => change (eqm (N * N) a b) end.
    now rewrite !eqm_mod. }
  rewrite E. set (x := ((v ^ phi - 1) mod (N * N)) / N).
  pose proof (Z.mod_pos_bound (v ^ phi - 1) (N * N) ltac:(lia)) as Hm.
  assert (Hx : 0 <= x < N).
  { unfold x. split; [apply Z.div_pos; lia|apply Z.div_lt_upper_bound; lia]. }
  pose proof HP as (HP1 & HP2 & HP3 & HP4 & HP5 & HP6).
  pose proof (pow2_le (modulus_bits P) (uint_w P) ltac:(lia)).
  pose proof (pow2_le (uint_w P) (wide_w P) ltac:(lia)).
  rewrite try_from_wide_spec by lia. rewrite (proj2 (Z.ltb_lt x _)) by lia.
  cbn [oexpect obind]. rewrite (Z.mod_small x) by lia.
  set (y := (x * sk_inv_totient sk) mod N).
  assert (Hy : 0 <= y < N) by (apply Z.mod_pos_bound; lia).
  destruct (new_modulo_total (uint_w P) N (modulus_bits P) y) as [r Er]; try lia.
  rewrite Er. cbn [obind oexpect]. exists r. split; auto.
  destruct (centred_reduction (uint_w P) N (modulus_bits P) y ltac:(lia) ltac:(lia) ltac:(lia) ltac:(lia) ltac:(lia) (Some r) Er)
    as (Hw & Hmod & Hc & _).
  split; auto. split.
  - rewrite Hmod. reflexivity.
  - assert (2 * sval (uint_w P) r <> N).
    { intros Hc2. rewrite <- Hc2, Z.odd_mul in Ho. discriminate. }
    lia.
Qed.

Lemma dec_value m rho : Z.gcd rho N = 1 ->
  eqm N (((encv N m rho ^ phi - 1) mod (N * N)) / N * sk_inv_totient sk) m.
Proof.
  intros Hg. destruct key_facts as (Hp & Hq & HN & Hmb & Hphi & Ho).
  assert (E : eqm (N * N) (encv N m rho ^ phi) (1 + (m * phi) * N)).
  { rewrite encv_eqm. rewrite Z.pow_mul_l, one_plus_pow by lia.
    assert (Er : eqm (N * N) ((rho ^ N) ^ phi) 1).
    { replace ((rho ^ N) ^ phi) with ((rho ^ phi) ^ N)
        by (rewrite <- !Z.pow_mul_r by lia; f_equal; ring).
      rewrite (pow_n_lift N (rho ^ phi) 1); [now rewrite Z.pow_1_l by lia|lia|].
      apply euler_pq; auto; apply HK. }
    rewrite Er. now rewrite Z.mul_1_r. }
  assert (E2 : (encv N m rho ^ phi - 1) mod (N * N) = ((m * phi) mod N) * N).
  { assert (E3 : eqm (N * N) (encv N m rho ^ phi - 1) ((m * phi) * N))
      by (rewrite E; apply eqm_eq; ring).
    red in E3. rewrite E3. rewrite Z.mul_mod_distr_r by lia. reflexivity. }
  rewrite E2. rewrite Z.div_mul by lia. rewrite eqm_mod.
  rewrite <- Z.mul_assoc. unfold phi, N. rewrite (ko_it _ _ _ _ HK). now rewrite Z.mul_1_r.
Qed.

Lemma decrypt_encv m rho : Z.gcd rho N = 1 ->
  exists r, decrypt P sk (Ct N (encv N m rho)) = Ret r /\ wf (uint_w P) r /\
    centred N m (sval (uint_w P) r).
Proof.
  intros Hg. destruct key_facts as (Hp & Hq & HN & Hmb & Hphi & Ho).
  destruct (decrypt_gen (encv N m rho)) as (r & Hr & Hw & Hc); [apply encv_range; lia|].
  destruct Hc as [Hc1 Hc2]. exists r. split; auto. split; auto. split; auto.
  rewrite Hc1. now apply dec_value.
Qed.

Lemma centred_small m r : centred N m r -> - N < 2 * m < N -> r = m.
Proof.
  intros [H1 H2] H3. destruct key_facts as (Hp & Hq & HN & _).
  apply eqm_divide in H1; [|lia]. destruct H1 as [k Hk]. assert (k = 0) by nia. lia.
Qed.

Lemma derive_gen v : 0 <= v < N * N ->
  derive_randomizer P sk (Ct N v) = Ret ((v ^ uword (sk_inv_modulus sk)) mod N).
Proof.
  intros Hv. destruct key_facts as (Hp & Hq & HN & Hmb & Hphi & Ho).
  unfold derive_randomizer. cbn [ct_pk ct_val]. rewrite (ko_pk _ _ _ _ HK). fold N.
  rewrite Z.eqb_refl. cbn [oassert obind].
  pose proof (Z.mod_pos_bound v N ltac:(lia)).
  pose proof HP as (HP1 & HP2 & HP3 & HP4 & HP5 & HP6).
  pose proof (pow2_le (modulus_bits P) (uint_w P) ltac:(lia)).
  pose proof (pow2_le (uint_w P) (wide_w P) ltac:(lia)).
  rewrite try_from_wide_spec by lia. rewrite (proj2 (Z.ltb_lt (v mod N) _)) by lia.
  cbn [oexpect obind]. rewrite Z.mod_mod by lia.
  rewrite pow_unsigned_spec.
  - f_equal. match goal with |- ?a mod _ = ?b mod _ => change (eqm N a b) end. now rewrite eqm_mod.
  - rewrite (ko_im_b _ _ _ _ HK). pose proof (ko_im_r _ _ _ _ HK) as Him. fold phi in Him. lia.
Qed.

Lemma derive_root v : Z.gcd v N = 1 -> eqm N ((v ^ uword (sk_inv_modulus sk)) ^ N) v.
Proof.
  intros Hg. destruct key_facts as (Hp & Hq & HN & Hmb & Hphi & Ho).
  pose proof (ko_im_r _ _ _ _ HK). rewrite <- Z.pow_mul_r by lia.
  rewrite <- (Z.pow_1_r v) at 2. apply euler_exp; try apply HK; auto; try nia.
  rewrite (Z.mul_comm (uword _) N). apply (ko_im _ _ _ _ HK).
Qed.

Lemma derive_unroot v : Z.gcd v N = 1 -> eqm N ((v ^ N) ^ uword (sk_inv_modulus sk)) v.
Proof.
  intros Hg. pose proof (ko_im_r _ _ _ _ HK). destruct key_facts as (Hp & Hq & HN & _).
  replace ((v ^ N) ^ uword (sk_inv_modulus sk)) with ((v ^ uword (sk_inv_modulus sk)) ^ N)
    by (rewrite <- !Z.pow_mul_r by lia; f_equal; ring).
  now apply derive_root.
Qed.

Lemma derive_encv m rho : 0 <= rho < N -> Z.gcd rho N = 1 ->
  derive_randomizer P sk (Ct N (encv N m rho)) = Ret rho.
Proof.
  intros Hr Hg. destruct key_facts as (Hp & Hq & HN & Hmb & Hphi & Ho).
  rewrite derive_gen by (apply encv_range; lia). f_equal.
  apply eqm_small with N; auto; [apply Z.mod_pos_bound; lia|]. rewrite eqm_mod.
  unfold encv. rewrite eqm_mod_l by lia. rewrite (eqm_add_mult N 1 m), Z.mul_1_l.
  now apply derive_unroot.
Qed.

(** Every invertible value is a ciphertext. *)
Lemma unit_is_cipher v : 0 <= v < N * N -> Z.gcd v N = 1 ->
  exists k, v = encv N k ((v ^ uword (sk_inv_modulus sk)) mod N).
Proof.
  intros Hv Hg. destruct key_facts as (Hp & Hq & HN & Hmb & Hphi & Ho).
  set (rho := (v ^ uword (sk_inv_modulus sk)) mod N).
  assert (Hrho : eqm N (rho ^ N) v) by (unfold rho; rewrite eqm_mod; now apply derive_root).
  assert (Hgr : Z.gcd (rho ^ N) N = 1) by (rewrite (eqm_gcd N _ v); auto; lia).
  assert (Hg2 : Z.gcd (rho ^ N) (N * N) = 1) by (apply gcd_sq; auto; lia).
  set (d := v * zinv (N * N) (rho ^ N)).
  assert (Hd : eqm N d 1).
  { unfold d. rewrite <- Hrho.
    apply eqm_weaken with (N * N); try nia; [apply Z.divide_factor_l|].
    apply zinv_spec; auto; nia. }
  apply eqm_divide in Hd; [|lia]. destruct Hd as [k Hk]. exists k.
  apply eqm_small with (N * N); auto; [now apply encv_range; lia|].
  rewrite encv_eqm. replace (1 + k * N) with d by lia. unfold d.
  replace (v * zinv (N * N) (rho ^ N) * rho ^ N) with (v * (rho ^ N * zinv (N * N) (rho ^ N))) by ring.
  rewrite zinv_spec by (nia || auto). now rewrite Z.mul_1_r.
Qed.

Lemma cipher_recovered v : 0 <= v < N * N -> Z.gcd v N = 1 ->
  exists m rho, decrypt P sk (Ct N v) = Ret m /\ derive_randomizer P sk (Ct N v) = Ret rho /\
    wf (uint_w P) m /\ 0 <= rho < N /\ Z.gcd rho N = 1 /\
    v = encv N (sval (uint_w P) m) rho.
Proof.
  intros Hv Hg. destruct key_facts as (Hp & Hq & HN & Hmb & Hphi & Ho).
  destruct (unit_is_cipher v Hv Hg) as [k Hk].
  set (rho := (v ^ uword (sk_inv_modulus sk)) mod N) in *.
  assert (Hgr : Z.gcd rho N = 1) by (apply (encv_gcd N k); [lia|now rewrite <- Hk]).
  destruct (decrypt_encv k rho Hgr) as (r & Hr & Hw & Hc & _).
  exists r, rho. rewrite Hk at 1. split; auto. split; [now apply derive_gen|].
  split; auto. split; [apply Z.mod_pos_bound; lia|]. split; auto.
  rewrite Hk. apply encv_plain_mod; [lia|]. symmetry. exact Hc.
Qed.

End Key.

(** ** Homomorphic operations *)

Lemma encv_mul N m1 r1 m2 r2 : 1 < N ->
  (encv N m1 r1 * encv N m2 r2) mod (N * N) = encv N (m1 + m2) ((r1 * r2) mod N).
Proof.
  intros HN. rewrite (encv_rand_mod N (m1 + m2) ((r1 * r2) mod N) (r1 * r2)); [|lia|apply eqm_mod].
  unfold encv at 3. match goal with |- ?a mod _ = ?b mod _ => change (eqm (N * N) a b) end.
  rewrite !encv_eqm. rewrite Z.pow_mul_l, <- one_plus_mul. apply eqm_eq. ring.
Qed.

Lemma encv_gcd2 N m rho : 1 < N -> Z.gcd rho N = 1 -> Z.gcd (encv N m rho) (N * N) = 1.
Proof. intros. apply gcd_sq; [lia|]. now apply encv_gcd. Qed.

Lemma pow_n_zinv N rho : 1 < N -> Z.gcd rho N = 1 ->
  eqm (N * N) (zinv (N * N) (rho ^ N)) (zinv N rho ^ N).
Proof.
  intros HN Hg. symmetry. apply zinv_unique; [nia|]. rewrite <- Z.pow_mul_l.
  rewrite (pow_n_lift N _ 1); [|lia|apply zinv_spec; auto; lia]. rewrite Z.pow_1_l; [reflexivity|lia].
Qed.

Lemma encv_zpow N m rho k : 1 < N -> Z.gcd rho N = 1 ->
  zpow (N * N) (encv N m rho) k = encv N (m * k) (zpow N rho k).
Proof.
  intros HN Hg. apply eqm_small with (N * N); [apply zpow_range; nia|apply encv_range; lia|].
  assert (Hg2 : Z.gcd (rho ^ N) (N * N) = 1) by (apply gcd_sq; [lia|apply gcd_pow_1; auto; lia]).
  rewrite (encv_eqm N (m * k)).
  rewrite (zpow_eqm (N * N) (encv N m rho) ((1 + m * N) * rho ^ N));
    [|nia|now apply encv_gcd2|apply encv_eqm].
  rewrite zpow_mul_base by (nia || auto; apply one_plus_gcd2; lia).
  rewrite one_plus_zpow by lia.
  assert (E : eqm (N * N) (zpow (N * N) (rho ^ N) k) (zpow N rho k ^ N)); [|now rewrite E].
  destruct (Z.le_gt_cases 0 k).
  - rewrite zpow_nonneg by auto.
    rewrite (pow_n_lift N (zpow N rho k) (rho ^ k)); [|lia|now apply zpow_nonneg].
    apply eqm_eq. rewrite <- !Z.pow_mul_r by lia. f_equal. lia.
  - rewrite zpow_neg by lia. rewrite pow_n_zinv by auto.
    rewrite (pow_n_lift N (zpow N rho k) (zinv N rho ^ (- k))); [|lia|apply zpow_neg; lia].
    apply eqm_eq. rewrite <- !Z.pow_mul_r by lia. f_equal. lia.
Qed.

Lemma homomorphic_add_ok N m1 r1 m2 r2 : 1 < N ->
  homomorphic_add (Ct N (encv N m1 r1)) (Ct N (encv N m2 r2)) = Ret (Ct N (encv N (m1 + m2) ((r1 * r2) mod N))).
Proof.
  intros HN. unfold homomorphic_add. cbn [ct_pk ct_val]. rewrite Z.eqb_refl. cbn [oassert obind].
  now rewrite encv_mul.
Qed.
Lemma homomorphic_add_panic c d : ct_pk c <> ct_pk d -> homomorphic_add c d = Panic.
Proof. intros H. unfold homomorphic_add. apply Z.eqb_neq in H. now rewrite H. Qed.

Lemma homomorphic_mul_sec_ok N m rho w x : 1 < N -> Z.gcd rho N = 1 -> wf w x ->
  homomorphic_mul_sec w (Ct N (encv N m rho)) x
  = Ret (Ct N (encv N (m * sval w x) (zpow N rho (sval w x)))).
Proof.
  intros HN Hg Hx. unfold homomorphic_mul_sec. cbn [ct_pk ct_val].
  pose proof (encv_range N m rho ltac:(lia)).
  rewrite pow_sec_zpow; [|nia|auto|lia|now apply encv_gcd2]. cbn [obind].
  now rewrite encv_zpow.
Qed.
Lemma homomorphic_mul_pub_ok N m rho w x : 1 < N -> Z.gcd rho N = 1 -> wf w x ->
  homomorphic_mul_pub w (Ct N (encv N m rho)) x
  = Ret (Ct N (encv N (m * sval w x) (zpow N rho (sval w x)))).
Proof.
  intros HN Hg Hx. unfold homomorphic_mul_pub. cbn [ct_pk ct_val].
  pose proof (encv_range N m rho ltac:(lia)).
  rewrite pow_pub_zpow; [|nia|auto|lia|now apply encv_gcd2]. cbn [obind].
  now rewrite encv_zpow.
Qed.

Lemma encv_zinv N m rho : 1 < N -> Z.gcd rho N = 1 ->
  zinv (N * N) (encv N m rho) = encv N (- m) (zinv N rho).
Proof.
  intros HN Hg. apply eqm_small with (N * N); [apply zinv_range; nia|apply encv_range; lia|].
  symmetry. apply zinv_unique; [nia|]. rewrite !encv_eqm.
  replace ((1 + m * N) * rho ^ N * ((1 + - m * N) * zinv N rho ^ N))
    with ((1 + m * N) * (1 + - m * N) * (rho ^ N * zinv N rho ^ N)) by ring.
  rewrite one_plus_mul, <- Z.pow_mul_l.
  rewrite (pow_n_lift N (rho * zinv N rho) 1); [|lia|apply zinv_spec; auto; lia].
  rewrite Z.pow_1_l by lia. apply eqm_eq. ring.
Qed.

Lemma homomorphic_sub_ok N m1 r1 m2 r2 : 1 < N -> Z.gcd r2 N = 1 ->
  homomorphic_sub (Ct N (encv N m1 r1)) (Ct N (encv N m2 r2))
  = Ret (Ct N (encv N (m1 - m2) ((r1 * zinv N r2) mod N))).
Proof.
  intros HN Hg. unfold homomorphic_sub, homomorphic_neg. cbn [ct_pk ct_val].
  rewrite inv_mod_zinv by (nia || now apply encv_gcd2). cbn [oexpect obind].
  rewrite encv_zinv by auto. rewrite homomorphic_add_ok by auto. reflexivity.
Qed.
Lemma homomorphic_sub_panic c d : 1 < ct_pk d -> Z.gcd (ct_val d) (ct_pk d) <> 1 -> homomorphic_sub c d = Panic.
Proof.
  intros HN Hg. unfold homomorphic_sub, homomorphic_neg.
  replace (inv_mod (ct_pk d * ct_pk d) (ct_val d)) with (@None Z); [reflexivity|].
  symmetry. apply inv_mod_None; [nia|]. rewrite gcd_sq by lia. auto.
Qed.

(** ** Masked randomizers *)

Lemma to_masked_ok P N rho coeff e : 1 < N -> wf (uint_w P) e -> Z.gcd rho N = 1 ->
  to_masked P N rho coeff e = Ret ((zpow N rho (sval (uint_w P) e) * coeff) mod N).
Proof.
  intros HN He Hg. unfold to_masked.
  rewrite pow_pub_zpow; auto; [|apply Z.mod_pos_bound; lia|rewrite gcd_mod_l by lia; auto].
  cbn [obind]. f_equal.
  rewrite (zpow_eqm N (rho mod N) rho); [|lia|rewrite gcd_mod_l by lia; auto|apply eqm_mod].
  match goal with |- ?a mod _ = ?b mod _ => change (eqm N a b) end. now rewrite eqm_mod.
Qed.
