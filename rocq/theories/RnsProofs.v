(** * Residue-number-system operations of the secret key, the non-square
    sampler, and ring-Pedersen parameters. *)
From Coq Require Import ZArith Znumtheory Lia List Setoid Morphisms Bool.
From Verif Require Import Base BaseFacts SignedModel SignedSpec SignedProofs IntLemmas.
From Verif Require Import ModArith RsaFacts PaillierModel PaillierSpec PaillierProofs.
Import ListNotations.
Open Scope Z_scope.

Lemma square_mod_iff m x : square_mod m x <-> is_square_mod m x.
Proof. reflexivity. Qed.

Section Rns.
Variables (P : pparams) (p q : Z) (sk : skey).
Hypotheses (HP : params_ok P) (HK : key_ok P p q sk).
Let N := p * q.

Lemma rns_split_ok x : 0 <= x < 2 ^ uint_w P -> rns_split P sk x = Ret (x mod p, x mod q).
Proof.
  intros Hx. destruct (key_facts P p q sk HP HK) as (Hp & Hq & HN & Hmb & Hphi & Ho).
  unfold rns_split. rewrite (ko_primes _ _ _ _ HK). cbn [pr_p pr_q].
  pose proof HP as (HP1 & HP2 & HP3 & HP4 & HP5 & HP6).
  pose proof (Z.mod_pos_bound x p ltac:(lia)). pose proof (Z.mod_pos_bound x q ltac:(lia)).
  pose proof (ko_bp _ _ _ _ HK). pose proof (ko_bq _ _ _ _ HK).
  pose proof (pow2_le (prime_bits P) (half_w P) ltac:(lia)).
  pose proof (pow2_le (half_w P) (uint_w P) ltac:(lia)).
  rewrite !try_from_wide_spec by lia.
  rewrite (proj2 (Z.ltb_lt (x mod p) _)), (proj2 (Z.ltb_lt (x mod q) _)) by lia.
  cbn [oexpect obind]. now rewrite !Z.mod_mod by lia.
Qed.

Lemma rns_join_ok a b : 0 <= a < p -> 0 <= b < q ->
  exists x, rns_join P sk (a, b) = Ret x /\ 0 <= x < N /\ x mod p = a /\ x mod q = b.
Proof.
  intros Ha Hb. destruct (key_facts P p q sk HP HK) as (Hp & Hq & HN & Hmb & Hphi & Ho).
  unfold rns_join. rewrite (ko_primes _ _ _ _ HK). cbn [pr_p pr_q].
  set (x := (_ * sk_inv_p_mod_q sk) mod q).
  assert (Hx : 0 <= x < q) by (apply Z.mod_pos_bound; lia).
  pose proof HP as (HP1 & HP2 & HP3 & HP4 & HP5 & HP6).
  pose proof (pow2_le (modulus_bits P) (uint_w P) ltac:(lia)).
  assert (Hr : 0 <= a + p * x < N) by (unfold N; nia).
  rewrite (proj2 (Z.ltb_lt (a + p * x) _)) by lia. cbn [oassert obind].
  eexists; split; [reflexivity|]. split; auto. split.
  - symmetry. rewrite <- (Z.mod_small a p) at 1 by lia.
    change (eqm p a (a + p * x)). rewrite Z.mul_comm. symmetry. apply eqm_add_mult.
  - symmetry. rewrite <- (Z.mod_small b q) at 1 by lia.
    change (eqm q b (a + p * x)). unfold x. rewrite !eqm_mod.
    replace (a + p * ((b - a) * sk_inv_p_mod_q sk)) with (a + (b - a) * (p * sk_inv_p_mod_q sk)) by ring.
    rewrite (ko_ip _ _ _ _ HK). apply eqm_eq. ring.
Qed.

Lemma rns_unique x y : 0 <= x < N -> 0 <= y < N -> x mod p = y mod p -> x mod q = y mod q -> x = y.
Proof.
  intros Hx Hy H1 H2. destruct (key_facts P p q sk HP HK) as (Hp & Hq & HN & Hmb & Hphi & Ho).
  apply eqm_small with N; auto. apply eqm_crt; auto; try lia.
  apply primes_coprime; apply HK.
Qed.

Lemma rns_join_split x : 0 <= x < N -> rns_join P sk (x mod p, x mod q) = Ret x.
Proof.
  intros Hx. destruct (key_facts P p q sk HP HK) as (Hp & Hq & HN & Hmb & Hphi & Ho).
  destruct (rns_join_ok (x mod p) (x mod q)) as (y & -> & Hy & H1 & H2);
    try (apply Z.mod_pos_bound; lia).
  f_equal. apply rns_unique; auto.
Qed.

Lemma sqrt_part_spec m x : prime m -> m mod 4 = 3 -> m < 2 ^ prime_bits P -> 0 <= x < m ->
  match sqrt_part P m x with
  | Some r => 0 <= r < m /\ eqm m (r * r) x /\ is_square_mod m r /\ is_square_mod m x
  | None => ~ is_square_mod m x
  end.
Proof.
  intros Hm H4 Hb Hx. pose proof (prime_ge_2 _ Hm).
  pose proof HP as (HP1 & HP2 & HP3 & HP4 & HP5 & HP6).
  pose proof (Z.div_mod m 4 ltac:(lia)) as Ed. rewrite H4 in Ed.
  assert (Hk0 : 0 <= m / 4) by (apply Z.div_pos; lia).
  assert (Hb2 : 2 <= prime_bits P).
  { pose proof (pow_gt1_pos (prime_bits P) m ltac:(lia) ltac:(lia)). lia. }
  assert (E4 : 2 ^ prime_bits P = 4 * 2 ^ (prime_bits P - 2)).
  { replace (prime_bits P) with (2 + (prime_bits P - 2)) at 1 by lia. rewrite Z.pow_add_r by lia. reflexivity. }
  assert (E2 : 2 ^ (prime_bits P - 1) = 2 * 2 ^ (prime_bits P - 2)).
  { replace (prime_bits P - 1) with (1 + (prime_bits P - 2)) at 1 by lia. rewrite Z.pow_add_r by lia. reflexivity. }
  pose proof (pow2_pos (prime_bits P - 2) ltac:(lia)).
  pose proof (pow2_le (prime_bits P) (half_w P) ltac:(lia)).
  assert (Epow : wadd (half_w P) (wshr (half_w P) m 2) 1 = m / 4 + 1).
  { unfold wadd, wshr. change (2 ^ 2) with 4. destruct (Z.ltb_spec 2 (half_w P)).
    - rewrite Z.mod_small; lia.
    - assert (half_w P = 2) by lia. assert (prime_bits P = 2) by lia.
      replace (prime_bits P) with 2 in * by lia. change (2 ^ (2 - 2)) with 1 in *.
      rewrite Z.mod_small by (change (2 ^ 2) with 4 in *; lia). lia. }
  unfold sqrt_part. rewrite Epow. rewrite !pow_bounded_eq.
  rewrite (Z.mod_small (m / 4 + 1)) by lia.
  set (c := (x ^ (m / 4 + 1)) mod m).
  assert (Ec : eqm m c (x ^ (m / 4 + 1))) by apply eqm_mod.
  assert (Hc : 0 <= c < m) by (apply Z.mod_pos_bound; lia).
  assert (Hsq : is_square_mod m x -> eqm m (c * c) x /\ is_square_mod m c).
  { intros [y Hy]. split.
    - rewrite Ec, <- Hy. now apply sqrt_candidate.
    - exists (y ^ (m / 4 + 1)). rewrite Ec, <- Hy. now rewrite Z.pow_mul_l. }
  destruct (Z.eqb_spec ((c * c) mod m) x) as [E|E].
  - assert (Hcc : eqm m (c * c) x) by (rewrite <- E; now rewrite eqm_mod).
    assert (Hx2 : is_square_mod m x) by (exists c; auto).
    repeat split; try lia; auto. now apply Hsq.
  - intros Hs. apply E. destruct (Hsq Hs) as [Hcc _].
    red in Hcc. rewrite Hcc. now apply Z.mod_small.
Qed.

Lemma square_N x : is_square_mod N x <-> is_square_mod p x /\ is_square_mod q x.
Proof.
  destruct (key_facts P p q sk HP HK) as (Hp & Hq & HN & Hmb & Hphi & Ho).
  apply square_pq; try lia. apply primes_coprime; apply HK.
Qed.

Lemma square_modp m x : is_square_mod m (x mod m) <-> is_square_mod m x.
Proof. split; apply square_eqm; [|symmetry]; apply eqm_mod. Qed.

Lemma rns_sqrt_spec x : p mod 4 = 3 -> q mod 4 = 3 ->
  match rns_sqrt P sk (x mod p, x mod q) with
  | Some ab => is_square_mod N x /\
      exists y, rns_join P sk ab = Ret y /\ 0 <= y < N /\ eqm N (y * y) x /\ is_square_mod N y
  | None => ~ is_square_mod N x
  end.
Proof.
  intros P4 Q4. destruct (key_facts P p q sk HP HK) as (Hp & Hq & HN & Hmb & Hphi & Ho).
  unfold rns_sqrt. rewrite (ko_primes _ _ _ _ HK). cbn [pr_p pr_q fst snd].
  pose proof (sqrt_part_spec p (x mod p) (ko_p _ _ _ _ HK) P4 (ko_bp _ _ _ _ HK)
                ltac:(apply Z.mod_pos_bound; lia)) as Sp.
  pose proof (sqrt_part_spec q (x mod q) (ko_q _ _ _ _ HK) Q4 (ko_bq _ _ _ _ HK)
                ltac:(apply Z.mod_pos_bound; lia)) as Sq.
  destruct (sqrt_part P p (x mod p)) as [a|], (sqrt_part P q (x mod q)) as [b|].
  - destruct Sp as (Ra & Ea & Sa & Sxp). destruct Sq as (Rb & Eb & Sb & Sxq).
    rewrite square_modp in Sxp, Sxq. rewrite eqm_mod in Ea, Eb.
    split; [apply square_N; auto|].
    destruct (rns_join_ok a b Ra Rb) as (y & Ey & Hy & Ya & Yb).
    exists y. split; auto. split; auto.
    assert (Yp : eqm p y a) by (red; rewrite Ya; symmetry; apply Z.mod_small; lia).
    assert (Yq : eqm q y b) by (red; rewrite Yb; symmetry; apply Z.mod_small; lia).
    split.
    + apply eqm_crt; try lia; [apply primes_coprime; apply HK|rewrite Yp; auto|rewrite Yq; auto].
    + apply square_N. split; [apply square_eqm with a|apply square_eqm with b]; auto; symmetry; auto.
  - rewrite square_N. rewrite square_modp in Sq. tauto.
  - rewrite square_N. rewrite square_modp in Sp. tauto.
  - rewrite square_N. rewrite square_modp in Sp. tauto.
Qed.

(** ** The non-square sampler *)

Lemma u_gcd : Z.gcd (sk_u sk) N = 1.
Proof.
  destruct (key_facts P p q sk HP HK) as (Hp & Hq & HN & Hmb & Hphi & Ho).
  apply gcd_mul_split. split.
  - rewrite (eqm_gcd p _ (-1)); [rewrite (Z.gcd_opp_l 1); apply Z.gcd_1_l|lia|apply HK].
  - rewrite (eqm_gcd q _ 1); [apply Z.gcd_1_l|lia|apply HK].
Qed.

Lemma nonsquare_ok r b : p mod 4 = 3 -> q mod 4 = 3 -> Z.gcd r N = 1 ->
  let w := nonsquare_residue sk ((r mod N * (r mod N)) mod N) b in
  0 <= w < N /\ Z.gcd w N = 1 /\
  (is_square_mod p w <-> ~ is_square_mod q w) /\ ~ is_square_mod N w.
Proof.
  intros P4 Q4 Hg w. destruct (key_facts P p q sk HP HK) as (Hp & Hq & HN & Hmb & Hphi & Ho).
  assert (Hw : 0 <= w < N /\ eqm N w ((if b then -1 else 1) * (r * r) * sk_u sk)).
  { unfold w, nonsquare_residue. rewrite (ko_pk _ _ _ _ HK). fold N.
    destruct b; (split; [apply Z.mod_pos_bound; lia|]); rewrite !eqm_mod; apply eqm_eq; ring. }
  destruct Hw as [Rw Ew].
  assert (Hgp : Z.gcd r p = 1 /\ Z.gcd r q = 1) by now apply gcd_mul_split.
  destruct Hgp as [Gp Gq].
  assert (Ep : eqm p w ((if b then 1 else -1) * (r * r))).
  { rewrite (eqm_weaken N p w ((if b then -1 else 1) * (r * r) * sk_u sk)); try lia;
      [|apply Z.divide_factor_l|auto].
    rewrite (ko_u_p _ _ _ _ HK). destruct b; apply eqm_eq; ring. }
  assert (Eq : eqm q w ((if b then -1 else 1) * (r * r))).
  { rewrite (eqm_weaken N q w ((if b then -1 else 1) * (r * r) * sk_u sk)); try lia;
      [|apply Z.divide_factor_r|auto].
    rewrite (ko_u_q _ _ _ _ HK). destruct b; apply eqm_eq; ring. }
  assert (Hgw : Z.gcd w N = 1).
  { rewrite (eqm_gcd N _ _ ltac:(lia) Ew). apply gcd_mul_1; [|apply u_gcd].
    apply gcd_mul_1; [destruct b; [rewrite (Z.gcd_opp_l 1)|]; apply Z.gcd_1_l|].
    now apply gcd_mul_1. }
  assert (Srp : is_square_mod p (r * r)) by (exists r; reflexivity).
  assert (Srq : is_square_mod q (r * r)) by (exists r; reflexivity).
  pose proof (ko_p _ _ _ _ HK) as Pp. pose proof (ko_q _ _ _ _ HK) as Pq.
  assert (Np : ~ is_square_mod p (- (r * r))) by (apply not_square_neg; auto; now apply gcd_mul_1).
  assert (Nq : ~ is_square_mod q (- (r * r))) by (apply not_square_neg; auto; now apply gcd_mul_1).
  assert (Hx : is_square_mod p w <-> ~ is_square_mod q w).
  { destruct b; replace (-1 * (r * r)) with (- (r * r)) in * by ring; rewrite ?Z.mul_1_l in *.
    - split; intros _.
      + intros H. apply Nq. revert H. now apply square_eqm.
      + revert Srp. apply square_eqm. now symmetry.
    - split.
      + intros H. exfalso. apply Np. revert H. now apply square_eqm.
      + intros H. exfalso. apply H. revert Srq. apply square_eqm. now symmetry. }
  repeat split; try lia; auto; try tauto. rewrite square_N. tauto.
Qed.

(** ** Fourth roots *)

Lemma fourth_root_N x : p mod 4 = 3 -> q mod 4 = 3 -> (fourth_power_mod N x <-> is_square_mod N x).
Proof.
  intros P4 Q4. split.
  - intros [y Hy]. exists (y * y). exact Hy.
  - intros Hs. pose proof (rns_sqrt_spec x P4 Q4) as H.
    destruct (rns_sqrt P sk (x mod p, x mod q)) as [ab|]; [|tauto].
    destruct H as [_ (y & _ & _ & Hy & [z Hz])].
    exists z. change (eqm N (z * z * (z * z)) x). now rewrite Hz.
Qed.

(** Sign pattern of a unit modulo [p] and [q]. *)
Lemma sign_cases m x : prime m -> m mod 4 = 3 -> Z.gcd x m = 1 ->
  (is_square_mod m x /\ ~ is_square_mod m (- x)) \/ (~ is_square_mod m x /\ is_square_mod m (- x)).
Proof.
  intros Hm M4 Hg. destruct (square_or_neg m x Hm M4 Hg) as [H|H].
  - left. split; auto. now apply not_square_neg.
  - right. split; auto. intros H2. now apply (not_square_neg m x).
Qed.

Lemma mul_nonsquare m w y : prime m -> m mod 4 = 3 -> Z.gcd w m = 1 -> Z.gcd y m = 1 ->
  ~ is_square_mod m w -> (is_square_mod m (w * y) <-> ~ is_square_mod m y).
Proof.
  intros Hm M4 Gw Gy Nw. pose proof (prime_ge_2 _ Hm).
  destruct (sign_cases m w Hm M4 Gw) as [[? _]|[_ Sw]]; [tauto|].
  destruct (sign_cases m y Hm M4 Gy) as [[Sy Ny]|[Ny Sy]].
  - split; [|tauto]. intros Hwy _. apply Nw.
    apply square_cancel with y; auto; [lia|]. now rewrite Z.mul_comm.
  - split; [auto|]. intros _. replace (w * y) with ((- w) * (- y)) by ring. now apply square_mul.
Qed.
Lemma mul_square m w y : prime m -> Z.gcd w m = 1 ->
  is_square_mod m w -> (is_square_mod m (w * y) <-> is_square_mod m y).
Proof.
  intros Hm Gw Sw. pose proof (prime_ge_2 _ Hm). split.
  - intros H1. apply square_cancel with w; auto; lia.
  - intros H1. now apply square_mul.
Qed.

Lemma four_candidates w y : p mod 4 = 3 -> q mod 4 = 3 -> Z.gcd w N = 1 -> Z.gcd y N = 1 ->
  (is_square_mod p w <-> ~ is_square_mod q w) ->
  exists a b : bool,
    forall a' b' : bool,
      (is_square_mod N ((if a' then -1 else 1) * (if b' then w else 1) * y) <-> a' = a /\ b' = b).
Proof.
  intros P4 Q4 Gw Gy Hw. apply gcd_mul_split in Gw. apply gcd_mul_split in Gy.
  destruct Gw as [Gwp Gwq]. destruct Gy as [Gyp Gyq].
  pose proof (ko_p _ _ _ _ HK) as Pp. pose proof (ko_q _ _ _ _ HK) as Pq.
  assert (Gwyp : Z.gcd (w * y) p = 1) by now apply gcd_mul_1.
  assert (Gwyq : Z.gcd (w * y) q = 1) by now apply gcd_mul_1.
  assert (Hwp : is_square_mod p w \/ ~ is_square_mod p w) by (destruct (sign_cases p w); tauto).
  assert (Hwq : is_square_mod q w \/ ~ is_square_mod q w) by (destruct (sign_cases q w); tauto).
  pose proof (sign_cases p y Pp P4 Gyp) as Syp. pose proof (sign_cases q y Pq Q4 Gyq) as Syq.
  pose proof (sign_cases p (w * y) Pp P4 Gwyp) as Swp. pose proof (sign_cases q (w * y) Pq Q4 Gwyq) as Swq.
  assert (Fp : is_square_mod p w -> (is_square_mod p (w * y) <-> is_square_mod p y))
    by (intros; apply mul_square; auto).
  assert (Fq : is_square_mod q w -> (is_square_mod q (w * y) <-> is_square_mod q y))
    by (intros; apply mul_square; auto).
  assert (Gp : ~ is_square_mod p w -> (is_square_mod p (w * y) <-> ~ is_square_mod p y))
    by (intros; apply mul_nonsquare; auto).
  assert (Gq : ~ is_square_mod q w -> (is_square_mod q (w * y) <-> ~ is_square_mod q y))
    by (intros; apply mul_nonsquare; auto).
  assert (E : forall a' b' : bool,
    is_square_mod N ((if a' then -1 else 1) * (if b' then w else 1) * y) <->
    (is_square_mod p (if a' then - (if b' then w * y else y) else (if b' then w * y else y)) /\
     is_square_mod q (if a' then - (if b' then w * y else y) else (if b' then w * y else y)))).
  { intros a' b'. rewrite square_N.
    replace ((if a' then -1 else 1) * (if b' then w else 1) * y)
      with (if a' then - (if b' then w * y else y) else (if b' then w * y else y))
      by (destruct a', b'; ring).
    tauto. }
  destruct Syp as [[]|[]], Syq as [[]|[]].
  - exists false, false. intros a' b'. rewrite E. destruct a', b'; split; intuition congruence.
  - destruct Swp as [[]|[]], Swq as [[]|[]].
    + exists false, true. intros a' b'. rewrite E. destruct a', b'; split; intuition congruence.
    + exfalso; tauto.
    + exfalso; tauto.
    + exists true, true. intros a' b'. rewrite E. destruct a', b'; split; intuition congruence.
  - destruct Swp as [[]|[]], Swq as [[]|[]].
    + exists false, true. intros a' b'. rewrite E. destruct a', b'; split; intuition congruence.
    + exfalso; tauto.
    + exfalso; tauto.
    + exists true, true. intros a' b'. rewrite E. destruct a', b'; split; intuition congruence.
  - exists true, false. intros a' b'. rewrite E. destruct a', b'; split; intuition congruence.
Qed.

End Rns.
