(** * Drawn primes make working keys; the squares modulo a product of two safe
    primes. *)
From Coq Require Import ZArith Znumtheory List Bool Lia.
From Verif Require Import Base BaseFacts ModArith RsaFacts SignedModel PaillierModel PaillierSpec PaillierProofs RpProofs
  HideRpSpec KeygenModel KeygenSpec.
Import ListNotations.
Open Scope Z_scope.

Lemma land3 p : Z.land p 3 = p mod 4.
Proof. change 3 with (Z.ones 2). now rewrite Z.land_ones by lia. Qed.
Lemma limb_mod4 p : Z.land (p mod 2 ^ 64) 3 = p mod 4.
Proof.
  rewrite land3. symmetry. apply Zmod_div_mod; [lia|reflexivity|]. exists (2 ^ 62). reflexivity.
Qed.

Lemma blum_prime_exact l p : blum_prime l = Some p <->
  exists l1 l2, l = l1 ++ p :: l2 /\ p mod 4 = 3 /\ Forall (fun x => x mod 4 <> 3) l1.
Proof.
  split.
  - induction l as [|a l IH]; cbn [blum_prime]; [discriminate|]. rewrite limb_mod4.
    destruct (Z.eqb_spec (a mod 4) 3) as [E|E].
    + intros [= ->]. exists [], l. repeat split; auto.
    + intros H. destruct (IH H) as (l1 & l2 & -> & M & F). exists (a :: l1), l2. repeat split; auto.
  - intros (l1 & l2 & -> & M & F). induction l1 as [|a l1 IH]; cbn [app blum_prime]; rewrite limb_mod4.
    + now rewrite M, Z.eqb_refl.
    + inversion F; subst. destruct (Z.eqb_spec (a mod 4) 3); [contradiction|auto].
Qed.
Lemma blum_prime_none l : blum_prime l = None <-> Forall (fun x => x mod 4 <> 3) l.
Proof.
  induction l as [|a l IH]; cbn [blum_prime]; [split; auto|]. rewrite limb_mod4.
  destruct (Z.eqb_spec (a mod 4) 3) as [E|E]; split; intros H; try discriminate.
  - inversion H; contradiction.
  - constructor; [auto|now apply IH].
  - inversion H; subst. now apply IH.
Qed.

Lemma wire_ok_iff p q : primes_wire_ok p q = true <-> p mod 4 = 3 /\ q mod 4 = 3.
Proof. unfold primes_wire_ok. now rewrite andb_true_iff, !land3, !Z.eqb_eq. Qed.

Lemma wire_new_exact p q : primes_wire_new p q = if (p mod 4 =? 3) && (q mod 4 =? 3) then Ret (p, q) else Panic.
Proof. unfold primes_wire_new, primes_wire_ok. rewrite !land3. now destruct (_ && _). Qed.

Lemma skey_pk P p q sk : skey_new P p q = Ret sk -> sk_pk sk = p * q.
Proof.
  unfold skey_new. destruct (primes_new p q); [|discriminate]. cbn [obind].
  unfold public_key_new. destruct (Z.odd (p * q)); [|discriminate]. cbn [obind].
  repeat match goal with |- context [obind ?x _] => destruct x; [|discriminate]; cbn [obind] end.
  intros [= <-]. reflexivity.
Qed.

Lemma sk_random_exact P c1 c2 o : p_self_consistent P = true ->
  prime_draws (prime_bits P) c1 -> prime_draws (prime_bits P) c2 -> sk_random P c1 c2 = Some o ->
  exists p q, In p c1 /\ In q c2 /\ p mod 4 = 3 /\ q mod 4 = 3 /\
    (p <> q -> exists sk, o = Ret sk /\ sk_pk sk = p * q /\ 2 ^ (modulus_bits P - 1) <= sk_pk sk < 2 ^ modulus_bits P) /\
    (p = q -> o = Panic).
Proof.
  intros HP D1 D2. unfold sk_random, random_paillier_blum.
  destruct (blum_prime c1) as [p|] eqn:E1; [|discriminate]. destruct (blum_prime c2) as [q|] eqn:E2; [|discriminate].
  apply blum_prime_exact in E1, E2. destruct E1 as (l1 & l2 & -> & M1 & _). destruct E2 as (l3 & l4 & -> & M2 & _).
  rewrite wire_new_exact, M1, M2. cbn [Z.eqb andb obind fst snd]. intros [= <-].
  exists p, q. split; [apply in_elt|]. split; [apply in_elt|]. split; [auto|]. split; [auto|].
  unfold prime_draws in *. rewrite Forall_forall in D1, D2.
  destruct (D1 p (in_elt _ _ _)) as [P1 R1]. destruct (D2 q (in_elt _ _ _)) as [P2 R2].
  split.
  - intros ne. destruct (keygen_succeeds P p q HP) as [sk Hsk].
    { unfold keygen_primes. auto 10. }
    exists sk. split; [auto|]. rewrite (skey_pk _ _ _ _ Hsk). split; [auto|].
    apply params_okP in HP. pose proof (prime_ge_2 _ P1). pose proof (prime_ge_2 _ P2).
    destruct (modulus_bound P p q HP) as [[_ HN] _]; [lia..|]. split; [|auto].
    destruct HP as (-> & _). pose proof (pow_gt1_pos (prime_bits P) p ltac:(lia) ltac:(lia)).
    set (v := 2 ^ (prime_bits P - 2)) in *.
    assert (Hb : 2 <= prime_bits P).
    { destruct (Z.lt_ge_cases (prime_bits P) 2); [|lia]. replace (prime_bits P) with 1 in * by lia.
      change (2 ^ 1) with 2 in *. lia. }
    assert (0 < v) by (apply Z.pow_pos_nonneg; lia).
    replace (2 * prime_bits P - 1) with (3 + (prime_bits P - 2) + (prime_bits P - 2)) by lia.
    rewrite !Z.pow_add_r by lia. fold v. change (2 ^ 3) with 8. clear - R1 R2 H2. nia.
  - intros ->. now apply keygen_equal_primes_panics.
Qed.

Lemma product_fits P p q : p_widths_compile P = true -> 0 <= p < 2 ^ half_w P -> 0 <= q < 2 ^ half_w P ->
  0 <= half_w P -> p * q < 2 ^ uint_w P.
Proof.
  unfold p_widths_compile. rewrite andb_true_iff, !Z.eqb_eq. intros [-> _] Hp Hq H0.
  replace (2 * half_w P) with (half_w P + half_w P) by lia. rewrite Z.pow_add_r by lia. nia.
Qed.

(** ** Safe primes *)
Lemma safe_mod4 p : safe_prime p -> (p mod 4 = 3 <-> p <> 5).
Proof.
  intros (r & Pr & Pp & ->). pose proof (prime_ge_2 _ Pr).
  destruct (Z.eq_dec r 2) as [->|n2]; [split; [discriminate|intros H1; now elim H1]|].
  split; [lia|intros _]. assert (O : r mod 2 = 1).
  { pose proof (Z.mod_pos_bound r 2 ltac:(lia)). destruct (Z.eq_dec (r mod 2) 0) as [E|]; [|lia].
    apply Z.mod_divide in E; [|lia]. destruct (prime_divisors _ Pr 2 E) as [|[|[|]]]; lia. }
  pose proof (Z.div_mod r 2 ltac:(lia)). rewrite O in H0. rewrite H0.
  replace (2 * (2 * (r / 2) + 1) + 1) with (3 + (r / 2) * 4) by ring. now rewrite Z.mod_add by lia.
Qed.

Lemma random_safe_exact p q : safe_prime p -> safe_prime q ->
  (random_safe p q = Ret (p, q) <-> p <> 5 /\ q <> 5) /\ (random_safe p q = Panic <-> p = 5 \/ q = 5).
Proof.
  intros Sp Sq. unfold random_safe. rewrite wire_new_exact.
  pose proof (safe_mod4 p Sp) as A. pose proof (safe_mod4 q Sq) as B.
  destruct (Z.eqb_spec (p mod 4) 3); destruct (Z.eqb_spec (q mod 4) 3); cbn [andb];
    split; split; intros; try discriminate; try reflexivity; try tauto; try lia.
Qed.

Lemma nodup_map {A B} (f : A -> B) l : (forall x y, In x l -> In y l -> f x = f y -> x = y) -> NoDup l -> NoDup (map f l).
Proof.
  intros Hf. induction 1 as [|a l Ha ND IH]; cbn [map]; constructor.
  - intros Hi. apply in_map_iff in Hi. destruct Hi as (b & E & Hb). apply Hf in E; [|now right|now left]. now subst.
  - apply IH. intros x y Hx Hy. apply Hf; now right.
Qed.

Section Half.
(** The squares modulo one safe prime [p = 2 r + 1]. *)
Variables (p r t : Z).
Hypothesis (Pp : prime p) (Pr : prime r) (Ep : p = 2 * r + 1).
Hypothesis (Gt : Z.gcd t p = 1) (St : is_square_mod p t) (Nt : ~ eqm p t 1).

Lemma sq_pow_r x : Z.gcd x p = 1 -> is_square_mod p x -> eqm p (x ^ r) 1.
Proof.
  intros G [y Hy]. pose proof (prime_ge_2 _ Pr). pose proof (prime_ge_2 _ Pp).
  assert (Gy : Z.gcd y p = 1) by (apply (square_unit_root p y x); auto; lia).
  transitivity ((y * y) ^ r); [now apply eqm_pow|].
  rewrite <- Z.pow_2_r, <- Z.pow_mul_r by lia. replace (2 * r) with (p - 1) by lia. now apply fermat_unit.
Qed.

Lemma pow_mul_r k : 0 <= k -> (r | k) -> eqm p (t ^ k) 1.
Proof.
  intros Hk [m ->]. pose proof (prime_ge_2 _ Pr). rewrite Z.mul_comm, Z.pow_mul_r by nia.
  transitivity (1 ^ m); [apply eqm_pow, sq_pow_r; auto|]. rewrite Z.pow_1_l by nia. reflexivity.
Qed.

Lemma order_r k : 0 <= k -> eqm p (t ^ k) 1 -> (r | k).
Proof.
  intros Hk H. pose proof (prime_ge_2 _ Pr). destruct (Zdivide_dec r k) as [|nd]; [auto|exfalso]. apply Nt.
  assert (G : Z.gcd k r = 1) by now apply prime_gcd.
  pose proof (zinv_spec r k ltac:(lia) G) as I. pose proof (zinv_range r k ltac:(lia)) as R.
  set (s := zinv r k) in *.
  assert (A : eqm p (t ^ (k * s)) 1).
  { rewrite Z.pow_mul_r by lia. transitivity (1 ^ s); [now apply eqm_pow|]. rewrite Z.pow_1_l by lia. reflexivity. }
  rewrite eqm_divide in I by lia. destruct I as [m Hm].
  assert (K0 : k <> 0) by (intros ->; apply nd, Z.divide_0_r).
  assert (S0 : s <> 0).
  { intros E. rewrite E, Z.mul_0_r in Hm. assert (D : (r | 1)) by (exists (- m); lia). apply Z.divide_pos_le in D; lia. }
  assert (0 <= m) by nia.
  replace (k * s) with (1 + m * r) in A by lia. rewrite Z.pow_add_r in A by nia.
  rewrite <- A, Z.pow_1_r. rewrite (pow_mul_r (m * r)) by (try nia; exists m; reflexivity). apply eqm_eq. ring.
Qed.

Lemma pow_inj a b : 0 <= a -> 0 <= b -> eqm p (t ^ a) (t ^ b) -> eqm r a b.
Proof.
  pose proof (prime_ge_2 _ Pr). pose proof (prime_ge_2 _ Pp).
  assert (W : forall a b, 0 <= a <= b -> eqm p (t ^ a) (t ^ b) -> eqm r a b).
  { intros x y Hxy E. apply eqm_divide; [lia|]. replace (x - y) with (- (y - x)) by ring. apply Z.divide_opp_r.
    apply order_r; [lia|]. apply (gauss_eqm p (t ^ x)); [lia|apply gcd_pow_1; auto; lia|].
    rewrite <- Z.pow_add_r by lia. replace (x + (y - x)) with y by ring. rewrite <- E. apply eqm_eq. ring. }
  intros Ha Hb E. destruct (Z.le_ge_cases a b); [apply W; auto|]. symmetry. apply W; [lia|]. now symmetry.
Qed.

(** The residues of the squares 1, 4, ..., r^2, and the powers of [t]. *)
Let roots : list Z := map (fun i => Z.of_nat (S i)) (seq 0 (Z.to_nat r)).
Let squares : list Z := map (fun y => (y * y) mod p) roots.
Let powers : list Z := map (fun i => (t ^ Z.of_nat i) mod p) (seq 0 (Z.to_nat r)).

Lemma in_squares x : Z.gcd x p = 1 -> is_square_mod p x -> In (x mod p) squares.
Proof.
  intros G [y Hy]. pose proof (prime_ge_2 _ Pr). pose proof (prime_ge_2 _ Pp).
  assert (Gy : Z.gcd y p = 1) by (apply (square_unit_root p y x); auto; lia).
  assert (R : 0 < y mod p < p).
  { pose proof (Z.mod_pos_bound y p ltac:(lia)). destruct (Z.eq_dec (y mod p) 0) as [E|]; [|lia].
    exfalso. apply (proj1 (prime_gcd p y Pp) Gy). now apply Z.mod_divide; [lia|]. }
  assert (I : forall z, 0 < z <= r -> In z roots).
  { intros z Hz. apply in_map_iff. exists (Z.to_nat z - 1)%nat. split; [lia|]. apply in_seq. lia. }
  apply in_map_iff. destruct (Z.le_gt_cases (y mod p) r) as [L|L].
  - exists (y mod p). split; [|apply I; lia]. change (eqm p (y mod p * (y mod p)) x). rewrite !eqm_mod. exact Hy.
  - exists (p - y mod p). split; [|apply I; lia]. change (eqm p ((p - y mod p) * (p - y mod p)) x).
    replace ((p - y mod p) * (p - y mod p)) with (y mod p * (y mod p) + (p - 2 * (y mod p)) * p) by ring.
    rewrite eqm_add_mult, !eqm_mod. exact Hy.
Qed.

Lemma power_of x : Z.gcd x p = 1 -> is_square_mod p x -> exists a, 0 <= a < r /\ eqm p (t ^ a) x.
Proof.
  intros G S. pose proof (prime_ge_2 _ Pr). pose proof (prime_ge_2 _ Pp).
  assert (ND : NoDup powers).
  { unfold powers. apply nodup_map; [|apply seq_NoDup]. intros i j Hi Hj E.
    apply in_seq in Hi, Hj. apply (pow_inj (Z.of_nat i) (Z.of_nat j)) in E; [|lia..]. apply eqm_small in E; lia. }
  assert (IN : incl powers squares).
  { intros v Hv. apply in_map_iff in Hv. destruct Hv as (i & <- & _). apply in_squares.
    - apply gcd_pow_1; auto; lia.
    - destruct St as [y Hy]. exists (y ^ Z.of_nat i). rewrite <- Z.pow_mul_l. now apply eqm_pow. }
  assert (LE : (length squares <= length powers)%nat).
  { unfold squares, powers, roots. now rewrite !map_length, !seq_length. }
  pose proof (NoDup_length_incl ND LE IN (x mod p) (in_squares x G S)) as Hx.
  apply in_map_iff in Hx. destruct Hx as (i & E & Hi). apply in_seq in Hi. exists (Z.of_nat i). split; [lia|exact E].
Qed.
End Half.

Section Both.
Variables (p q r s t : Z).
Hypothesis (Pp : prime p) (Pr : prime r) (Ep : p = 2 * r + 1).
Hypothesis (Pq : prime q) (Ps : prime s) (Eq : q = 2 * s + 1).
Hypothesis (ne : p <> q).
Hypothesis (Gt : Z.gcd t (p * q) = 1) (St : is_square_mod (p * q) t) (Np : t mod p <> 1) (Nq : t mod q <> 1).

Lemma both_facts : 2 <= r /\ 2 <= s /\ Z.gcd p q = 1 /\ Z.gcd r s = 1 /\ Z.gcd t p = 1 /\ Z.gcd t q = 1 /\
  is_square_mod p t /\ is_square_mod q t /\ ~ eqm p t 1 /\ ~ eqm q t 1.
Proof.
  pose proof (prime_ge_2 _ Pr). pose proof (prime_ge_2 _ Ps). pose proof (prime_ge_2 _ Pp). pose proof (prime_ge_2 _ Pq).
  assert (G : Z.gcd p q = 1) by (apply primes_coprime; auto).
  apply gcd_mul_split in Gt. apply square_pq in St; [|lia..|auto].
  repeat split; try tauto; try (apply primes_coprime; auto; lia).
  - unfold eqm. rewrite (Z.mod_small 1) by lia. exact Np.
  - unfold eqm. rewrite (Z.mod_small 1) by lia. exact Nq.
Qed.

Lemma square_power x : Z.gcd x (p * q) = 1 -> is_square_mod (p * q) x ->
  exists! a, 0 <= a < r * s /\ eqm (p * q) (t ^ a) x.
Proof.
  destruct both_facts as (R2 & S2 & G & Grs & Gp & Gq & Sp & Sq & N1 & N2).
  intros Gx Sx. apply gcd_mul_split in Gx. apply square_pq in Sx; [|lia..|auto].
  destruct (power_of p r t Pp Pr Ep Gp Sp N1 x (proj1 Gx) (proj1 Sx)) as (a & Ha & Ea).
  destruct (power_of q s t Pq Ps Eq Gq Sq N2 x (proj2 Gx) (proj2 Sx)) as (b & Hb & Eb).
  destruct (crt_exists r s a b ltac:(lia) ltac:(lia) Grs) as (c0 & C1 & C2).
  set (c := c0 mod (r * s)). assert (Hc : 0 <= c < r * s) by (apply Z.mod_pos_bound; nia).
  assert (D1 : eqm r c a) by (unfold c; rewrite eqm_mod_l by lia; exact C1).
  assert (D2 : eqm s c b) by (unfold c; rewrite eqm_mod_r by lia; exact C2).
  assert (T : forall P R, prime P -> prime R -> P = 2 * R + 1 -> Z.gcd t P = 1 -> is_square_mod P t -> forall u v, 0 <= u -> 0 <= v ->
              eqm R u v -> eqm P (t ^ u) (t ^ v)).
  { intros P R HP HR EP GP SP. assert (W : forall u v, 0 <= u <= v -> eqm R u v -> eqm P (t ^ u) (t ^ v)).
    { intros u v Huv E. pose proof (prime_ge_2 _ HR). apply eqm_divide in E; [|lia].
      assert (Dv : (R | v - u)) by (replace (v - u) with (- (u - v)) by ring; now apply Z.divide_opp_r).
      replace v with (u + (v - u)) at 1 by ring. rewrite Z.pow_add_r by lia.
      rewrite (pow_mul_r P R t HP HR EP GP SP (v - u)) by (auto; lia). apply eqm_eq. ring. }
    intros u v Hu Hv E. destruct (Z.le_ge_cases u v); [apply W; auto|]. symmetry. apply W; [lia|now symmetry]. }
  exists c. split.
  - split; [exact Hc|]. apply eqm_crt; [lia|lia|auto| |].
    + rewrite <- Ea. apply (T p r); auto; lia.
    + rewrite <- Eb. apply (T q s); auto; lia.
  - intros d [Hd Ed]. apply (eqm_small (r * s)); [auto|auto|]. apply eqm_crt; [lia|lia|auto| |].
    + rewrite D1. apply (pow_inj p r t Pp Pr Ep Gp Sp N1); [lia|lia|]. rewrite Ea. symmetry.
      apply (eqm_weaken (p * q)); [nia|lia|apply Z.divide_factor_l|exact Ed].
    + rewrite D2. apply (pow_inj q s t Pq Ps Eq Gq Sq N2); [lia|lia|]. rewrite Eb. symmetry.
      apply (eqm_weaken (p * q)); [nia|lia|apply Z.divide_factor_r|exact Ed].
Qed.

Lemma order_both : has_order (p * q) t (r * s).
Proof.
  destruct both_facts as (R2 & S2 & G & Grs & Gp & Gq & Sp & Sq & N1 & N2).
  assert (P1 : prime p) by auto. assert (1 < p * q) by nia. split; [nia|]. split.
  - change (eqm (p * q) (t ^ (r * s)) 1). apply eqm_crt; [lia|lia|auto| |].
    + apply (pow_mul_r p r); auto; [nia|apply Z.divide_factor_l].
    + apply (pow_mul_r q s); auto; [nia|apply Z.divide_factor_r].
  - intros k Hk E. change (eqm (p * q) (t ^ k) 1) in E.
    assert (D1 : (r | k)).
    { apply (order_r p r t Pp Pr Ep Gp Sp N1); [lia|]. apply (eqm_weaken (p * q)); [nia|lia|apply Z.divide_factor_l|exact E]. }
    assert (D2 : (s | k)).
    { apply (order_r q s t Pq Ps Eq Gq Sq N2); [lia|]. apply (eqm_weaken (p * q)); [nia|lia|apply Z.divide_factor_r|exact E]. }
    assert (D : (r * s | k)).
    { assert (K : eqm (r * s) k 0) by (apply eqm_crt; auto; try lia; apply eqm_0; auto; lia). apply eqm_0 in K; [auto|nia]. }
    apply Z.divide_pos_le in D; lia.
Qed.
End Both.

(** ** Ring-Pedersen parameters from safe primes *)
Lemma quarter r s : (2 * r + 1 - 1) * (2 * s + 1 - 1) / 4 = r * s.
Proof. replace ((2 * r + 1 - 1) * (2 * s + 1 - 1)) with (r * s * 4) by ring. now rewrite Z.div_mul by lia. Qed.

Section Params.
Variables (P : pparams) (p q : Z) (draws : list Z) (t : Z).
Hypothesis (HP : p_self_consistent P = true) (Sp : safe_prime p) (Sq : safe_prime q) (ne : p <> q) (p5 : p <> 5) (q5 : q <> 5).
Hypothesis (Bp : p < 2 ^ prime_bits P) (Bq : q < 2 ^ prime_bits P).
Hypothesis (Ht : random_quadratic_residue (p * q) draws = Some t).

Lemma rp_random_value draw : 0 <= draw < (p - 1) * (q - 1) / 4 ->
  exists rp, rp_random P p q draw t = Ret rp /\ rp_n rp = p * q /\ rp_t rp = t /\ rp_s rp = (t ^ draw) mod (p * q).
Proof.
  intros Hd. pose proof (params_okP P HP) as HO.
  assert (Op : Z.odd p = true) by (apply mod4_odd, safe_mod4; auto).
  assert (Oq : Z.odd q = true) by (apply mod4_odd, safe_mod4; auto).
  assert (Pp : prime p) by (destruct Sp as (? & ? & ? & ?); auto).
  assert (Pq : prime q) by (destruct Sq as (? & ? & ? & ?); auto).
  unfold rp_random, rp_secret_random.
  rewrite (proj2 (proj1 (random_safe_exact p q Sp Sq)) (conj p5 q5)). cbn [obind fst snd].
  assert (Hl : 0 <= draw < rp_lambda_limit P (Primes p q ((p - 1) * (q - 1)))).
  { unfold rp_lambda_limit, wshr. cbn [pr_totient]. change (2 ^ 2) with 4.
    pose proof (prime_ge_2 _ Pp). pose proof (prime_ge_2 _ Pq).
    destruct (modulus_bound P p q HO) as [HN H2]; [lia..|].
    assert (2 < uint_w P).
    { destruct HO as (E1 & _ & E2 & _). assert (4 < modulus_bits P); [|lia].
      destruct (Z.lt_ge_cases 4 (modulus_bits P)) as [|C]; [auto|exfalso].
      assert (2 ^ modulus_bits P <= 2 ^ 4) by (apply Z.pow_le_mono_r; lia). change (2 ^ 4) with 16 in *.
      assert (p >= 5) by (destruct Sp as (r & Pr & _ & ->); pose proof (prime_ge_2 _ Pr); lia).
      assert (q >= 5) by (destruct Sq as (r & Pr & _ & ->); pose proof (prime_ge_2 _ Pr); lia). nia. }
    destruct (Z.ltb_spec 2 (uint_w P)); [auto|lia]. }
  destruct (rp_secret_total P p q draw HO Pp Pq Op Oq Bp Bq Hl) as (sec & E1 & E2).
  destruct (E2 t) as (rp & E3). rewrite E1. cbn [obind]. exists rp. split; [exact E3|].
  destruct (rp_generated P p q draws draw sec t rp HO Pp Pq Op Oq Bp Bq Hd E1 Ht E3) as (A1 & A2 & _ & A3 & _). auto.
Qed.

Hypothesis (Np : t mod p <> 1) (Nq : t mod q <> 1).

Lemma t_facts : 1 < p * q /\ Z.gcd t (p * q) = 1 /\ is_square_mod (p * q) t.
Proof.
  clear ne Np Nq Bp Bq HP p5 q5 P.
  destruct Sp as (r & Pr & Pp & Ep). destruct Sq as (s & Ps & Pq & Eq).
  pose proof (prime_ge_2 _ Pp). pose proof (prime_ge_2 _ Pq). assert (1 < p * q) by nia.
  destruct (qr_found (p * q) draws t) as (_ & G & S); auto.
Qed.

Lemma rp_order : has_order (p * q) t ((p - 1) * (q - 1) / 4).
Proof.
  clear Bp Bq HP p5 q5 P.
  destruct t_facts as (_ & G & S). destruct Sp as (r & Pr & Pp & Ep). destruct Sq as (s & Ps & Pq & Eq).
  replace ((p - 1) * (q - 1) / 4) with (r * s) by (rewrite Ep, Eq; now rewrite quarter).
  now apply order_both.
Qed.

Lemma rp_base_any x : 0 <= x < p * q -> Z.gcd x (p * q) = 1 -> square_mod (p * q) x ->
  exists! draw, 0 <= draw < (p - 1) * (q - 1) / 4 /\ exists rp, rp_random P p q draw t = Ret rp /\ rp_s rp = x.
Proof.
  intros Hx Gx Sx. destruct t_facts as (N1 & G & S). destruct Sp as (r & Pr & Pp & Ep). destruct Sq as (s & Ps & Pq & Eq).
  assert (E4 : (p - 1) * (q - 1) / 4 = r * s) by (rewrite Ep, Eq; now rewrite quarter).
  destruct (square_power p q r s t Pp Pr Ep Pq Ps Eq ne G S Np Nq x Gx Sx) as (a & [Ha Ea] & U).
  exists a. split.
  - rewrite E4. split; [auto|]. destruct (rp_random_value a) as (rp & E & _ & _ & Es); [lia|].
    exists rp. split; [auto|]. rewrite Es. unfold eqm in Ea. now rewrite Ea, Z.mod_small by lia.
  - intros b [Hb (rp & Eb & Es)]. apply U. rewrite E4 in Hb. split; [auto|].
    destruct (rp_random_value b) as (rp' & E & _ & _ & Es'); [lia|]. rewrite E in Eb. inversion Eb; subst rp'.
    unfold eqm. rewrite <- Es', Es. now rewrite Z.mod_small by lia.
Qed.
End Params.
