(** * Property C77: drawn primes make working keys.

    The primes come from [crypto_primes]; what it delivers is the hypothesis
    ([prime_draws], [safe_prime]), everything done with them is the model. *)
From Coq Require Import ZArith Znumtheory List Bool Lia.
From Verif Require Import Base ModArith RsaFacts SignedModel PaillierModel PaillierSpec HideRpSpec KeygenModel KeygenSpec
  KeygenProofs PropsPaillier.
Import ListNotations.
Open Scope Z_scope.

(** ** The search returns the first candidate congruent to 3 modulo 4 and runs on
    exactly as long as there is none. *)
Theorem C77_search : forall l,
  (forall p, blum_prime l = Some p <->
     exists l1 l2, l = l1 ++ p :: l2 /\ p mod 4 = 3 /\ Forall (fun x => x mod 4 <> 3) l1) /\
  (blum_prime l = None <-> Forall (fun x => x mod 4 <> 3) l).
Proof. exact (fun l => conj (blum_prime_exact l) (blum_prime_none l)). Qed.
Print Assumptions C77_search.

Example C77_search_case : blum_prime [97; 101; 103; 107] = Some 103 /\ blum_prime [97; 101] = None.
Proof. decide_case. Qed.

(** ** Two searches give a Paillier key whose modulus has full length, unless they
    end in the same prime; then the constructor panics. *)
Theorem C77_paillier_key : forall P c1 c2 o, p_self_consistent P = true ->
  prime_draws (prime_bits P) c1 -> prime_draws (prime_bits P) c2 -> sk_random P c1 c2 = Some o ->
  exists p q, In p c1 /\ In q c2 /\ p mod 4 = 3 /\ q mod 4 = 3 /\
    (p <> q -> exists sk, o = Ret sk /\ sk_pk sk = p * q /\ 2 ^ (modulus_bits P - 1) <= sk_pk sk < 2 ^ modulus_bits P) /\
    (p = q -> o = Panic).
Proof. exact sk_random_exact. Qed.
Print Assumptions C77_paillier_key.

Example C77_paillier_key_case : p_self_consistent P7 = true /\
  prime_draws (prime_bits P7) [97; 101; 103] /\ prime_draws (prime_bits P7) [113; 107] /\
  (exists sk, sk_random P7 [97; 101; 103] [113; 107] = Some (Ret sk) /\ sk_pk sk = 11021) /\
  sk_random P7 [97; 101; 103] [103] = Some Panic.
Proof.
  unfold prime_draws. split; [decide_case|]. split; [repeat (apply Forall_cons; [decide_case|]); apply Forall_nil|].
  split; [repeat (apply Forall_cons; [decide_case|]); apply Forall_nil|]. decide_case.
Qed.

(** ** Safe primes pass the check of the constructor, except 5. *)
Theorem C77_safe_primes : forall p q, safe_prime p -> safe_prime q ->
  (random_safe p q = Ret (p, q) <-> p <> 5 /\ q <> 5) /\ (random_safe p q = Panic <-> p = 5 \/ q = 5).
Proof. exact random_safe_exact. Qed.
Print Assumptions C77_safe_primes.

Lemma safe_7 : safe_prime 7. Proof. exists 3. decide_case. Qed.
Lemma safe_11 : safe_prime 11. Proof. exists 5. decide_case. Qed.
Lemma safe_5 : safe_prime 5. Proof. exists 2. decide_case. Qed.
Example C77_safe_primes_case : safe_prime 7 /\ safe_prime 11 /\ safe_prime 5 /\
  random_safe 7 11 = Ret (7, 11) /\ random_safe 7 5 = Panic.
Proof.
  split; [exact safe_7|]. split; [exact safe_11|]. split; [exact safe_5|]. decide_case.
Qed.

(** ** With safe primes the randomizer base generates all invertible squares: its
    order is a quarter of the totient, and every invertible square is the value
    base for exactly one secret exponent in the range the code draws from.  The
    base must not be 1 modulo one of the primes. *)
Theorem C77_order : forall p q draws t, safe_prime p -> safe_prime q -> p <> q ->
  random_quadratic_residue (p * q) draws = Some t -> t mod p <> 1 -> t mod q <> 1 ->
  has_order (p * q) t ((p - 1) * (q - 1) / 4).
Proof. exact rp_order. Qed.
Print Assumptions C77_order.

Theorem C77_value_base : forall P p q draws t, p_self_consistent P = true ->
  safe_prime p -> safe_prime q -> p <> q -> p <> 5 -> q <> 5 -> p < 2 ^ prime_bits P -> q < 2 ^ prime_bits P ->
  random_quadratic_residue (p * q) draws = Some t -> t mod p <> 1 -> t mod q <> 1 ->
  forall x, 0 <= x < p * q -> Z.gcd x (p * q) = 1 -> square_mod (p * q) x ->
  exists! draw, 0 <= draw < (p - 1) * (q - 1) / 4 /\ exists rp, rp_random P p q draw t = Ret rp /\ rp_s rp = x.
Proof. exact rp_base_any. Qed.
Print Assumptions C77_value_base.

(** Modulus 77, base 4 of order 15; the square 9 is the 8th power. *)
Example C77_value_base_case : p_self_consistent P4 = true /\ random_quadratic_residue 77 [7; 2] = Some 4 /\
  4 mod 7 <> 1 /\ 4 mod 11 <> 1 /\ 3 * 3 = 9 /\ (7 - 1) * (11 - 1) / 4 = 15 /\
  rp_random P4 7 11 8 4 = Ret (RP 77 4 9).
Proof. decide_case. Qed.
(** The square 15 is 1 modulo 7; its order is 5 only. *)
Example C77_small_order : random_quadratic_residue 77 [13] = Some 15 /\ 15 mod 7 = 1 /\ (15 ^ 5) mod 77 = 1.
Proof. decide_case. Qed.

(** ** The products fit: widths that compile leave room for the modulus. *)
Theorem C77_product_fits : forall P p q, p_widths_compile P = true -> 0 <= half_w P ->
  0 <= p < 2 ^ half_w P -> 0 <= q < 2 ^ half_w P -> p * q < 2 ^ uint_w P.
Proof. exact (fun P p q w h Hp Hq => product_fits P p q w Hp Hq h). Qed.
Print Assumptions C77_product_fits.

Example C77_product_fits_case : p_widths_compile P4 = true /\ 15 < 2 ^ half_w P4 /\ 15 * 15 < 2 ^ uint_w P4.
Proof. decide_case. Qed.
