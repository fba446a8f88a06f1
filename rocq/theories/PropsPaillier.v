(** * Properties C26-C31: Paillier encryption, the secret key's residue
    arithmetic, and ring-Pedersen commitments. *)
From Coq Require Import ZArith Znumtheory List Bool Lia.
From Verif Require Import Base SignedModel SignedSpec PaillierModel PaillierSpec RsaFacts PaillierProofs RnsProofs RpProofs PaillierLemmas.
Import ListNotations.
Open Scope Z_scope.

(** ** Parameters and keys used in the concrete cases: 4-bit primes 7, 11. *)
Definition P4 : pparams := PParams 4 8 4 8 16.
Definition P7 : pparams := PParams 7 14 7 14 28.
Ltac decide_case :=
  lazymatch goal with
  | |- prime _ => apply prime_check_ok; vm_compute; reflexivity
  | |- paillier_cipher _ _ _ _ => split; decide_case
  | |- wf _ _ => unfold wf; decide_case
  | |- keygen_primes _ _ _ => unfold keygen_primes; decide_case
  | |- _ /\ _ => split; decide_case
  | |- exists _, _ => eexists; decide_case
  | |- _ -> _ => let H := fresh in intro H; first [exfalso; revert H; vm_compute; congruence | decide_case]
  | |- _ = _ => vm_compute; reflexivity
  | |- _ => vm_compute; congruence
  end.
Definition sk77 : skey := SKey (Primes 7 11 60) 9 (mkU 8 53) 8 34 77.

(** ** C26: Paillier decryption inverts encryption *)

Theorem C26_keygen_succeeds : forall P p q,
  p_self_consistent P = true -> keygen_primes (prime_bits P) p q ->
  exists sk, skey_new P p q = Ret sk.
Proof. exact keygen_succeeds. Qed.
Print Assumptions C26_keygen_succeeds.

Example C26_keygen_case : p_self_consistent P7 = true /\ keygen_primes (prime_bits P7) 103 107 /\
  exists sk, skey_new P7 103 107 = Ret sk /\ sk_pk sk = 11021.
Proof. decide_case. Qed.

(** Nothing in key generation excludes equal primes (rsa.rs:78-83); the key
    constructor then panics. *)
Theorem C26_equal_primes_panic : forall P p, prime p -> skey_new P p p = Panic.
Proof. exact keygen_equal_primes_panics. Qed.
Print Assumptions C26_equal_primes_panic.

Example C26_equal_primes_case : prime 7 /\ skey_new P4 7 7 = Panic.
Proof. decide_case. Qed.

Theorem C26_encryption_textbook : forall P N rho,
  p_self_consistent P = true -> 1 < N < 2 ^ modulus_bits P -> 0 <= rho ->
  (forall x, wf (uint_w P) x ->
     exists c, enc P N x rho = Ret (Ct N c) /\ enc_public P N x rho = Ret (Ct N c) /\
               paillier_cipher N (sval (uint_w P) x) rho c) /\
  (forall x, wf (wide_w P) x ->
     exists c, enc_wide P N x rho = Ret (Ct N c) /\ enc_public_wide P N x rho = Ret (Ct N c) /\
               paillier_cipher N (sval (wide_w P) x) rho c).
Proof. exact encrypt_textbook. Qed.
Print Assumptions C26_encryption_textbook.

(** [-5] encrypted with randomizer 2 modulo 77. *)
Example C26_encryption_case : wf 8 (mkS 3 251) /\ sval 8 (mkS 3 251) = -5 /\
  enc P4 77 (mkS 3 251) 2 = Ret (Ct 77 2790) /\
  (2790 * (1 + 77) ^ 5) mod (77 * 77) = (2 ^ 77) mod (77 * 77).
Proof. decide_case. Qed.

Theorem C26_decrypt_inverts : forall P p q sk m rho c,
  p_self_consistent P = true -> prime p -> prime q ->
  p < 2 ^ prime_bits P -> q < 2 ^ prime_bits P -> skey_new P p q = Ret sk ->
  Z.gcd rho (p * q) = 1 -> paillier_cipher (p * q) m rho c ->
  exists r, decrypt P sk (Ct (p * q) c) = Ret r /\ wf (uint_w P) r /\
    centred (p * q) m (sval (uint_w P) r) /\
    (- (p * q) < 2 * m < p * q -> sval (uint_w P) r = m).
Proof. exact decrypt_inverts. Qed.
Print Assumptions C26_decrypt_inverts.

(** The plaintexts -5 and -82 have the same ciphertext. *)
Example C26_decrypt_case : p_self_consistent P4 = true /\ prime 7 /\ prime 11 /\
  skey_new P4 7 11 = Ret sk77 /\ Z.gcd 2 77 = 1 /\ paillier_cipher 77 (-5) 2 2790 /\
  paillier_cipher 77 (-82) 2 2790 /\ decrypt P4 sk77 (Ct 77 2790) = Ret (mkS 7 251).
Proof. decide_case. Qed.

(** Decryption never panics, whatever the ciphertext (invertible or not). *)
Theorem C26_decrypt_total : forall P p q sk v,
  p_self_consistent P = true -> prime p -> prime q ->
  p < 2 ^ prime_bits P -> q < 2 ^ prime_bits P -> skey_new P p q = Ret sk ->
  0 <= v < (p * q) * (p * q) ->
  exists r, decrypt P sk (Ct (p * q) v) = Ret r /\ wf (uint_w P) r /\
   - (p * q) < 2 * sval (uint_w P) r < p * q.
Proof. exact decrypt_total. Qed.
Print Assumptions C26_decrypt_total.

Example C26_decrypt_total_case : skey_new P4 7 11 = Ret sk77 /\
  decrypt P4 sk77 (Ct 77 0) = Ret (mkS 7 247) /\ decrypt P4 sk77 (Ct 77 7) = Ret (mkS 7 31).
Proof. decide_case. Qed.

(** A ciphertext made for another key is not decrypted, and an even number is
    never taken as a public key. *)
Theorem C26_other_key_panics : forall P sk c, ct_pk c <> sk_pk sk ->
  decrypt P sk c = Panic /\ derive_randomizer P sk c = Panic.
Proof. exact wrong_key_panics. Qed.
Print Assumptions C26_other_key_panics.

Theorem C26_public_key_checked : forall N,
  (public_key_new N = Panic <-> (2 | N)) /\ (forall n, public_key_new N = Ret n -> n = N /\ N mod 2 = 1).
Proof. exact (fun N => conj (even_modulus_panics N) (odd_modulus_kept N)). Qed.
Print Assumptions C26_public_key_checked.

Example C26_checks_case : decrypt P4 sk77 (Ct 55 7) = Panic /\ public_key_new 78 = Panic /\ public_key_new 77 = Ret 77.
Proof. decide_case. Qed.

(** ** C27: Paillier homomorphisms *)

Theorem C27_add : forall N m1 r1 c1 m2 r2 c2, 1 < N ->
  paillier_cipher N m1 r1 c1 -> paillier_cipher N m2 r2 c2 ->
  exists c, homomorphic_add (Ct N c1) (Ct N c2) = Ret (Ct N c) /\
    paillier_cipher N (m1 + m2) ((r1 * r2) mod N) c.
Proof. exact hom_add. Qed.
Print Assumptions C27_add.

Theorem C27_sub : forall N m1 r1 c1 m2 r2 c2, 1 < N -> Z.gcd r2 N = 1 ->
  paillier_cipher N m1 r1 c1 -> paillier_cipher N m2 r2 c2 ->
  exists c i, homomorphic_sub (Ct N c1) (Ct N c2) = Ret (Ct N c) /\ (r2 * i) mod N = 1 mod N /\
    paillier_cipher N (m1 - m2) ((r1 * i) mod N) c.
Proof. exact hom_sub. Qed.
Print Assumptions C27_sub.

Theorem C27_mul : forall N m rho c w x, 1 < N -> Z.gcd rho N = 1 -> wf w x ->
  paillier_cipher N m rho c ->
  exists d r, homomorphic_mul_pub w (Ct N c) x = Ret (Ct N d) /\
    homomorphic_mul_sec w (Ct N c) x = Ret (Ct N d) /\
    unit_power N rho (sval w x) r /\ paillier_cipher N (m * sval w x) r d.
Proof. exact hom_mul. Qed.
Print Assumptions C27_mul.

(** Failures: different keys, and operands that are not invertible (which a
    peer can send, encryption.rs:77-82). *)
Theorem C27_add_key_mismatch_panics : forall c d, ct_pk c <> ct_pk d -> homomorphic_add c d = Panic.
Proof. exact homomorphic_add_panic. Qed.
Print Assumptions C27_add_key_mismatch_panics.

Theorem C27_sub_noninvertible_panics : forall c d, 1 < ct_pk d -> Z.gcd (ct_val d) (ct_pk d) <> 1 ->
  homomorphic_sub c d = Panic.
Proof. exact homomorphic_sub_panic. Qed.
Print Assumptions C27_sub_noninvertible_panics.

Theorem C27_mul_panics_exactly : forall N v w x, 1 < N -> 0 <= v -> wf w x ->
  (homomorphic_mul_pub w (Ct N v) x = Panic <-> Z.gcd v N <> 1 /\ sval w x < 0) /\
  (homomorphic_mul_sec w (Ct N v) x = Panic <-> Z.gcd v N <> 1 /\ sval w x <> 0).
Proof. exact hom_mul_panics. Qed.
Print Assumptions C27_mul_panics_exactly.

Example C27_case : paillier_cipher 77 (-5) 2 2790 /\ paillier_cipher 77 4 3 2539 /\
  homomorphic_add (Ct 77 2790) (Ct 77 2539) = Ret (Ct 77 4584) /\ paillier_cipher 77 (-1) 6 4584 /\
  homomorphic_mul_pub 8 (Ct 77 2790) (mkS 3 253) = Ret (Ct 77 127) /\
  paillier_cipher 77 15 29 127 /\ (29 * 2 ^ 3) mod 77 = 1 /\
  homomorphic_mul_sec 8 (Ct 77 14) (mkS 3 2) = Panic /\
  homomorphic_sub (Ct 77 2790) (Ct 77 14) = Panic.
Proof. decide_case. Qed.

(** ** C28: Randomizer recovery *)

Theorem C28_randomizer_recovered : forall P p q sk m rho c,
  p_self_consistent P = true -> prime p -> prime q ->
  p < 2 ^ prime_bits P -> q < 2 ^ prime_bits P -> skey_new P p q = Ret sk ->
  0 <= rho < p * q -> Z.gcd rho (p * q) = 1 -> paillier_cipher (p * q) m rho c ->
  derive_randomizer P sk (Ct (p * q) c) = Ret rho.
Proof. exact randomizer_recovered. Qed.
Print Assumptions C28_randomizer_recovered.

Theorem C28_ciphertext_opened : forall P p q sk c,
  p_self_consistent P = true -> prime p -> prime q ->
  p < 2 ^ prime_bits P -> q < 2 ^ prime_bits P -> skey_new P p q = Ret sk ->
  0 <= c < (p * q) * (p * q) -> Z.gcd c (p * q) = 1 ->
  exists m rho, decrypt P sk (Ct (p * q) c) = Ret m /\
    derive_randomizer P sk (Ct (p * q) c) = Ret rho /\
    0 <= rho < p * q /\ Z.gcd rho (p * q) = 1 /\
    paillier_cipher (p * q) (sval (uint_w P) m) rho c.
Proof. exact ciphertext_opened. Qed.
Print Assumptions C28_ciphertext_opened.

Example C28_case : skey_new P4 7 11 = Ret sk77 /\ paillier_cipher 77 (-5) 2 2790 /\
  derive_randomizer P4 sk77 (Ct 77 2790) = Ret 2 /\
  Z.gcd 1000 77 = 1 /\ derive_randomizer P4 sk77 (Ct 77 1000) = Ret 76 /\
  decrypt P4 sk77 (Ct 77 1000) = Ret (mkS 7 (256 - 13)) /\ paillier_cipher 77 (-13) 76 1000.
Proof. decide_case. Qed.

(** ** C29: Masked randomizers and public re-encryption *)

Theorem C29_sigma_reencryption : forall P N x a z e rho r,
  p_self_consistent P = true -> 1 < N < 2 ^ modulus_bits P ->
  wf (uint_w P) x -> wf (uint_w P) a -> wf (uint_w P) z -> wf (uint_w P) e ->
  sval (uint_w P) z = sval (uint_w P) a + sval (uint_w P) e * sval (uint_w P) x ->
  0 <= rho -> Z.gcd rho N = 1 -> 0 <= r ->
  exists w cx ca ce c, to_masked P N rho r e = Ret w /\
    enc P N x rho = Ret cx /\ enc P N a r = Ret ca /\
    homomorphic_mul_pub (uint_w P) cx e = Ret ce /\ homomorphic_add ce ca = Ret c /\
    enc_public P N z w = Ret c.
Proof. exact sigma_reencryption. Qed.
Print Assumptions C29_sigma_reencryption.

(** x = 3, alpha = 4, e = -2: z = -2. *)
Example C29_case : sval 8 (mkS 3 254) = 4 + sval 8 (mkS 3 254) * 3 /\
  to_masked P4 77 2 3 (mkS 3 254) = Ret 20 /\
  enc P4 77 (mkS 3 3) 2 = Ret (Ct 77 2020 ) /\ enc P4 77 (mkS 3 4) 3 = Ret (Ct 77 2539) /\
  homomorphic_mul_pub 8 (Ct 77 2020) (mkS 3 254) = Ret (Ct 77 4442) /\
  homomorphic_add (Ct 77 4442) (Ct 77 2539) = Ret (Ct 77 1280) /\
  enc_public P4 77 (mkS 3 254) 20 = Ret (Ct 77 1280).
Proof. decide_case. Qed.

(** ** C30: RNS representation and square roots modulo N *)

Theorem C30_rns_roundtrip : forall P p q sk,
  p_self_consistent P = true -> prime p -> prime q ->
  p < 2 ^ prime_bits P -> q < 2 ^ prime_bits P -> skey_new P p q = Ret sk ->
  (forall x, 0 <= x < p * q -> exists ab, rns_split P sk x = Ret ab /\ rns_join P sk ab = Ret x) /\
  (forall a b, 0 <= a < p -> 0 <= b < q -> exists x, rns_join P sk (a, b) = Ret x /\
     0 <= x < p * q /\ rns_split P sk x = Ret (a, b)).
Proof. exact rns_roundtrip. Qed.
Print Assumptions C30_rns_roundtrip.

Theorem C30_sqrt_exact : forall P p q sk x,
  p_self_consistent P = true -> prime p -> prime q -> p mod 4 = 3 -> q mod 4 = 3 ->
  p < 2 ^ prime_bits P -> q < 2 ^ prime_bits P -> skey_new P p q = Ret sk -> 0 <= x < p * q ->
  exists ab, rns_split P sk x = Ret ab /\
  (square_mod (p * q) x -> exists rt y, rns_sqrt P sk ab = Some rt /\ rns_join P sk rt = Ret y /\
     0 <= y < p * q /\ (y * y) mod (p * q) = x /\ square_mod (p * q) y) /\
  (~ square_mod (p * q) x -> rns_sqrt P sk ab = None).
Proof. exact rns_sqrt_exact. Qed.
Print Assumptions C30_sqrt_exact.

(** The sampler's output, and uniqueness of the fourth-root sign pattern. *)
Theorem C30_nonsquare_sampler : forall P p q sk draws y b,
  p_self_consistent P = true -> prime p -> prime q -> p mod 4 = 3 -> q mod 4 = 3 ->
  p < 2 ^ prime_bits P -> q < 2 ^ prime_bits P -> skey_new P p q = Ret sk ->
  random_quadratic_residue (p * q) draws = Some y ->
  0 <= nonsquare_residue sk y b < p * q /\ Z.gcd (nonsquare_residue sk y b) (p * q) = 1 /\
  ~ square_mod (p * q) (nonsquare_residue sk y b) /\
  (forall v, Z.gcd v (p * q) = 1 -> exists s t : bool, forall s' t' : bool,
     (fourth_power_mod (p * q) ((if s' then -1 else 1) * (if t' then nonsquare_residue sk y b else 1) * v)
      <-> s' = s /\ t' = t)).
Proof. exact nonsquare_sampler. Qed.
Print Assumptions C30_nonsquare_sampler.

Example C30_case : skey_new P4 7 11 = Ret sk77 /\ rns_split P4 sk77 53 = Ret (4, 9) /\
  rns_sqrt P4 sk77 (4, 9) = Some (2, 3) /\ rns_join P4 sk77 (2, 3) = Ret 58 /\
  (58 * 58) mod 77 = 53 /\ (17 * 17) mod 77 = 58 /\
  rns_sqrt P4 sk77 (3, 9) = None /\
  random_quadratic_residue 77 [14; 5] = Some 25 /\
  nonsquare_residue sk77 25 false = 3 /\ nonsquare_residue sk77 25 true = 74.
Proof. decide_case. Qed.

(** ** C31: Ring-Pedersen commitments are homomorphic *)

Theorem C31_commit_correct : forall rp w1 w2 v r, 1 < rp_n rp -> 0 <= rp_s rp -> 0 <= rp_t rp ->
  Z.gcd (rp_s rp) (rp_n rp) = 1 -> Z.gcd (rp_t rp) (rp_n rp) = 1 -> wf w1 v -> wf w2 r ->
  exists c, rp_commit_sec rp w1 w2 v r = Ret c /\ rp_commit_pub rp w1 w2 v r = Ret c /\
    rp_opens (rp_n rp) (rp_s rp) (rp_t rp) (sval w1 v) (sval w2 r) c.
Proof. exact rp_commit_correct. Qed.
Print Assumptions C31_commit_correct.

Theorem C31_homomorphic : forall N s t, 1 < N -> Z.gcd s N = 1 -> Z.gcd t N = 1 ->
  (forall v1 r1 c1 v2 r2 c2, rp_opens N s t v1 r1 c1 -> rp_opens N s t v2 r2 c2 ->
     rp_opens N s t (v1 + v2) (r1 + r2) (rpc_mul (RP N t s) c1 c2)) /\
  (forall v r c w e, rp_opens N s t v r c -> wf w e ->
     exists d, rpc_pow_pub (RP N t s) w c e = Ret d /\ rpc_pow_sec (RP N t s) w c e = Ret d /\
       rp_opens N s t (v * sval w e) (r * sval w e) d).
Proof. exact rp_homomorphic. Qed.
Print Assumptions C31_homomorphic.

Theorem C31_generated_parameters : forall P p q draw draws t,
  p_self_consistent P = true -> prime p -> prime q ->
  Z.odd p = true -> Z.odd q = true -> p < 2 ^ prime_bits P -> q < 2 ^ prime_bits P ->
  0 <= draw < (p - 1) * (q - 1) / 4 -> random_quadratic_residue (p * q) draws = Some t ->
  exists sec rp, rp_secret_new P p q draw = Ret sec /\ rp_with_secret sec t = Ret rp /\
  rp_n rp = p * q /\ rp_t rp = t /\ rp_s rp = (t ^ draw) mod (p * q) /\
  0 <= rp_s rp < p * q /\ 0 <= t < p * q /\
  Z.gcd (rp_s rp) (p * q) = 1 /\ Z.gcd t (p * q) = 1 /\
  square_mod (p * q) (rp_s rp) /\ square_mod (p * q) t.
Proof. exact rp_generation. Qed.
Print Assumptions C31_generated_parameters.

(** Bases received from a peer are only reduced modulo [N]
    (ring_pedersen.rs:178-187); committing under a base that is not
    invertible panics. *)
Theorem C31_commit_panics_exactly : forall rp w1 w2 v r, 1 < rp_n rp -> 0 <= rp_s rp -> 0 <= rp_t rp ->
  wf w1 v -> wf w2 r ->
  (rp_commit_sec rp w1 w2 v r = Panic <->
   (Z.gcd (rp_s rp) (rp_n rp) <> 1 /\ sval w1 v <> 0) \/ (Z.gcd (rp_t rp) (rp_n rp) <> 1 /\ sval w2 r <> 0)).
Proof. exact rp_commit_sec_panics. Qed.
Print Assumptions C31_commit_panics_exactly.

Example C31_case :
  rp_secret_new P4 7 11 13 = Ret (RPSecret (Primes 7 11 60) (mkU 6 13)) /\
  random_quadratic_residue 77 [14; 5] = Some 25 /\
  rp_with_secret (RPSecret (Primes 7 11 60) (mkU 6 13)) 25 = Ret (RP 77 25 60) /\
  rp_commit_sec (RP 77 25 60) 8 8 (mkS 3 253) (mkS 3 2) = Ret 16 /\
  rp_commit_sec (RP 77 25 60) 8 8 (mkS 3 1) (mkS 3 1) = Ret 37 /\
  rpc_mul (RP 77 25 60) 16 37 = 53 /\
  rp_commit_sec (RP 77 25 60) 8 8 (mkS 3 254) (mkS 3 3) = Ret 53 /\
  (exists rp, rp_to_precomputed 77 25 14 = Ret rp /\ rp_commit_sec rp 8 8 (mkS 3 1) (mkS 3 1) = Panic).
Proof. decide_case. Qed.

(** ** C07: exponentiation by an unsigned value, as in the residue arithmetic of the keys *)
(** Unsigned exponents: all bits up to the bound count. *)
Theorem C07_pow_unsigned : forall m b x, 0 <= uword x < 2 ^ ubound x ->
  pow_unsigned m b x = Ret ((b ^ uword x) mod m).
Proof. exact pow_unsigned_spec. Qed.
Print Assumptions C07_pow_unsigned.

Example C07_unsigned_case : 0 <= uword (mkU 3 7) < 2 ^ ubound (mkU 3 7) /\ pow_unsigned 77 3 (mkU 3 7) = Ret 31.
Proof. vm_compute; intuition congruence. Qed.
