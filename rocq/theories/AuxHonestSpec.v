(** * What an honest party draws for its auxiliary data. *)
From Coq Require Import ZArith Znumtheory.
From Verif Require Import Base SignedModel PaillierModel PaillierSpec ZkBase ZkModel ZkSpec.
From mathcomp Require Import all_ssreflect.
From Verif Require Import ProtoBase AuxGenModel.
Set Implicit Arguments.
Unset Strict Implicit.
Unset Printing Implicit Defensive.
Local Open Scope Z_scope.

(** The key material: Paillier primes congruent to 3 modulo 4, ring-Pedersen
    primes with the top bit set, exponents and squares in their ranges; [com] is
    the non-square used in the modulus proof. *)
Record honest_keys (S : sparams) (r : ag_rand) (com : Z) : Prop := HonestKeys {
  hk_primes : keygen_primes (prime_bits (sp_pail S)) (ar_p r) (ar_q r);
  hk_rp_prime : Znumtheory.prime (ar_rp_p r) /\ Znumtheory.prime (ar_rp_q r) /\ ar_rp_p r <> ar_rp_q r;
  hk_rp_p : 2 ^ (prime_bits (sp_pail S) - 1) <= ar_rp_p r < 2 ^ prime_bits (sp_pail S);
  hk_rp_q : 2 ^ (prime_bits (sp_pail S) - 1) <= ar_rp_q r < 2 ^ prime_bits (sp_pail S);
  hk_lambda : 0 <= ar_lambda r < (ar_rp_p r - 1) * (ar_rp_q r - 1) / 4;
  hk_t : exists draws, random_quadratic_residue (ar_rp_p r * ar_rp_q r) draws = Some (ar_t r);
  hk_draws : List.length (ar_draws r) = sp_secbits S /\
    List.Forall (fun d => 0 <= d < (ar_rp_p r - 1) * (ar_rp_q r - 1)) (ar_draws r);
  hk_com : exists sk draws y b, skey_new (sp_pail S) (ar_p r) (ar_q r) = Ret sk /\
    random_quadratic_residue (ar_p r * ar_q r) draws = Some y /\ com = nonsquare_residue sk y b }.

(** The randomness of a factor proof for a peer's modulus [hat_n], the two main
    masks away from the ends of their range (property C41). *)
Record honest_masks (S : sparams) (r : ag_rand) (hat_n : Z) (rnd : fac_rand) : Prop := HonestMasks {
  hm_ok : fac_rand_ok S (ar_p r * ar_q r) hat_n rnd;
  hm_alpha : ar_p r * 2 ^ (sp_l S - 1) <= fr_alpha rnd <
    2 ^ (prime_bits (sp_pail S) - 2) * 2 ^ (sp_l S + sp_eps S) - ar_p r * 2 ^ (sp_l S - 1);
  hm_beta : ar_q r * 2 ^ (sp_l S - 1) <= fr_beta rnd <
    2 ^ (prime_bits (sp_pail S) - 2) * 2 ^ (sp_l S + sp_eps S) - ar_q r * 2 ^ (sp_l S - 1) }.

(** The primality test seeded by the hash takes no composite for a prime. *)
Definition detects_composites {A T} (X : xof A T) : Prop :=
  forall l N, ~ Znumtheory.prime N -> x_is_prime X Tmod_rng l N = false.
