(** * Drawing keys: the constructors that take their primes from the RNG.

    Prime generation ([crypto_primes]) is external: what [sieve_and_find] and
    [generate_safe_prime_with_rng] return one after the other is an argument. *)
From Coq Require Import ZArith List Bool.
From Verif Require Import Base SignedModel PaillierModel.
Import ListNotations.
Open Scope Z_scope.

(** rsa.rs:31-40: the loop returns the first candidate whose first limb ends in
    two ones; [None] when the list is exhausted.  The limb is a 64-bit one. *)
Fixpoint blum_prime (cands : list Z) : option Z :=
  match cands with
  | [] => None
  | p :: rest => if Z.land (p mod 2 ^ 64) 3 =? 3 then Some p else blum_prime rest
  end.

(** rsa.rs:55-65 in a build with debug assertions. *)
Definition primes_wire_new (p q : Z) : outcome (Z * Z) :=
  _ <~ oassert (primes_wire_ok p q) ;; Ret (p, q).

(** rsa.rs:78-83: two independent searches. *)
Definition random_paillier_blum (c1 c2 : list Z) : option (outcome (Z * Z)) :=
  match blum_prime c1, blum_prime c2 with
  | Some p, Some q => Some (primes_wire_new p q)
  | _, _ => None
  end.

(** keys.rs:36-44: [SecretKeyPaillierWire::random] and [into_precomputed]. *)
Definition sk_random (P : pparams) (c1 c2 : list Z) : option (outcome skey) :=
  match random_paillier_blum c1 c2 with
  | Some w => Some (pq <~ w ;; skey_new P (fst pq) (snd pq))
  | None => None
  end.

(** rsa.rs:95-100; [p], [q] are what the generator of safe primes returned. *)
Definition random_safe (p q : Z) : outcome (Z * Z) := primes_wire_new p q.

(** ring_pedersen.rs:39-55; [draw] is the [random_mod] result. *)
Definition rp_secret_random (P : pparams) (p q draw : Z) : outcome rpsecret :=
  pq <~ random_safe p q ;; rp_secret_new P (fst pq) (snd pq) draw.

(** ring_pedersen.rs:93-109; [t] is what [random_quadratic_residue] returned. *)
Definition rp_random (P : pparams) (p q draw t : Z) : outcome rpparams :=
  sec <~ rp_secret_random P p q draw ;; rp_with_secret sec t.
