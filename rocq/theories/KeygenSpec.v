(** * Vocabulary for drawing keys (C77), independent of the model's functions. *)
From Coq Require Import ZArith Znumtheory List.
Open Scope Z_scope.

(** Candidates of [b] bits with the two top bits set, as the sieve of
    [crypto_primes] delivers them. *)
Definition prime_draws (b : Z) (l : list Z) : Prop :=
  Forall (fun p => prime p /\ 3 * 2 ^ (b - 2) <= p < 2 ^ b) l.

(** A safe prime: [(p - 1) / 2] is a prime as well. *)
Definition safe_prime (p : Z) : Prop := exists r, prime r /\ prime p /\ p = 2 * r + 1.
