(** * Specification vocabulary for Paillier encryption and ring-Pedersen
    commitments, independent of the model's functions. *)
From Coq Require Import ZArith Znumtheory.
Open Scope Z_scope.

(** The textbook Paillier ciphertext of [m] with randomizer [rho]:
    [c = (1 + N)^m * rho^N mod N^2], written without inverses for negative
    plaintexts. *)
Definition paillier_cipher (N m rho c : Z) : Prop :=
  0 <= c < N * N /\
  (0 <= m -> c = ((1 + N) ^ m * rho ^ N) mod (N * N)) /\
  (m < 0 -> (c * (1 + N) ^ (- m)) mod (N * N) = (rho ^ N) mod (N * N)).

(** [r] is the representative of [v] modulo the odd number [N] that lies
    strictly between [-N/2] and [N/2]. *)
Definition centred (N v r : Z) : Prop := r mod N = v mod N /\ - N < 2 * r < N.

(** What prime generation delivers (crypto_primes with two top bits set, and
    the 3 mod 4 filter of rsa.rs:30-40), except that the two primes are
    assumed distinct. *)
Definition keygen_primes (b p q : Z) : Prop :=
  prime p /\ prime q /\ p <> q /\ p mod 4 = 3 /\ q mod 4 = 3 /\
  3 * 2 ^ (b - 2) <= p < 2 ^ b /\ 3 * 2 ^ (b - 2) <= q < 2 ^ b.

(** [x] is a square modulo [m]. *)
Definition square_mod (m x : Z) : Prop := exists y, (y * y) mod m = x mod m.
(** [x] is a fourth power modulo [m]. *)
Definition fourth_power_mod (m x : Z) : Prop := exists y, (y * y * (y * y)) mod m = x mod m.

(** [r] is the [v]-th power of the unit [b] modulo [m], for signed [v]. *)
Definition unit_power (m b v r : Z) : Prop :=
  0 <= r < m /\ (0 <= v -> r = (b ^ v) mod m) /\ (v < 0 -> (r * b ^ (- v)) mod m = 1 mod m).

(** [c] is a ring-Pedersen commitment to [v] with randomizer [r]:
    [c = s^v * t^r mod N]. *)
Definition rp_opens (N s t v r c : Z) : Prop :=
  exists a b, unit_power N s v a /\ unit_power N t r b /\ c = (a * b) mod N.
