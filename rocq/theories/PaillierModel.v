(** * Paillier keys, encryption and ring-Pedersen commitments: transcription
    of [src/paillier/{params,rsa,keys,encryption,ring_pedersen}.rs].
    Definitions only.

    A Montgomery form modulo [m] is its retrieved value, a [Z] in [0, m)
    ([to_montgomery] is reduction modulo [m], [retrieve] the identity); this is
    crypto-bigint's documented meaning.  [Secret<_>] wrappers are transparent.
    Prime generation ([crypto_primes]) is external: primes are arguments. *)
From Coq Require Import ZArith List Bool.
From Verif Require Import Base SignedModel.
Import ListNotations.
Open Scope Z_scope.

(** ** Parameters *)

(** params.rs:15-72; the widths are the [BITS] of the associated types. *)
Record pparams := PParams {
  prime_bits : Z;
  modulus_bits : Z;
  half_w : Z;
  uint_w : Z;
  wide_w : Z }.

(** params.rs:74-79. *)
Definition p_self_consistent (P : pparams) : bool :=
  (modulus_bits P =? 2 * prime_bits P)
  && (prime_bits P <=? half_w P)
  && (modulus_bits P <=? uint_w P)
  && (half_w P <=? uint_w P)
  && (modulus_bits P * 2 <=? wide_w P)
  && (uint_w P <=? wide_w P).

(** traits.rs (uint) 175-192: [mul_wide] only compiles when the widths add
    up; required at [HalfUint -> Uint] and [Uint -> WideUint]. *)
Definition p_widths_compile (P : pparams) : bool :=
  (uint_w P =? 2 * half_w P) && (wide_w P =? 2 * uint_w P).

(** ** Public modulus *)

(** rsa.rs:264-271 with keys.rs:331-348: a received modulus becomes a public
    key by [Odd::new(..).expect(..)]; all other fields are functions of it. *)
Definition public_key_new (N : Z) : outcome Z := if Z.odd N then Ret N else Panic.

(** rsa.rs:285-289. *)
Definition modulus_signed (P : pparams) (N : Z) : outcome signed :=
  oexpect (pub_new_positive (wide_w P) N (modulus_bits P)).

(** traits.rs (uint) 53-68. *)
Definition is_invertible (r N : Z) : bool := Z.gcd r N =? 1.

(** rsa.rs:296-304: draws until an invertible residue comes up; the RNG is
    the list of [random_mod] results, [None] when the list is exhausted. *)
Fixpoint random_invertible_residue (N : Z) (draws : list Z) : option Z :=
  match draws with
  | [] => None
  | r :: rest => if is_invertible r N then Some r else random_invertible_residue N rest
  end.

(** rsa.rs:319-323. *)
Definition random_quadratic_residue (N : Z) (draws : list Z) : option Z :=
  match random_invertible_residue N draws with
  | Some r => Some (((r mod N) * (r mod N)) mod N)
  | None => None
  end.

(** ** Secret primes *)

(** rsa.rs:49-51 and 121-141 (the precomputed totient). *)
Record primes := Primes { pr_p : Z; pr_q : Z; pr_totient : Z }.

(** rsa.rs:121-141: [checked_sub(1).expect], then [mul_wide] (exact). *)
Definition primes_new (p q : Z) : outcome primes :=
  p1 <~ oexpect (csub p 1) ;;
  q1 <~ oexpect (csub q 1) ;;
  Ret (Primes p q (p1 * q1)).

(** rsa.rs:54-65: the debug assertion of the wire constructor. *)
Definition primes_wire_ok (p q : Z) : bool := (Z.land p 3 =? 3) && (Z.land q 3 =? 3).

(** rsa.rs:175-181. *)
Definition p_signed (P : pparams) (s : primes) : outcome signed :=
  oexpect (sec_new_positive (uint_w P) (pr_p s) (prime_bits P)).
Definition q_signed (P : pparams) (s : primes) : outcome signed :=
  oexpect (sec_new_positive (uint_w P) (pr_q s) (prime_bits P)).

(** rsa.rs:195-201; widening keeps bound and value (secret_unsigned.rs). *)
Definition totient_unsigned (P : pparams) (s : primes) : outcome unsigned :=
  oexpect (unsigned_new (uint_w P) (pr_totient s) (modulus_bits P)).

(** rsa.rs:214-223; [draw] is the [random_mod(totient)] result. *)
Definition random_residue_mod_totient (P : pparams) (s : primes) (draw : Z) : outcome unsigned :=
  _ <~ oassert (negb (pr_totient s =? 0)) ;;
  oexpect (unsigned_new (uint_w P) draw (modulus_bits P)).

(** ** Secret key *)

(** keys.rs:50-69. *)
Record skey := SKey {
  sk_primes : primes;
  sk_inv_totient : Z;
  sk_inv_modulus : unsigned;
  sk_inv_p_mod_q : Z;
  sk_u : Z;
  sk_pk : Z }.

(** keys.rs:75-158. *)
Definition skey_new (P : pparams) (p q : Z) : outcome skey :=
  s <~ primes_new p q ;;
  N <~ public_key_new (p * q) ;;
  _ <~ oassert (Z.odd p) ;;
  _ <~ oassert (Z.odd q) ;;
  inv_totient <~ oexpect (inv_mod N (pr_totient s)) ;;
  im <~ oexpect (inv_mod (pr_totient s) N) ;;
  inv_modulus <~ oexpect (unsigned_new (uint_w P) im (modulus_bits P)) ;;
  inv_p <~ oexpect (inv_mod q p) ;;
  let t := (inv_p + inv_p - 1) mod q in
  (* [mul_wide] then [checked_add(p)], [checked_sub(1)] *)
  _ <~ oassert (t * p + p <? 2 ^ uint_w P) ;;
  u <~ oexpect (csub (t * p + p) 1) ;;
  Ret (SKey s inv_totient inv_modulus inv_p (u mod N) N).

(** keys.rs:193-206.  [try_from_wide(..).expect(..)]. *)
Definition rns_split (P : pparams) (sk : skey) (e : Z) : outcome (Z * Z) :=
  let p := pr_p (sk_primes sk) in
  let q := pr_q (sk_primes sk) in
  a <~ oexpect (uint_try_from_wide (half_w P) (uint_w P) (e mod p)) ;;
  b <~ oexpect (uint_try_from_wide (half_w P) (uint_w P) (e mod q)) ;;
  Ret (a mod p, b mod q).

(** keys.rs:208-229. *)
Definition sqrt_part (P : pparams) (m x : Z) : option Z :=
  let power := wadd (half_w P) (wshr (half_w P) m 2) 1 in
  let candidate := pow_bounded m x power (prime_bits P - 1) in
  if (candidate * candidate) mod m =? x then Some candidate else None.

(** keys.rs:232-245. *)
Definition rns_sqrt (P : pparams) (sk : skey) (rns : Z * Z) : option (Z * Z) :=
  match sqrt_part P (pr_p (sk_primes sk)) (fst rns), sqrt_part P (pr_q (sk_primes sk)) (snd rns) with
  | Some a, Some b => Some (a, b)
  | _, _ => None
  end.

(** keys.rs:247-262; [checked_add(..).expect(..)] in [Uint]. *)
Definition rns_join (P : pparams) (sk : skey) (rns : Z * Z) : outcome Z :=
  let p := pr_p (sk_primes sk) in
  let q := pr_q (sk_primes sk) in
  let '(a, b) := rns in
  let x := (((b - a mod q) mod q) * sk_inv_p_mod_q sk) mod q in
  _ <~ oassert (a + p * x <? 2 ^ uint_w P) ;;
  Ret (a + p * x).

(** keys.rs:267-295; [y] is the result of [random_quadratic_residue], [b] the
    random bit. *)
Definition nonsquare_residue (sk : skey) (y : Z) (b : bool) : Z :=
  let N := sk_pk sk in
  let w := (y * sk_u sk) mod N in
  if b then (- w) mod N else w.

(** ** Ciphertexts *)

(** encryption.rs:85-90: the key the ciphertext belongs to, and its value
    modulo [N^2]. *)
Record ciphertext := Ct { ct_pk : Z; ct_val : Z }.

(** encryption.rs:24-66: a randomizer is the [Uint] [rho]; its Montgomery form
    is [rho mod N].  [to_masked] computes [rho^e * coeff mod N]. *)
Definition to_masked (P : pparams) (N rho coeff : Z) (e : signed) : outcome Z :=
  r <~ pow_pub (uint_w P) N (rho mod N) e ;;
  Ret ((r * (coeff mod N)) mod N).

(** encryption.rs:77-82: a received ciphertext is reduced modulo [N^2]; no
    invertibility check. *)
Definition ct_to_precomputed (N wire : Z) : ciphertext := Ct N (wire mod (N * N)).

(** encryption.rs:98-133 and, with identical arithmetic on public types,
    135-163. *)
Definition enc_inner (P : pparams) (N abs rho : Z) (neg : bool) : outcome ciphertext :=
  let n2 := N * N in
  let prod := ((abs mod n2) * (N mod n2)) mod n2 in
  let prod := if neg then (- prod) mod n2 else prod in
  let factor1 := (prod + 1 mod n2) mod n2 in
  e <~ modulus_signed P N ;;
  factor2 <~ pow_pub (wide_w P) n2 (rho mod n2) e ;;
  Ret (Ct N ((factor1 * factor2) mod n2)).

(** encryption.rs:166-172. *)
Definition enc (P : pparams) (N : Z) (x : signed) (rho : Z) : outcome ciphertext :=
  a <~ sec_abs (uint_w P) x ;;
  enc_inner P N (uword a) rho (is_negative (uint_w P) x).
(** encryption.rs:174-180. *)
Definition enc_wide (P : pparams) (N : Z) (x : signed) (rho : Z) : outcome ciphertext :=
  a <~ sec_abs (wide_w P) x ;;
  enc_inner P N (uword a) rho (is_negative (wide_w P) x).
(** encryption.rs:182-188 and 190-196. *)
Definition enc_public (P : pparams) (N : Z) (x : signed) (rho : Z) : outcome ciphertext :=
  enc_inner P N (pub_abs (uint_w P) x) rho (is_negative (uint_w P) x).
Definition enc_public_wide (P : pparams) (N : Z) (x : signed) (rho : Z) : outcome ciphertext :=
  enc_inner P N (pub_abs (wide_w P) x) rho (is_negative (wide_w P) x).

(** encryption.rs:205-235. *)
Definition decrypt (P : pparams) (sk : skey) (c : ciphertext) : outcome signed :=
  _ <~ oassert (sk_pk sk =? ct_pk c) ;;
  let N := sk_pk sk in
  let n2 := N * N in
  phi <~ totient_unsigned P (sk_primes sk) ;;
  t <~ pow_unsigned n2 (ct_val c) phi ;;
  let x := ((t - 1 mod n2) mod n2) / N in
  x <~ oexpect (uint_try_from_wide (uint_w P) (wide_w P) x) ;;
  let positive := ((x mod N) * sk_inv_totient sk) mod N in
  r <~ sec_new_modulo (uint_w P) positive N (modulus_bits P) ;;
  oexpect r.

(** encryption.rs:238-261. *)
Definition derive_randomizer (P : pparams) (sk : skey) (c : ciphertext) : outcome Z :=
  _ <~ oassert (sk_pk sk =? ct_pk c) ;;
  let N := sk_pk sk in
  m <~ oexpect (uint_try_from_wide (uint_w P) (wide_w P) (ct_val c mod N)) ;;
  pow_unsigned N (m mod N) (sk_inv_modulus sk).

(** encryption.rs:263-270. *)
Definition homomorphic_neg (c : ciphertext) : outcome ciphertext :=
  i <~ oexpect (inv_mod (ct_pk c * ct_pk c) (ct_val c)) ;;
  Ret (Ct (ct_pk c) i).

(** encryption.rs:277-295, instance [V = SecretSigned<_>] and
    [V = PublicSigned<_>] of width [w] (traits.rs (uint) 87-124). *)
Definition homomorphic_mul_sec (w : Z) (c : ciphertext) (x : signed) : outcome ciphertext :=
  v <~ pow_sec w (ct_pk c * ct_pk c) (ct_val c) x ;;
  Ret (Ct (ct_pk c) v).
Definition homomorphic_mul_pub (w : Z) (c : ciphertext) (x : signed) : outcome ciphertext :=
  v <~ pow_pub w (ct_pk c * ct_pk c) (ct_val c) x ;;
  Ret (Ct (ct_pk c) v).

(** encryption.rs:297-311. *)
Definition homomorphic_add (c d : ciphertext) : outcome ciphertext :=
  _ <~ oassert (ct_pk c =? ct_pk d) ;;
  Ret (Ct (ct_pk c) ((ct_val c * ct_val d) mod (ct_pk c * ct_pk c))).

(** encryption.rs:335-340. *)
Definition homomorphic_sub (c d : ciphertext) : outcome ciphertext :=
  n <~ homomorphic_neg d ;; homomorphic_add c n.

(** ** Ring-Pedersen parameters *)

(** ring_pedersen.rs:76-84: modulus, [t] (randomizer base), [s] (value base). *)
Record rpparams := RP { rp_n : Z; rp_t : Z; rp_s : Z }.

(** ring_pedersen.rs:19-22. *)
Record rpsecret := RPSecret { rps_primes : primes; rps_lambda : unsigned }.

(** ring_pedersen.rs:39-53; [draw] is the [random_mod(totient >> 2)] result. *)
Definition rp_lambda_limit (P : pparams) (s : primes) : Z := wshr (uint_w P) (pr_totient s) 2.
Definition rp_secret_new (P : pparams) (p q draw : Z) : outcome rpsecret :=
  s <~ primes_new p q ;;
  _ <~ oassert (negb (rp_lambda_limit P s =? 0)) ;;
  l <~ oexpect (unsigned_new (uint_w P) draw (modulus_bits P - 2)) ;;
  Ret (RPSecret s l).

(** ring_pedersen.rs:98-109; [t] is the result of [random_quadratic_residue]. *)
Definition rp_with_secret (sec : rpsecret) (t : Z) : outcome rpparams :=
  N <~ public_key_new (pr_p (rps_primes sec) * pr_q (rps_primes sec)) ;;
  s <~ pow_unsigned N t (rps_lambda sec) ;;
  Ret (RP N t s).

(** ring_pedersen.rs:178-187: received bases are reduced modulo [N]; nothing
    else is checked. *)
Definition rp_to_precomputed (N t s : Z) : outcome rpparams :=
  N <~ public_key_new N ;; Ret (RP N (t mod N) (s mod N)).

(** ring_pedersen.rs:127-133 with both arguments [SecretSigned] ([w1], [w2]
    are their widths), and with both [PublicSigned]. *)
Definition rp_commit_sec (rp : rpparams) (w1 w2 : Z) (v r : signed) : outcome Z :=
  a <~ pow_sec w1 (rp_n rp) (rp_s rp) v ;;
  b <~ pow_sec w2 (rp_n rp) (rp_t rp) r ;;
  Ret ((a * b) mod rp_n rp).
Definition rp_commit_pub (rp : rpparams) (w1 w2 : Z) (v r : signed) : outcome Z :=
  a <~ pow_pub w1 (rp_n rp) (rp_s rp) v ;;
  b <~ pow_pub w2 (rp_n rp) (rp_t rp) r ;;
  Ret ((a * b) mod rp_n rp).

(** ring_pedersen.rs:136-141 and 144-149. *)
Definition rp_commit_zero_value_sec (rp : rpparams) (w : Z) (r : signed) : outcome Z :=
  pow_sec w (rp_n rp) (rp_t rp) r.
Definition rp_commit_zero_value_pub (rp : rpparams) (w : Z) (r : signed) : outcome Z :=
  pow_pub w (rp_n rp) (rp_t rp) r.
Definition rp_commit_zero_randomizer_sec (rp : rpparams) (w : Z) (v : signed) : outcome Z :=
  pow_sec w (rp_n rp) (rp_s rp) v.
Definition rp_commit_zero_randomizer_pub (rp : rpparams) (w : Z) (v : signed) : outcome Z :=
  pow_pub w (rp_n rp) (rp_s rp) v.

(** ring_pedersen.rs:199-204 (public and secret exponents) and 207-212. *)
Definition rpc_pow_pub (rp : rpparams) (w c : Z) (e : signed) : outcome Z := pow_pub w (rp_n rp) c e.
Definition rpc_pow_sec (rp : rpparams) (w c : Z) (e : signed) : outcome Z := pow_sec w (rp_n rp) c e.
Definition rpc_mul (rp : rpparams) (c d : Z) : Z := (c * d) mod rp_n rp.
(** ring_pedersen.rs:217-221. *)
Definition rpc_to_precomputed (rp : rpparams) (wire : Z) : Z := wire mod rp_n rp.
