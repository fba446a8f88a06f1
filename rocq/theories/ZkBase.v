(** * Shared vocabulary of the zero-knowledge proof models: scheme parameters,
    the curve interface, hash transcripts.  Definitions only. *)
From Coq Require Import ZArith List Bool.
From Verif Require Import Base SignedModel EncodingModel ConversionModel PaillierModel.
Import ListNotations.
Open Scope Z_scope.

(** ** Scheme parameters *)

(** params/traits.rs:28-66.  The defaulted constants may be overridden by an
    implementor, so they are separate fields.  [sp_L], [sp_LW]: limbs of [Uint]
    and [WideUint]; [sp_slen]: bytes of an encoded scalar; [sp_q]: curve order;
    [sp_xw]: [ExtraWideUint::BITS]. *)
Record sparams := SParams {
  sp_pail : pparams;
  sp_xw : Z;
  sp_q : Z;
  sp_num_bits : Z;
  sp_slen : nat;
  sp_L : nat;
  sp_LW : nat;
  sp_secbits : nat;   (* SECURITY_BITS *)
  sp_kappa : Z;       (* SECURITY_PARAMETER *)
  sp_l : Z;           (* L_BOUND *)
  sp_lp : Z;          (* LP_BOUND *)
  sp_eps : Z }.       (* EPS_BOUND *)

(** params/traits.rs:52-58: the default values of the derived constants ([u32]
    subtraction: a compile-time error when negative). *)
Definition sp_defaults (S : sparams) : bool :=
  (sp_kappa S =? sp_num_bits S) && (sp_l S =? sp_kappa S)
  && (sp_lp S =? prime_bits (sp_pail S) + sp_l S)
  && (sp_eps S =? prime_bits (sp_pail S) - 2 * sp_l S) && (0 <=? sp_eps S).

(** params/traits.rs:69-91. *)
Definition sp_self_consistent (S : sparams) : bool :=
  (sp_num_bits S =? sp_kappa S)
  && (sp_kappa S <=? sp_l S)
  && (sp_l S + sp_kappa S <=? sp_eps S)
  && (sp_l S * 3 + sp_eps S <=? sp_lp S)
  && (sp_lp S + sp_eps S + 1 + 20 <=? modulus_bits (sp_pail S))
  && (sp_l S * 2 + sp_eps S =? prime_bits (sp_pail S))
  && (modulus_bits (sp_pail S) * 2 + sp_l S + sp_eps S <? sp_xw S).

(** What the associated types must satisfy for the crate to compile and for
    the curve to be the one described: the types are [Uint]s of whole limbs,
    [mul_wide] doubles widths (uint/traits.rs:173-181), [to_wide] extends
    (uint/traits.rs:137-167), the curve order is an odd number of exactly
    [NUM_BITS] bits and scalars are encoded in [sp_slen] bytes. *)
Definition sp_compiles (S : sparams) : bool :=
  let P := sp_pail S in
  p_self_consistent P
  && (uint_w P =? BITS (sp_L S)) && (wide_w P =? BITS (sp_LW S))
  && (uint_w P =? 2 * half_w P) && (wide_w P =? 2 * uint_w P) && (wide_w P <=? sp_xw S)
  && (1 <? sp_q S) && Z.odd (sp_q S) && (bits (sp_q S) =? sp_num_bits S)
  && (sp_num_bits S <=? 8 * Z.of_nat (sp_slen S)) && Nat.leb (sp_slen S) (BYTES (sp_L S)).

(** ** The curve *)

(** src/curve/arithmetic.rs: points with their group operations and the action
    of scalars (scalars are integers modulo the order). *)
Record curve := Curve {
  pt : Type;
  p0 : pt;
  padd : pt -> pt -> pt;
  popp : pt -> pt;
  pmul : Z -> pt -> pt;
  peqb : pt -> pt -> bool;
  gen : pt }.

(** The backend's documented meaning: an abelian group on which integers act
    with exponent [q], with a decidable equality. *)
Record curve_ok (q : Z) (C : curve) : Prop := CurveOk {
  c_addA : forall x y z : pt C, padd C x (padd C y z) = padd C (padd C x y) z;
  c_addC : forall x y, padd C x y = padd C y x;
  c_add0 : forall x, padd C x (p0 C) = x;
  c_addN : forall x, padd C x (popp C x) = p0 C;
  c_mulDl : forall a b x, pmul C (a + b) x = padd C (pmul C a x) (pmul C b x);
  c_mulDr : forall a x y, pmul C a (padd C x y) = padd C (pmul C a x) (pmul C a y);
  c_mulA : forall a b x, pmul C a (pmul C b x) = pmul C (a * b) x;
  c_mul1 : forall x, pmul C 1 x = x;
  c_order : forall x, pmul C q x = p0 C;
  c_eqb : forall x y, peqb C x y = true <-> x = y }.

(** ** Hash transcripts *)

(** The domain separation tags of src/zk/*.rs ([HASH_TAG]); distinct byte
    strings. *)
Inductive tag := Tsch | Telog | Tprm | Tmod | Tmod_rng | Tfac | Tenc_elg | Taff_g | Taff_g_star | Tdec.

(** What is chained into a hasher: integers (in their fixed-width wire form),
    points, the caller's context, vectors.  Framing makes the byte encoding of
    such a list injective (property C12). *)
Inductive item (A T : Type) :=
| IZ (z : Z)
| IP (p : T)
| IA (a : A)
| IL (l : list (item A T)).
Arguments IZ {A T} z.
Arguments IP {A T} p.
Arguments IA {A T} a.
Arguments IL {A T} l.

(** The hash function, as used: a tagged transcript is turned into a scalar
    (curve/arithmetic.rs [from_xof_reader]), a bit vector (bitvec.rs:83-88), an
    integer of a given number of bits (uint/traits.rs:24-46), invertible
    residues modulo a number (rsa.rs:308-316), and the verdict of the primality
    test seeded with the hash (mod_.rs:145-160, crypto_primes external). *)
Record xof (A T : Type) := Xof {
  x_scalar : tag -> list (item A T) -> Z;
  x_bits : tag -> list (item A T) -> nat -> list bool;
  x_uint : tag -> list (item A T) -> Z -> Z;
  x_residues : tag -> list (item A T) -> Z -> nat -> list Z;
  x_is_prime : tag -> list (item A T) -> Z -> bool }.
Arguments x_scalar {A T}.
Arguments x_bits {A T}.
Arguments x_uint {A T}.
Arguments x_residues {A T}.
Arguments x_is_prime {A T}.

(** Ranges of what is read from the hash (proved for the readers in C13). *)
Record xof_ok {A T} (q : Z) (X : xof A T) : Prop := XofOk {
  xo_scalar : forall t l, 0 <= x_scalar X t l < q;
  xo_bits : forall t l n, length (x_bits X t l n) = n;
  xo_uint : forall t l n, 0 <= n -> 0 <= x_uint X t l n < 2 ^ n;
  xo_residues : forall t l N n, 0 < N -> length (x_residues X t l N n) = n /\
     Forall (fun y => 0 <= y < 2 ^ bits N /\ Z.gcd y N = 1) (x_residues X t l N n) }.

(** [RPParams::to_wire] (ring_pedersen.rs:151-157) as hashed. *)
Definition setup_item {A T} (rp : rpparams) : item A T := IL [IZ (rp_n rp); IZ (rp_t rp); IZ (rp_s rp)].

(** Equality of ciphertexts (encryption.rs:86, keys.rs:401-405), of
    [PublicSigned] (public_signed.rs:70) and of bit vectors (bitvec.rs:52). *)
Definition ct_eqb (c d : ciphertext) : bool := (ct_pk c =? ct_pk d) && (ct_val c =? ct_val d).
Definition s_eqb (x y : signed) : bool := (bound x =? bound y) && (word x =? word y).
Fixpoint bits_eqb (a b : list bool) : bool :=
  match a, b with
  | [], [] => true
  | x :: a', y :: b' => Bool.eqb x y && bits_eqb a' b'
  | _, _ => false
  end.

(** [if !cond { return false; }] followed by the rest. *)
Definition check (b : bool) (k : outcome bool) : outcome bool := if b then k else Ret false.
