(** * Wire encodings, bit vectors, hash transcripts and hash-derived integers.
    Definitions only.  A byte is a [Z] in [0, 256). *)
From Coq Require Import ZArith List Bool.
From Verif Require Import Base SignedModel.
Import ListNotations.
Open Scope Z_scope.

Definition byte_ok (b : Z) : Prop := 0 <= b < 256.

(** Little-endian digits in base [2^k]: [n] digits of [x]. *)
Fixpoint digits (k : Z) (n : nat) (x : Z) : list Z :=
  match n with
  | O => []
  | S n' => x mod 2 ^ k :: digits k n' (x / 2 ^ k)
  end.

(** [Limb::to_be_bytes] (crypto-bigint): 8 bytes, most significant first. *)
Definition limb_to_be_bytes (l : Z) : list Z := rev (digits 8 8 l).

(** The limbs of a [Uint<L>] ([as_limbs]), least significant first. *)
Definition uint_limbs (L : nat) (x : Z) : list Z := digits 64 L x.

(** [uint/traits.rs:201-210]: limb [i] (least significant first) is written
    big-endian into the [i]-th chunk of 8 bytes counted from the end. *)
Definition uint_to_be_bytes (L : nat) (x : Z) : list Z :=
  concat (rev (map limb_to_be_bytes (uint_limbs L x))).

(** [Uint::from_be_slice] (crypto-bigint): big-endian value of the bytes. *)
Definition be_value (l : list Z) : Z := fold_left (fun acc b => acc * 256 + b) l 0.

(** [Uint::<L>::BYTES]. *)
Definition BYTES (L : nat) : nat := 8 * L.
(** [Uint::<L>::BITS]. *)
Definition BITS (L : nat) : Z := 64 * Z.of_nat L.

(** [uint/traits.rs:212-221]; the error string is dropped. *)
Definition uint_try_from_be_bytes (L : nat) (l : list Z) : option Z :=
  if Nat.eqb (length l) (BYTES L) then Some (be_value l) else None.

(** [uint/public_uint.rs:17-34]: [PublicUint] (de)serialization is exactly the
    byte slice (hex framing by serde is external). *)
Definition public_uint_ser := uint_to_be_bytes.
Definition public_uint_de := uint_try_from_be_bytes.

(** [u32::div_ceil(8)]. *)
Definition div_ceil8 (b : Z) : Z := (b + 7) / 8.

(** public_signed.rs:14-21. *)
Record packed_signed := mkPacked { p_bound : Z; p_neg : bool; p_bytes : list Z }.

(** public_signed.rs:23-40.  [get(len - bound_bytes ..)]: the subtraction
    underflows (panic) when the bound needs more bytes than the integer has. *)
Definition pack_signed (L : nat) (x : signed) : outcome packed_signed :=
  let repr := uint_to_be_bytes L (pub_abs (BITS L) x) in
  let nb := div_ceil8 (bound x) in
  _ <~ oassert (nb <=? Z.of_nat (length repr)) ;;
  Ret (mkPacked (bound x) (is_negative (BITS L) x)
         (skipn (length repr - Z.to_nat nb) repr)).

(** public_signed.rs:42-67. *)
Definition unpack_signed (L : nat) (p : packed_signed) : outcome (option signed) :=
  let repr := uint_to_be_bytes L 0 in
  if Nat.ltb (length repr) (length (p_bytes p)) then Ret None
  else
    let repr' := firstn (length repr - length (p_bytes p)) repr ++ p_bytes p in
    a <~ oexpect (uint_try_from_be_bytes L repr') ;;
    Ret (pub_new_from_abs (BITS L) a (p_bound p) (p_neg p)).

(** ** Bit vectors *)

(** bitvec.rs:9-14. *)
Record packed_bits := mkPB { pb_bits : Z; pb_bytes : list Z }.

(** bitvec.rs:57-70: bit [i] is bit [7 - i mod 8] of byte [i / 8]. *)
Definition bit_at (bytes : list Z) (i : nat) : bool :=
  Z.testbit (nth (i / 8) bytes 0) (7 - Z.of_nat (i mod 8)).
Definition bitvec_from_bytes (n : nat) (bytes : list Z) : list bool :=
  map (bit_at bytes) (seq 0 n).

(** bitvec.rs:16-28 (the conversion of u32 to usize cannot fail on the
    supported 32/64-bit targets). *)
Definition bitvec_unpack (p : packed_bits) : option (list bool) :=
  if Z.of_nat (length (pb_bytes p)) <? div_ceil8 (pb_bits p) then None
  else Some (bitvec_from_bytes (Z.to_nat (pb_bits p)) (pb_bytes p)).

(** [v\[i\] |= m] on a byte vector. *)
Fixpoint or_at (l : list Z) (i : nat) (m : Z) : list Z :=
  match l, i with
  | [], _ => []
  | b :: l', O => Z.lor b m :: l'
  | b :: l', S i' => b :: or_at l' i' m
  end.

(** bitvec.rs:30-50.  [len as u32] is the length itself for vectors shorter
    than 2^32 (the only ones produced by the crate). *)
Fixpoint pack_loop (v : list bool) (i : nat) (bytes : list Z) : list Z :=
  match v with
  | [] => bytes
  | b :: v' =>
      pack_loop v' (S i)
        (if b then or_at bytes (i / 8) (2 ^ (7 - Z.of_nat (i mod 8))) else bytes)
  end.
Definition bitvec_pack (v : list bool) : packed_bits :=
  mkPB (Z.of_nat (length v)) (pack_loop v 0 (repeat 0 (Z.to_nat (div_ceil8 (Z.of_nat (length v)))))).

(** bitvec.rs:91-98. *)
Definition bitvec_xor (a b : list bool) : outcome (list bool) :=
  if Nat.eqb (length a) (length b) then Ret (map (fun p => xorb (fst p) (snd p)) (combine a b))
  else Panic.

(** key_init.rs:466-469, aux_gen.rs:135-152, key_refresh.rs:183-200: start from
    the own contribution and xor in every other one. *)
Definition xor_all (mine : list bool) (others : list (list bool)) : outcome (list bool) :=
  fold_left (fun acc b => a <~ acc ;; bitvec_xor a b) others (Ret mine).

(** ** Hash transcripts *)

(** hashing.rs:18-23: 8-byte big-endian length ([as u64] truncates), then the bytes. *)
Definition frame (f : list Z) : list Z :=
  rev (digits 8 8 (Z.of_nat (length f))) ++ f.

(** hashing.rs:56-58 and repeated [chain_bytes]: what the digest absorbs after
    [new_with_dst(dst).chain_bytes(f1).chain_bytes(f2)...]. *)
Definition absorbed (dst : list Z) (fields : list (list Z)) : list Z :=
  concat (map frame (dst :: fields)).

(** hashing.rs:65-69: number of output bytes of [finalize]. *)
Definition finalize_len (security_bits : Z) : Z := div_ceil8 (security_bits * 2).

(** ** Hash-derived integers *)

(** traits.rs:24-46; [buf] is what the XOF reader wrote (of length
    [n_bits.div_ceil(8)]); returns the integer. *)
Definition xof_mask (nbits : Z) : Z := if Z.land nbits 7 =? 0 then 255 else 2 ^ (Z.land nbits 7) - 1.
Definition mask_first (m : Z) (buf : list Z) : list Z :=
  match buf with [] => [] | b :: r => Z.land b m :: r end.
Definition uint_from_xof (L : nat) (nbits : Z) (buf : list Z) : outcome Z :=
  _ <~ oassert (nbits <=? BITS L) ;;
  let pad := repeat 0 (BYTES L - Z.to_nat (div_ceil8 nbits)) in
  oexpect (uint_try_from_be_bytes L (pad ++ mask_first (xof_mask nbits) buf)).

(** public_signed.rs:181-197 from the raw hash bytes. *)
Definition challenge_from_xof (L : nat) (e : Z) (buf : list Z) : outcome signed :=
  _ <~ oassert (0 <? e) ;;
  _ <~ oassert (e <? BITS L) ;;
  h <~ uint_from_xof L e buf ;;
  pub_from_xof_range (BITS L) e h.

(** rsa.rs:308-316: the first of the successive XOF integers (each of
    [bits(N)] bits) that is coprime to [N]; [None] if the given prefix of the
    stream has none (the Rust loop would keep reading). *)
Fixpoint invertible_from_xof (n : Z) (draws : list Z) : option Z :=
  match draws with
  | [] => None
  | r :: rest => if Z.gcd r n =? 1 then Some r else invertible_from_xof n rest
  end.

(** curve/arithmetic.rs:89-109: two buffers of [slen] bytes, low part first;
    reduced modulo the curve order [q].  The [debug_assert] is not modelled. *)
Definition scalar_from_xof (q : Z) (slen : nat) (lo hi : list Z) : Z :=
  (be_value hi * 2 ^ (8 * Z.of_nat slen) + be_value lo) mod q.
