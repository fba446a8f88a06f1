(** * Conversions between curve scalars and integers: [src/params/conversion.rs].
    Definitions only.  A scalar is a [Z] in [0, q); its SEC1 encoding has
    [slen] big-endian bytes.  [L]: limbs of [Uint], [LW]: limbs of [WideUint]. *)
From Coq Require Import ZArith List Bool.
From Verif Require Import Base SignedModel EncodingModel.
Import ListNotations.
Open Scope Z_scope.

Section Conv.
Variables (q num_bits : Z) (slen L LW : nat).

(** Big-endian bytes of a scalar or of the curve order (external backend). *)
Definition sbytes (s : Z) : list Z := rev (digits 8 slen s).

(** Copying [slen] bytes to the end of a zeroed [Uint] representation; shared
    shape of conversion.rs:13-24, 34-46 and 123-140.  [get_mut] out of range
    (and the index subtraction) panics. *)
Definition pad_to_uint (b : list Z) : outcome Z :=
  let repr := uint_to_be_bytes L 0 in
  _ <~ oassert (Nat.leb (length b) (length repr)) ;;
  oexpect (uint_try_from_be_bytes L (firstn (length repr - length b) repr ++ b)).

(** conversion.rs:13-28. *)
Definition curve_order_uint : outcome Z := pad_to_uint (sbytes q).

(** conversion.rs:34-46 and 123-140. *)
Definition uint_from_scalar (s : Z) : outcome Z := pad_to_uint (sbytes s).

(** conversion.rs:51-59. *)
Definition public_signed_from_scalar (s : Z) : outcome signed :=
  o <~ curve_order_uint ;;
  u <~ uint_from_scalar s ;;
  oexpect (pub_new_positive (BITS L) u (bits o)).

(** [Scalar::try_from_be_bytes], curve/arithmetic.rs:135-143: right length and
    below the order. *)
Definition scalar_try_from_be_bytes (b : list Z) : option Z :=
  if Nat.eqb (length b) slen && (be_value b <? q) then Some (be_value b) else None.

(** conversion.rs:62-76 and 102-121. *)
Definition scalar_from_wide_uint (v : Z) : outcome Z :=
  o <~ curve_order_uint ;;
  let r := v mod o in
  let repr := uint_to_be_bytes LW r in
  _ <~ oassert (Nat.leb slen (length repr)) ;;
  oexpect (scalar_try_from_be_bytes (skipn (length repr - slen) repr)).

(** Scalar negation in the backend. *)
Definition scalar_neg (s : Z) : Z := (- s) mod q.

(** conversion.rs:79-88. *)
Definition scalar_from_signed (x : signed) : outcome Z :=
  a <~ scalar_from_wide_uint (uint_to_wide (BITS L) (BITS LW) (pub_abs (BITS L) x)) ;;
  Ret (if is_negative (BITS L) x then scalar_neg a else a).

(** conversion.rs:90-99. *)
Definition scalar_from_wide_signed (x : signed) : outcome Z :=
  a <~ scalar_from_wide_uint (pub_abs (BITS LW) x) ;;
  Ret (if is_negative (BITS LW) x then scalar_neg a else a).

(** conversion.rs:145-157. *)
Definition secret_signed_from_scalar (s : Z) : outcome signed :=
  o <~ curve_order_uint ;;
  u <~ uint_from_scalar s ;;
  r <~ sec_new_modulo (BITS L) u o num_bits ;;
  oexpect r.

(** conversion.rs:160-165. *)
Definition secret_scalar_from_signed (x : signed) : outcome Z :=
  a <~ scalar_from_wide_uint (uint_to_wide (BITS L) (BITS LW) (sec_abs_value (BITS L) x)) ;;
  Ret (if is_negative (BITS L) x then scalar_neg a else a).

(** conversion.rs:168-173. *)
Definition secret_scalar_from_wide_signed (x : signed) : outcome Z :=
  a <~ scalar_from_wide_uint (sec_abs_value (BITS LW) x) ;;
  Ret (if is_negative (BITS LW) x then scalar_neg a else a).
End Conv.
