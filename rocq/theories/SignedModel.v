(** * Bounded signed integers: transcription of [src/uint/secret_signed.rs],
    [src/uint/public_signed.rs], [src/uint/secret_unsigned.rs] and the
    exponentiation impls of [src/uint/traits.rs].  Definitions only.

    A word of type [T] is a [Z] in [0, 2^w) where [w = T::BITS].  The Rust
    types [SecretSigned<T>] and [PublicSigned<T>] have the same two fields and
    are both modelled by [signed]; the functions are kept apart. *)
From Coq Require Import ZArith List Bool.
From Verif Require Import Base.
Open Scope Z_scope.

(** secret_signed.rs:16-20, public_signed.rs:76-80. *)
Record signed := mkS { bound : Z; word : Z }.

(** secret_unsigned.rs: [SecretUnsigned<T>]. *)
Record unsigned := mkU { ubound : Z; uword : Z }.

(** ** SecretUnsigned *)

(** secret_unsigned.rs:37-41. *)
Definition unsigned_new (w v b : Z) : option unsigned :=
  if (b <=? w) && (bits v <=? b) then Some (mkU b v) else None.

(** secret_unsigned.rs:64-69 ([BitAnd]); keeps the bound. *)
Definition unsigned_and (x : unsigned) (m : Z) : unsigned := mkU (ubound x) (Z.land (uword x) m).

(** ** SecretSigned *)

(** secret_signed.rs:55-58. *)
Definition is_negative (w : Z) (x : signed) : bool := msb w (word x).

(** secret_signed.rs:36-45. *)
Definition sec_new_positive (w v b : Z) : option signed :=
  if ((b <? w) && (bits v <? w)) && negb (msb w v) then Some (mkS b v) else None.

(** secret_signed.rs:47-52, public_signed.rs:125-130. *)
Definition s_zero : signed := mkS 0 0.

(** secret_signed.rs:69-74 ([wrapping_neg]). *)
Definition sec_neg (w : Z) (x : signed) : signed := mkS (bound x) (wneg w (word x)).

(** secret_signed.rs:81-83. *)
Definition sec_abs_value (w : Z) (x : signed) : Z :=
  if is_negative w x then wneg w (word x) else word x.

(** secret_signed.rs:86-92. *)
Definition sec_abs (w : Z) (x : signed) : outcome unsigned :=
  oexpect (unsigned_new w (sec_abs_value w x) (bound x)).

(** secret_signed.rs:97-104. *)
Definition sec_new_from_unsigned (w v b : Z) : option signed :=
  let a := if msb w v then wneg w v else v in
  if (b <? w) && (bits a <=? b) then Some (mkS b v) else None.

(** secret_signed.rs:110-115. *)
Definition sec_new_from_abs (w a b : Z) (neg : bool) : option signed :=
  sec_new_from_unsigned w (if neg then wneg w a else a) b.

(** secret_signed.rs:124-140.  The unsigned subtraction at 137 panics on
    underflow; [modulus_bits - 1] at 139 panics when [modulus_bits = 0]
    (overflow checks enabled). *)
Definition sec_new_modulo (w v m mbits : Z) : outcome (option signed) :=
  let half := wshr w m 1 in
  let neg := half <? v in
  d <~ oexpect (csub m v) ;;
  _ <~ oassert (1 <=? mbits) ;;
  Ret (sec_new_from_unsigned w (if neg then wneg w d else v) (mbits - 1)).

(** secret_signed.rs:142-155.  [exp - 1] underflows for [exp = 0]: a panic
    with overflow checks. *)
Definition sec_in_range (w : Z) (x : signed) (e : Z) : outcome bool :=
  a <~ sec_abs w x ;;
  _ <~ oassert (1 <=? e) ;;
  let shifted := wshl w 1 (e - 1) in
  let mask := wneg w shifted in
  let masked := unsigned_and a mask in
  Ret ((uword masked =? 0) || ((uword a =? shifted) && negb (is_negative w x))).

(** secret_signed.rs:164-166. *)
Definition sec_assert_range (w : Z) (x : signed) (e : Z) : outcome unit :=
  b <~ sec_in_range w x e ;; oassert b.

(** secret_signed.rs:175-185. *)
Definition sec_ensure_range (w : Z) (x : signed) (e : Z) : outcome (option signed) :=
  b <~ sec_in_range w x e ;;
  Ret (if b && (e <? w - 1) then Some (mkS (e + 1) (word x)) else None).

(** secret_signed.rs:193-201; [ww] is the wide width. *)
Definition sec_to_wide (w ww : Z) (x : signed) : outcome signed :=
  oexpect (sec_new_from_abs ww (sec_abs_value w x) (bound x) (is_negative w x)).

(** public_signed.rs:165-170 ([0.wrapping_sub]). *)
Definition pub_neg (w : Z) (x : signed) : signed := mkS (bound x) (wsub w 0 (word x)).

(** public_signed.rs:136-142. *)
Definition pub_abs (w : Z) (x : signed) : Z :=
  if is_negative w x then word (pub_neg w x) else word x.

(** secret_signed.rs:204-217; [wr] is the width of the public factor, the
    product has width [w + wr] (enforced at compile time, traits.rs:177-181). *)
Definition sec_mul_wide_public (w wr : Z) (x y : signed) : outcome signed :=
  oexpect (sec_new_from_abs (w + wr) (sec_abs_value w x * pub_abs wr y)
             (bound x + bound y) (xorb (is_negative w x) (is_negative wr y))).

(** secret_signed.rs:224-232 and 239-247. *)
Definition sec_checked_add (w : Z) (x y : signed) : option signed :=
  let b := Z.max (bound x) (bound y) + 1 in
  if b <? w then Some (mkS b (wadd w (word x) (word y))) else None.

(** secret_signed.rs:254-262. *)
Definition sec_checked_sub (w : Z) (x y : signed) : option signed :=
  let b := Z.max (bound x) (bound y) + 1 in
  if b <? w then Some (mkS b (wsub w (word x) (word y))) else None.

(** secret_signed.rs:269-277 and 284-292. *)
Definition sec_checked_mul (w : Z) (x y : signed) : option signed :=
  let b := bound x + bound y in
  if b <? w then Some (mkS b (wmul w (word x) (word y))) else None.

(** secret_signed.rs:442-531: operators are [checked_*().expect()]. *)
Definition sec_add w x y := oexpect (sec_checked_add w x y).
Definition sec_sub w x y := oexpect (sec_checked_sub w x y).
Definition sec_mul w x y := oexpect (sec_checked_mul w x y).

(** secret_signed.rs:533-540. *)
Definition sec_sum (w : Z) (l : list signed) : outcome signed :=
  List.fold_left (fun acc x => a <~ acc ;; sec_add w a x) l (Ret s_zero).

(** secret_signed.rs:303-328.  The RNG draw is an argument: [random_mod]
    returns the given [draw], which is in [0, positive_bound). *)
Definition sec_random_range (w e draw : Z) : outcome signed :=
  _ <~ oassert (0 <? e) ;;
  _ <~ oassert (e <? w) ;;
  pb <~ oexpect (oshl w 1 e) ;;
  _ <~ oassert (negb (pb =? 0)) ;;
  s0 <~ oexpect (oshl w 1 (e - 1)) ;;
  shift <~ oexpect (csub s0 1) ;;
  Ret (mkS e (wsub w draw shift)).

(** The exclusive upper end of the draw used by [sec_random_range]
    (secret_signed.rs:312-317). *)
Definition sec_random_range_limit (w e : Z) : Z := (1 * 2 ^ e) mod 2 ^ w.

(** secret_signed.rs:339-371; [w = T::BITS], [ww = W::BITS]. *)
Definition sec_random_range_scaled (w ww e scale draw : Z) : outcome signed :=
  _ <~ oassert (0 <? e) ;;
  _ <~ oassert (e <? w) ;;
  pb <~ oexpect (oshl ww scale e) ;;
  _ <~ oassert (negb (pb =? 0)) ;;
  s0 <~ oexpect (oshl ww scale (e - 1)) ;;
  shift <~ oexpect (csub s0 1) ;;
  Ret (mkS (e + bits scale) (wsub ww draw shift)).

(** secret_signed.rs:353-359: exclusive upper end of the draw. *)
Definition sec_random_range_scaled_limit (ww e scale : Z) : Z := (scale * 2 ^ e) mod 2 ^ ww.

(** secret_signed.rs:382-419: same body, with [scale : W] widened to [XW];
    [w = T::BITS], [xw = XW::BITS]. *)
Definition sec_random_range_scaled_wide (w xw e scale draw : Z) : outcome signed :=
  _ <~ oassert (0 <? e) ;;
  _ <~ oassert (e <? w) ;;
  pb <~ oexpect (oshl xw scale e) ;;
  _ <~ oassert (negb (pb =? 0)) ;;
  s0 <~ oexpect (oshl xw scale (e - 1)) ;;
  shift <~ oexpect (csub s0 1) ;;
  Ret (mkS (e + bits scale) (wsub xw draw shift)).

(** ** PublicSigned *)

(** public_signed.rs:86-98. *)
Definition pub_new_from_abs (w a b : Z) (neg : bool) : option signed :=
  if (w <=? b) || (b <? bits a) then None
  else Some (mkS b (if neg then wneg w a else a)).

(** public_signed.rs:103-105. *)
Definition pub_new_positive (w v b : Z) : option signed := pub_new_from_abs w v b false.

(** public_signed.rs:110-116. *)
Definition pub_new_from_unsigned (w v b : Z) : option signed :=
  if (w <=? b) || (b <? bits (pub_abs w (mkS b v))) then None else Some (mkS b v).

(** public_signed.rs:118-123. *)
Definition pub_one : signed := mkS 1 1.

(** public_signed.rs:156-162.  [exp - 1] underflows for [exp = 0]; [<<] panics
    when the shift is at least the width. *)
Definition pub_in_range (w : Z) (x : signed) (e : Z) : outcome bool :=
  let a := pub_abs w x in
  _ <~ oassert (1 <=? e) ;;
  s <~ oexpect (oshl w 1 (e - 1)) ;;
  Ret ((bits a <? e) || ((a =? s) && negb (is_negative w x))).

(** public_signed.rs:205-213. *)
Definition pub_to_wide (w ww : Z) (x : signed) : outcome signed :=
  oexpect (pub_new_from_abs ww (pub_abs w x) (bound x) (is_negative w x)).

(** secret_signed.rs:64-66. *)
Definition sec_to_public (w : Z) (x : signed) : outcome signed :=
  oexpect (pub_new_from_unsigned w (word x) (bound x)).

(** public_signed.rs:181-197; the hash output is an argument: [h] is what
    [from_xof_reader(reader, exp)] returned. *)
Definition pub_from_xof_range (w e h : Z) : outcome signed :=
  _ <~ oassert (0 <? e) ;;
  _ <~ oassert (e <? w) ;;
  s0 <~ oexpect (oshl w 1 (e - 1)) ;;
  shift <~ oexpect (csub s0 1) ;;
  oexpect (pub_new_from_unsigned w (wsub w h shift) e).

(** ** Exponentiation modulo [m] *)

(** traits.rs:93-98: always inverts, panics when there is no inverse. *)
Definition pow_sec (w m b : Z) (x : signed) : outcome Z :=
  a <~ sec_abs w x ;;
  let r := pow_bounded m b (uword a) (bound x) in
  i <~ oexpect (inv_mod m r) ;;
  Ret (if is_negative w x then i else r).

(** traits.rs:106-108. *)
Definition pow_unsigned (m b : Z) (x : unsigned) : outcome Z :=
  Ret (pow_bounded m b (uword x) (ubound x)).

(** traits.rs:116-124: inverts only for negative exponents. *)
Definition pow_pub (w m b : Z) (x : signed) : outcome Z :=
  let r := pow_bounded m b (pub_abs w x) (bound x) in
  if is_negative w x then oexpect (inv_mod m r) else Ret r.

(** ** Width changes of unsigned words, traits.rs:138-149 and 151-166 *)
Definition uint_to_wide (w ww a : Z) : Z := a.
Definition uint_try_from_wide (w ww a : Z) : option Z :=
  if w <? bits a then None else Some (a mod 2 ^ w).
