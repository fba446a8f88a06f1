(** * Model of src/tools/sss.rs and of the additive splitting in
    src/curve/arithmetic.rs.  Definitions only.

    Random draws are arguments: [draws i] is the i-th value returned by
    [Scalar::random_nonzero]. *)
From mathcomp Require Import all_ssreflect all_algebra.
From Verif Require Import AlgBase.
Set Implicit Arguments.
Unset Strict Implicit.
Unset Printing Implicit Defensive.
Import GRing.Theory.
Local Open Scope ring_scope.

Section Shamir.
Variables (F : fieldType) (V : lmodType F) (g : V).

(** src/tools/sss.rs:21-23 [ShareId::new] *)
Definition share_id_new (idx : nat) : F := idx%:R.

(** src/tools/sss.rs:26-35 [shamir_evaluation_points]: the scalars 1, 2, ..., n.
    The conversion usize -> u64 cannot fail on 64-bit targets and is dropped. *)
Definition evaluation_points (n : nat) : seq F := [seq k%:R | k <- iota 1 n].

(** src/tools/sss.rs:37-51 [evaluate_polynomial] at [Coef = Point]: asserts
    [len > 1], then Horner from the last coefficient. *)
Definition evaluate_points (coeffs : seq V) (x : F) : result V :=
  if (1 < size coeffs)%N then
    if coeffs is c :: s then
      Ok (foldl (fun acc coeff => x *: acc + coeff) (last c s) (rev (belast c s)))
    else Panicked
  else Panicked.

(** src/tools/sss.rs:60-67 [Polynomial::random]: [coeff0] followed by
    [degree - 1] non-zero draws (none when [degree] is 0 or 1). *)
Definition poly_random (coeff0 : F) (degree : nat) (draws : nat -> F) : seq F :=
  coeff0 :: [seq draws i | i <- iota 1 (degree - 1)].

(** src/tools/sss.rs:69-77 [Polynomial::evaluate]; [expect] on an empty vector. *)
Definition poly_evaluate (coeffs : seq F) (x : F) : result F :=
  if coeffs is c :: s then
    Ok (foldl (fun acc coeff => acc * x + coeff) (last c s) (rev (belast c s)))
  else Panicked.

(** src/tools/sss.rs:79-86 [Polynomial::public] *)
Definition poly_public (coeffs : seq F) : seq V := [seq c *: g | c <- coeffs].

(** src/tools/sss.rs:97-99 [PublicPolynomial::evaluate] *)
Definition public_evaluate (coeffs : seq V) (x : F) : result V := evaluate_points coeffs x.

(** src/tools/sss.rs:101-105 [PublicPolynomial::coeff0] *)
Definition public_coeff0 (coeffs : seq V) : result V := ok_or (ohead coeffs).

(** src/tools/sss.rs:108-119 [shamir_split]; the result is a map keyed by share id. *)
Definition shamir_split (secret : F) (threshold : nat) (draws : nat -> F) (indices : seq F)
    : result (seq (F * F)) :=
  let polynomial := poly_random secret threshold draws in
  ps <?- mapR (fun idx => v <?- poly_evaluate polynomial idx ;; Ok (idx, v)) indices ;;
  Ok (acollect ps).

(** src/tools/sss.rs:121-136 [interpolation_coeff].  The [expect] on the
    inversion is unreachable because equal ids are filtered out; inversion is
    the field's inverse. *)
Definition interpolation_coeff (share_ids : seq F) (share_id : F) : F :=
  foldl (fun acc id => acc * (id * (id - share_id)^-1)) 1
    [seq id <- share_ids | id != share_id].

(** src/tools/sss.rs:138-149 [shamir_join_scalars] *)
Definition join_scalars (pairs : seq (F * F)) : F :=
  foldl (fun sum p => sum + p.2 * interpolation_coeff (akeys pairs) p.1) 0 pairs.

(** src/tools/sss.rs:151-159 [shamir_join_points] *)
Definition join_points (pairs : seq (F * V)) : V :=
  foldl (fun sum p => sum + interpolation_coeff (akeys pairs) p.1 *: p.2) 0 pairs.

(** src/curve/arithmetic.rs:158-173 [secret_split]: one part is the scalar
    itself; zero parts underflow [num - 1] (a panic with overflow checks; without
    them the range is 2^64 - 1 long and the call does not return). *)
Definition secret_split (scalar : F) (num : nat) (draws : nat -> F) : result (seq F) :=
  if num == 1%N then Ok [:: scalar] else
  if num == 0%N then Panicked else
  let parts := [seq draws i | i <- iota 0 (num - 1)] in
  let partial_sum := foldl (fun a b => a + b) 0 parts in
  Ok (rcons parts (scalar - partial_sum)).

End Shamir.
