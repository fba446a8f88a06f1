(** * Curve points on the wire (src/curve/arithmetic.rs:267-319 and the [sec1]
    encoding of the external [elliptic-curve] crate it calls).  Definitions only. *)
From Coq Require Import ZArith List Bool.
From Verif Require Import Base.
Import ListNotations.
Open Scope Z_scope.

Section Points.
Variable pt : Type.

(** What the curve backend offers (k256, documented meaning): the size of a field
    element in bytes, the bytes of the affine coordinates (nothing at infinity),
    and the ways back from one or both coordinates. *)
Record backend := Backend {
  b_size : nat;
  b_identity : pt;
  b_coords : pt -> option (list Z * list Z);
  b_decompress : list Z -> bool -> option pt;
  b_decompact : list Z -> option pt;
  b_from_xy : list Z -> list Z -> option pt }.
Variable B : backend.

(** The parity of a big-endian number. *)
Definition y_odd (y : list Z) : bool := Z.odd (last y 0).

(** [to_affine().to_encoded_point(true).as_bytes()] (sec1): one zero byte for the
    point at infinity, otherwise a tag and the x coordinate. *)
Definition encoded_point (P : pt) : list Z :=
  match b_coords B P with
  | None => [0]
  | Some (x, y) => (if y_odd y then 3 else 2) :: x
  end.
(** curve/arithmetic.rs:277-283 [to_compressed_array]: [from_exact_iter] into an
    array of one more byte than a field element, then [expect]. *)
Definition point_encode (P : pt) : outcome (list Z) :=
  let l := encoded_point P in
  if Nat.eqb (length l) (S (b_size B)) then Ret l else Panic.

(** The length a tag calls for (sec1, [Tag::message_len]). *)
Definition tag_len (t : Z) : option nat :=
  if t =? 0 then Some 1%nat
  else if (t =? 2) || (t =? 3) || (t =? 5) then Some (S (b_size B))
  else if t =? 4 then Some (S (2 * b_size B))
  else None.
(** curve/arithmetic.rs:267-275 [try_from_compressed_bytes]: [EncodedPoint::from_bytes]
    and [from_encoded_point]. *)
Definition point_decode (l : list Z) : option pt :=
  match l with
  | [] => None
  | t :: r =>
      match tag_len t with
      | None => None
      | Some k =>
          if Nat.eqb (length l) k then
            if t =? 0 then Some (b_identity B)
            else if t =? 2 then b_decompress B r false
            else if t =? 3 then b_decompress B r true
            else if t =? 4 then b_from_xy B (firstn (b_size B) r) (skipn (b_size B) r)
            else b_decompact B r
          else None
      end
  end.
End Points.
Arguments Backend {pt}.
Arguments b_size {pt}.
Arguments b_identity {pt}.
Arguments b_coords {pt}.
Arguments b_decompress {pt}.
Arguments b_decompact {pt}.
Arguments b_from_xy {pt}.
Arguments encoded_point {pt}.
Arguments point_encode {pt}.
Arguments point_decode {pt}.
