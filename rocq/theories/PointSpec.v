(** * Specification of the encodings of curve points (property C64). *)
From Coq Require Import ZArith List Bool.
From Verif Require Import Base PointModel.
Import ListNotations.
Open Scope Z_scope.

(** The documented meaning of the curve backend: only the point at infinity has no
    coordinates; coordinates have a fixed size; a point is recovered from its two
    coordinates, and from the first one and the parity of the second; nothing
    else is ever recovered. *)
Record backend_ok {pt : Type} (B : backend pt) : Prop := BackendOk {
  bo_size : b_size B <> 0%nat;
  bo_identity : forall P, b_coords B P = None <-> P = b_identity B;
  bo_lengths : forall P x y, b_coords B P = Some (x, y) -> length x = b_size B /\ length y = b_size B;
  bo_recover : forall P x y, b_coords B P = Some (x, y) -> b_decompress B x (Z.odd (last y 0)) = Some P;
  bo_decompress : forall x odd P, b_decompress B x odd = Some P -> exists y, b_coords B P = Some (x, y) /\ Z.odd (last y 0) = odd;
  bo_decompact : forall x P, b_decompact B x = Some P -> exists y, b_coords B P = Some (x, y);
  bo_from_xy : forall x y P, b_from_xy B x y = Some P <-> b_coords B P = Some (x, y) }.

(** The byte strings that stand for a point with coordinates [x], [y]. *)
Definition compressed (x y : list Z) : list Z := (2 + Z.b2z (Z.odd (last y 0))) :: x.
Definition uncompressed (x y : list Z) : list Z := 4 :: x ++ y.
Definition compact (x : list Z) : list Z := 5 :: x.
