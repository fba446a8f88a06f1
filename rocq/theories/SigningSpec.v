(** * Specification vocabulary for interactive signing, independent of the
    protocol model. *)
From Coq Require Import ZArith.
From Verif Require Import Base ZkBase.
From mathcomp Require Import all_ssreflect.
Set Implicit Arguments.
Unset Strict Implicit.
Unset Printing Implicit Defensive.

Section Ecdsa.
Variables (q : Z) (C : curve) (xcoord : pt C -> Z).
Local Open Scope Z_scope.

(** The textbook ECDSA verification equation: with [u] the inverse of [s], the
    point [u m G + u r X] has x coordinate [r]. *)
Definition ecdsa_valid (vk : pt C) (m r s : Z) : Prop :=
  0 < r < q /\ 0 < s < q /\
  exists u, (s * u) mod q = 1 /\ xcoord (padd C (pmul C (u * m) (gen C)) (pmul C (u * r) vk)) = r.

(** What the curve backend's x coordinate is: a number below the order, the
    same for a point and its negative, zero for the point at infinity. *)
Record xcoord_ok : Prop := XcoordOk {
  xc_range : forall p, 0 <= xcoord p < q;
  xc_opp : forall p, xcoord (popp C p) = xcoord p;
  xc_zero : xcoord (p0 C) = 0 }.

(** What the backend's point recovery is: an id and an x coordinate stand for a
    point with that coordinate, and every finite point has one of four ids. *)
Record lift_ok (lift_x : nat -> Z -> option (pt C)) : Prop := LiftOk {
  lx_sound : forall id r p, lift_x id r = Some p -> xcoord p = r;
  lx_complete : forall p, p <> p0 C -> exists id, (id < 4)%nat /\ lift_x id (xcoord p) = Some p }.

(** The joint key of a list of public shares. *)
Definition total (l : seq (pt C)) : pt C := foldr (padd C) (p0 C) l.

(** The nonce point of a signature: [s R = m G + r X]. *)
Definition nonce_point (vk : pt C) (m r s : Z) (R : pt C) : Prop :=
  pmul C s R = padd C (pmul C m (gen C)) (pmul C r vk) /\ xcoord R = r.

End Ecdsa.
