(** * Specification vocabulary for threshold and additive key shares. *)
From mathcomp Require Import all_ssreflect all_algebra.
From Verif Require Import AlgBase ShamirSpec ThresholdModel.
Set Implicit Arguments.
Unset Strict Implicit.
Unset Printing Implicit Defensive.
Import GRing.Theory.
Local Open Scope ring_scope.

Section Spec.
Variables (F : fieldType) (V : lmodType F) (g : V) (I : eqType).

(** [shares] is a t-of-n Shamir sharing of [x] among [ids]: there are a
    polynomial of at most t coefficients with constant term [x] and distinct
    non-zero points [pt], and everything stored matches them. *)
Definition threshold_sharing (ids : seq I) (t : nat) (x : F) (shares : I -> tshare V I) : Prop :=
  exists (p : {poly F}) (pt : I -> F),
    [/\ p.[0] = x, (size p <= t)%N, {in ids &, injective pt}, {in ids, forall i, pt i != 0} &
     {in ids, forall i, [/\ ts_owner (shares i) = i, ts_threshold (shares i) = t,
        ts_secret (shares i) = p.[pt i],
        ts_share_ids (shares i) = [seq (j, pt j) | j <- ids] &
        ts_public (shares i) = [seq (j, p.[pt j] *: g) | j <- ids]]}].

(** [shares] are additive shares of [x] among [ids]. *)
Definition additive_sharing (ids : seq I) (x : F) (shares : I -> kshare V I) : Prop :=
  (\sum_(i <- ids) ks_secret (shares i) = x) /\
  {in ids, forall i, ks_owner (shares i) = i /\
     ks_public (shares i) = [seq (j, ks_secret (shares j) *: g) | j <- ids]}.

End Spec.
