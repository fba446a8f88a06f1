(** * Vocabulary for the KeyRefresh properties. *)
From Coq Require Import ZArith.
From Verif Require Import Base EncodingModel SignedModel PaillierModel ZkBase ZkModel.
From mathcomp Require Import all_ssreflect all_algebra.
From Verif Require Import AlgBase SchModel ProtoBase AuxGenModel AuxGenSpec KeyRefreshModel.
Set Implicit Arguments.
Unset Strict Implicit.
Unset Printing Implicit Defensive.
Import GRing.Theory.
Local Open Scope ring_scope.

Section Spec.
Variables (S : sparams) (F : fieldType) (V : lmodType F) (g : V) (I : eqType) (le : rel I) (HO : eqType).
Notation item := (hitem HO I V).
Variables (H : dst -> seq item -> HO) (X : xof (seq item) V) (Hs : dst -> seq item -> F).

(** A round 2 message carrying the data [d]. *)
Definition reveals (m : message (kr_wire V I HO)) (d : kr_public V I) : Prop :=
  exists e n rpw,
  [/\ m = Msg None (Some e) (Some n), as_k2eb le e = Some (rpw, kp_ys d, kp_rid d),
      as_k2nb le n = Some (kp_xs d, kp_as d, kp_pk d, kp_psi d, kp_u d) & kp_rp d = reduced rpw].

(** What [d] commits its sender to in round 1. *)
Definition kr_committed (sid : HO) (j : I) (d : kr_public V I) : HO :=
  let pts (m : seq (I * V)) : item := HSeq [seq HSeq [:: HId p.1; HPt p.2] | p <- m] in
  let nums (l : seq Z) : item := HSeq [seq HNum z | z <- l] in
  H DKeyInit [:: HOut sid; HId j; pts (kp_xs d); pts (kp_ys d); pts (kp_as d); HNum (kp_pk d);
    HSeq [:: HNum (rp_n (kp_rp d)); HNum (rp_t (kp_rp d)); HNum (rp_s (kp_rp d))];
    HSeq [:: nums (prm_commitment (kp_psi d)); HBits (prm_challenge (kp_psi d)); nums (prm_elems (kp_psi d))];
    HBits (kp_rid d); HBits (kp_u d)].

(** Well-formed round 2 data of party [j]: each map has one entry per party, the
    changes cancel, the moduli are large and the ring-Pedersen proof verifies. *)
Definition proper (ids : seq I) (sid : HO) (j : I) (d : kr_public V I) : Prop :=
  [/\ perm_eq (akeys (kp_xs d)) ids, perm_eq (akeys (kp_ys d)) ids, perm_eq (akeys (kp_as d)) ids,
      \sum_(p <- kp_xs d) p.2 = 0 &
  [/\ at_least_bits (modulus_bits (sp_pail S) - 2) (kp_pk d),
      at_least_bits (modulus_bits (sp_pail S) - 2) (rp_n (kp_rp d)) &
      @prm_verify S (curveV g) _ X (kp_psi d) (kp_rp d) [:: HOut sid; HId j] = Ret true]].

(** The checks of rounds 2 and 3 in the order in which the receiver makes them. *)
Definition kr_checks2 : seq (kr_error F I) :=
  [:: KrHashMismatch; KrWrongIdsX; KrWrongIdsY; KrWrongIdsA; KrPaillierTooSmall; KrRPTooSmall; KrNonZeroSum; KrPrmFailed].
Definition kr_checks3 (me : I) (y : F) (ids : seq I) : seq (kr_error F I) :=
  [:: KrShareMismatch me y; KrModFailed; KrFacFailed me; KrWrongIdsHatPsi] ++ [seq KrSchFailed k | k <- ids].
End Spec.
