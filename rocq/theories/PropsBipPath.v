(** * Property C24, continued: derivation follows the path.

    The tweak function [dtw] and the initial chain code [icc] are arbitrary. *)
From mathcomp Require Import all_ssreflect all_algebra.
From Verif Require Import AlgBase ShamirModel ThresholdModel ThresholdSpec PropsShare BipPath.
Set Implicit Arguments.
Unset Strict Implicit.
Unset Printing Implicit Defensive.
Import GRing.Theory.
Local Open Scope ring_scope.

(** The key derived publicly is the one reached by going down the path. *)
Theorem C24_follows_path (F : fieldType) (V : lmodType F) (g : V)
    (T CC N : Type) (as_tweak : T -> option F) (icc : V -> CC) (dtw : V -> CC -> N -> option (T * CC)) pk path v :
  vkey_derive_bip32 g as_tweak icc dtw pk path = Some v <-> exists d, child g as_tweak dtw pk (icc pk) path v d.
Proof. exact: derive_child. Qed.
Print Assumptions C24_follows_path.

(** The shares derived along the path are a sharing of the secret key that
    belongs to it. *)
Theorem C24_shares_follow_path (F : fieldType) (V : lmodType F) (g : V)
    (T CC N : Type) (as_tweak : T -> option F) (icc : V -> CC) (dtw : V -> CC -> N -> option (T * CC))
    (I : eqType) ids t x (shares : I -> tshare V I) path i0 s0 :
  g != 0 -> uniq ids -> (0 < t <= size ids)%N -> threshold_sharing g ids t x shares -> i0 \in ids ->
  ts_derive_bip32 g as_tweak icc dtw (shares i0) path = Some s0 ->
  exists (derived : I -> tshare V I) (d : F),
    [/\ child g as_tweak dtw (x *: g) (icc (x *: g)) path ((x + d) *: g) d,
        {in ids, forall i, ts_derive_bip32 g as_tweak icc dtw (shares i) path = Some (derived i)} &
        threshold_sharing g ids t (x + d) derived].
Proof. exact: derived_shares. Qed.
Print Assumptions C24_shares_follow_path.

(** The tweak is the path element times the chain code, which grows by one with
    each step and starts at 1.  Going down 1 then 4 adds 1 + 8 = 2 (mod 7), going
    down 4 then 1 adds 4 + 2 = 6.  From 5 the first path would lead to zero, and
    there is no child.  The derived shares of the sharing of 4 with slope 6 have
    the first child key. *)
Example C24_path_case :
  let dtw (_ : V7) (cc n : F7) := Some (n * cc, cc + 1) in
  let down := vkey_derive_bip32 g7 (fun a : F7 => if a == 0 then None else Some a) (fun _ => 1) dtw in
  [/\ down (4%:R *: g7) [:: 1; 4%:R] == Some ((4 + 2)%:R *: g7), down (4%:R *: g7) [:: 4%:R; 1] == Some ((4 + 6)%:R *: g7),
      down (5%:R *: g7) [:: 1; 4%:R] == None &
      if ts_new_centralized g7 [:: 10; 20]%N 2 (4%:R : F7) (fun _ => 6%:R) is Ok m then
        all (fun p => if ts_derive_bip32 g7 (fun a : F7 => if a == 0 then None else Some a) (fun _ => 1) dtw p.2 [:: 1; 4%:R] is Some s
                      then if ts_verifying_key s is Ok v then v == (4 + 2)%:R *: g7 else false else false) m
      else false].
Proof. by split; vm_compute. Qed.
