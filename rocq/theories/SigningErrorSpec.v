(** * The error rounds of signing (property C68): vocabulary. *)
From Coq Require Import ZArith.
From Verif Require Import Base SignedModel SignedSpec PaillierModel PaillierSpec ZkBase ZkModel ZkSpec.
From mathcomp Require Import all_ssreflect.
From Verif Require Import AlgBase ProtoBase SigningModel.
Set Implicit Arguments.
Unset Strict Implicit.
Unset Printing Implicit Defensive.
Local Open Scope Z_scope.

Section Draws.
Variable S : sparams.

(** A mask of a [2 ^ a] secret that no challenge bit can push out of the
    verifier's interval (C41). *)
Definition safe_bit (a draw : Z) : Prop := 2 ^ (a - 1) <= draw < 2 ^ (a + sp_eps S) - 2 ^ (a - 1).

(** The draws of one repetition of the two proofs of an error round. *)
Definition dec_draw_ok (N n : Z) (r : dec_rand) : Prop :=
  dec_rand_ok S N n r /\ safe_bit (sp_l S) (dr_alpha r) /\ safe_bit (dec_y_exp S n) (dr_beta r).
Definition gs_draw_ok (N0 N1 : Z) (r : aff_gs_rand) : Prop :=
  aff_gs_rand_ok S N0 N1 r /\ safe_bit (sp_l S) (sr_alpha r) /\ safe_bit (sp_lp S) (sr_beta r).

(** All draws of party [l] in an error round. *)
Record error_draws_ok (I : eqType) (N : I -> Z) (ids : seq I) (l : I) (rnd : seq dec_rand) (rnds : I -> seq aff_gs_rand) : Prop := {
  ed_dec_len : length rnd = Z.to_nat (sp_kappa S);
  ed_dec : List.Forall (dec_draw_ok (N l) (Z.of_nat (size ids))) rnd;
  ed_gs_len : {in without ids l, forall j, length (rnds j) = Z.to_nat (sp_kappa S)};
  ed_gs : {in without ids l, forall j, List.Forall (gs_draw_ok (N j) (N l)) (rnds j)} }.
End Draws.

Section Checks.
Variables (S : sparams) (C : curve) (I : eqType).

(** The ciphertexts for party [l] in a round 2 message; [hat]: those about the
    key share rather than gamma. *)
Definition d_of (hat : bool) (m : message (sg_wire C I)) (l : I) : Z :=
  if m_normal m is Some (S2NB n) then odflt 0 (aget (if hat then n2_hat_ds n else n2_ds n) l) else 0.
Definition f_of (hat : bool) (m : message (sg_wire C I)) (l : I) : Z :=
  if m_echo m is Some (S2EB e) then odflt 0 (aget (if hat then e2_hat_fs e else e2_fs e) l) else 0.

(** What the others made for [l], times the masks of what [l] made for them. *)
Definition joint_ct (hat : bool) (m2 : I -> message (sg_wire C I)) (ids : seq I) (N : I -> Z) (l : I) : Z :=
  (foldr Z.mul 1 [seq d_of hat (m2 j) l | j <- without ids l] * foldr Z.mul 1 [seq f_of hat (m2 l) j | j <- without ids l])
    mod (N l * N l).

(** What party [v] checks in the message [eb] of party [l], given the public
    Paillier keys [N], ring-Pedersen parameters [rp], first messages' [k], and second messages [m2]:
    [x] is the point of [l]'s factor, [r] the announced result with base [base]. *)
Record vouched {A} (X : xof A (pt C)) (hat : bool) (ids : seq I) (N : I -> Z) (rp : I -> rpparams) (k : I -> Z)
    (m2 : I -> message (sg_wire C I)) (x r base : pt C) (aux : A) (v l : I) (eb : r56eb C I) : Prop := Vouched {
  vo_dec : dec_verify S X (e5_dec eb)
    (DecPublic (N l) (Ct (N l) (k l)) x (Ct (N l) (joint_ct hat m2 ids N l)) r base (Z.of_nat (size ids))) (rp l) aux = Ret true;
  vo_ids : akeys (e5_psis eb) = without ids l;
  vo_aff : forall j pf, aget (e5_psis eb) j = Some pf -> j != v ->
    aff_gs_verify S X pf (AffGPublic (N j) (N l) (Ct (N j) (k j)) (Ct (N j) (d_of hat (m2 l) j)) (Ct (N l) (f_of hat (m2 l) j)) x) aux
      = Ret true }.

(** The fault [err] of the message [eb], for the same data: the first that fails
    of the three kinds of checks, with names [e_dec], [e_ids], [e_aff]. *)
Definition fault {A} (X : xof A (pt C)) (hat : bool) (ids : seq I) (N : I -> Z) (rp : I -> rpparams) (k : I -> Z)
    (m2 : I -> message (sg_wire C I)) (x r base : pt C) (aux : A) (v l : I) (e_dec e_ids : sg_error I) (e_aff : I -> sg_error I)
    (eb : r56eb C I) (err : sg_error I) : Prop :=
  exists2 ok, dec_verify S X (e5_dec eb)
    (DecPublic (N l) (Ct (N l) (k l)) x (Ct (N l) (joint_ct hat m2 ids N l)) r base (Z.of_nat (size ids))) (rp l) aux = Ret ok &
  if ~~ ok then err = e_dec else
  if akeys (e5_psis eb) != without ids l then err = e_ids else
  exists j pf, [/\ err = e_aff j, aget (e5_psis eb) j = Some pf, j != v &
    aff_gs_verify S X pf (AffGPublic (N j) (N l) (Ct (N j) (k j)) (Ct (N j) (d_of hat (m2 l) j)) (Ct (N l) (f_of hat (m2 l) j)) x) aux
      = Ret false].

(** Ring-Pedersen parameters as used: reduced modulo their modulus. *)
Definition rp_used (r : rpparams) : rpparams := RP (rp_n r) (rp_t r mod rp_n r) (rp_s r mod rp_n r).

(** A round 3 message with another delta. *)
Definition with_delta (delta : Z) (m : message (sg_wire C I)) : message (sg_wire C I) :=
  Msg (m_direct m) (Some (S3EB delta)) (m_normal m).

(** Messages of rounds 5 and 6; with a format without field names they are interchangeable. *)
Definition says5 (positional : bool) (m : message (sg_wire C I)) (eb : r56eb C I) : Prop :=
  m = Msg None (Some (S5EB eb)) None \/ positional /\ m = Msg None (Some (S6EB eb)) None.
Definition says6 (positional : bool) (m : message (sg_wire C I)) (eb : r56eb C I) : Prop :=
  m = Msg None (Some (S6EB eb)) None \/ positional /\ m = Msg None (Some (S5EB eb)) None.
End Checks.
