(** * The life of a key (property C71): what it means that the parties run one
    protocol after another, everybody following the code.

    The scalars are the elements of a field [F] of prime order [q]; signing is
    modelled with integers, [int_of] gives the representative of a scalar. *)
From Coq Require Import ZArith.
From Verif Require Import Base SignedModel PaillierModel ZkBase ZkModel ZkSpec.
From mathcomp Require Import all_ssreflect all_algebra.
From Verif Require Import AlgBase ThresholdModel SchModel ProtoBase ProtoSpec KeyInitModel ReshareModel AuxGenModel AuxHonestSpec
  KeyRefreshModel SigningModel EntryModel MtaSpec SigningHonestSpec.
Set Implicit Arguments.
Unset Strict Implicit.
Unset Printing Implicit Defensive.
Import GRing.Theory.
Local Open Scope ring_scope.

(** [int_of] are representatives of the field with [q] elements. *)
Record scalar_field (F : fieldType) (q : Z) (int_of : F -> Z) : Prop := ScalarField {
  sf_range : forall a, Z.le Z0 (int_of a) /\ Z.lt (int_of a) q;
  sf_val : forall a, zf (int_of a) = a;
  sf_order : zf q = 0 :> F }.

Section Life.
Variables (S : sparams) (F : fieldType) (V : lmodType F) (g : V) (int_of : F -> Z) (I : eqType) (le : rel I) (HO : eqType).
Notation item := (hitem HO I V).
Variables (H : dst -> seq item -> HO) (X : xof (seq item) V) (Hs : dst -> seq item -> F) (scheme : seq item).
Notation C := (curveV g).
Variables (xcoord : V -> Z) (lift_x : nat -> Z -> option V) (positional : bool).

(** [o r i]: the order in which [i] gets the messages of round [r]. *)
Definition orders_ok (ids : seq I) (o : nat -> I -> seq I) : Prop :=
  forall r, {in ids, forall i, perm_eq (o r i) (without ids i)}.

(** KeyInit among [ids]; party [i] ends with [shares i]. *)
Definition keygen_run (ids : seq I) (sr : seq Z) (x tau : I -> F) (rho u : I -> seq bool) (o : nat -> I -> seq I)
    (shares : I -> kshare V I) : Prop :=
  exists c s,
  [/\ {in ids, forall i, ki_start g H scheme ids sr i (x i) (tau i) (rho i) (u i) = Ok (c i)},
      {in ids, forall i,
        ki_until3 le H (c i) (fun j => ki_send1 H (c j)) (fun j => ki_send2 (c j)) (o 1%N i) (o 2%N i) = Accept (s i)} &
      {in ids, forall i,
        ki_run g le H X (c i) (fun j => ki_send1 H (c j)) (fun j => ki_send2 (c j)) (fun j => ki_send3 X (s j))
          (o 1%N i) (o 2%N i) (o 3%N i) = Accept (shares i)}].

(** KeyResharing from the holders [olds] of the shares [ts] to [news] with the
    threshold [t]; the new holders know the key [vk]. *)
Definition reshare_run (olds news : seq I) (t : nat) (vk : V) (ts : I -> tshare V I) (draws : I -> nat -> F)
    (o : I -> seq I) (shares : I -> tshare V I) : Prop :=
  exists c m,
  [/\ forall i, (i \in olds) || (i \in news) ->
        rs_start g (if i \in olds then Some (ts i) else None)
          (if i \in news then Some (NewHolder vk (size olds) olds) else None) news t i (draws i) = Ok (c i),
      {in olds & news, forall j i, rs_send (c j) i = Ok (m j i)},
      {in olds, forall i, i \notin news -> rs_run g le (c i) (fun j => m j i) [::] = Accept None} &
      {in news, forall i, rs_run g le (c i) (fun j => m j i) (o i) = Accept (Some (shares i))}].

(** AuxGen among [ids]; party [i] ends with [a i]. *)
Definition aux_run (ids : seq I) (sr : seq Z) (r : I -> ag_rand) (com : I -> Z) (rnd : I -> I -> fac_rand)
    (o : nat -> I -> seq I) (a : I -> aux_info I) : Prop :=
  exists c d s m3,
  let m1 j := @ag_send1 C I HO H (c j) (d j) in let m2 j := ag_send2 HO (d j) in
  [/\ {in ids, forall i, @ag_start S C I HO H X scheme ids sr i (r i) = Ok (c i, d i)},
      {in ids, forall i, @ag_until3 S C I le HO H X (c i) (d i) (com i) m1 m2 (o 1%N i) (o 2%N i) = Accept (s i)},
      {in ids &, forall i j, j != i -> @ag_send3 S C I HO X (s j) (rnd j i) i = Accept (m3 i j)} &
      {in ids, forall i,
        @ag_run S C I le HO H X (c i) (d i) (com i) m1 m2 (m3 i) (o 1%N i) (o 2%N i) (o 3%N i) = Accept (a i)}].

(** KeyRefresh among [ids]; party [i] ends with the change [kc i] and [a i]. *)
Definition refresh_run (ids : seq I) (sr : seq Z) (r : I -> ag_rand) (com : I -> Z) (y tau : I -> I -> F)
    (split : I -> nat -> F) (rnd : I -> I -> fac_rand) (o : nat -> I -> seq I)
    (kc : I -> kchange V I) (a : I -> aux_info I) : Prop :=
  exists c d s m3,
  let m1 j := kr_send1 g H (c j) (d j) in let m2 j := kr_send2 HO (d j) in
  [/\ {in ids, forall i, kr_start S g H X scheme ids sr i (r i) (y i) (tau i) (split i) = Ok (c i, d i)},
      {in ids, forall i, kr_until3 S g le H X (c i) (d i) (com i) m1 m2 (o 1%N i) (o 2%N i) = Accept (s i)},
      {in ids &, forall i j, j != i -> kr_send3 S g X Hs (s j) (rnd j i) i = Accept (m3 i j)} &
      {in ids, forall i,
        kr_run S g le H X Hs (c i) (d i) (com i) m1 m2 (m3 i) (o 1%N i) (o 2%N i) (o 3%N i) = Accept (kc i, a i)}].

(** A key share with its scalar written as an integer. *)
Definition zshare_of (k : kshare V I) : zshare C I := @ZShare C I (ks_owner k) (int_of (ks_secret k)) (ks_public k).

(** InteractiveSigning of [text] among [ids]; everybody ends with [sig]. *)
Definition signing_run (ids : seq I) (sr text : seq Z) (ks : I -> kshare V I) (aux : I -> aux_info I) (d : draws I)
    (o : nat -> I -> seq I) (sig : signature) : Prop :=
  exists (entry : I -> sg_entry C I) (c : I -> sg_ctx C I HO) (e : I -> r1eb C) (m1 : I -> I -> message (sg_wire C I))
    (s2 : I -> sg_round2 C I HO) (s3 : I -> sg_round3 C I HO) (s4 : I -> sg_round4 C I HO),
  let m2 j := sg_send2 (s2 j) in let m3 j := sg_send3 (s3 j) in let m4 j := sg_send4 (s4 j) in
  [/\ {in ids, forall i, sg_new text (zshare_of (ks i)) (aux i) = Ok (entry i)},
      {in ids, forall i, @sg_start S C I HO H scheme sr i (entry i) (dr_1 d i) = Ok (c i, e i)},
      {in ids &, forall i j, i != j -> @sg_send1 S C I HO X (c i) (e i) j (dr_elg d i j) = Accept (m1 j i)} &
      {in ids, forall i,
        [/\ @sg_until2 S C I le HO X (c i) (e i) (dr_2 d i) (m1 i) (o 1%N i) = Accept (s2 i),
            @sg_until3 S C I le HO X (c i) (e i) (dr_2 d i) (dr_3 d i) (m1 i) m2 (o 1%N i) (o 2%N i) = Accept (s3 i),
            @sg_until4 S C I le HO X xcoord (c i) (e i) (dr_2 d i) (dr_3 d i) (m1 i) m2 m3 (o 1%N i) (o 2%N i) (o 3%N i) =
              Accept (ToRound4 (s4 i)) &
            @sg_run S C I le HO X xcoord lift_x positional (c i) (e i) (dr_2 d i) (dr_3 d i) (m1 i) m2 m3 m4
              (o 1%N i) (o 2%N i) (o 3%N i) (o 4%N i) = Accept sig]}].

(** The draws of the signers are in their ranges, the Paillier modulus and the
    ring-Pedersen modulus of party [i] being [N i] and [n i]. *)
Record signing_draws_ok (ids : seq I) (N n : I -> Z) (d : draws I) : Prop := SigningDrawsOk {
  sd_1 : {in ids, forall i, round1_ok S (N i) (dr_1 d i)};
  sd_elg : {in ids &, forall i j, i != j ->
    elg_rand_ok S (N i) (n j) (dr_elg d i j).1 /\ elg_rand_ok S (N i) (n j) (dr_elg d i j).2};
  sd_mta : {in ids &, forall i j, i != j ->
    mta_rand_ok S (N j) (N i) (n j) (g2_mta (dr_2 d i) j) /\ mta_rand_ok S (N j) (N i) (n j) (g2_hat (dr_2 d i) j)} }.

(** The signature the draws lead to is not one of the degenerate ones, which
    the code refuses: [x] is the joint key. *)
Definition not_degenerate (ids : seq I) (d : draws I) (text : seq Z) (x : F) : Prop :=
  let k := sum_over ids (fun i => g1_k (dr_1 d i)) in
  let gamma := sum_over ids (fun i => g1_gamma (dr_1 d i)) in
  let r := xcoord (zf gamma *: g) in
  [/\ zf k * zf gamma != 0 :> F, r <> Z0, zf (scalar_of_bytes S text) + x * zf r != 0 & x *: g != 0].

(** What everybody can then check about the signature. *)
Definition signs (ids : seq I) (d : draws I) (text : seq Z) (x : F) (sig : signature) : Prop :=
  [/\ sig_r sig = xcoord (zf (sum_over ids (fun i => g1_gamma (dr_1 d i))) *: g),
      Z.lt Z0 (sig_s sig) /\ Z.le (sig_s sig) (Z.div (Z.sub (sp_q S) 1) 2) &
      forall m, m = scalar_of_bytes S text ->
      [/\ Z.lt Z0 (sig_r sig) /\ Z.lt (sig_r sig) (sp_q S), Z.lt Z0 (sig_s sig) /\ Z.lt (sig_s sig) (sp_q S) &
        exists w : F, zf (sig_s sig) * w = 1 /\
          xcoord ((w * zf m) *: g + (w * zf (sig_r sig)) *: (x *: g)) = sig_r sig]].

End Life.

(** Child keys: with no path, nothing is derived. *)
Section Child.
Variables (F : fieldType) (V : lmodType F) (g : V) (I : eqType) (T CC N : Type).
Variables (as_tweak : T -> option F) (icc : V -> CC) (dtw : V -> CC -> N -> option (T * CC)).
Definition child_share (path : option (seq N)) (s : tshare V I) : option (tshare V I) :=
  if path is Some p then ts_derive_bip32 g as_tweak icc dtw s p else Some s.
Definition child_key (path : option (seq N)) (vk : V) : option V :=
  if path is Some p then vkey_derive_bip32 g as_tweak icc dtw vk p else Some vk.
End Child.
