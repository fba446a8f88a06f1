(** * Property C65: a peer's message and the receiver's survival.

    Hashing a point means writing it down first, and the point at infinity cannot
    be written ([C64_encode_panics]) although it can be read ([C64_decode_exact]).
    The first message of a peer that carries points therefore crashes its receiver
    when one of them is the point at infinity, and crashes whoever examines the
    evidence.  All other messages are treated as the models without serialisation
    say.  [B] is the curve backend. *)
From Coq Require Import ZArith Lia.
From Verif Require Import Base EncodingModel SignedModel PaillierModel ZkBase ZkModel ZkToy PointModel PointSpec PointProofs PointToy.
From mathcomp Require Import all_ssreflect all_algebra.
From Verif Require Import AlgBase ShamirModel ThresholdModel SchModel ProtoBase ProtoFacts KeyInitModel PropsShare PropsKeyInit
  AuxGenModel AuxGenToy KeyRefreshModel KeyRefreshToy SigningModel SigningToy SigningWitness CrashModel CrashProofs.
Set Implicit Arguments.
Unset Strict Implicit.
Unset Printing Implicit Defensive.
Import GRing.Theory.
Local Open Scope ring_scope.

Theorem C65_key_init_crash : forall (F : fieldType) (V : lmodType F) (I HO : eqType) (B : backend V)
    (H : dst -> seq (hitem HO I V) -> HO) (scheme : seq (hitem HO I V)),
  backend_ok B -> b_identity B = 0 ->
  forall (c : ki_ctx V I HO) (cap_vs : seq (I * HO)) (from : I) (x a : V) (u rho : seq bool), x = 0 \/ a = 0 ->
  let m := Msg None (Some (W2EB V HO rho)) (Some (W2NB HO x a u)) in
  (from \in akeys cap_vs -> ki_recv2_ser (point_encode B) H c cap_vs from m = RPanic) /\
  forall ids randomness cap_v hist echos, m_echo (hist 1%N) = Some (W1EB V cap_v) ->
    ki_evidence2_ser (point_encode B) H scheme ids randomness from (assemble (ki_required R2HashMismatch) m hist echos) = EvPanic.
Proof.
move=> F V I HO B H scheme HB B0 c cap_vs from x a u rho h m.
have He p : point_encode B p = Panic <-> p = 0 by rewrite -B0; exact: encode_panics.
split; first by move=> hk; apply: (ki_crash H He c (x := x) (a := a) (u := u) (rho := rho)).
move=> ids randomness cap_v hist echos h1.
by eapply (@ki_judge_crash _ _ _ _ _ H scheme He x a u rho _ _ _ cap_v); [reflexivity|rewrite /= h1| | |].
Qed.
Print Assumptions C65_key_init_crash.

Theorem C65_key_init_otherwise : forall (F : fieldType) (V : lmodType F) (I HO : eqType) (B : backend V)
    (g : V) (H : dst -> seq (hitem HO I V) -> HO) (X : xof (seq (hitem HO I V)) V) (scheme : seq (hitem HO I V)),
  backend_ok B -> b_identity B = 0 ->
  forall (c : ki_ctx V I HO) (cap_vs : seq (I * HO)) (from : I) (m : message (ki_wire V HO)),
  (forall x a u, m_normal m = Some (W2NB HO x a u) -> x <> 0 /\ a <> 0) ->
  ki_recv2_ser (point_encode B) H c cap_vs from m = ki_recv2 H c cap_vs from m /\
  forall ids randomness hist echos, let ev := assemble (ki_required R2HashMismatch) m hist echos in
    ki_evidence2_ser (point_encode B) H scheme ids randomness from ev = ki_evidence g H X scheme ids randomness from R2HashMismatch ev.
Proof.
move=> F V I HO B g H X scheme HB B0 c cap_vs from m h.
have He p : point_encode B p = Panic <-> p = 0 by rewrite -B0; exact: encode_panics.
by split=> [|ids randomness hist echos]; [exact: ki_same He _ _ _ _ h|exact: ki_judge_same].
Qed.
Print Assumptions C65_key_init_otherwise.

Theorem C65_key_refresh_crash : forall (S : sparams) (F : fieldType) (V : lmodType F) (g : V) (I : eqType) (le : rel I) (HO : eqType)
    (B : backend V) (H : dst -> seq (hitem HO I V) -> HO) (X : xof (seq (hitem HO I V)) V),
  backend_ok B -> b_identity B = 0 ->
  forall (c : kr_ctx F I HO) (cap_vs : seq (I * HO)) (from : I) we wn rpw ys rid xs cas pkw psi u pk rp,
  as_k2eb le we = Some (rpw, ys, rid) -> as_k2nb le wn = Some (xs, cas, pkw, psi, u) ->
  public_key_new pkw = Ret pk -> rp_pre rpw = Ret rp -> from \in akeys cap_vs ->
  [|| 0 \in avals xs, 0 \in avals ys | 0 \in avals cas] ->
  kr_recv2_ser S g le (point_encode B) H X c cap_vs from (Msg None (Some we) (Some wn)) = RPanic.
Proof.
move=> S F V g I le HO B H X HB B0 c cap_vs from we wn rpw ys rid xs cas pkw psi u pk rp h1 h2 h3 h4 h5 h6.
have He p : point_encode B p = Panic <-> p = 0 by rewrite -B0; exact: encode_panics.
by eapply (@kr_crash S F V g I le HO _ H X He); [reflexivity|reflexivity|exact: h1|reflexivity|exact: h2|exact: h3|exact: h4|exact: h5|rewrite !mem_cat].
Qed.
Print Assumptions C65_key_refresh_crash.

Theorem C65_key_refresh_otherwise : forall (S : sparams) (F : fieldType) (V : lmodType F) (g : V) (I : eqType) (le : rel I) (HO : eqType)
    (B : backend V) (H : dst -> seq (hitem HO I V) -> HO) (X : xof (seq (hitem HO I V)) V),
  backend_ok B -> b_identity B = 0 ->
  forall (c : kr_ctx F I HO) (cap_vs : seq (I * HO)) (from : I) (m : message (kr_wire V I HO)),
  (forall we rpw ys rid, m_echo m = Some we -> as_k2eb le we = Some (rpw, ys, rid) -> 0 \notin avals ys) ->
  (forall wn xs cas pkw psi u, m_normal m = Some wn -> as_k2nb le wn = Some (xs, cas, pkw, psi, u) ->
     (0 \notin avals xs) /\ (0 \notin avals cas)) ->
  kr_recv2_ser S g le (point_encode B) H X c cap_vs from m = kr_recv2 S g le H X c cap_vs from m.
Proof.
move=> S F V g I le HO B H X HB B0 c cap_vs from m h1 h2.
have He p : point_encode B p = Panic <-> p = 0 by rewrite -B0; exact: encode_panics.
by apply: kr_same => // wn xs cas pkw psi u e d; have [a b] := h2 _ _ _ _ _ _ e d; rewrite mem_cat negb_or a b.
Qed.
Print Assumptions C65_key_refresh_otherwise.

(** Signing, round 1: five points are hashed to check the first proof. *)
Theorem C65_signing_crash : forall (S : sparams) (C : curve) (I HO : eqType) (B : backend (pt C)) (X : xof (seq (hitem HO I (pt C))) (pt C)),
  backend_ok B -> b_identity B = p0 C ->
  forall (c : sg_ctx C I HO) (from : I) psi0 psi1 e, sx_id c \in akeys (sx_aux c) -> from \in akeys (sx_aux c) ->
  (exists2 p, List.In p [:: ee_y psi0; ee_z psi0; e1_y e; e1_a1 e; e1_a2 e] & p = p0 C) ->
  sg_recv1_ser S (point_encode B) X c from (Msg (Some (S1DM psi0 psi1)) (Some (S1EB e)) None) = RPanic.
Proof.
move=> S C I HO B X HB B0 c from psi0 psi1 e h1 h2 h3.
have He p : point_encode B p = Panic <-> p = p0 C by rewrite -B0; exact: encode_panics.
by eapply (@sg_crash S C I HO _ X He); [reflexivity|reflexivity|reflexivity|exact: h1|exact: h2|exact: h3].
Qed.
Print Assumptions C65_signing_crash.

Theorem C65_signing_otherwise : forall (S : sparams) (C : curve) (I HO : eqType) (B : backend (pt C)) (X : xof (seq (hitem HO I (pt C))) (pt C)),
  backend_ok B -> b_identity B = p0 C ->
  forall (c : sg_ctx C I HO) (from : I) (m : message (sg_wire C I)),
  (forall psi0 psi1 e, m_direct m = Some (S1DM psi0 psi1) -> m_echo m = Some (S1EB e) ->
     forall p, List.In p [:: ee_y psi0; ee_z psi0; e1_y e; e1_a1 e; e1_a2 e; ee_y psi1; ee_z psi1; e1_b1 e; e1_b2 e] -> p <> p0 C) ->
  sg_recv1_ser S (point_encode B) X c from m = sg_recv1 S X c from m.
Proof.
move=> S C I HO B X HB B0 c from m h.
have He p : point_encode B p = Panic <-> p = p0 C by rewrite -B0; exact: encode_panics.
apply: (sg_same _ _ He) => psi0 psi1 e h1 h2 p hp; apply: (h _ _ _ h1 h2).
by move: hp => /=; tauto.
Qed.
Print Assumptions C65_signing_otherwise.

(** ** Cases *)

Definition num_V7 (P : V7) : Z := Z.of_nat (val (P : 'F_7)).
Definition mk_V7 (z : Z) : V7 := (Z.to_nat z)%:R : 'F_7.
Definition pointsV7 : backend V7 := backend7 num_V7 mk_V7.
Lemma pointsV7_ok : backend_ok pointsV7 /\ b_identity pointsV7 = 0.
Proof.
split; last by apply/eqP.
apply: backend7_ok => [P|z hz|P].
- have /ltP h : (val (P : 'F_7) < 7)%N := ltn_ord (P : 'F_7).
  by rewrite /num_V7; lia.
- have -> : num_V7 (mk_V7 z) = Z.of_nat (Z.to_nat z %% 7)%N by congr Z.of_nat; exact: (@val_Fp_nat 7).
  rewrite modn_small; first by lia.
  by apply/ltP; lia.
by rewrite /num_V7 /mk_V7 Nat2Z.id; exact: (natr_Zp (P : 'F_7)).
Qed.

Definition is_rpanic {E T} (r : recv E T) : bool := if r is RPanic then true else false.
Definition is_evpanic {T} (r : evid T) : bool := if r is EvPanic then true else false.

(** Key generation: party 0 commits to the point at infinity and reveals it.  The
    model without serialisation accepts; party 1 in fact panics, and so does the
    judge. *)
Definition inf2 : message (ki_wire V7 nat_eqType) :=
  Msg None (Some (W2EB V7 nat_eqType (rho7 0%N))) (Some (W2NB nat_eqType (0 : V7) (6%:R : V7) (u7 0%N))).
Definition inf_v : nat :=
  ki_hash H7 (KiPublic (0 : V7) (6%:R : V7) (rho7 0%N) (u7 0%N)) (KeyInitModel.kx_sid (ctx7 sec7 1%N)) 0%N.
Definition inf_hist (r : nat) : message (ki_wire V7 nat_eqType) := Msg None (Some (W1EB V7 inf_v)) None.
Example C65_key_init_case :
  backend_ok pointsV7 /\ b_identity pointsV7 = 0 /\
  is_rpanic (ki_recv2_ser (point_encode pointsV7) H7 (ctx7 sec7 1%N) [:: (0%N, inf_v)] 0%N inf2) /\
  accepted (ki_recv2 H7 (ctx7 sec7 1%N) [:: (0%N, inf_v)] 0%N inf2) xpredT /\
  is_evpanic (ki_evidence2_ser (point_encode pointsV7) H7 [::] trio [::] 0%N
    (assemble (ki_required R2HashMismatch) inf2 inf_hist (fun _ => [::]))) /\
  accepted (ki_recv2_ser (point_encode pointsV7) H7 (ctx7 sec7 1%N)
     [:: (0%N, ki_hash H7 (KeyInitModel.kx_public (ctx7 sec7 0%N)) (KeyInitModel.kx_sid (ctx7 sec7 0%N)) 0%N)] 0%N
     (ki_send2 (ctx7 sec7 0%N))) xpredT.
Proof. split; first exact: pointsV7_ok.1. split; first exact: pointsV7_ok.2. by split; [|split; [|split]]; vm_compute. Qed.

(** Key refresh: party 0's message with its first commitment replaced. *)
Definition with_inf (m : message (kr_wire V7 nat_eqType nat_eqType)) : message (kr_wire V7 nat_eqType nat_eqType) :=
  Msg (m_direct m) (m_echo m) (if m_normal m is Some (K2NB xs cas pkw psi u) then Some (K2NB xs [seq (p.1, 0 : V7) | p <- cas] pkw psi u) else None).
Definition r_caps : seq (nat * nat) :=
  if m_echo r_sent1_0 is Some (K1EB v) then [:: (0%N, v)] else [::].
Example C65_key_refresh_case :
  is_rpanic (kr_recv2_ser SA g7 leq (point_encode pointsV7) HR XR r_start1.1 r_caps 0%N (with_inf r_sent2_0)) /\
  proto_rejected (kr_recv2 SA g7 leq HR XR r_start1.1 r_caps 0%N (with_inf r_sent2_0)).
Proof. by split; vm_compute. Qed.

(** Signing: party 0's message with one commitment replaced. *)
Definition pointsS : backend (pt curve7) := backend7 num7 pt7.
Definition with_inf1 (m : msgS) : msgS :=
  Msg (m_direct m) (if m_echo m is Some (S1EB e) then Some (S1EB (R1EB (e1_k e) (e1_g e) (p0 curve7) (e1_a1 e) (e1_a2 e) (e1_b1 e) (e1_b2 e))) else None) (m_normal m).

Lemma num7_inj (a b : pt curve7) : num7 a = num7 b -> a = b.
Proof. exact: ZkToy.zq_eq. Qed.
Lemma pointsS_ok : backend_ok pointsS /\ b_identity pointsS = p0 curve7.
Proof.
split; last by [].
apply: backend7_ok => [[z h]|z hz|P].
- by rewrite /num7 /= -h; apply: Z.mod_pos_bound.
- by rewrite /num7 /= Z.mod_small.
by apply: num7_inj; rewrite /num7 /=; case: P => z /= h.
Qed.
Example C65_signing_case :
  backend_ok pointsS /\ b_identity pointsS = p0 curve7 /\
  is_rpanic (sg_recv1_ser SA (point_encode pointsS) XS (c_of 0) 1%N (with_inf1 (m1S 0 1))) /\
  proto_rejected (sg_recv1 SA XS (c_of 0) 1%N (with_inf1 (m1S 0 1))).
Proof. split; first exact: pointsS_ok.1. split; first exact: pointsS_ok.2. by split; vm_compute. Qed.

(** ** Refutation: a peer cannot crash its receiver.

    The bytes of a message are read by [point_decode]; the single byte zero is
    enough. *)
Theorem C65_no_crash_refuted : exists (F : fieldType) (V : lmodType F) (B : backend V) (I HO : eqType)
    (H : dst -> seq (hitem HO I V) -> HO) (c : ki_ctx V I HO) (cap_vs : seq (I * HO)) (from : I) (bytes : list Z) (x a : V) u rho,
  backend_ok B /\ b_identity B = 0 /\ from \in akeys cap_vs /\ point_decode B bytes = Some x /\
  ki_recv2_ser (point_encode B) H c cap_vs from (Msg None (Some (W2EB V HO rho)) (Some (W2NB HO x a u))) = RPanic.
Proof.
exists _, V7, pointsV7, nat_eqType, nat_eqType, H7, (ctx7 sec7 1%N), [:: (0%N, inf_v)], 0%N, [:: Z0], 0, (6%:R : V7), (u7 0%N), (rho7 0%N).
split; first exact: pointsV7_ok.1. split; first exact: pointsV7_ok.2.
split; first by []. split; first by [].
have [h _] := C65_key_init_crash H7 [::] pointsV7_ok.1 pointsV7_ok.2 (ctx7 sec7 1%N) [:: (0%N, inf_v)] 0%N (x := 0) (a := (6%:R : V7))
  (u7 0%N) (rho7 0%N) (or_introl erefl).
exact: h.
Qed.
Print Assumptions C65_no_crash_refuted.
