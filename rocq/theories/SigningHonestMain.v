(** * Property C50 put together. *)
From Coq Require Import ZArith Lia.
From Verif Require Import Base BaseFacts EncodingModel SignedModel PaillierModel PaillierSpec ZkBase ZkModel ZkSpec ZkLemmas.
From mathcomp Require Import all_ssreflect.
From Verif Require Import AlgBase ProtoBase ProtoSpec ProtoFacts AuxGenModel SigningSpec SigningModel SigningAlgebra SigningSums
  SigningHonestSpec SigningHonest.
Set Implicit Arguments.
Unset Strict Implicit.
Unset Printing Implicit Defensive.
Local Open Scope Z_scope.

Lemma zsum_over (I : eqType) (s : seq I) (f : I -> Z) : zsum f s = sum_over s f.
Proof. by rewrite /zsum /sum_over foldr_map. Qed.

Section Main.
Variables (S : sparams) (C : curve) (I : eqType) (le : rel I) (HO : eqType).
Notation item := (hitem HO I (pt C)).
Notation q := (sp_q S).
Notation G := (gen C).
Variables (H : dst -> seq item -> HO) (X : xof (seq item) (pt C)) (scheme : seq item).
Variables (xcoord : pt C -> Z) (lift_x : nat -> Z -> option (pt C)) (positional : bool).
Hypothesis (HG : good_params S) (HC : curve_ok q C) (HXO : xof_ok q X) (ho : total_order le).
Variables (p : parties I) (d : draws I) (randomness text : seq Z) (o : arrivals I).
Hypotheses (hp : parties_ok S le p) (hd : draws_ok S p d) (har : arrivals_ok p o).
Notation ids := (py_ids p).
Notation k := (joint_k p d).
Notation g := (joint_gamma p d).
Notation x := (joint_key p).
Notation m := (scalar_of_bytes S text).
Notation r := (xcoord (pmul C g G)).

(** The states of an honest session, all from the lemmas of SigningHonest. *)
Definition the_session := session S le H X scheme p d randomness text o.

Hypotheses (Pq : Znumtheory.prime q) (Oq : Z.odd q = true) (HX : xcoord_ok q xcoord) (HL : lift_ok xcoord lift_x).
Notation vk := (pmul C x G).
Let q1 : 1 < q. Proof. exact: (proj1 (q_le S HG)). Qed.

(** What happens after round 3, as a function of the joint secrets. *)
Lemma session_full : exists c e m1 s2 s3, [/\ the_session c e m1 s2 s3,
  (k * g) mod q = 0 -> {in ids, forall i,
    sg_until4 S le X xcoord (c i) (e i) (dr_2 d i) (dr_3 d i) (m1 i) (fun j => sg_send2 (s2 j)) (fun j => sg_send3 (s3 j))
      (ar_1 o i) (ar_2 o i) (ar_3 o i) = RLocal} &
  (k * g) mod q <> 0 -> exists s4,
    {in ids, forall i,
      sg_until4 S le X xcoord (c i) (e i) (dr_2 d i) (dr_3 d i) (m1 i) (fun j => sg_send2 (s2 j)) (fun j => sg_send3 (s3 j))
        (ar_1 o i) (ar_2 o i) (ar_3 o i) = Accept (ToRound4 (s4 i))} /\
    exists z, [/\ 0 <= z < q, (z * g) mod q = (m + x * r) mod q &
      {in ids, forall i,
        sg_run S le X xcoord lift_x positional (c i) (e i) (dr_2 d i) (dr_3 d i) (m1 i) (fun j => sg_send2 (s2 j))
          (fun j => sg_send3 (s3 j)) (fun j => sg_send4 (s4 j)) (ar_1 o i) (ar_2 o i) (ar_3 o i) (ar_4 o i)
        = if from_scalars S xcoord lift_x r z vk m is Some sig then Accept sig else RLocal}]].
Proof.
exists (ctx S H scheme p d randomness text), (eb S C p d), (m1 S H X scheme p d randomness text),
  (s2 S H X scheme p d randomness text), (s3 S H X scheme p d randomness text); split.
- split.
  + by move=> i hi; apply: (hstart H scheme HG randomness text hp hd hi).
  + by move=> i j hi hj ne; apply: (hsend1 H scheme HG HC HXO randomness text hp hd hi hj ne).
  + by move=> i hi; apply: (huntil2 H scheme HG HC HXO ho randomness text hp hd har hi).
  + by move=> i hi; apply: (huntil3 H scheme HG HC HXO ho randomness text hp hd har hi).
- move=> h0 i hi; rewrite (huntil4 H scheme xcoord HG HC HXO ho randomness text hp hd har hi) !zsum_over h0.
  case E: (inv_mod q 0) => [di|] //.
  by have [_] := inv_mod_Some q _ _ ltac:(lia) E; rewrite Z.mul_0_l Z.mod_0_l ?Z.mod_1_l; lia.
move=> hn.
have hr : 0 < (k * g) mod q < q by have := Z.mod_pos_bound (k * g) q; lia.
have [di Hdi _] := inv_mod_prime Pq hr.
have Hdi2 : inv_mod q ((zsum (fun i => g1_k (dr_1 d i)) ids * zsum (fun i => g1_gamma (dr_1 d i)) ids) mod q) = Some di.
  by rewrite !zsum_over.
exists (s4 S H X scheme xcoord p d randomness text di); split.
  by move=> i hi; rewrite (huntil4 H scheme xcoord HG HC HXO ho randomness text hp hd har hi) Hdi2.
exists (zz S H X scheme xcoord p d randomness text di); split.
- exact: zz_range.
- by have := zzE H scheme xcoord HG HC HXO randomness text hp hd Hdi2; rewrite /Gam !zsum_over.
by move=> i hi; rewrite (hrun H scheme xcoord lift_x positional HG HC HXO ho randomness text hp hd har Hdi2 hi) /Gam !zsum_over.
Qed.

(** Outside four degenerate cases every party ends with the same low-s signature
    of the message, valid for the joint key, whose first component belongs to the
    joint nonce. *)
Lemma honest_signature :
  (k * g) mod q <> 0 -> r <> 0 -> (m + x * r) mod q <> 0 -> vk <> p0 C ->
  exists c e m1 s2 s3 s4 sig, [/\ the_session c e m1 s2 s3,
    {in ids, forall i,
      sg_until4 S le X xcoord (c i) (e i) (dr_2 d i) (dr_3 d i) (m1 i) (fun j => sg_send2 (s2 j)) (fun j => sg_send3 (s3 j))
        (ar_1 o i) (ar_2 o i) (ar_3 o i) = Accept (ToRound4 (s4 i))},
    {in ids, forall i,
      sg_run S le X xcoord lift_x positional (c i) (e i) (dr_2 d i) (dr_3 d i) (m1 i) (fun j => sg_send2 (s2 j))
        (fun j => sg_send3 (s3 j)) (fun j => sg_send4 (s4 j)) (ar_1 o i) (ar_2 o i) (ar_3 o i) (ar_4 o i) = Accept sig} &
    [/\ sig_r sig = r, 0 < sig_s sig <= (q - 1) / 2 & ecdsa_valid q xcoord vk m (sig_r sig) (sig_s sig)]].
Proof.
move=> n1 n2 n3 n4.
have [c [e [m1 [s2 [s3 [hses _ /(_ n1) [s4 [h4 [z [hz hzg hrun]]]]]]]]]] := session_full.
have hr : 0 < r < q by have := xc_range HX (pmul C g G); lia.
have z0 : 0 < z.
  suff : z <> 0 by lia.
  by move=> E; apply: n3; rewrite -hzg E Z.mul_0_l Z.mod_0_l //; lia.
have hnp : nonce_point xcoord vk m r z (pmul C g G).
  split=> //; rewrite (c_mulA _ _ HC) -(pmul_modq HC q1) hzg (pmul_modq HC q1) (c_mulDl _ _ HC) (c_mulA _ _ HC).
  by congr (padd C _ (pmul C _ _)); lia.
have hv : ecdsa_valid q xcoord vk m r z by apply: (nonce_valid HC Pq) hnp => //; lia.
have [sig Esig] := from_scalars_complete HC Pq Oq HX HL n4 hv.
have [E1 E2 _ E3 _] := from_scalars_sound HC Pq Oq HL (xc_range HX _) hz Esig.
exists c, e, m1, s2, s3, s4, sig; split=> //.
- by move=> i hi; rewrite hrun // Esig.
- by split=> //; rewrite E1.
Qed.

(** The degenerate cases end with a local error for every party, never with a
    signature and never with an accusation. *)
Lemma honest_degenerate :
  exists c e m1 s2 s3, [/\ the_session c e m1 s2 s3,
    (k * g) mod q = 0 -> {in ids, forall i,
      sg_until4 S le X xcoord (c i) (e i) (dr_2 d i) (dr_3 d i) (m1 i) (fun j => sg_send2 (s2 j)) (fun j => sg_send3 (s3 j))
        (ar_1 o i) (ar_2 o i) (ar_3 o i) = RLocal} &
    (k * g) mod q <> 0 -> r = 0 \/ (m + x * r) mod q = 0 \/ vk = p0 C ->
    exists s4,
      {in ids, forall i,
        sg_until4 S le X xcoord (c i) (e i) (dr_2 d i) (dr_3 d i) (m1 i) (fun j => sg_send2 (s2 j)) (fun j => sg_send3 (s3 j))
          (ar_1 o i) (ar_2 o i) (ar_3 o i) = Accept (ToRound4 (s4 i))} /\
      {in ids, forall i,
        sg_run S le X xcoord lift_x positional (c i) (e i) (dr_2 d i) (dr_3 d i) (m1 i) (fun j => sg_send2 (s2 j))
          (fun j => sg_send3 (s3 j)) (fun j => sg_send4 (s4 j)) (ar_1 o i) (ar_2 o i) (ar_3 o i) (ar_4 o i) = RLocal}].
Proof.
have [c [e [m1 [s2 [s3 [hses h0 h1]]]]]] := session_full.
exists c, e, m1, s2, s3; split=> // hn hdeg.
have [s4 [h4 [z [hz hzg hrun]]]] := h1 hn.
exists s4; split=> // i hi; rewrite hrun // (from_scalars_refuses _ _ HC) //.
case: hdeg => [->|[h|->]]; [by left| |by right; right].
right; left; move: hzg; rewrite h => hz0.
have : (q | z * g) by apply/Z.mod_divide; lia.
case/(Znumtheory.prime_mult _ Pq) => [[a ha]|hg]; first by rewrite -(Z.mod_small z q hz) ha Z_mod_mult.
by case: hn; apply/Z.mod_divide; [lia|apply: Z.divide_mul_r].
Qed.
End Main.
