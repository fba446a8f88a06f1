(** * AuxGen evidence: the named reporter is not bound to the message. *)
From Coq Require Import ZArith.
From Verif Require Import Base EncodingModel SignedModel PaillierModel ZkBase ZkModel ZkToy.
From mathcomp Require Import all_ssreflect.
From Verif Require Import AlgBase AlgFacts ProtoBase ProtoSpec ProtoFacts KeyInitProofs AuxGenModel AuxGenSpec AuxGenProofs AuxGenToy.
Set Implicit Arguments.
Unset Strict Implicit.
Unset Printing Implicit Defensive.

Section Named.
Variables (S : sparams) (C : curve) (I : eqType) (HO : eqType).
Notation item := (hitem HO I (pt C)).
Variables (H : dst -> seq item -> HO) (X : xof (seq item) (pt C)) (scheme : seq item).

Lemma fac_evidence_named ids sr guilty reporter psi nb echo hist (echos : nat -> seq (I * ag_wire HO))
    (rid : I -> seq bool) (rpw : I -> rpparams) pk psi2 u rid_c :
  hist 2%N = Msg None (Some (A2EB (rid guilty) (rpw guilty))) (Some (A2NB pk psi2 u)) ->
  Z.odd pk -> Z.odd (rp_n (rpw reporter)) ->
  uniq (akeys (echos 2%N)) -> {in akeys (echos 2%N), forall j, aget (echos 2%N) j = Some (A2EB (rid j) (rpw j))} ->
  reporter \in akeys (echos 2%N) -> combined (rid guilty :: [seq rid j | j <- akeys (echos 2%N)]) rid_c ->
  let e := AgFacFailed reporter in
  confirmed_ev (ag_evidence S H X scheme ids sr guilty e
      (assemble (ag_required e) (Msg (Some (A3DM psi)) echo nb) hist echos)) <->
  fac_verify S X psi pk (reduced (rpw reporter)) [:: HOut (sid_new H scheme sr ids); HId guilty; HBits rid_c] = Ret false.
Proof.
move=> hh opk orp ue he hr hc e.
have [|ebs Eebs] := @ev_all_ok _ _ _ (@as_a2eb HO) (echos 2%N) _ ue.
  by move=> j hj; rewrite he.
have [ek eg] := ev_all_inv Eebs.
have xorE : xor_all (rid guilty) [seq p.2.1 | p <- ebs] = Ret rid_c.
  apply/xor_allP; suff -> : [seq p.2.1 | p <- ebs] = [seq rid j | j <- akeys (echos 2%N)] by [].
  have -> : ebs = [seq (j, (rid j, rpw j)) | j <- akeys ebs].
    rewrite {1}(@atab_eq _ _ ebs ([::], RP Z0 Z0 Z0)) ?ek //; apply/eq_in_map => j hj.
    by rewrite eg he.
  by rewrite -map_comp ek.
rewrite /ag_evidence /= /ag_reconstruct_rid /= /ev_deser /= hh /= Eebs /= xorE /=.
rewrite /try_get he //= /public_key_new opk /= /rp_pre /rp_to_precomputed /public_key_new orp /= -/(reduced _).
by case: (fac_verify _ _ _ _ _ _) => [[]|].
Qed.
End Named.

Definition all1 (j : nat) := if j == 1%N then ag_send1 HA start1.1 start1.2 else in1 j.
Definition all2 (j : nat) := if j == 1%N then ag_send2 nat_eqType start1.2 else in2 j.
Definition start0 := Eval vm_compute in startA 0.
Definition com0 := Eval vm_compute in comA 0.

Lemma honest_framed :
  exists (S : sparams) (C : curve) (HO : eqType) (H : dst -> seq (hitem HO nat (pt C)) -> HO)
    (X : xof (seq (hitem HO nat (pt C))) (pt C)) (ids : seq nat) c0 d0 com0 s0 c1 d1 com1 s1 r0 r1 rnd m1 m2 m3 hist echos,
  [/\ ag_start S H X [::] ids [::] 0%N r0 = Ok (c0, d0), ag_start S H X [::] ids [::] 1%N r1 = Ok (c1, d1) &
      m1 0%N = ag_send1 H c0 d0 /\ m2 0%N = ag_send2 HO d0 /\ m1 1%N = ag_send1 H c1 d1 /\ m2 1%N = ag_send2 HO d1] /\
  [/\ ag_until3 S leq H X c0 d0 com0 m1 m2 (without ids 0%N) (without ids 0%N) = Accept s0,
      ag_until3 S leq H X c1 d1 com1 m1 m2 (without ids 1%N) (without ids 1%N) = Accept s1,
      ag_send3 S X s0 rnd 1%N = Accept m3 & ag_recv3 S X s1 0%N m3 = Accept tt] /\
  [/\ forall r, hist r = if r == 1%N then m1 0%N else if r == 2%N then m2 0%N else m3,
      {in without ids 0%N, forall j, aget (echos 2%N) j = m_echo (m2 j)}, akeys (echos 2%N) = without ids 0%N &
      confirmed_ev (ag_evidence S H X [::] ids [::] 0%N (AgFacFailed 2%N)
        (assemble (ag_required (AgFacFailed 2%N)) m3 hist echos))].
Proof.
exists SA, curve7, nat_eqType, HA, XA, idsA, start0.1, start0.2, com0, state0, start1.1, start1.2, com1, state1.
exists (randA 0), (randA 1), (facA 437 713), all1, all2, sent3_0.
exists (fun r => if r == 1%N then all1 0%N else if r == 2%N then all2 0%N else sent3_0), echos0.
split; first by split; [vm_compute|vm_compute|repeat split; vm_compute].
split; first by split; vm_compute.
split; [by []|idtac|by vm_compute|by vm_compute].
by move=> j; rewrite mem_filter => /andP [j0 /predU1P [e|/predU1P [e|/predU1P [e|//]]]]; subst j; vm_compute.
Qed.
