(** * A peer with the modulus 483 = 3 * 7 * 23 gets through the toy run of AuxGen (C81). *)
From Coq Require Import ZArith Znumtheory Lia.
From Verif Require Import Base EncodingModel SignedModel PaillierModel ZkBase ZkModel ZkToy ModSoundSpec.
From mathcomp Require Import all_ssreflect.
From Verif Require Import AlgBase ProtoBase ProtoSpec AuxGenModel AuxGenToy KeyRefreshModel KeyRefreshToy ModPeerSpec.
Set Implicit Arguments.
Unset Strict Implicit.
Unset Printing Implicit Defensive.
Local Open Scope Z_scope.

(** Party 0 of the toy run with another modulus and a modulus proof without repetitions. *)
Definition badA : ag_public := Eval vm_compute in
  let d := (startA 0).2 in AgPublic 483 (ap_rp d) (ap_psi d) (ap_rid d) (ap_u d).
Definition bad_sk : skey := SKey (Primes 21 23 1) 0 (mkU 0 0) 0 0 483.
Definition emptyA : mod_proof := ModProof 2 [:: 1; 1] [::].
Definition bad_state : ag_round3 nat_eqType nat_eqType := Eval vm_compute in
  let c := a3_ctx state0 in
  AgRound3 (AgCtx bad_sk (ax_rp c) (ax_id c) (ax_others c) (ax_sid c)) (a3_rid state0) (a3_payloads state0) emptyA.
Definition bad1 := Eval vm_compute in ag_send1 HA (startA 0).1 badA.
Definition bad2 := Eval vm_compute in ag_send2 nat_eqType badA.
Definition bad3 : message (ag_wire nat_eqType) := Eval vm_compute in
  if ag_send3 SA XA bad_state (facA 483 (rp_n (ax_rp start1.1))) 1%N is Accept m then m else Msg None None None.
Definition with0 (b : message (ag_wire nat_eqType)) (f : nat -> message (ag_wire nat_eqType)) (j : nat) := if j == 0%N then b else f j.
Definition bad_run : recv (ag_error nat_eqType) (aux_info nat_eqType) := ag_run SA leq HA XA start1.1 start1.2 com1 (with0 bad1 in1) (with0 bad2 in2) (with0 bad3 in3)
  (without idsA 1%N) (rev (without idsA 1%N)) (without idsA 1%N).

Lemma not_prime_161 : ~ Znumtheory.prime 161.
Proof. by move=> P; have D : (7 | 161) by [exists 23]; have := prime_divisors 161 P 7 D; lia. Qed.
Lemma not_blum_483 : ~ blum_modulus 483.
Proof.
move=> [p [q [Pp [Pq [_ [_ [_ [E _]]]]]]]].
have D3 : (3 | p * q) by exists 161; rewrite -E.
have one s : Znumtheory.prime s -> (3 | s) -> s = 3 by move=> Ps /(prime_divisors s Ps); have := prime_ge_2 s Ps; lia.
case: (prime_mult 3 prime_3 _ _ D3) => [/(one p Pp)|/(one q Pq)] e; apply: not_prime_161.
- by have <- : q = 161 by lia.
- by have <- : p = 161 by lia.
Qed.

Definition listed (r : recv (ag_error nat_eqType) (aux_info nat_eqType)) (j : nat) : option Z :=
  if r is Accept a then omap fst (aget (ai_public a) j) else None.
Lemma listedP r j N : listed r j = Some N -> exists a rp, r = Accept a /\ aget (ai_public a) j = Some (N, rp).
Proof. by case: r => //= a; case E: (aget _ _) => [[M rp]|] //= [<-]; exists a, rp. Qed.

Lemma bad_finishes : exists a rp, bad_run = Accept a /\ aget (ai_public a) 0%N = Some (483, rp).
Proof. by apply: listedP; vm_compute. Qed.

(** The proofs of the honest toy run have full length. *)
Definition full_proof (m : message (ag_wire nat_eqType)) : bool :=
  if m_normal m is Some (A3NB pf) then size (mod_elems pf) == sp_secbits SA else false.
Definition full_proof_R {F V I HO} (m : message (@kr_wire F V I HO)) : bool :=
  if m_normal m is Some (K3NB pf) then size (mod_elems pf) == sp_secbits SA else false.

Lemma composite p q : Z.lt 1 p -> Z.lt 1 q -> ~ Znumtheory.prime (p * q).
Proof. by move=> h1 h2 P; have D : (p | p * q) by [exists q; lia]; have := prime_divisors _ P p D; nia. Qed.

Lemma xof_okA : xof_ok (sp_q SA) XA.
Proof. by apply: const_xof_ok; rewrite -[sp_q SA]/(Zpos 7); lia. Qed.
Lemma start1E : ag_start SA HA XA [::] idsA [::] 1%N (randA 1) = Ok start1.
Proof. by vm_compute. Qed.
Lemma peer_case :
  [/\ p_self_consistent (sp_pail SA) = true, xof_ok (sp_q SA) XA & Z.le 4 (modulus_bits (sp_pail SA))] /\
  [/\ ag_start SA HA XA [::] idsA [::] 1%N (randA 1) = Ok start1, full_proof sent3_0, full_proof sent3_2 &
      let run := ag_run SA leq HA XA start1.1 start1.2 com1 in1 in2 in3 (without idsA 1%N) (rev (without idsA 1%N)) (without idsA 1%N) in
      listed run 0%N = Some (Zpos 437) /\ listed run 2%N = Some (Zpos 589)] /\
  [/\ recognised XA (Zpos 437), recognised XA (Zpos 589) & full_proof_R r_sent3_0].
Proof.
split; [split; [by vm_compute|exact: xof_okA|by vm_compute]|split].
  split; [exact: start1E|by vm_compute|by vm_compute|].
  by move=> run; split; rewrite /run; vm_compute.
split; last by vm_compute.
- by move=> P; case: (@composite 19 23 _ _ P).
- by move=> P; case: (@composite 19 31 _ _ P).
Qed.

Lemma bad_peer :
  exists (S : sparams) (C : curve) (I HO : eqType) (le : rel I) (H : dst -> seq (hitem HO I (pt C)) -> HO)
    (X : xof (seq (hitem HO I (pt C))) (pt C)) scheme ids sr id r c d com m1 m2 m3 o1 o2 o3 a j N rp,
  [/\ p_self_consistent (sp_pail S) = true, xof_ok (sp_q S) X, Z.le 4 (modulus_bits (sp_pail S)) & uniq ids] /\
  [/\ ag_start S H X scheme ids sr id r = Ok (c, d), perm_eq o1 (without ids id), perm_eq o2 (without ids id) &
      perm_eq o3 (without ids id)] /\
  [/\ ag_run S le H X c d com m1 m2 m3 o1 o2 o3 = Accept a, j \in without ids id, aget (ai_public a) j = Some (N, rp),
      Z.odd N = true /\ Z.lt 1 N /\ Z.lt N (Z.pow 2 (modulus_bits (sp_pail S))) & ~ Znumtheory.prime N /\ ~ blum_modulus N].
Proof.
have [a [rp [E1 E2]]] := bad_finishes.
exists SA, curve7, nat_eqType, nat_eqType, leq, HA, XA, [::], idsA, [::], 1%N, (randA 1), start1.1, start1.2, com1,
  (with0 bad1 in1), (with0 bad2 in2), (with0 bad3 in3), (without idsA 1%N), (rev (without idsA 1%N)), (without idsA 1%N), a, 0%N, 483, rp.
split; [split; [by vm_compute|exact: xof_okA|by vm_compute|by vm_compute]|split].
  split; [exact: start1E|by vm_compute|by vm_compute|by vm_compute].
rewrite /bad_run in E1.
split.
- exact E1.
- exact isT.
- exact E2.
- by split; [|split].
split; last exact not_blum_483.
have P21 : Z.lt 1 21 by [].
have P23 : Z.lt 1 23 by [].
exact (composite P21 P23).
Qed.
