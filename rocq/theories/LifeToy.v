(** * A concrete setting for the life of a key: the field with seven elements, key
    generation by 0 and 1, resharing to 0, 1 and 2 with threshold 2, 0 and 2
    sign; 66-bit Paillier and ring-Pedersen primes. *)
From Coq Require Import ZArith Znumtheory Lia List.
From Verif Require Import Base EncodingModel SignedModel PaillierModel PaillierSpec PaillierProofs ZkBase ZkModel ZkSpec ZkToy ZkTranscripts.
From mathcomp Require Import all_ssreflect all_algebra.
From Verif Require Import AlgBase ShamirModel ThresholdModel SchModel ProtoBase ProtoSpec AuxGenModel AuxHonestSpec KeyRefreshModel
  SigningSpec SigningModel SigningToy EntryWitness MtaSpec SigningHonestSpec SigningHonestWitness LifeSpec LifeProofs PropsShare PropsKeyInit.
Set Implicit Arguments.
Unset Strict Implicit.
Unset Printing Implicit Defensive.
Import GRing.Theory.
Local Open Scope ring_scope.

Definition int7 (a : F7) : Z := Z.of_nat (val (a : 'F_7)).
Lemma zf_nat (F : fieldType) n : zf (Z.of_nat n) = n%:R :> F.
Proof. by case: n => [|n] //=; rewrite SuccNat2Pos.id_succ. Qed.
Lemma scalar_field7 : scalar_field (sp_q toy_S) int7.
Proof.
split.
- by move=> a; have := ltn_ord (a : 'I_7); rewrite /int7 /=; move: (nat_of_ord _) => n /ltP h; lia.
- by move=> a; rewrite /int7 zf_nat; exact: natr_Zp.
- by apply/eqP.
Qed.

Definition xc7 (p : V7) : Z := Z.min (int7 p) (Z.modulo (Z.sub 7 (int7 p)) 7).
Definition lift7 (id : nat) (r : Z) : option V7 :=
  if (0 <? r)%Z && (r <=? 3)%Z then
    match id with 0%N => Some (zf r : V7) | 1%N => Some (- (zf r : V7)) | _ => None end
  else None.
Lemma in7 (P : V7 -> Prop) : (forall n, (n < 7)%N -> P (n%:R : F7)) -> forall p, P p.
Proof. by move=> h p; rewrite -[p](natr_Zp (p : 'F_7)); apply: h; exact: ltn_ord. Qed.
Lemma xcoord7_ok : @xcoord_ok (sp_q toy_S) (curveV g7) xc7.
Proof.
split=> /=.
- by apply: in7; do 7 (case=> [_|]; first by vm_compute).
- by apply: in7; do 7 (case=> [_|]; first by vm_compute).
- by vm_compute.
Qed.
Lemma lift7_ok : @lift_ok (curveV g7) xc7 lift7.
Proof.
split=> /=.
- move=> id r p; rewrite /lift7; case: ifP => // /andP [/Z.ltb_lt h1 /Z.leb_le h2].
  have E : [\/ r = Zpos 1, r = Zpos 2 | r = Zpos 3].
    have [?|?] := Z.eq_dec r 1; first by constructor 1.
    by have [?|?] := Z.eq_dec r 2; [constructor 2|constructor 3; lia].
  by case: E => ->; case: id => [|[|id]] // -[<-]; vm_compute.
- apply: in7; case=> [_ []|]; first by apply/eqP.
  do 3 (case=> [_ _|]; first by exists 0%N; split=> //; congr Some; apply/eqP; vm_compute).
  by do 3 (case=> [_ _|]; first by exists 1%N; split=> //; congr Some; apply/eqP; vm_compute).
Qed.

Definition oldL : seq nat := [:: 0; 1]%N.
Definition newL : seq nat := [:: 0; 1; 2]%N.
Definition sigL : seq nat := [:: 0; 2]%N.
Definition ordL (ids : seq nat) (r : nat) (i : nat) : seq nat := if odd r then without ids i else rev (without ids i).
Lemma ordL_ok ids : @orders_ok nat_eqType ids (ordL ids).
Proof. by move=> r i _; rewrite /ordL; case: odd; rewrite ?perm_rev. Qed.

(** Party 1 has one pair of moduli, the others have them the other way round. *)
Definition randL (i : nat) : ag_rand :=
  let d := List.repeat (if i == 1%N then Zpos 12345678901234567890 else Zpos 98765432109876543210) 16 in
  if i == 1%N then AgRand toy_p1 toy_q1 toy_p0 toy_q0 7 4 d [:: true; false] [:: true]
  else AgRand toy_p0 toy_q0 toy_p1 toy_q1 9 4 d [:: true; true] [:: false].
Definition maskL : fac_rand :=
  FacRand (Z.pow 2 100) (Z.pow 2 100) (Z.pow 2 120) 5 (Z.pow 2 250) (Z.pow 2 150) (Z.add (Z.pow 2 150) 1).

Lemma honest_keysL : exists com, forall i, honest_keys toy_S (randL i) (com i).
Proof.
have [sk1 E1] : exists sk, skey_new (sp_pail toy_S) toy_p0 toy_q0 = Ret sk.
  exact: (keygen_succeeds (sp_pail toy_S) _ _ (erefl : p_self_consistent (sp_pail toy_S) = true) toy_keygen0).
have [sk2 E2] : exists sk, skey_new (sp_pail toy_S) toy_p1 toy_q1 = Ret sk.
  exact: (keygen_succeeds (sp_pail toy_S) _ _ (erefl : p_self_consistent (sp_pail toy_S) = true) toy_keygen1).
exists (fun i => if i == 1%N then nonsquare_residue sk2 4 true else nonsquare_residue sk1 4 false) => i.
have [p0 [q0 [n0 _]]] := toy_keygen0; have [p1 [q1 [n1 _]]] := toy_keygen1.
have F0 x b : (Z.le 0 x /\ Z.lt x b) -> List.Forall (fun d => Z.le 0 d /\ Z.lt d b) (List.repeat x 16).
  by move=> h; apply/Forall_forall => y /(@repeat_spec _ _ _ _) ->.
rewrite /randL; case: (i == 1%N); split.
- exact: toy_keygen1.
- exact: (conj p0 (conj q0 n0)).
- by clear; vm_compute.
- by clear; vm_compute.
- by clear; vm_compute.
- by exists [:: Zpos 2]; clear; vm_compute.
- by split; [reflexivity|]; apply: F0; clear; vm_compute.
- by exists sk2, [:: Zpos 2], (Zpos 4), true; split; [by []|split; [clear; by vm_compute|by []]].
- exact: toy_keygen0.
- exact: (conj p1 (conj q1 n1)).
- by clear; vm_compute.
- by clear; vm_compute.
- by clear; vm_compute.
- by exists [:: Zpos 2]; clear; vm_compute.
- by split; [reflexivity|]; apply: F0; clear; vm_compute.
- by exists sk1, [:: Zpos 2], (Zpos 4), false; split; [by []|split; [clear; by vm_compute|by []]].
Qed.

Lemma honest_masksL i j : honest_masks toy_S (randL i) (Z.mul (ar_rp_p (randL j)) (ar_rp_q (randL j))) maskL.
Proof. by rewrite /randL; case: (i == 1%N); case: (j == 1%N); split; try split; vm_compute. Qed.

Definition paillierL (i : nat) : Z := Z.mul (ar_p (randL i)) (ar_q (randL i)).
Definition pedersenL (i : nat) : Z := Z.mul (ar_rp_p (randL i)) (ar_rp_q (randL i)).
Lemma drawsL_ok (ids : seq nat_eqType) : {subset ids <= idsS} -> signing_draws_ok toy_S ids paillierL pedersenL drawsH.
Proof.
move=> sub; have [d1 d2 d3] := drawsH_ok.
have hN i : paillierL i = py_N partiesH i by rewrite /paillierL /randL /=; case: (i == 1%N); vm_compute.
have hn i : pedersenL i = rp_n (py_rp partiesH i) by rewrite /pedersenL /randL /=; case: (i == 1%N); vm_compute.
split.
- by move=> i /sub hi; rewrite hN; apply: d1.
- by move=> i j /sub hi /sub hj ne; rewrite hN hn; apply: d2.
- by move=> i j /sub hi /sub hj ne; rewrite !hN hn; apply: d3.
Qed.
