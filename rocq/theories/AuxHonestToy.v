(** * Parameters, keys and masks meeting the hypotheses of the honest-run
    theorems: the parameters of [edge_params] with one more limb of room. *)
From Coq Require Import ZArith Znumtheory Lia List.
From Verif Require Import Base SignedModel PaillierModel PaillierSpec PaillierProofs ZkBase ZkModel ZkSpec ZkToy ParamLemmas.
From mathcomp Require Import all_ssreflect.
From Verif Require Import ProtoBase AuxGenModel AuxHonestSpec.
Set Implicit Arguments.
Unset Strict Implicit.
Unset Printing Implicit Defensive.
Local Open Scope Z_scope.

Definition wide_params : sparams :=
  SParams (PParams 120 240 128 256 512) 640 33554393 25 4 4 8 24 25 25 145 70.
Lemma wide_params_ok : good_params wide_params.
Proof. by split; vm_compute. Qed.

(** Party 0 takes the two primes in one order, everybody else in the other. *)
Definition randW (i : nat) : ag_rand :=
  let d := List.repeat (if i is 0%N then 12345678901234567890 else 98765432109876543210) 24 in
  match i with
  | 0%N => AgRand edge_p edge_q edge_q edge_p 7 4 d [:: true; false] [:: true]
  | _ => AgRand edge_q edge_p edge_p edge_q 9 4 d [:: true; true] [:: false]
  end.
Definition maskW : fac_rand :=
  FacRand (2 ^ 212) (2 ^ 212) (2 ^ 200) 5 (2 ^ 500) (2 ^ 300) (2 ^ 300 + 1).

Lemma edge_keygen' : keygen_primes 120 edge_q edge_p.
Proof. by have [a [b [c [d [e [f h]]]]]] := edge_keygen; repeat (split; [by [] || by move=> E; apply: c|]). Qed.

Lemma honest_keysW : exists com, forall i, honest_keys wide_params (randW i) (com i).
Proof.
have [sk1 E1] : exists sk, skey_new (sp_pail wide_params) edge_p edge_q = Ret sk.
  exact: (keygen_succeeds (sp_pail wide_params) _ _ (erefl : p_self_consistent (sp_pail wide_params) = true) edge_keygen).
have [sk2 E2] : exists sk, skey_new (sp_pail wide_params) edge_q edge_p = Ret sk.
  exact: (keygen_succeeds (sp_pail wide_params) _ _ (erefl : p_self_consistent (sp_pail wide_params) = true) edge_keygen').
exists (fun i => if i is 0%N then nonsquare_residue sk1 4 true else nonsquare_residue sk2 4 false).
have F1 x : 0 <= x < (edge_q - 1) * (edge_p - 1) -> Forall (fun d => 0 <= d < (edge_q - 1) * (edge_p - 1)) (List.repeat x 24).
  by move=> h; apply/Forall_forall => y /(@repeat_spec _ _ _ _) ->.
have F2 x : 0 <= x < (edge_q - 1) * (edge_p - 1) -> Forall (fun d => 0 <= d < (edge_p - 1) * (edge_q - 1)) (List.repeat x 24).
  by rewrite (Z.mul_comm (edge_p - 1)); apply: F1.
case=> [|i]; split.
- exact: edge_keygen.
- by split; [exact: edge_q_prime|split; [exact: edge_p_prime|]].
- by clear; vm_compute.
- by clear; vm_compute.
- by clear; vm_compute.
- by exists [:: 2]; clear; vm_compute.
- by split; [reflexivity|]; apply: F1; clear; vm_compute.
- by exists sk1, [:: 2], 4, true; split; [by []|split; [clear; by vm_compute|by []]].
- exact: edge_keygen'.
- by split; [exact: edge_p_prime|split; [exact: edge_q_prime|]].
- by clear; vm_compute.
- by clear; vm_compute.
- by clear; vm_compute.
- by exists [:: 2]; clear; vm_compute.
- by split; [reflexivity|]; apply: F2; clear; vm_compute.
- by exists sk2, [:: 2], 4, false; split; [by []|split; [clear; by vm_compute|by []]].
Qed.

Lemma honest_masksW i j : honest_masks wide_params (randW i) (ar_rp_p (randW j) * ar_rp_q (randW j)) maskW.
Proof. by case: i j => [|i] [|j]; split; try split; vm_compute. Qed.
Lemma honest_roomW : 2 * modulus_bits (sp_pail wide_params) + sp_l wide_params + sp_eps wide_params + 1 < sp_xw wide_params.
Proof. by []. Qed.
Lemma detectsW A T sc b u : detects_composites (@const_xof A T sc b u).
Proof. by []. Qed.

