(** * Fermat's little theorem for [Z], imported once from mathcomp. *)
From Coq Require Import ZArith Znumtheory Lia.
From mathcomp Require Import all_ssreflect.
Set Implicit Arguments. Unset Strict Implicit. Unset Printing Implicit Defensive.

Lemma modn_Z (a m : nat) : (0 < m)%N -> Z.of_nat (a %% m)%N = (Z.of_nat a mod Z.of_nat m)%Z.
Proof.
move=> m0; have [ml _] : (Z.of_nat 0 < Z.of_nat m)%Z /\ True
  by split=> //; apply/Nat2Z.inj_lt/ltP.
apply: (Z.mod_unique _ _ (Z.of_nat (a %/ m)%N)).
  left; split; first exact: Nat2Z.is_nonneg.
  by apply/Nat2Z.inj_lt/ltP; rewrite ltn_mod.
by rewrite {1}(divn_eq a m) Nat2Z.inj_add Nat2Z.inj_mul Z.mul_comm.
Qed.

Lemma expn_Z (a e : nat) : Z.of_nat (a ^ e)%N = (Z.of_nat a ^ Z.of_nat e)%Z.
Proof.
elim: e => [//|e IH].
by rewrite expnS Nat2Z.inj_mul IH Nat2Z.inj_succ Z.pow_succ_r //; exact: Nat2Z.is_nonneg.
Qed.

Lemma dvdn_Z (d m : nat) : (d %| m)%N -> (Z.of_nat d | Z.of_nat m)%Z.
Proof. by move=> /dvdnP [k ->]; exists (Z.of_nat k); rewrite Nat2Z.inj_mul. Qed.

Lemma prime_Z (p : nat) : Znumtheory.prime (Z.of_nat p) -> prime.prime p.
Proof.
move=> hp; apply/primeP; split.
  by apply/ltP/Nat2Z.inj_lt; case: hp.
move=> d dp; have [|[|[|]]] := prime_divisors _ hp _ (dvdn_Z dp) => h.
- by have := Nat2Z.is_nonneg d; rewrite h.
- by apply/orP; left; apply/eqP/Nat2Z.inj.
- by apply/orP; right; apply/eqP/Nat2Z.inj.
- have p2 := prime_ge_2 _ hp; have := Nat2Z.is_nonneg d; lia.
Qed.

Lemma fermat_nat (p a : nat) : prime.prime p -> (a ^ p = a %[mod p])%N.
Proof. by move=> pp; exact: fermat_little. Qed.

Theorem fermat_Z (p a : Z) : Znumtheory.prime p -> (a ^ p mod p = a mod p)%Z.
Proof.
move=> pp; have p2 := prime_ge_2 _ pp.
have ep : Z.of_nat (Z.to_nat p) = p by rewrite Z2Nat.id //; lia.
have b0 : (0 <= a mod p < p)%Z by apply: Z.mod_pos_bound; lia.
set b := (a mod p)%Z in b0.
have eb : Z.of_nat (Z.to_nat b) = b by rewrite Z2Nat.id //; lia.
have h : forall n, (0 <= n)%Z -> (a ^ n mod p = b ^ n mod p)%Z.
  apply: natlike_ind => [//|n n0 IH].
  rewrite !Z.pow_succ_r // Z.mul_mod ?IH; last by lia.
  rewrite -(Z.mul_mod_idemp_r b); last by lia.
  by rewrite /b Z.mul_mod_idemp_l ?Z.mul_mod_idemp_l //; lia.
rewrite h; last by lia.
have pn : prime.prime (Z.to_nat p) by apply: prime_Z; rewrite ep.
have := @fermat_nat (Z.to_nat p) (Z.to_nat b) pn.
move/(congr1 Z.of_nat); rewrite !modn_Z ?prime_gt0 // expn_Z ep eb => ->.
by rewrite /b Z.mod_mod //; lia.
Qed.
