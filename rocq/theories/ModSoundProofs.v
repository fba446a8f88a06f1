(** * From residues in [Z] to the unit group, and from one challenge to vectors (C78). *)
From Coq Require Import ZArith Znumtheory List Lia.
From Verif Require Import ModSoundSpec FermatZ.
From mathcomp Require Import all_ssreflect all_fingroup all_algebra all_solvable.
From mathcomp Require Import zify.
From Verif Require Import ModSoundFacts.
Set Implicit Arguments. Unset Strict Implicit. Unset Printing Implicit Defensive.
Local Open Scope nat_scope.

Lemma gcdn_Z (a b : nat) : Z.of_nat (gcdn a b) = Z.gcd (Z.of_nat a) (Z.of_nat b).
Proof.
symmetry; apply: Z.gcd_unique; [exact: Nat2Z.is_nonneg|exact/dvdn_Z/dvdn_gcdl|exact/dvdn_Z/dvdn_gcdr|].
move=> q qa qb; case: (posnP a) => [a0|a0]; first by rewrite a0 gcd0n.
case: (egcdnP b a0) => km kn E _.
have -> : Z.of_nat (gcdn a b) = Z.sub (Z.mul (Z.of_nat km) (Z.of_nat a)) (Z.mul (Z.of_nat kn) (Z.of_nat b)) by lia.
by apply: Z.divide_sub_r; apply: Z.divide_mul_r.
Qed.

Lemma coprime_Z (a b : nat) : coprime a b <-> Z.gcd (Z.of_nat a) (Z.of_nat b) = Z.of_nat 1.
Proof.
rewrite -gcdn_Z /coprime; split=> [/eqP-> //|E]; apply/eqP; exact: Nat2Z.inj.
Qed.

Lemma Z_prime (p : nat) : prime.prime p -> Znumtheory.prime (Z.of_nat p).
Proof.
move=> pp; have p1 := prime_gt1 pp; apply: prime_intro; first by lia.
move=> m Hm; apply/Zgcd_1_rel_prime.
have -> : m = Z.of_nat (Z.to_nat m) by rewrite Z2Nat.id //; lia.
apply/coprime_Z; rewrite coprime_sym prime_coprime //; apply/negP=> /dvdn_leq H.
suff: p <= Z.to_nat m by lia.
by apply: H; lia.
Qed.

Lemma mod_Z (n a b : nat) : 0 < n -> a = b %[mod n] <-> Z.modulo (Z.of_nat a) (Z.of_nat n) = Z.modulo (Z.of_nat b) (Z.of_nat n).
Proof.
by move=> n0; rewrite -!modn_Z //; split=> [->|/Nat2Z.inj].
Qed.

Lemma blum_Z (n : nat) : blum n -> blum_modulus (Z.of_nat n).
Proof.
move=> [p [q [[pp pq pnq p4 q4] [E co]]]]; exists (Z.of_nat p), (Z.of_nat q).
have p1 := prime_gt1 pp; have q1 := prime_gt1 pq.
split; [exact: Z_prime|split; [exact: Z_prime|]].
split; first by move/Nat2Z.inj=> e; rewrite e eqxx in pnq.
split; first by rewrite -[Zpos 4]/(Z.of_nat 4) -modn_Z // p4.
split; first by rewrite -[Zpos 4]/(Z.of_nat 4) -modn_Z // q4.
split; first by rewrite E Nat2Z.inj_mul.
have -> : Z.mul (Z.sub (Z.of_nat p) (Zpos 1)) (Z.sub (Z.of_nat q) (Zpos 1)) = Z.of_nat (p.-1 * q.-1) by lia.
exact/coprime_Z.
Qed.

Lemma mem_to_nat m (L : list Z) : m \in [seq Z.to_nat y | y <- L] -> exists2 y, In y L & m = Z.to_nat y.
Proof.
elim: L => [//|h t IH] /=; rewrite inE => /orP[/eqP->|/IH[y ty ->]]; first by exists h => //; left.
by exists y => //; right.
Qed.

Lemma count_filter (f : Z -> bool) m a :
  length (List.filter f (List.map Z.of_nat (List.seq a m))) = \sum_(a <= d < a + m) f (Z.of_nat d).
Proof.
elim: m a => [|m IH] a; first by rewrite addn0 big_geq.
by rewrite big_ltn ?addnS ?ltnS ?leq_addr //= -addSn -IH; case: (f _).
Qed.

Lemma coprimes_totient (N : Z) : Z.lt Z0 N -> length (coprimes_below N N) = totient (Z.to_nat N).
Proof.
move=> N0; rewrite /coprimes_below count_filter totient_count_coprime add0n !big_mkord.
apply: eq_bigr => i _; congr nat_of_bool; apply/idP/idP => [/Z.eqb_eq H|/coprime_Z H].
  by apply/coprime_Z; rewrite Z2Nat.id; [rewrite Z.gcd_comm|lia].
by apply/Z.eqb_eq; move: H; rewrite Z2Nat.id; [rewrite Z.gcd_comm|lia].
Qed.

Section Bridge.
Variables N w : Z.
Hypotheses (N1 : Z.lt (Zpos 1) N) (oN : Z.odd N = true) (nP : ~ Znumtheory.prime N) (nB : ~ blum_modulus N)
  (cw : Z.gcd w N = Zpos 1).
Let n := Z.to_nat N.
Let wn := Z.to_nat (Z.modulo w N).
Let red (x : Z) := Z.to_nat (Z.modulo x N).

Lemma nE : Z.of_nat n = N. Proof. by rewrite /n Z2Nat.id //; lia. Qed.
Lemma redE x : Z.of_nat (red x) = Z.modulo x N.
Proof. by rewrite /red Z2Nat.id //; have := Z.mod_pos_bound x N; lia. Qed.

Lemma pow_mod_Z (x : Z) k : Z.le Z0 k -> Z.modulo (Z.pow (Z.modulo x N) k) N = Z.modulo (Z.pow x k) N.
Proof.
have Nn : N <> Z0 by lia.
move: k; apply: natlike_ind => [//|k k0 IH]; rewrite !Z.pow_succ_r // (Z.mul_mod (Z.modulo x N)) // IH.
by rewrite Z.mod_mod // -Z.mul_mod.
Qed.

Lemma answered_Z y : Z.le Z0 y -> Z.lt y N -> answerable N w y -> answered n wn (Z.to_nat y).
Proof.
move=> y0 yN [gy [[z Hz] [x [a [b Hx]]]]]; have n0 : 0 < n by rewrite /n; lia.
have Nn : N <> Z0 by lia.
have ey : Z.of_nat (Z.to_nat y) = y by rewrite Z2Nat.id.
split; first by rewrite /n; lia.
- by apply/coprime_Z; rewrite nE ey Z.gcd_comm.
- exists (red z); apply/mod_Z => //; rewrite expn_Z redE nE pow_mod_Z ?ey //; lia.
exists (red x), a, b; apply/mod_Z => //; rewrite expn_Z redE nE pow_mod_Z // Hx.
rewrite !Nat2Z.inj_mul ey.
have -> : Z.of_nat (n.-1 ^ a) = (if a then Z.sub N (Zpos 1) else Zpos 1) by case: a {Hx}; rewrite ?expn1 ?expn0 // /n; lia.
have -> : Z.of_nat (wn ^ b) = (if b then Z.modulo w N else Zpos 1).
  by case: b {Hx}; rewrite ?expn1 ?expn0 // -/(red w) redE.
rewrite -(Z.mul_mod_idemp_l _ y) // -[RHS](Z.mul_mod_idemp_l _ y) //; congr (Z.modulo (Z.mul _ y) N).
rewrite (Z.mul_mod _ (if b then w else _)) // [RHS]Z.mul_mod //; congr (Z.modulo (Z.mul _ _) N).
  case: a {Hx} => //; rewrite -(Z_mod_plus_full (Zneg 1) 1 N); congr Z.modulo; lia.
by case: b {Hx} => //; rewrite Z.mod_mod.
Qed.

Lemma answerable_half (L : list Z) : NoDup L ->
  (forall y, In y L -> Z.le Z0 y /\ Z.lt y N /\ answerable N w y) -> 2 * size L <= totient n.
Proof.
move=> nd HL; have n1 : 1 < n by rewrite /n; lia.
rewrite -(size_map Z.to_nat); apply: (@answered_half n wn) => //.
- have [k Hk] := (Z.odd_spec N).1 oN; have -> : n = (Z.to_nat k).*2.+1 by rewrite /n; lia.
  by rewrite /= odd_double.
- by apply/negP=> /Z_prime; rewrite nE.
- by move=> /blum_Z; rewrite nE.
- apply/coprime_Z; have Ew : Z.of_nat wn = Z.modulo w N := redE w.
  rewrite nE Ew Z.gcd_comm Z.gcd_mod; [by rewrite Z.gcd_comm cw|lia].
- elim: L nd HL => [//|y L IH] nd HL /=; have [ni nd'] := (NoDup_cons_iff _ _).1 nd.
  rewrite IH //; last by move=> z Hz; apply: HL; right.
  rewrite andbT; apply/negP=> /mem_to_nat[z iz E]; case: ni.
  have [y0 _] := HL y (or_introl erefl); have [z0 _] := HL z (or_intror iz).
  by have -> : y = z by lia.
move=> m /mem_to_nat[y iy ->].
by have [y0 [y1 ay]] := HL y iy; apply: answered_Z.
Qed.

Lemma answerable_half_list (L : list Z) : NoDup L ->
  (forall y, In y L -> Z.le Z0 y /\ Z.lt y N /\ answerable N w y) ->
  Nat.le (Nat.mul 2 (length L)) (length (coprimes_below N N)).
Proof.
move=> nd HL; rewrite coprimes_totient; last by lia.
have := answerable_half nd HL; rewrite -/n.
by have -> : size L = length L by []; move/leP.
Qed.
End Bridge.
