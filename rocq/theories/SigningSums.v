(** * Sums of shares modulo the group order (for properties C50 and C53). *)
From Coq Require Import ZArith Lia.
From Verif Require Import Base BaseFacts ZkBase ZkSpec ZkFacts.
From mathcomp Require Import all_ssreflect.
From Verif Require Import AlgBase ProtoBase ProtoSpec ProtoFacts SigningModel SigningAlgebra.
Set Implicit Arguments.
Unset Strict Implicit.
Unset Printing Implicit Defensive.
Local Open Scope Z_scope.

(** The plain sum over a list of parties. *)
Definition zsum (I : Type) (f : I -> Z) (s : seq I) : Z := foldr Z.add 0 [seq f i | i <- s].

Section Sums.
Variables (I : eqType).
Implicit Types (f g : I -> Z) (s : seq I).

Lemma zsum_add f g s : zsum (fun i => f i + g i) s = zsum f s + zsum g s.
Proof. by rewrite /zsum; elim: s => [|i s IH] //=; rewrite IH; lia. Qed.
Lemma zsum_mull a f s : zsum (fun i => a * f i) s = a * zsum f s.
Proof. by rewrite /zsum; elim: s => [|i s IH] /=; rewrite ?IH; lia. Qed.
Lemma zsum_mulr a f s : zsum (fun i => f i * a) s = zsum f s * a.
Proof. by rewrite /zsum; elim: s => [|i s IH] /=; rewrite ?IH; lia. Qed.
Lemma zsum_eq f g s : {in s, f =1 g} -> zsum f s = zsum g s.
Proof. by move=> h; congr foldr; apply/eq_in_map. Qed.
Lemma zsum_perm f s t : perm_eq s t -> zsum f s = zsum f t.
Proof. exact: foldr_add_perm. Qed.
Lemma zsum_without f s i : uniq s -> i \in s -> zsum f s = f i + zsum f (without s i).
Proof. by move=> hu hi; rewrite (zsum_perm f (perm_without hu hi)). Qed.
Lemma zsum_swap (h : I -> I -> Z) s t : zsum (fun i => zsum (h i) t) s = zsum (fun j => zsum (fun i => h i j) s) t.
Proof.
elim: s => [|i s IH].
  by rewrite {1}/zsum /=; elim: t => [|j t IH] //=; rewrite /zsum /= in IH *; rewrite -IH.
have -> : zsum (fun j => zsum (h^~ j) (i :: s)) t = zsum (fun j => h i j + zsum (h^~ j) s) t by [].
by rewrite zsum_add -IH.
Qed.
Lemma zsum_pairs (h : I -> I -> Z) s : uniq s ->
  zsum (fun i => zsum (h i) (without s i)) s = zsum (fun i => zsum (fun j => h j i) (without s i)) s.
Proof.
move=> hu.
have E (k : I -> I -> Z) : zsum (fun i => zsum (k i) (without s i)) s + zsum (fun i => k i i) s = zsum (fun i => zsum (k i) s) s.
  by rewrite -zsum_add; apply: zsum_eq => i hi; rewrite (zsum_without _ hu hi); lia.
have E1 := E h; have E2 := E (fun i j => h j i); move: E1 E2; rewrite (zsum_swap h) /=.
set A := zsum _ s; set B := zsum _ s; set D := zsum _ s; set A' := zsum (fun i => zsum (fun j => h j i) (without s i)) s; lia.
Qed.

Variable q : Z.
Hypothesis q1 : 1 < q.
Lemma zsum_mod f g s : {in s, forall i, f i mod q = g i mod q} -> zsum f s mod q = zsum g s mod q.
Proof.
rewrite /zsum; elim: s => [|i s IH] h //=.
rewrite Z.add_mod; last lia; rewrite (h i (mem_head _ _)) IH; last by move=> j hj; apply: h; rewrite inE hj orbT.
by rewrite -Z.add_mod //; lia.
Qed.
Lemma zsum_modl f s : zsum (fun i => f i mod q) s mod q = zsum f s mod q.
Proof. by apply: zsum_mod => i _; rewrite Z.mod_mod; lia. Qed.
End Sums.

Section Product.
Variables (S : sparams) (I : eqType).
Notation q := (sp_q S).
Hypothesis q1 : 1 < q.

Lemma sum_scsE (f : I -> Z) s : sum_scs S [seq f i | i <- s] = zsum f s mod q.
Proof. by rewrite sum_scs_mod. Qed.

(** If every pair of parties shares the product of the one's [k] and the
    other's [g], the sums of the shares share the product of the sums. *)
Lemma product_of_sums (k g : I -> Z) (al be : I -> I -> Z) ids : uniq ids ->
  {in ids &, forall i j, i != j -> (al i j + be j i) mod q = (k i * g j) mod q} ->
  zsum (fun i => (g i * k i + sum_scs S [seq al i j | j <- without ids i] + sum_scs S [seq be i j | j <- without ids i]) mod q) ids mod q
    = (zsum k ids * zsum g ids) mod q.
Proof.
move=> hu h; rewrite zsum_modl //.
have -> : zsum (fun i => g i * k i + sum_scs S [seq al i j | j <- without ids i] + sum_scs S [seq be i j | j <- without ids i]) ids mod q
  = zsum (fun i => g i * k i + zsum (al i) (without ids i) + zsum (be i) (without ids i)) ids mod q.
  apply: zsum_mod => // i _; rewrite !sum_scsE -(Z.add_mod_idemp_r _ (zsum (be i) _)); last lia.
  rewrite -[in RHS]Z.add_mod_idemp_l; last lia; rewrite -(Z.add_mod_idemp_r (g i * k i)); last lia.
  by rewrite [in RHS]Z.add_mod_idemp_l //; lia.
rewrite zsum_add [X in _ + X](zsum_pairs _ hu) -zsum_add -zsum_mulr.
apply: zsum_mod => // i hi.
have -> : k i * zsum g ids = k i * g i + zsum (fun j => k i * g j) (without ids i).
  by rewrite (zsum_without _ hu hi) zsum_mull; lia.
rewrite -Z.add_assoc -zsum_add (Z.mul_comm (g i)) Z.add_mod; last lia.
rewrite [in RHS]Z.add_mod; last lia; congr ((_ + _) mod _).
apply: zsum_mod => // j; rewrite mem_filter => /andP [ne hj].
by apply: h => //; rewrite eq_sym.
Qed.

Variable C : curve.
Hypothesis HC : curve_ok q C.
Lemma sum_pts_zsum (f : I -> Z) (P : pt C) s : sum_pts [seq pmul C (f i) P | i <- s] = pmul C (zsum f s) P.
Proof.
rewrite -(pmul_modq HC) // -sum_scsE (sum_scs_pmul HC) // -map_comp.
by congr sum_pts; apply: eq_map.
Qed.
End Product.
