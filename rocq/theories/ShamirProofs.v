(** * Proofs about the Shamir model. *)
From mathcomp Require Import all_ssreflect all_algebra.
From mathcomp Require Import ring.
From Verif Require Import AlgBase AlgFacts ShamirModel ShamirSpec.
Set Implicit Arguments.
Unset Strict Implicit.
Unset Printing Implicit Defensive.
Import GRing.Theory.
Local Open Scope ring_scope.

Section Field.
Variable F : fieldType.
Implicit Types (xs : seq F) (x y : F) (p q : {poly F}).

Lemma foldl_addE (V : zmodType) (A : Type) (f : A -> V) (l : seq A) (z : V) :
  foldl (fun s a => s + f a) z l = z + \sum_(a <- l) f a.
Proof.
elim: l z => [|a l IH] z /=; first by rewrite big_nil addr0.
by rewrite IH big_cons addrA.
Qed.

Lemma foldl_mulE (A : Type) (f : A -> F) (l : seq A) (z : F) :
  foldl (fun s a => s * f a) z l = z * \prod_(a <- l) f a.
Proof.
elim: l z => [|a l IH] z /=; first by rewrite big_nil mulr1.
by rewrite IH big_cons mulrA.
Qed.

Lemma interpolation_coeffE xs x : interpolation_coeff xs x = lagrange0 xs x.
Proof. by rewrite /interpolation_coeff foldl_mulE mul1r big_filter. Qed.

Lemma join_scalarsE (prs : seq (F * F)) :
  join_scalars prs = \sum_(p <- prs) p.2 * lagrange0 (akeys prs) p.1.
Proof.
rewrite /join_scalars foldl_addE add0r; apply: eq_bigr => p _.
by rewrite interpolation_coeffE.
Qed.

Lemma join_pointsE (V : lmodType F) (prs : seq (F * V)) :
  join_points prs = \sum_(p <- prs) lagrange0 (akeys prs) p.1 *: p.2.
Proof.
rewrite /join_points foldl_addE add0r; apply: eq_bigr => p _.
by rewrite interpolation_coeffE.
Qed.

(** Horner evaluation. *)
Lemma peval_horner (cs : seq F) x : peval cs x = (Poly cs).[x].
Proof.
rewrite /peval horner_Poly; elim: cs => [|c cs IH] /=; first by rewrite big_ord0.
rewrite big_ord_recl /= expr0 mulr1 -IH mulr_suml addrC; congr (_ + _).
by apply: eq_bigr => i _; rewrite exprS mulrCA mulrC.
Qed.

Lemma horner_rev (V : lmodType F) (x : F) (c : V) (s : seq V) :
  foldl (fun acc coeff => x *: acc + coeff) (last c s) (rev (belast c s)) = gpeval (c :: s) x.
Proof.
rewrite /gpeval.
elim: s c => [|d s IH] c /=.
  by rewrite big_ord_recl big_ord0 /= expr0 scale1r addr0.
rewrite rev_cons foldl_rcons IH [in RHS]big_ord_recl /= expr0 scale1r [RHS]addrC; congr (_ + _).
rewrite scaler_sumr; apply: eq_bigr => i _.
by rewrite scalerA -exprS.
Qed.

Lemma poly_evaluateE (c : F) (s : seq F) x : poly_evaluate (c :: s) x = Ok (peval (c :: s) x).
Proof.
congr Ok; have := @horner_rev [lmodType F of F^o] x c s.
rewrite /gpeval /peval => E.
rewrite -[RHS]/(\sum_(i < size (c :: s)) (c :: s)`_i * x ^+ i).
have -> : \sum_(i < size (c :: s)) (c :: s)`_i * x ^+ i = \sum_(i < size (c :: s)) x ^+ i *: ((c :: s : seq F^o)`_i).
  by apply: eq_bigr => i _; rewrite mulrC.
rewrite -E.
by elim: (rev _) (last c s) => [|d l IH] z //=; rewrite IH mulrC.
Qed.

Lemma evaluate_pointsE (V : lmodType F) (cs : seq V) x : (1 < size cs)%N ->
  evaluate_points cs x = Ok (gpeval cs x).
Proof. by rewrite /evaluate_points => H; rewrite H; case: cs H => // c s _; rewrite horner_rev. Qed.

Lemma evaluate_points_panic (V : lmodType F) (cs : seq V) x : (size cs <= 1)%N ->
  evaluate_points cs x = Panicked.
Proof. by rewrite /evaluate_points leqNgt => /negbTE ->. Qed.

(** Lagrange interpolation. *)
Definition Lbasis xs x : {poly F} := \prod_(y <- xs | y != x) ((x - y)^-1 *: ('X - y%:P)).

Lemma prod_eq0_in (I : eqType) (r : seq I) (P : pred I) (f : I -> F) z :
  z \in r -> P z -> f z = 0 -> \prod_(i <- r | P i) f i = 0.
Proof.
elim: r => [|a r IH] //=; rewrite in_cons big_cons => /orP [/eqP <- Pz fz|Hz Pz fz].
  by rewrite Pz fz mul0r.
by case: (P a); rewrite IH // mulr0.
Qed.

Lemma Lbasis_node xs x z : z \in xs -> (Lbasis xs x).[z] = (z == x)%:R.
Proof.
move=> Hz; rewrite /Lbasis horner_prod; case: eqP => [-> |/eqP Nzx].
  rewrite big1 // => y Hy; rewrite !hornerE mulVf // subr_eq0 eq_sym //.
by apply: (prod_eq0_in Hz Nzx); rewrite !hornerE subrr mulr0.
Qed.

Lemma Lbasis_0 xs x : (Lbasis xs x).[0] = lagrange0 xs x.
Proof.
rewrite /Lbasis horner_prod /lagrange0; apply: eq_bigr => y Hy.
by rewrite hornerZ hornerXsubC sub0r mulrN -mulNr -invrN opprB mulrC.
Qed.

Lemma size_Lbasis xs x : uniq xs -> x \in xs -> (size (Lbasis xs x) <= size xs)%N.
Proof.
move=> U Hx; rewrite /Lbasis -big_filter.
have E : size xs = (size [seq y <- xs | y != x]).+1.
  have := perm_size (perm_to_rem Hx); rewrite /= => ->; congr S.
  by rewrite rem_filter.
rewrite E; elim: [seq y <- xs | y != x] => [|y l IH] /=; first by rewrite big_nil size_poly1.
rewrite big_cons -scalerAl; apply: leq_trans (size_scale_leq _ _) _.
apply: leq_trans (size_mul_leq _ _) _; rewrite size_XsubC /=.
exact: IH.
Qed.

Definition Linterp xs (f : F -> F) : {poly F} := \sum_(x <- xs) f x *: Lbasis xs x.

Lemma Linterp_node xs f z : uniq xs -> z \in xs -> (Linterp xs f).[z] = f z.
Proof.
move=> U Hz; rewrite /Linterp horner_sum (bigD1_seq z) //= big1 ?addr0.
  by rewrite hornerZ Lbasis_node // eqxx mulr1.
by move=> x Hx; rewrite hornerZ Lbasis_node // eq_sym (negbTE Hx) mulr0.
Qed.

Lemma size_Linterp xs f : uniq xs -> (size (Linterp xs f) <= size xs)%N.
Proof.
move=> U; rewrite /Linterp big_seq; apply: leq_trans (size_sum _ _ _) _.
apply/bigmax_leqP_seq => x Hx1 Hx; apply: leq_trans (size_scale_leq _ _) _.
exact: size_Lbasis.
Qed.

Lemma poly_agree xs p q : uniq xs -> (size p <= size xs)%N -> (size q <= size xs)%N ->
  {in xs, forall x, p.[x] = q.[x]} -> p = q.
Proof.
move=> U Sp Sq H; apply/eqP; rewrite -subr_eq0; apply/eqP.
apply: (@roots_geq_poly_eq0 F _ xs) => //.
  by apply/allP => x Hx; rewrite /root hornerD hornerN H // subrr.
apply: leq_trans (size_add _ _) _; by rewrite size_opp geq_max Sp Sq.
Qed.

Lemma lagrange_poly xs p : uniq xs -> (size p <= size xs)%N ->
  \sum_(x <- xs) p.[x] * lagrange0 xs x = p.[0].
Proof.
move=> U Sp.
have E : p = Linterp xs (fun x => p.[x]).
  by apply: (poly_agree U) => //; [exact: size_Linterp | move=> x Hx; rewrite Linterp_node].
rewrite [in RHS]E /Linterp horner_sum; apply: eq_bigr => x _.
by rewrite hornerZ Lbasis_0.
Qed.

(** Moments of the Lagrange coefficients at 0. *)
Lemma lagrange_moment xs k : uniq xs -> (k < size xs)%N ->
  \sum_(x <- xs) lagrange0 xs x * x ^+ k = (k == 0%N)%:R.
Proof.
move=> U Hk; have := @lagrange_poly xs ('X^k) U; rewrite size_polyXn => /(_ Hk).
rewrite hornerXn expr0n => <-; apply: eq_bigr => x _.
by rewrite hornerXn mulrC.
Qed.

(** Reconstruction in the exponent, for arbitrary group-valued coefficients. *)
Lemma lagrange_gpeval (V : lmodType F) xs (cs : seq V) : uniq xs -> (size cs <= size xs)%N ->
  (0 < size xs)%N ->
  \sum_(x <- xs) lagrange0 xs x *: gpeval cs x = cs`_0.
Proof.
move=> U S S0; rewrite /gpeval.
under eq_bigr => x _ do rewrite scaler_sumr.
rewrite exchange_big /=.
transitivity (\sum_(i < size cs) (val i == 0%N)%:R *: cs`_i).
  apply: eq_bigr => i _; under eq_bigr => x _ do rewrite scalerA.
  by rewrite -scaler_suml lagrange_moment //; exact: leq_trans (ltn_ord i) S.
case: cs S => [|c cs] S; first by rewrite big_ord0.
rewrite big_ord_recl /= scale1r big1 ?addr0 // => i _.
by rewrite scale0r.
Qed.

Lemma lagrange_peval xs (cs : seq F) : uniq xs -> (size cs <= size xs)%N -> (0 < size xs)%N ->
  \sum_(x <- xs) peval cs x * lagrange0 xs x = cs`_0.
Proof.
move=> U S S0; under eq_bigr => x _ do rewrite peval_horner.
rewrite lagrange_poly //; last by apply: leq_trans (size_Poly _) S.
by rewrite horner_coef0 coef_Poly.
Qed.

Lemma lagrange0_neq0 xs x : 0 \notin xs -> lagrange0 xs x != 0.
Proof.
move=> H0; rewrite /lagrange0 prodf_seq_neq0; apply/allP => y Hy.
apply/implyP => Hyx; rewrite mulf_neq0 //; first by apply: contraNneq H0 => <-.
by rewrite invr_eq0 subr_eq0.
Qed.

(** Share ids 1..n. *)
Lemma evaluation_points_ok n : big_field F n ->
  uniq (evaluation_points F n) /\ 0 \notin evaluation_points F n /\ size (evaluation_points F n) = n.
Proof.
move=> B; rewrite /evaluation_points size_map size_iota; split; last split => //.
- rewrite map_inj_in_uniq ?iota_uniq // => i j.
  rewrite !mem_iota !add1n !ltnS => /andP [i0 iN] /andP [j0 jN] E.
  wlog Hij : i j i0 iN j0 jN E / (i <= j)%N.
    by move=> W; case/orP: (leq_total i j) => H; [|apply/esym]; apply: W.
  apply/eqP; rewrite eqn_leq Hij /= leqNgt; apply/negP => Lt.
  have := B (j - i)%N; rewrite subn_gt0 Lt /= => /(_ (leq_trans (leq_subr _ _) jN)).
  by rewrite natrB // E subrr eqxx.
- apply/mapP => [[k]]; rewrite mem_iota add1n ltnS => Hk E.
  by have := B k Hk; rewrite -E eqxx.
Qed.

(** Additive splitting. *)
Lemma secret_splitE (s : F) n draws : (0 < n)%N ->
  exists parts, secret_split s n draws = Ok parts /\ size parts = n /\ \sum_(x <- parts) x = s.
Proof.
move=> n0; rewrite /secret_split; case: eqP => [-> |N1].
  by exists [:: s]; rewrite big_seq1.
have -> : (n == 0%N) = false by apply/negbTE; rewrite -lt0n.
eexists; split; first by []; split.
  by rewrite size_rcons size_map size_iota subn1 prednK.
rewrite foldl_addE add0r -cats1 big_cat big_seq1 /= addrC subrK //.
Qed.

End Field.
