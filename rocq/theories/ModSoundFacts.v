(** * Fourth roots of unity and N-th powers modulo N (used by C78).

    In a finite abelian group the k-th powers are as many as the group divided by
    the k-th roots of 1.  A modulus that is not of the honest form has either a
    non-trivial N-th root of 1 or eight fourth roots of 1. *)
From mathcomp Require Import all_ssreflect all_fingroup all_algebra all_solvable.
From mathcomp Require Import zify.
Set Implicit Arguments. Unset Strict Implicit. Unset Printing Implicit Defensive.
Import GroupScope.

Section Powers.
Variables (gT : finGroupType) (G : {group gT}).
Hypothesis abG : abelian G.

Definition kpowers k := [set x ^+ k | x in G].
Definition kroots k := [set x in G | x ^+ k == 1].

Lemma powers_roots k : (#|kpowers k| * #|kroots k| = #|G|)%N.
Proof.
have mM : {in G &, {morph (fun x : gT => x ^+ k) : x y / x * y}}.
  by move=> x y Gx Gy; rewrite /= expgMn //; apply: (centsP abG).
pose f := Morphism mM.
have Ei : kpowers k = f @* G by rewrite morphimEdom.
have Ek : kroots k = 'ker f.
  by apply/setP=> x; rewrite !inE; case Gx: (x \in G) => //=.
by rewrite Ei Ek -[RHS](Lagrange (subsetIl _ _ : 'ker f \subset G)) mulnC card_morphim setIid.
Qed.

Lemma half_powers k p : prime p -> p %| k -> p %| #|G| -> (2 * #|kpowers k| <= #|G|)%N.
Proof.
move=> pp pk pG; rewrite -(powers_roots k) mulnC leq_mul2l; apply/orP; right.
have [x Gx ox] := Cauchy pp pG.
have x1 : x != 1 by apply: contraTneq (prime_gt1 pp) => x1; rewrite -ox x1 order1.
have -> : 2 = #|[set (1 : gT); x]| by rewrite cards2 eq_sym x1.
apply/subset_leq_card/subsetP=> y; rewrite !inE => /orP[]/eqP-> .
  by rewrite group1 expg1n /=.
by rewrite Gx /= -order_dvdn ox.
Qed.

Definition in_cosets k u w := [set y in G | [exists a : bool, exists b : bool, u ^+ a * w ^+ b * y \in kpowers k]].

Lemma four_cosets k u w : u \in G -> w \in G -> (8 <= #|kroots k|)%N ->
  (2 * #|in_cosets k u w| <= #|G|)%N.
Proof.
move=> Gu Gw K8.
rewrite /in_cosets; set A := [set y in G | _].
pose C (a b : bool) := (u ^+ a * w ^+ b)^-1 *: kpowers k.
have cC a b : #|C a b| = #|kpowers k| by rewrite /C card_lcoset.
have sub : A \subset (C false false :|: C false true) :|: (C true false :|: C true true).
  apply/subsetP=> y; rewrite inE => /andP[Gy /existsP[a /existsP[b Hy]]].
  have Cy : y \in C a b by rewrite mem_lcoset invgK.
  by rewrite !inE; case: a b Cy {Hy} => [] [] ->; rewrite ?orbT.
have cA : (#|A| <= 4 * #|kpowers k|)%N.
  apply: (leq_trans (subset_leq_card sub)).
  have H2 a : (#|C a false :|: C a true| <= 2 * #|kpowers k|)%N.
    by apply: (leq_trans (leq_card_setU _ _)); rewrite !cC mul2n addnn.
  apply: (leq_trans (leq_card_setU _ _)).
  by rewrite -[4]/(2 + 2)%N mulnDl leq_add.
apply: (@leq_trans (8 * #|kpowers k|)); first by rewrite -[8]/(2 * 4)%N -mulnA leq_mul2l cA.
by rewrite -(powers_roots k) mulnC leq_mul2l K8 orbT.
Qed.
End Powers.
Section Roots.
Local Open Scope nat_scope.
Definition r4 n := size [seq x <- iota 0 n | x ^ 4 == 1 %[mod n]].

Lemma r4_mul m n : 0 < m -> 0 < n -> coprime m n -> r4 m * r4 n <= r4 (m * n).
Proof.
move=> m0 n0 co; rewrite /r4.
set A := [seq x <- iota 0 m | _]; set B := [seq x <- iota 0 n | _].
pose f x y := chinese m n x y %% (m * n).
have modm x y : f x y %% m = x %% m by rewrite /f modn_dvdm ?dvdn_mulr // chinese_modl.
have modn' x y : f x y %% n = y %% n by rewrite /f modn_dvdm ?dvdn_mull // chinese_modr.
rewrite -(size_allpairs f); apply: uniq_leq_size.
  apply: allpairs_uniq; try by rewrite filter_uniq ?iota_uniq.
  move=> [x y] [x' y'] /allpairsP[[a b] /= [Ha Hb [-> ->]]] /allpairsP[[a' b'] /= [Ha' Hb' [-> ->]]] /= E.
  move: Ha Hb Ha' Hb'; rewrite !mem_filter !mem_iota !add0n /= => /andP[_ la] /andP[_ lb] /andP[_ la'] /andP[_ lb'].
  by have := modm a b; have := modn' a b; rewrite E modm modn' !modn_small // => -> ->.
move=> z /allpairsP[[x y] /= [Hx Hy ->]].
move: Hx Hy; rewrite !mem_filter !mem_iota !add0n /= => /andP[/eqP Hx _] /andP[/eqP Hy _].
rewrite ltn_mod muln_gt0 m0 n0 /= andbT chinese_remainder //; apply/andP; split; apply/eqP.
  by rewrite -modnXm modm modnXm.
by rewrite -modnXm modn' modnXm.
Qed.

Lemma r4_ge2 n : 2 < n -> 2 <= r4 n.
Proof.
move=> n2; have n1 : 1 < n by apply: ltnW. rewrite /r4 -[2]/(size [:: 1; n.-1]).
have n0 : 0 < n by apply: ltnW.
apply: uniq_leq_size.
  by rewrite /= inE andbT; apply/eqP => E; move: n2; rewrite -(prednK n0) -E.
move=> x; rewrite !inE mem_filter mem_iota add0n /= => /orP[]/eqP->.
  by rewrite exp1n eqxx n1.
rewrite ltn_predL n0 andbT.
have E : n.-1 ^ 2 = 1 %[mod n].
  have -> : n.-1 ^ 2 = n.-2 * n + 1.
    by case: n n2 {n0 n1} => [|[|n]] //= _; rewrite expnS expn1 mulSn !mulnS; lia.
  by rewrite modnMDl.
by rewrite -[4]/(2 * 2)%N expnM -modnXm E modnXm exp1n.
Qed.

Lemma val_powZ n (u : {unit 'Z_n}) k : 1 < n -> (val (u ^+ k)%g : 'Z_n) = ((val u : 'Z_n) : nat) ^ k %% n :> nat.
Proof.
move=> n1; rewrite FinRing.val_unitX -{1}[val u]natr_Zp -GRing.natrX val_Zp_nat //.
Qed.

Lemma val_1Z n : 1 < n -> ((1%R : 'Z_n) : nat) = 1 %% n.
Proof. by move=> n1; rewrite -(val_Zp_nat n1 1). Qed.

Lemma kroots_r4 n : 1 < n -> #|kroots (units_Zp_group n) 4| = r4 n.
Proof.
move=> n1; have n0 : 0 < n by apply: ltnW.
pose f (u : {unit 'Z_n}) : nat := val u : 'Z_n.
have injf : injective f by move=> u v /val_inj/val_inj.
rewrite cardE -(size_map f); apply/eqP; rewrite eqn_leq; apply/andP; split; apply: uniq_leq_size.
- by rewrite map_inj_uniq ?enum_uniq.
- move=> x /mapP[u]; rewrite mem_enum inE => /andP[_ /eqP Hu] ->.
  have lu : f u < n by rewrite -[X in _ < X](Zp_cast n1) ltn_ord.
  rewrite mem_filter mem_iota add0n /= lu andbT; apply/eqP.
  have := val_powZ u 4 n1; rewrite Hu FinRing.val_unit1 => <-.
  by rewrite val_1Z.
- by rewrite filter_uniq ?iota_uniq.
move=> x; rewrite mem_filter mem_iota add0n /= => /andP[/eqP Hx lx].
have cx : coprime n x.
  rewrite -(@coprime_pexpr 4) // /coprime -gcdn_modr Hx gcdn_modr gcdn1 //.
have ux : ((x%:R : 'Z_n) \is a GRing.unit)%R by rewrite unitZpE.
have fx : f (FinRing.unit _ ux) = x by rewrite /f /= val_Zp_nat // modn_small.
rewrite -{1}fx; apply: map_f; rewrite mem_enum inE /=; apply/andP; split; first by rewrite inE.
apply/eqP/val_inj/val_inj; rewrite [LHS]val_powZ // -/(f _) fx Hx.
symmetry; exact: val_1Z.
Qed.

Lemma r4_prime p : prime p -> p %% 4 = 1 -> 4 <= r4 p.
Proof.
move=> pp p4; have p1 := prime_gt1 pp; rewrite -kroots_r4 //.
have [P sP] := Sylow_exists 2 (units_Zp_group p).
have cG : #|units_Zp_group p| = p.-1 by rewrite card_units_Zp ?prime_gt0 // totient_prime.
have l2 : 2 <= logn 2 #|P|.
  rewrite (card_Hall sP) p_part pfactorK // cG -pfactor_dvdn //; last by rewrite -subn1 subn_gt0.
  by apply/dvdnP; exists (p %/ 4); rewrite {1}(divn_eq p 4) p4 addn1.
have [Q [sQP _ cQ]] := normal_pgroup (pHall_pgroup sP) (normal_refl P) l2.
rewrite -[4]/(2 ^ 2) -cQ; apply/subset_leq_card/subsetP=> x Qx; rewrite inE.
rewrite (subsetP (pHall_sub sP)) ?(subsetP sQP) //=.
by rewrite expg_cardG.
Qed.

(** The moduli the honest prover has. *)
Definition blum n := exists p q, [/\ prime p, prime q, p != q, p %% 4 = 3 & q %% 4 = 3] /\ n = p * q /\ coprime n (p.-1 * q.-1).

Lemma sqfree_split n p : prime p -> p %| n -> 0 < n -> coprime n (totient n) -> coprime p (n %/ p).
Proof.
move=> pp pn n0 co; rewrite prime_coprime //; apply/negP=> pd.
have ph : p %| totient n.
  have e2 : 1 < logn p n by rewrite -pfactor_dvdn // expnS expn1 -(divnK pn) dvdn_pmul2r ?prime_gt0.
  rewrite totientE // (big_rem p) /=; last by rewrite mem_primes pp n0.
  by rewrite dvdn_mulr // dvdn_mull // -{1}(expn1 p) dvdn_exp2l // -ltnS prednK // ltnW.
by have := coprime_dvdl pn (coprime_dvdr ph co); rewrite /coprime gcdnn => /eqP E; move: pp; rewrite E.
Qed.

Lemma odd_gt2 m : odd m -> 1 < m -> 2 < m.
Proof. by case: m => [|[|[|m]]]. Qed.

Lemma odd_prime_mod4 p : odd p -> p %% 4 = 1 \/ p %% 4 = 3.
Proof. lia. Qed.

Lemma many_roots n : odd n -> 1 < n -> ~~ prime n -> coprime n (totient n) -> ~ blum n -> 8 <= r4 n.
Proof.
move=> on n1 np co nb; have n0 : 0 < n by apply: ltnW.
set p := pdiv n; have pp : prime p := pdiv_prime n1; have pn : p %| n := pdiv_dvd n.
set m := n %/ p; have E : n = p * m by rewrite mulnC divnK.
have cpm : coprime p m := sqfree_split pp pn n0 co.
have [op om] : odd p /\ odd m by move: on; rewrite E oddM => /andP.
have m1 : 1 < m.
  rewrite ltnNge; apply/negP=> m1; have m0 : 0 < m by rewrite divn_gt0 ?prime_gt0 // dvdn_leq.
  have Em : m = 1 by apply/eqP; rewrite eqn_leq m1.
  by move: np; rewrite E Em muln1 pp.
have p2 := odd_gt2 op (prime_gt1 pp); have m2 := odd_gt2 om m1.
have [p0 m0] : 0 < p /\ 0 < m by split; lia.
rewrite E; apply: leq_trans (r4_mul p0 m0 cpm).
have [p4|p4] := odd_prime_mod4 op.
  by rewrite -[8]/(4 * 2); apply: leq_mul (r4_prime pp p4) (r4_ge2 m2).
have [pm|npm] := boolP (prime m).
  have [m4|m4] := odd_prime_mod4 om.
    by rewrite -[8]/(2 * 4); apply: leq_mul (r4_ge2 p2) (r4_prime pm m4).
  case: nb; exists p, m; split; [split=> //|split=> //].
    by apply: contraTneq cpm => ->; rewrite /coprime gcdnn gtn_eqF // prime_gt1.
  by move: co; rewrite {2}E totient_coprime // !totient_prime.
set q := pdiv m; have pq : prime q := pdiv_prime m1; have qm : q %| m := pdiv_dvd m.
set k := m %/ q; have Em : m = q * k by rewrite mulnC divnK.
have com : coprime m (totient m).
  move: co; rewrite E totient_coprime // => co.
  by apply: coprime_dvdl (dvdn_mull p (dvdnn m)) _; apply: coprime_dvdr (dvdn_mull _ (dvdnn _)) co.
have cqk : coprime q k := sqfree_split pq qm m0 com.
have [oq ok] : odd q /\ odd k by move: om; rewrite Em oddM => /andP.
have k1 : 1 < k.
  rewrite ltnNge; apply/negP=> k1; have k0 : 0 < k by rewrite divn_gt0 ?prime_gt0 // dvdn_leq.
  have Ek : k = 1 by apply/eqP; rewrite eqn_leq k1.
  by move: npm; rewrite Em Ek muln1 pq.
rewrite -[8]/(2 * (2 * 2)); apply: leq_mul (r4_ge2 p2) _.
rewrite Em; apply: leq_trans (r4_mul _ _ cqk); try by lia.
by apply: leq_mul (r4_ge2 (odd_gt2 oq (prime_gt1 pq))) (r4_ge2 (odd_gt2 ok k1)).
Qed.

Section Half.
Variables (n w : nat).
Hypotheses (on : odd n) (n1 : 1 < n) (np : ~~ prime n) (nb : ~ blum n) (cw : coprime n w).
Let toU (x : nat) : {unit 'Z_n} := insubd (1%g : {unit 'Z_n}) (x%:R : 'Z_n)%R.
Let G := units_Zp_group n.

Lemma toU_val x : coprime n x -> val (toU x) = (x%:R : 'Z_n)%R.
Proof. by move=> cx; rewrite /toU val_insubd /= unitZpE // cx. Qed.

Lemma toU_eq x y : coprime n x -> coprime n y -> (toU x = toU y <-> x = y %[mod n]).
Proof.
move=> cx cy; split=> [E|E].
  by rewrite -!(val_Zp_nat n1) -!toU_val // E.
by apply: val_inj; rewrite !toU_val //; apply: val_inj; rewrite [LHS](val_Zp_nat n1) [RHS](val_Zp_nat n1).
Qed.

Lemma toU_M x y : coprime n x -> coprime n y -> (toU x * toU y)%g = toU (x * y).
Proof. by move=> cx cy; apply: val_inj; rewrite FinRing.val_unitM !toU_val ?coprimeMr ?cx ?cy // GRing.natrM. Qed.

Lemma toU_X x k : coprime n x -> (toU x ^+ k)%g = toU (x ^ k).
Proof. by move=> cx; apply: val_inj; rewrite FinRing.val_unitX !toU_val ?coprimeXr // GRing.natrX. Qed.

Definition answered y := [/\ y < n, coprime n y, (exists z, z ^ n = y %[mod n]) &
  exists x (a b : bool), x ^ 4 = n.-1 ^ a * w ^ b * y %[mod n]].

Lemma mod_coprime x y : x = y %[mod n] -> coprime n x = coprime n y.
Proof. by move=> E; rewrite -coprime_modr E coprime_modr. Qed.

Lemma answered_half s : uniq s -> (forall y, y \in s -> answered y) -> 2 * size s <= totient n.
Proof.
move=> us As; have n0 : 0 < n by apply: ltnW.
have cn1 : coprime n n.-1 by rewrite coprimenP.
have ab : abelian G := units_Zp_abelian n.
have cG : #|G| = totient n by rewrite /G card_units_Zp.
have inG u : u \in G by rewrite inE.
pose t := map toU s.
have ut : uniq t.
  rewrite map_inj_in_uniq // => x y /As[lx cx _ _] /As[ly cy _ _] /toU_eq; rewrite !modn_small //; exact.
have tP : {subset t <= kpowers G n}.
  move=> u /mapP[y /As[_ cy [z Hz] _] ->].
  have cz : coprime n z by rewrite -(@coprime_pexpr n) // (mod_coprime Hz).
  by apply/imsetP; exists (toU z) => //; rewrite toU_X //; symmetry; apply/toU_eq; rewrite ?coprimeXr.
have tC : {subset t <= in_cosets G 4 (toU n.-1) (toU w)}.
  move=> u /mapP[y /As[_ cy _ [x [a [b Hx]]]] ->].
  have cr : coprime n (n.-1 ^ a * w ^ b * y) by rewrite !coprimeMr !coprimeXr.
  have cx : coprime n x by rewrite -(@coprime_pexpr 4) // (mod_coprime Hx).
  rewrite inE inG /=; apply/existsP; exists a; apply/existsP; exists b; apply/imsetP; exists (toU x) => //.
  rewrite !toU_X // !toU_M ?coprimeMr ?coprimeXr //; symmetry; apply/toU_eq; rewrite ?coprimeXr //.
have szt (A : {set {unit 'Z_n}}) : {subset t <= A} -> size s <= #|A|.
  by move=> sub; rewrite -(size_map toU) cardE; apply: uniq_leq_size => // u tu; rewrite mem_enum sub.
rewrite -cG; have [co|nco] := boolP (coprime n (totient n)).
  have K8 : 8 <= #|kroots G 4| by rewrite kroots_r4 // many_roots.
  apply: (leq_trans _ (four_cosets ab (inG (toU n.-1)) (inG (toU w)) K8)).
  by rewrite leq_mul2l (szt _ tC) orbT.
have g1 : 1 < gcdn n (totient n) by rewrite ltn_neqAle eq_sym nco gcdn_gt0 n0.
have pp := pdiv_prime g1; have := pdiv_dvd (gcdn n (totient n)); rewrite dvdn_gcd => /andP[d1 d2].
have d3 : pdiv (gcdn n (totient n)) %| #|G| by rewrite cG.
apply: (leq_trans _ (half_powers ab pp d1 d3)).
by rewrite leq_mul2l (szt _ tP) orbT.
Qed.
End Half.
End Roots.
