(** * Property C72: refreshed and reshared shares are fresh.

    [F] is any field, [V] any vector space over it, [g] the generator, [I] any
    type of party ids ordered by [le].  [at_party f i a] is [f] with [a] in the
    place of party [i]'s value. *)
From Coq Require Import ZArith Znumtheory.
From Verif Require Import Base SignedModel PaillierModel ZkBase ZkModel ZkSpec ZkToy.
From mathcomp Require Import all_ssreflect all_algebra.
From Verif Require Import AlgBase ShamirModel ShamirSpec ThresholdModel ThresholdSpec SchModel ProtoBase ProtoSpec ReshareModel AuxGenModel
  AuxHonestSpec KeyRefreshModel LifeSpec FreshSpec FreshProofs PropsShare PropsKeyInit ReshareWitness LifeToy.
Set Implicit Arguments.
Unset Strict Implicit.
Unset Printing Implicit Defensive.
Import GRing.Theory.
Local Open Scope ring_scope.

(** ** KeyRefresh: for every additive sharing [ks] of [x], every choice the others
    make and every list [nw] of shares of [x], the parts of zero that [i0] draws
    can make the refreshed shares [nw], and in one way only.  So if [i0] draws
    them uniformly the refreshed shares are uniform among the sharings of [x]. *)
Theorem C72_refreshed_shares_uniform (S : sparams) (F : fieldType) (V : lmodType F) (g : V) (I : eqType) (le : rel I)
    (HO : eqType) (H : dst -> seq (hitem HO I V) -> HO) (X : xof (seq (hitem HO I V)) V) (Hs : dst -> seq (hitem HO I V) -> F)
    (scheme : seq (hitem HO I V)) ids sr r com y tau rnd n o split x (ks : I -> kshare V I) (nw : I -> F) i0 :
  good_params S -> xof_ok (sp_q S) (X : xof (seq (hitem HO I V)) (pt (curveV g))) -> @detects_composites _ V X -> total_order le ->
  Z.lt (Z.add (Z.add (Z.add (Z.mul 2 (modulus_bits (sp_pail S))) (sp_l S)) (sp_eps S)) 1) (sp_xw S) ->
  sorted le ids -> uniq ids ->
  {in ids, forall i, honest_keys S (r i) (com i)} ->
  {in ids &, forall i j, i != j -> honest_masks S (r i) (Z.mul (ar_rp_p (r j)) (ar_rp_q (r j))) (rnd i j)} ->
  {in ids, forall i, size (ar_rid (r i)) = n} -> orders_ok ids o ->
  additive_sharing g ids x ks -> \sum_(i <- ids) nw i = x -> i0 \in ids ->
  let reaches dr := exists kc a ks',
    [/\ refresh_run S g le H X Hs scheme ids sr r com y tau (at_party split i0 dr) rnd o kc a,
        {in ids, forall i, ks_update (ks i) (kc i) = Ok (ks' i)} &
        {in ids, forall i, ks_secret (ks' i) = nw i}] in
  exists2 dr0, reaches dr0 & forall dr, reaches dr -> forall k, (k < (size ids).-1)%N -> dr k = dr0 k.
Proof. move=> HG HX HD ho HW hs hu hk hm hn hor h1 h2 h3; exact (refresh_uniform H Hs scheme HG HX HD ho HW sr y tau hs hu hk hm hn hor split h1 h2 h3). Qed.
Print Assumptions C72_refreshed_shares_uniform.

(** Three parties hold 1, 2, 3; they are to hold 4, 4, 5.  The hypotheses about
    the setting are those of [C71_threshold_case]. *)
Example C72_refresh_case :
  let ks i : kshare V7 nat_eqType := KShare i (i.+1%:R : F7) [seq (j, (j.+1%:R : F7) *: g7) | j <- newL] in
  let nw (i : nat) : F7 := nth 0 [:: 4%:R; 4%:R; 5%:R] i in
  [/\ [&& sorted leq newL, uniq newL & all (fun i => size (ar_rid (randL i)) == 2)%N newL], @orders_ok nat_eqType newL (ordL newL) &
      exists com, {in newL, forall i, honest_keys toy_S (randL i) (com i)}] /\
  {in newL &, forall i j, i != j -> honest_masks toy_S (randL i) (Z.mul (ar_rp_p (randL j)) (ar_rp_q (randL j))) maskL} /\
  [/\ additive_sharing g7 newL 6%:R ks, \sum_(i <- newL) nw i = 6%:R & 1%N \in newL].
Proof.
move=> ks nw; split.
  by split; [vm_compute|exact: ordL_ok|have [com h] := honest_keysL; exists com => i _].
split; first by move=> i j _ _ _; exact: honest_masksL.
split=> //; last by rewrite !big_cons big_nil; apply/eqP; vm_compute.
by split=> //; rewrite !big_cons big_nil; apply/eqP; vm_compute.
Qed.

(** ** KeyResharing: for every threshold sharing [ts] of [x], every choice the
    other old holders make, every [t - 1] new holders [B] and all values [vals]
    for them, the coefficients that one old holder draws can make [B]'s new shares
    these values, and in one way only.  ([Polynomial::random] draws no zero
    coefficients, see C18.) *)
Theorem C72_reshared_shares_uniform (F : fieldType) (V : lmodType F) (g : V) (I : eqType) (le : rel I)
    (old_ids olds news : seq I) (told t : nat) (x : F) (ts : I -> tshare V I) (o : I -> seq I) draws j0 B (vals : I -> F) :
  total_order le -> sorted le olds -> uniq olds -> uniq news ->
  threshold_sharing g old_ids told x ts -> {subset olds <= old_ids} -> uniq old_ids ->
  (told <= size olds)%N -> big_field F (size news) -> (1 < t)%N ->
  {in news, forall i, perm_eq (o i) (without olds i)} ->
  j0 \in olds -> uniq B -> {subset B <= news} -> size B = t.-1 ->
  let reaches dr := exists2 shares, reshare_run g le olds news t (x *: g) ts (at_party draws j0 dr) o shares &
    {in B, forall i, ts_secret (shares i) = vals i} in
  exists2 dr0, reaches dr0 & forall dr, reaches dr -> forall k, (0 < k < t)%N -> dr k = dr0 k.
Proof.
move=> h1 h2 h3 h4 h5 h6 h7 h8 h9 h10 h11 h12 h13 h14 h15.
exact (reshare_uniform h1 h2 h3 h4 h5 h6 h7 h8 h9 h10 h11 draws vals h12 h13 h14 h15).
Qed.
Print Assumptions C72_reshared_shares_uniform.

(** A 2-of-3 sharing of 5; parties 0 and 2 reshare it to 1, 2, 3, 4 with
    threshold 3; the shares of 2 and 4 are wanted. *)
Example C72_reshare_case :
  let olds := [:: 0; 2]%N in let news := [:: 1; 2; 3; 4]%N in let B := [:: 2; 4]%N in
  [/\ @total_order nat_eqType leq, [&& sorted leq olds, uniq olds & uniq news],
      threshold_sharing g7 [:: 0; 1; 2]%N 2 (5%:R : F7) oldw & [&& all (mem [:: 0; 1; 2]%N) olds, uniq [:: 0; 1; 2]%N & (2 <= size olds)%N]] /\
  [/\ big_field [fieldType of F7] (size news), {in news, forall i, perm_eq (without olds i) (without olds i)},
      2%N \in olds & [&& uniq B, all (mem news) B & size B == 3.-1]].
Proof.
move=> olds news B; split.
  by split; [exact: leq_order|by []|exact: oldw_sharing|by []].
by split; [apply: big_field7|by []|by []|by []].
Qed.
