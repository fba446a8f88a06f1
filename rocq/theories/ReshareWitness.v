(** * Concrete runs showing what resharing does not check. *)
From Coq Require Import ZArith.
From Verif Require Import Base EncodingModel.
From mathcomp Require Import all_ssreflect all_algebra.
From Verif Require Import AlgBase ShamirModel ShamirSpec ThresholdModel ThresholdSpec ThresholdProofs ProtoBase ProtoSpec
  ProtoFacts ReshareModel ReshareProofs PropsShare.
Set Implicit Arguments.
Unset Strict Implicit.
Unset Printing Implicit Defensive.
Import GRing.Theory.
Local Open Scope ring_scope.

Notation N := nat_eqType.
Lemma leq_order : @total_order N leq.
Proof. by split; [exact: leq_total|exact: leq_trans|exact: anti_leq]. Qed.

Definition oldw (i : nat) : tshare V7 N :=
  TShare i 2 (5%:R + 3%:R * i.+1%:R : F7) [seq (j, j.+1%:R) | j <- [:: 0; 1; 2]%N]
    [seq (j, (5%:R + 3%:R * j.+1%:R : F7) *: g7) | j <- [:: 0; 1; 2]%N].
Lemma oldw_sharing : threshold_sharing g7 [:: 0; 1; 2]%N 2 (5%:R : F7) oldw.
Proof.
exists (Poly [:: 5%:R; 3%:R]), (fun i => i.+1%:R); split.
- by rewrite horner_coef0 coef_Poly.
- by apply: leq_trans (size_Poly _) _.
- move=> a b; rewrite !inE => /or3P [] /eqP -> /or3P [] /eqP -> //= /eqP; by vm_compute.
- by move=> a; rewrite !inE => /or3P [] /eqP ->; vm_compute.
- move=> i hi; have E z : (Poly [:: 5%:R; 3%:R : F7]).[z] = 5%:R + 3%:R * z.
    by rewrite horner_Poly /= mul0r add0r addrC mulrC.
  by split=> //=; rewrite !E.
Qed.

Definition nosh : tshare V7 N := TShare 0%N 0 0 [::] [::].
Definition got {E} (r : recv E (option (tshare V7 N))) : tshare V7 N := if r is Accept (Some t) then t else nosh.
Lemma gotP E (r : recv E (option (tshare V7 N))) : (if r is Accept (Some t) then true else false) -> r = Accept (Some (got r)).
Proof. by case: r => [[t|]|||]. Qed.
Definition nost : rs_round1 V7 N := RsRound1 None None [::] 0 0%N [::] [::].
Definition gotr (r : result (rs_round1 V7 N)) : rs_round1 V7 N := if r is Ok s then s else nost.
Lemma gotrP r : (if r is Ok s then true else false) -> r = Ok (gotr r).
Proof. by case: r. Qed.
Definition gotm (r : result (message (rs_wire V7))) : message (rs_wire V7) := if r is Ok s then s else Msg None None None.
Lemma gotmP r : (if r is Ok s then true else false) -> r = Ok (gotm r).
Proof. by case: r. Qed.

(** Party 0 holds an old share and is a new holder but lists only party 2. *)
Lemma rs_self_not_listed :
  exists (F : fieldType) (V : lmodType F) (g : V) (I : eqType) (le : rel I) (old : option (tshare V I)) n news tnew id draws s m ord share,
    [/\ total_order le, rs_start g old (Some n) news tnew id draws = Ok s,
        sorted le news && uniq news && sorted le (nh_old_holders n) && uniq (nh_old_holders n) && perm_eq ord (r1_expecting s) &
        rs_run g le s m ord = Accept (Some share)] /\
    aget (ts_public share) id <> Some (ts_secret share *: g).
Proof.
pose n := NewHolder (5%:R *: g7 : V7) 2 ([:: 2]%N : seq N).
pose s := gotr (rs_start g7 (Some (oldw 0)) (Some n) ([:: 0; 3]%N : seq N) 2 0%N (fun _ => 1)).
pose s2 := gotr (rs_start g7 (Some (oldw 2)) None ([:: 0; 3]%N : seq N) 2 2%N (fun _ => 4%:R)).
pose r := rs_run g7 leq s (fun j => gotm (rs_send s2 0%N)) [:: 2]%N.
exists [fieldType of F7], [lmodType F7 of V7], g7, N, leq, (Some (oldw 0)), n, [:: 0; 3]%N, 2%N, 0%N, (fun _ => 1), s,
  (fun j => gotm (rs_send s2 0%N)), [:: 2]%N, (got r).
split; last by apply/eqP; vm_compute.
split; first exact: leq_order.
- by apply: gotrP; vm_compute.
- by vm_compute.
- by apply: gotP; vm_compute.
Qed.

(** Party 0 uses the polynomial [1 + X^2]. *)
Definition degw (i : nat) : rs_round1 V7 N :=
  gotr (rs_start g7 (if i \in [:: 0; 2]%N then Some (oldw i) else None) (Some (NewHolder (5%:R *: g7) 2 ([:: 0; 2]%N : seq N)))
     ([:: 1; 2; 3]%N : seq N) 2 i (fun _ => 4%:R)).
Definition goodw (i : nat) := gotm (rs_send (degw 2) i).
Definition badw (i : nat) : message (rs_wire V7) :=
  Msg (Some (WDM V7 (1 + (i%:R : F7) ^+ 2))) (Some (WEB [:: g7; 0; g7] (1 : F7))) None.
Definition degshare (i : nat) : tshare V7 N :=
  got (rs_run g7 leq (degw i) (fun j => if j == 0%N then badw i else goodw i) (without [:: 0; 2]%N i)).

Lemma rs_degree_gap :
  exists (F : fieldType) (V : lmodType F) (g : V) (x : F) (oldsh : nat -> tshare V nat_eqType)
      (c : nat -> rs_round1 V nat_eqType) (bad : nat -> message (rs_wire V)) (good : nat -> message (rs_wire V))
      (shares : nat -> tshare V nat_eqType) (pub : seq (nat * V)),
    let olds := [:: 0; 2]%N in let news := [:: 1; 2; 3]%N in
    let share_pair i := (odflt 0 (aget (ts_share_ids (shares i)) i), ts_secret (shares i)) in
    [/\ threshold_sharing g [:: 0; 1; 2]%N 2 x oldsh,
        {in news, forall i, rs_start g (if i \in olds then Some (oldsh i) else None) (Some (NewHolder (x *: g) 2 olds))
                              news 2 i (fun _ => 4%:R) = Ok (c i)},
        {in news, forall i, rs_send (c 2%N) i = Ok (good i)} &
        {in news, forall i ord, perm_eq ord (without olds i) ->
            rs_run g leq (c i) (fun j => if j == 0%N then bad i else good i) ord = Accept (Some (shares i))}] /\
    [/\ {in news, forall i, ts_public (shares i) = pub},
        join_scalars [seq share_pair i | i <- [:: 1; 2]%N] != join_scalars [seq share_pair i | i <- [:: 2; 3]%N] &
        {in news, forall i v, ts_vkey_point (shares i) = Ok v -> v != x *: g}].
Proof.
exists [fieldType of F7], [lmodType F7 of V7], g7, 5%:R, oldw, degw, badw, goodw, degshare, (ts_public (degshare 1)).
split; split.
- exact: oldw_sharing.
- by move=> i; rewrite !inE => /or3P [] /eqP ->; apply: gotrP; vm_compute.
- by move=> i; rewrite !inE => /or3P [] /eqP ->; apply: gotmP; vm_compute.
- have go i : i \in [:: 1; 2; 3]%N -> forall ord, perm_eq ord (without [:: 0; 2]%N i) ->
    rs_run g7 leq (degw i) (fun j => if j == 0%N then badw i else goodw i) ord =
    rs_run g7 leq (degw i) (fun j => if j == 0%N then badw i else goodw i) (without [:: 0; 2]%N i).
    move=> hi ord hp; have ok j : j \in without [:: 0; 2]%N i ->
      (if rs_recv g7 (degw i) j (if j == 0%N then badw i else goodw i) is Accept _ then true else false).
      rewrite mem_filter !inE => /andP [+ hj]; move: hi; rewrite !inE => /or3P [] /eqP -> ne.
      - by case/orP: hj => /eqP ->; vm_compute.
      - by case/orP: hj ne => /eqP -> //; vm_compute.
      - by case/orP: hj => /eqP ->; vm_compute.
    pose pl j := if rs_recv g7 (degw i) j (if j == 0%N then badw i else goodw i) is Accept p then p else RsPayload 0 [::] 0.
    have so : sorted leq (without [:: 0; 2]%N i) by apply: sorted_filter => //; exact: leq_trans.
    rewrite /rs_run !(@round_ok _ _ _ _ _ pl (without [:: 0; 2]%N i)) //; try exact: leq_order.
    - by move=> j hj; have := ok j hj; rewrite /pl; case: (rs_recv _ _ _ _).
    - by move=> j hj; have := ok j hj; rewrite /pl; case: (rs_recv _ _ _ _).
  move=> i hi ord hp; rewrite go //; apply: gotP.
  by move: hi; rewrite !inE => /or3P [] /eqP ->; vm_compute.
- by move=> i; rewrite !inE => /or3P [] /eqP ->; apply/eqP; vm_compute.
- by vm_compute.
- have h i : i \in [:: 1; 2; 3]%N -> (if ts_vkey_point (degshare i) is Ok v then v != 5%:R *: g7 else true).
    by rewrite !inE => /or3P [] /eqP ->; vm_compute.
  by move=> i /h hi v hv; move: hi; rewrite hv.
Qed.
