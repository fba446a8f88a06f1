(** * Concrete sessions for C76: party 1 takes part twice with other values of its
    own, the peers send the same. *)
From Coq Require Import ZArith Znumtheory Lia.
From Verif Require Import Base EncodingModel SignedModel PaillierModel ZkBase ZkModel ZkToy.
From mathcomp Require Import all_ssreflect all_algebra.
From Verif Require Import AlgBase AlgFacts ThresholdModel SchModel ProtoBase ProtoSpec KeyInitModel AuxGenModel AuxGenSpec AuxGenToy
  KeyRefreshModel KeyRefreshSpec KeyRefreshToy AgreeSpec AgreeToy BindSpec CommitSpec PropsShare PropsKeyInit.
Set Implicit Arguments.
Unset Strict Implicit.
Unset Printing Implicit Defensive.
Import GRing.Theory.
Local Open Scope ring_scope.

(** ** KeyInit: party 1's secret is 4 instead of 2. *)
Definition sec7b (i : nat) : F7 := if i == 1%N then 4%:R else sec7 i.

Lemma ki_fixed_case :
  let m1 s j := ki_send1 H7 (ctx7 s j) in let m2 s j := ki_send2 (ctx7 s j) in
  [/\ accepted (run7 sec7 1%N) (fun k => ks_vkey_point k == 6%:R *: g7),
      accepted (run7 sec7b 1%N) (fun k => ks_vkey_point k == 1%:R *: g7),
      same_echoes trio 1%N (m1 sec7) (m1 sec7b) &
      no_collision (H7 DKeyInit) (without trio 1%N) (fun l => ki_opens (sid_new H7 [::] [::] trio) l (m2 sec7 l))
        (fun l => ki_opens (sid_new H7 [::] [::] trio) l (m2 sec7b l))].
Proof.
move=> m1 m2.
have E l : l \in without trio 1%N -> ctx7 sec7 l = ctx7 sec7b l.
  by rewrite mem_filter /ctx7 /sec7b => /andP [/negbTE ->].
split; [by vm_compute|by vm_compute|by move=> l hl; rewrite /m1 E|].
by move=> l hl t t'; rewrite /m2 (E l hl) => h h' _; exact: ki_opens_fun h h'.
Qed.

Lemma ki_no_copy_case :
  let m2 j := ki_send2 (ctx7 sec7 j) in
  accepted (run7 sec7 1%N) (fun k => ks_vkey_point k == 6%:R *: g7) /\
  {in trio &, forall l l', l != l' -> ~ cross_collision (H7 DKeyInit) (ki_seen (sid_new H7 [::] [::] trio) 1%N (ctx7 sec7 1%N) m2) l l'}.
Proof.
move=> m2; split; first by vm_compute.
have E l : (if l == 1%N then ki_send2 (ctx7 sec7 1%N) else m2 l) = m2 l by case: eqP => [->|].
pose T l : seq item7 := [:: HOut (sid_new H7 [::] [::] trio); HId l; HPt (sec7 l *: g7); HPt (tau7 l *: g7); HBits (rho7 l); HBits (u7 l)].
have O l : l \in trio -> ki_opens (sid_new H7 [::] [::] trio) l (m2 l) (T l).
  move=> hl; exists (sec7 l *: g7), (tau7 l *: g7), (rho7 l), (u7 l); split; last by [].
  by rewrite /m2 /ctx7 /ki_start hl.
have n0 : H7 DKeyInit (T 0%N) = 19%N by vm_compute.
have n1 : H7 DKeyInit (T 1%N) = 3%N by vm_compute.
have n2 : H7 DKeyInit (T 2%N) = 27%N by vm_compute.
move=> l l' hl hl' ne [t [t' [h h' [_ e]]]]; move: h h'; rewrite /ki_seen !E => h h'.
rewrite (ki_opens_fun h (O l hl)) (ki_opens_fun h' (O l' hl')) in e; move: hl hl' ne e; rewrite !inE.
by move=> /or3P [] /eqP -> /or3P [] /eqP ->; rewrite ?eqxx ?n0 ?n1 ?n2.
Qed.

(** ** AuxGen: party 1 draws another [rid] and another blinding value. *)
Definition randB : ag_rand := AgRand 11 19 23 31 9 25 [:: Zpos 3; Zpos 17] [:: false; true] [:: true].
Definition b_start1 := Eval vm_compute in
  if ag_start SA HA XA [::] idsA [::] 1%N randB is Ok cd then cd else startA 0.

Lemma ag_fixed_case :
  [/\ ag_start SA HA XA [::] idsA [::] 1%N (randA 1) = Ok start1, ag_start SA HA XA [::] idsA [::] 1%N randB = Ok b_start1,
      isacc (ag_run SA leq HA XA start1.1 start1.2 com1 in1 in2 in3 (without idsA 1%N) (rev (without idsA 1%N)) (without idsA 1%N)) &
      isacc (ag_run SA leq HA XA b_start1.1 b_start1.2 com1 in1 in2 in3 (rev (without idsA 1%N)) (without idsA 1%N) (without idsA 1%N))] /\
  [/\ ap_rid start1.2 <> ap_rid b_start1.2, same_echoes idsA 1%N in1 in1 &
      no_collision (HA DKeyInit) (without idsA 1%N) (fun l => ag_opens (sid_new HA [::] [::] idsA) l (in2 l))
        (fun l => ag_opens (sid_new HA [::] [::] idsA) l (in2 l))].
Proof.
split; first by split; [evaluates (Ok start1)|evaluates (Ok b_start1)|evaluates true|evaluates true].
by split=> // l _ t t' h h' _; exact: ag_opens_fun h h'.
Qed.

Lemma ag_no_copy_case :
  isacc (ag_run SA leq HA XA start1.1 start1.2 com1 in1 in2 in3 (without idsA 1%N) (rev (without idsA 1%N)) (without idsA 1%N)) /\
  ~ cross_collision (HA DKeyInit) (ag_seen (sid_new HA [::] [::] idsA) 1%N start1.2 in2) 0%N 1%N.
Proof.
split; first by evaluates true.
move=> [t [t' []]]; rewrite /ag_seen /= => -[a [b [c [d [e [E ->]]]]]] -> [_].
by move: E; rewrite /in2 /= /sent2_0 => -[<- <- <- <- <-]; rewrite /HA; vm_compute.
Qed.

(** ** KeyRefresh: party 1 splits zero in another way. *)
Definition splitB (k : nat) : F7 := (3 * k + 4)%:R.
Definition rb_start1 := Eval vm_compute in
  if kr_start SA g7 HR XR [::] idsA [::] 1%N (randA 1) (yR 1) (tauR 1) splitB is Ok cd then cd else startR 0.

Lemma kr_fixed_case :
  [/\ kr_start SA g7 HR XR [::] idsA [::] 1%N (randA 1) (yR 1) (tauR 1) (splitR 1) = Ok r_start1,
      kr_start SA g7 HR XR [::] idsA [::] 1%N (randA 1) (yR 1) (tauR 1) splitB = Ok rb_start1,
      isacc (kr_run SA g7 leq HR XR HsR r_start1.1 r_start1.2 r_com1 r_in1 r_in2 r_in3
        (without idsA 1%N) (rev (without idsA 1%N)) (without idsA 1%N)) &
      isacc (kr_run SA g7 leq HR XR HsR rb_start1.1 rb_start1.2 r_com1 r_in1 r_in2 r_in3
        (rev (without idsA 1%N)) (without idsA 1%N) (without idsA 1%N))] /\
  [/\ aget (kp_xs r_start1.2) 0%N != aget (kp_xs rb_start1.2) 0%N, same_echoes idsA 1%N r_in1 r_in1 &
      no_collision (HR DKeyInit) (without idsA 1%N) (fun l => kr_opens leq (sid_new HR [::] [::] idsA) l (r_in2 l))
        (fun l => kr_opens leq (sid_new HR [::] [::] idsA) l (r_in2 l))].
Proof.
split; first by split; [evaluates (Ok r_start1)|evaluates (Ok rb_start1)|evaluates true|evaluates true].
by split=> [|//|l _ t t' h h' _]; [evaluates true|exact: kr_opens_fun h h'].
Qed.

Lemma kr_no_copy_case :
  isacc (kr_run SA g7 leq HR XR HsR r_start1.1 r_start1.2 r_com1 r_in1 r_in2 r_in3
    (without idsA 1%N) (rev (without idsA 1%N)) (without idsA 1%N)) /\
  ~ cross_collision (HR DKeyInit) (kr_seen leq (sid_new HR [::] [::] idsA) 1%N r_start1.2 r_in2) 0%N 1%N.
Proof.
split; first by evaluates true.
move=> [t [t' []]]; rewrite /kr_seen /= => -[d h ->] -> [_].
have -> : d = r_start0.2.
  apply: (reveals_fun h); apply: (@own_reveals _ _ _ leq nat_eqType r_start0.2);
    [evaluates (kp_xs r_start0.2)|evaluates (kp_ys r_start0.2)|evaluates (kp_as r_start0.2)|evaluates (kp_rp r_start0.2)].
by apply/eqP; evaluates true.
Qed.
