(** * Concrete sessions for the agreement theorems. *)
From Coq Require Import ZArith Znumtheory Lia.
From Verif Require Import Base EncodingModel SignedModel PaillierModel ZkBase ZkModel ZkToy.
From mathcomp Require Import all_ssreflect all_algebra.
From Verif Require Import AlgBase AlgFacts ShamirModel ThresholdModel SchModel ProtoBase ProtoSpec KeyInitModel AuxGenModel AuxGenSpec AuxGenToy
  KeyRefreshModel KeyRefreshSpec KeyRefreshToy ReshareModel SigningModel SigningSpec AgreeSpec
  SigningToy SigningWitness PropsShare PropsKeyInit PropsReshare PropsSigning.
Set Implicit Arguments.
Unset Strict Implicit.
Unset Printing Implicit Defensive.
Import GRing.Theory.
Local Open Scope ring_scope.

(** ** KeyInit *)

Lemma ki_opens_fun (F : fieldType) (V : lmodType F) (I : eqType) (HO : eqType) (sid : HO) (l : I) (m : message (ki_wire V HO)) t t' :
  ki_opens sid l m t -> ki_opens sid l m t' -> t = t'.
Proof. by move=> [x [a [rho [u [-> ->]]]]] [x' [a' [rho' [u' [[-> -> -> ->] ->]]]]]. Qed.

Lemma ki_agree_case :
  let m1 j := ki_send1 H7 (ctx7 sec7 j) in let m2 j := ki_send2 (ctx7 sec7 j) in
  [/\ all (fun i => accepted (run7 sec7 i) (fun k => ks_vkey_point k == 6%:R *: g7)) [:: 0; 2]%N,
      heard trio 0%N (m1 0%N) m1 (fun l => m_echo (m1 l)), heard trio 2%N (m1 2%N) m1 (fun l => m_echo (m1 l)) &
      no_collision (H7 DKeyInit) trio (ki_seen (sid_new H7 [::] [::] trio) 0%N (ctx7 sec7 0%N) m2)
        (ki_seen (sid_new H7 [::] [::] trio) 2%N (ctx7 sec7 2%N) m2)].
Proof.
move=> m1 m2; split; first by vm_compute.
- by move=> l _; case: eqP => [->|].
- by move=> l _; case: eqP => [->|].
move=> l _ t t'; rewrite /ki_seen.
have E i : (if l == i then ki_send2 (ctx7 sec7 i) else m2 l) = m2 l by case: eqP => [->|].
by rewrite !E => h h' _; exact: ki_opens_fun h h'.
Qed.

Definition H0 (d : dst) (l : seq item7) : nat := 0%N.
Definition cN (s : nat -> F7) (i : nat) : ki_ctx V7 nat_eqType nat_eqType :=
  if ki_start g7 H0 [::] trio [::] i (s i) (tau7 i) (rho7 i) (u7 i) is Ok c then c
  else KiCtx [::] 0%N 0 0 (KiPublic 0 0 [::] [::]) 0%N.
Definition stN (s : nat -> F7) (i : nat) : ki_round3 V7 nat_eqType nat_eqType :=
  if ki_until3 leq H0 (cN s i) (fun j => ki_send1 H0 (cN s j)) (fun j => ki_send2 (cN s j))
       (without trio i) (without trio i) is Accept s then s
  else KiRound3 (cN s i) [::] [::] [::].
Definition runN (s : nat -> F7) (i : nat) : recv ki_error (kshare V7 nat_eqType) :=
  ki_run g7 leq H0 Xs7 (cN s i) (fun j => ki_send1 H0 (cN s j)) (fun j => ki_send2 (cN s j))
    (fun j => ki_send3 Xs7 (stN s j)) (without trio i) (without trio i) (without trio i).
(** Party 2's secret for party 1. *)
Definition sec7' (i : nat) : F7 := if i == 2%N then 5%:R else sec7 i.

Lemma ki_no_binding :
  exists (F : fieldType) (V : lmodType F) (g : V) (I : eqType) (le : rel I) (HO : eqType)
    (H : dst -> seq (hitem HO I V) -> HO) (X : xof (seq (hitem HO I V)) V) ids
    id x tau rho u c m1 m2 m3 o1 o2 o3 k id' x' tau' rho' u' c' m1' m2' m3' o1' o2' o3' k' e,
  [/\ uniq ids, ki_start g H [::] ids [::] id x tau rho u = Ok c & ki_start g H [::] ids [::] id' x' tau' rho' u' = Ok c'] /\
  [/\ perm_eq o1 (without ids id), perm_eq o2 (without ids id), perm_eq o3 (without ids id) & ki_run g le H X c m1 m2 m3 o1 o2 o3 = Accept k] /\
  [/\ perm_eq o1' (without ids id'), perm_eq o2' (without ids id'), perm_eq o3' (without ids id') & ki_run g le H X c' m1' m2' m3' o1' o2' o3' = Accept k'] /\
  [/\ heard ids id (ki_send1 H c) m1 e, heard ids id' (ki_send1 H c') m1' e & ks_vkey_point k <> ks_vkey_point k'].
Proof.
have acc s i (v : V7) : accepted (runN s i) (fun k => ks_vkey_point k == v) -> exists2 k, runN s i = Accept k & ks_vkey_point k = v.
  by case: (runN s i) => // k /eqP h; exists k.
have [|k hk vk] := acc sec7 0%N (6%:R *: g7); first by vm_compute.
have [|k' hk' vk'] := acc sec7' 1%N (1 *: g7); first by vm_compute.
exists _, V7, g7, nat_eqType, leq, nat_eqType, H0, Xs7, trio.
exists 0%N, (sec7 0%N), (tau7 0%N), (rho7 0%N), (u7 0%N), (cN sec7 0%N).
exists (fun j => ki_send1 H0 (cN sec7 j)), (fun j => ki_send2 (cN sec7 j)), (fun j => ki_send3 Xs7 (stN sec7 j)).
exists (without trio 0%N), (without trio 0%N), (without trio 0%N), k.
exists 1%N, (sec7 1%N), (tau7 1%N), (rho7 1%N), (u7 1%N), (cN sec7' 1%N).
exists (fun j => ki_send1 H0 (cN sec7' j)), (fun j => ki_send2 (cN sec7' j)), (fun j => ki_send3 Xs7 (stN sec7' j)).
exists (without trio 1%N), (without trio 1%N), (without trio 1%N), k', (fun j => m_echo (ki_send1 H0 (cN sec7 j))).
have st s i : is_ok7 (ki_start g7 H0 [::] trio [::] i (s i) (tau7 i) (rho7 i) (u7 i)) ->
    ki_start g7 H0 [::] trio [::] i (s i) (tau7 i) (rho7 i) (u7 i) = Ok (cN s i).
  by rewrite /cN; case: (ki_start _ _ _ _ _ _ _ _ _ _).
split; first by split; [by []|apply: st; vm_compute|apply: (st sec7'); vm_compute].
split; first by split.
split; first by split.
split.
- by move=> l _; case: eqP => [->|].
- by move=> l _; case: eqP => [->|].
- by rewrite vk vk' => /eqP; vm_compute.
Qed.

(** ** AuxGen: the session of [AuxGenToy] seen by party 0 as well. *)
Definition a_start0 := Eval vm_compute in startA 0.
Definition a_com0 := Eval vm_compute in comA 0.
Definition a_sent1_1 := Eval vm_compute in m1A 1.
Definition a_sent2_1 := Eval vm_compute in m2A 1.
Definition a_sent3_1 := Eval vm_compute in m3A 0 1.
Definition a_sent3_2 := Eval vm_compute in m3A 0 2.
Definition a_in3_0 (j : nat) := if j == 1%N then a_sent3_1 else a_sent3_2.

Lemma ag_opens_fun (C : curve) (I HO : eqType) (sid : HO) (l : I) (m : message (ag_wire HO)) (t t' : seq (hitem HO I (pt C))) :
  ag_opens sid l m t -> ag_opens sid l m t' -> t = t'.
Proof. by move=> [a [b [c [d [e [-> ->]]]]]] [a' [b' [c' [d' [e' [[-> -> -> -> ->] ->]]]]]]. Qed.

Lemma ag_agree_case :
  let m1 j := match j with 0 => sent1_0 | 1 => a_sent1_1 | _ => sent1_2 end%N in
  let m2 j := match j with 0 => sent2_0 | 1 => a_sent2_1 | _ => sent2_2 end%N in
  [/\ ag_start SA HA XA [::] idsA [::] 0%N (randA 0) = Ok a_start0, ag_start SA HA XA [::] idsA [::] 1%N (randA 1) = Ok start1,
      isacc (ag_run SA leq HA XA a_start0.1 a_start0.2 a_com0 m1 m2 a_in3_0 (without idsA 0%N) (without idsA 0%N) (rev (without idsA 0%N))) &
      isacc (ag_run SA leq HA XA start1.1 start1.2 com1 m1 m2 in3 (without idsA 1%N) (rev (without idsA 1%N)) (without idsA 1%N))] /\
  [/\ heard idsA 0%N (ag_send1 HA a_start0.1 a_start0.2) m1 (fun l => m_echo (m1 l)),
      heard idsA 1%N (ag_send1 HA start1.1 start1.2) m1 (fun l => m_echo (m1 l)) &
      no_collision (HA DKeyInit) idsA (ag_seen (sid_new HA [::] [::] idsA) 0%N a_start0.2 m2)
        (ag_seen (sid_new HA [::] [::] idsA) 1%N start1.2 m2)].
Proof.
move=> m1 m2; split.
  by split; [evaluates (Ok a_start0)|evaluates (Ok start1)|evaluates true|evaluates true].
split.
- by move=> l; rewrite !inE => /or3P [] /eqP -> /=; [evaluates (m_echo sent1_0)| |].
- by move=> l; rewrite !inE => /or3P [] /eqP -> /=; [|evaluates (m_echo a_sent1_1)|].
move=> l; rewrite !inE => /or3P [] /eqP -> t t' /=; rewrite /ag_seen /=.
- move=> -> [a [b [c [d [e [E ->]]]]]] _; move: E; rewrite /m2 /sent2_0 => -[<- <- <- <- <-].
  by [].
- by move=> h1 -> _; move: h1 => [a [b [c [d [e [E ->]]]]]]; move: E; rewrite /m2 /a_sent2_1 => -[<- <- <- <- <-].
- by move=> h h' _; exact: ag_opens_fun h h'.
Qed.

(** ** KeyRefresh: the session of [KeyRefreshToy] seen by party 0 as well. *)
Definition r_sent3_0_1 := Eval vm_compute in m3R 0 1.
Definition r_sent3_0_2 := Eval vm_compute in m3R 0 2.
Definition r_in3_0 (j : nat) := if j == 1%N then r_sent3_0_1 else r_sent3_0_2.

Lemma reveals_fun (F : fieldType) (V : lmodType F) (I : eqType) (le : rel I) (HO : eqType) (m : message (kr_wire V I HO)) d d' :
  reveals le m d -> reveals le m d' -> d = d'.
Proof.
move=> [e [n [rpw [-> h1 h2 h3]]]] [e' [n' [rpw' [[<- <-] h1' h2' h3']]]].
case: d d' h1 h2 h3 h1' h2' h3' => [a b c d r p i u] [a' b' c' d' r' p' i' u'] /= -> -> -> [-> -> ->] [-> -> -> -> ->] -> //.
Qed.

Lemma kr_opens_fun (F : fieldType) (V : lmodType F) (I : eqType) (le : rel I) (HO : eqType) (sid : HO) (l : I)
    (m : message (kr_wire V I HO)) t t' : kr_opens le sid l m t -> kr_opens le sid l m t' -> t = t'.
Proof. by move=> [d h ->] [d' h' ->]; rewrite (reveals_fun h h'). Qed.

Lemma own_reveals (F : fieldType) (V : lmodType F) (I : eqType) (le : rel I) (HO : eqType) (d : kr_public V I) :
  dmap le (kp_xs d) = kp_xs d -> dmap le (kp_ys d) = kp_ys d -> dmap le (kp_as d) = kp_as d -> kp_rp d = reduced (kp_rp d) ->
  reveals le (kr_send2 HO d) d.
Proof.
move=> h1 h2 h3 h4; exists (@K2EB _ _ _ HO (kp_rp d) (kp_ys d) (kp_rid d)).
exists (@K2NB _ _ _ HO (kp_xs d) (kp_as d) (kp_pk d) (kp_psi d) (KeyRefreshModel.kp_u d)), (kp_rp d).
by rewrite /= h1 h2 h3.
Qed.

Lemma kr_agree_case :
  [/\ kr_start SA g7 HR XR [::] idsA [::] 0%N (randA 0) (yR 0) (tauR 0) (splitR 0) = Ok r_start0,
      kr_start SA g7 HR XR [::] idsA [::] 1%N (randA 1) (yR 1) (tauR 1) (splitR 1) = Ok r_start1,
      isacc (kr_run SA g7 leq HR XR HsR r_start0.1 r_start0.2 r_com0 r_all1 r_all2 r_in3_0
        (without idsA 0%N) (without idsA 0%N) (rev (without idsA 0%N))) &
      isacc (kr_run SA g7 leq HR XR HsR r_start1.1 r_start1.2 r_com1 r_all1 r_all2 r_in3
        (without idsA 1%N) (rev (without idsA 1%N)) (without idsA 1%N))] /\
  [/\ heard idsA 0%N (kr_send1 g7 HR r_start0.1 r_start0.2) r_all1 (fun l => m_echo (r_all1 l)),
      heard idsA 1%N (kr_send1 g7 HR r_start1.1 r_start1.2) r_all1 (fun l => m_echo (r_all1 l)) &
      no_collision (HR DKeyInit) idsA (kr_seen leq (sid_new HR [::] [::] idsA) 0%N r_start0.2 r_all2)
        (kr_seen leq (sid_new HR [::] [::] idsA) 1%N r_start1.2 r_all2)].
Proof.
split.
  by split; [evaluates (Ok r_start0)|evaluates (Ok r_start1)|evaluates true|evaluates true].
split.
- by move=> l; rewrite !inE => /or3P [] /eqP -> /=; [evaluates (m_echo r_sent1_0)| |].
- by move=> l; rewrite !inE => /or3P [] /eqP -> /=.
move=> l; rewrite !inE => /or3P [] /eqP -> t t'; rewrite /kr_seen /=.
- move=> -> [d h ->] _; congr kr_transcript; apply: reveals_fun h.
  by apply: (@own_reveals _ _ _ leq nat_eqType r_start0.2);
    [evaluates (kp_xs r_start0.2)|evaluates (kp_ys r_start0.2)|evaluates (kp_as r_start0.2)|evaluates (kp_rp r_start0.2)].
- move=> [d h ->] -> _; congr kr_transcript; apply: (reveals_fun h).
  by apply: own_reveals;
    [evaluates (kp_xs r_start1.2)|evaluates (kp_ys r_start1.2)|evaluates (kp_as r_start1.2)|evaluates (kp_rp r_start1.2)].
- by move=> h h' _; exact: kr_opens_fun h h'.
Qed.

(** ** Resharing *)
Lemma rs_echo (F : fieldType) (V : lmodType F) (I : eqType) (s : rs_round1 V I) d d' m m' :
  rs_send s d = Ok m -> rs_send s d' = Ok m' -> m_echo m = m_echo m'.
Proof.
rewrite /rs_send; case: (r1_old s) => [od|]; last by move=> [<-] [<-].
case: (aget _ d) => [z|] //=; case: (poly_evaluate _ z) => [v||] //= [<-].
by case: (aget _ d') => [z'|] //=; case: (poly_evaluate _ z') => [v'||] //= [<-].
Qed.
Lemma msg7_echo j i i' : is_ok7 (rs_send (in7 j) i) -> is_ok7 (rs_send (in7 j) i') -> m_echo (msg7 j i) = m_echo (msg7 j i').
Proof.
rewrite /msg7; case E: (rs_send _ i) => [m||] // _; case E': (rs_send _ i') => [m'||] // _; exact: rs_echo E E'.
Qed.

Lemma rs_agree_case :
  let own i := if rs_send (in7 i) 1%N is Ok m then m else nomsg7 in
  let e l := m_echo (msg7 l 1%N) in
  [/\ done7 (res7 2) (fun s => ts_threshold s == 2%N), done7 (res7 3) (fun s => ts_threshold s == 2%N),
      is_ok7 (rs_send (in7 2) 1%N) & is_ok7 (rs_send (in7 3) 1%N)] /\
  (heard olds7 2%N (own 2%N) (fun j => msg7 j 2%N) e /\ heard olds7 3%N (own 3%N) (fun j => msg7 j 3%N) e).
Proof.
move=> own e; split; first by split; vm_compute.
by split=> l; rewrite !inE => /orP [] /eqP -> //; apply: msg7_echo; vm_compute.
Qed.

(** ** Signing *)
Lemma sg_agree_case :
  [/\ runS 0 sent4S = Accept (Signature 2 2 1), runS 1 sent4S = Accept (Signature 2 2 1),
      until2S 0 = Accept (s2_of 0) & until2S 1 = Accept (s2_of 1)] /\
  [/\ zs_public (se_share (entryS 0)) = zs_public (se_share (entryS 1)),
      heard idsS 0%N (sg_send2 (s2_of 0)) sent2S (fun l => m_echo (sent2S l)) &
      heard idsS 1%N (sg_send2 (s2_of 1)) sent2S (fun l => m_echo (sent2S l))].
Proof.
split.
  split; [by vm_compute|by vm_compute|evaluates st20|evaluates st21].
split=> //.
- by move=> l; rewrite !inE => /or3P [] /eqP ->; [evaluates (m_echo m20)| |].
- by move=> l; rewrite !inE => /or3P [] /eqP ->; [|evaluates (m_echo m21)|].
Qed.
