(** * Facts about the elog proof. *)
From Coq Require Import ZArith List Bool Lia Znumtheory.
From Verif Require Import Base ModArith ZkBase ZkFacts ZkExtract ElogModel.
Import ListNotations.
Open Scope Z_scope.

Section ElogP.
Variables (q : Z) (C : curve) (A : Type).
Hypothesis Hq : 1 < q.
Hypothesis HC : curve_ok q C.

(** The four equations of the verifier, in the group. *)
Definition elog_eqs (pf : elog_proof C) (pub : elog_public C) : Prop :=
  pmul C (el_z pf) (gen C) = padd C (el_a pf) (pmul C (el_e pf) (elp_l pub)) /\
  padd C (pmul C (el_u pf) (gen C)) (pmul C (el_z pf) (elp_x pub)) =
    padd C (el_n pf) (pmul C (el_e pf) (elp_m pub)) /\
  pmul C (el_u pf) (elp_h pub) = padd C (el_b pf) (pmul C (el_e pf) (elp_y pub)).

Lemma elog_accept X (pf : elog_proof C) pub (aux : A) :
  elog_verify C A X pf pub aux = true <->
  el_e pf = elog_challenge C A X (el_a pf) (el_n pf) (el_b pf) pub aux /\ elog_eqs pf pub.
Proof.
  unfold elog_verify, elog_eqs. set (e := elog_challenge _ _ _ _ _ _ _ _).
  destruct (Z.eqb_spec e (el_e pf)) as [He|He]; cbn [negb].
  2:{ split; [discriminate|intros (H & _); congruence]. }
  rewrite <- He.
  split.
  - destruct (peqb C (pmul C (el_z pf) (gen C)) _) eqn:E1; [|discriminate]; cbn [negb].
    destruct (peqb C (padd C (pmul C (el_u pf) (gen C)) _) _) eqn:E2; [|discriminate]; cbn [negb].
    destruct (peqb C (pmul C (el_u pf) (elp_h pub)) _) eqn:E3; [|discriminate]; intros _.
    apply (c_eqb _ _ HC) in E1, E2, E3. auto.
  - intros (_ & E1 & E2 & E3).
    apply (c_eqb _ _ HC) in E1, E2, E3. rewrite E1, E2, E3. reflexivity.
Qed.

Lemma padd_4 a b c d : padd C (padd C a b) (padd C c d) = padd C (padd C a c) (padd C b d).
Proof.
  rewrite <- !(c_addA _ _ HC). f_equal. rewrite !(c_addA _ _ HC). f_equal. apply (c_addC _ _ HC).
Qed.

Lemma pmul_mod a x : pmul C (a mod q) x = pmul C a x.
Proof. apply (pmul_eqm q C HC); [lia|]. unfold eqm. apply Z.mod_mod. lia. Qed.

Lemma elog_run X y lambda xp h (aux : A) alpha m :
  let pub := ElogPublic (pmul C lambda (gen C))
    (padd C (pmul C y (gen C)) (pmul C lambda xp)) xp (pmul C y h) h in
  elog_verify C A X (elog_new q C A X (ElogSecret y lambda) pub aux alpha m) pub aux = true.
Proof.
  intros pub. apply elog_accept. unfold elog_new. cbn [el_e el_a el_n el_b el_z el_u].
  split; [reflexivity|]. set (e := elog_challenge _ _ _ _ _ _ _ _).
  unfold elog_eqs, pub. cbn [el_e el_a el_n el_b el_z el_u elp_l elp_m elp_x elp_y elp_h els_y els_lambda].
  rewrite !pmul_mod. split; [|split].
  - rewrite (c_mulDl _ _ HC), (c_mulA _ _ HC). do 2 f_equal. lia.
  - rewrite !(c_mulDl _ _ HC), (c_mulDr _ _ HC), !(c_mulA _ _ HC), padd_4. do 3 f_equal; lia.
  - rewrite (c_mulDl _ _ HC), (c_mulA _ _ HC). do 2 f_equal. lia.
Qed.

(** Two accepting transcripts with the same first message. *)
Lemma elog_extract X1 X2 (pf1 pf2 : elog_proof C) pub (aux1 aux2 : A) :
  prime q -> xof_ok q X1 -> xof_ok q X2 ->
  el_a pf1 = el_a pf2 -> el_n pf1 = el_n pf2 -> el_b pf1 = el_b pf2 ->
  el_e pf1 <> el_e pf2 ->
  elog_verify C A X1 pf1 pub aux1 = true -> elog_verify C A X2 pf2 pub aux2 = true ->
  exists i, eqm q (i * (el_e pf1 - el_e pf2)) 1 /\
    let lambda := i * (el_z pf1 - el_z pf2) in
    let y := i * (el_u pf1 - el_u pf2) in
    elp_l pub = pmul C lambda (gen C) /\
    elp_m pub = padd C (pmul C y (gen C)) (pmul C lambda (elp_x pub)) /\
    elp_y pub = pmul C y (elp_h pub).
Proof.
  intros Hp O1 O2 Ha Hn Hb Hne V1 V2.
  apply elog_accept in V1, V2.
  destruct V1 as (E1 & A1 & B1 & C1), V2 as (E2 & A2 & B2 & C2).
  rewrite Ha in A1. rewrite Hn in B1. rewrite Hb in C1.
  assert (Q : q <> 0) by lia.
  destruct (scalar_inv q (el_e pf1) (el_e pf2) Hp) as (i & Hi); auto.
  { rewrite E1. apply xo_scalar. auto. } { rewrite E2. apply xo_scalar. auto. }
  exists i. split; auto. cbn zeta.
  pose proof (diff_points q C HC _ _ _ _ _ _ A1 A2) as D1.
  pose proof (diff_points q C HC _ _ _ _ _ _ B1 B2) as D2.
  pose proof (diff_points q C HC _ _ _ _ _ _ C1 C2) as D3.
  assert (S : forall a b x, padd C (pmul C a x) (popp C (pmul C b x)) = pmul C (a - b) x).
  { intros. rewrite <- (pmul_opp q C HC), <- (c_mulDl _ _ HC). reflexivity. }
  rewrite S in D1, D3.
  rewrite (popp_add q C HC), padd_4, !S in D2.
  rewrite <- !(c_mulA _ _ HC), <- (c_mulDr _ _ HC), D1, D2, D3.
  rewrite !(divide_point q C HC) by auto. auto.
Qed.
End ElogP.
