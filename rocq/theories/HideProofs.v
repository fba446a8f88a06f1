(** * Proofs reveal nothing (property C69): elog and ring-Pedersen parameters. *)
From Coq Require Import ZArith Znumtheory Lia List Bool Setoid.
From Verif Require Import Base BaseFacts SignedModel SignedSpec SignedProofs ModArith RsaFacts
  PaillierModel PaillierSpec PaillierProofs RnsProofs RpProofs ZkBase ZkModel ZkSpec ZkFacts ZkExtract ElogModel ElogProofs PrmProofs.
Import ListNotations.
Open Scope Z_scope.

Lemma unmask q a b z : 0 < q -> 0 <= z < q -> (a + b) mod q = z -> 0 <= a < q -> a = (z - b) mod q.
Proof.
  intros Hq Hz E Ha. rewrite <- E, Zminus_mod_idemp_l. replace (a + b - b) with a by lia.
  symmetry. now apply Z.mod_small.
Qed.

Section ElogH.
Variables (q : Z) (C : curve) (A : Type).
Hypothesis Hq : 1 < q.
Hypothesis HC : curve_ok q C.

Lemma padd_cancel a b c : padd C a c = padd C b c -> a = b.
Proof.
  intros H. apply (f_equal (fun v => padd C v (popp C c))) in H.
  rewrite <- !(c_addA _ _ HC), (c_addN _ _ HC), !(c_add0 _ _ HC) in H. exact H.
Qed.

Lemma elog_hides X y lambda xp h (aux : A) (pf : elog_proof C) :
  let pub := ElogPublic (pmul C lambda (gen C))
    (padd C (pmul C y (gen C)) (pmul C lambda xp)) xp (pmul C y h) h in
  0 <= el_z pf < q -> 0 <= el_u pf < q ->
  (elog_verify C A X pf pub aux = true <->
   exists! am, (0 <= fst am < q /\ 0 <= snd am < q) /\
     elog_new q C A X (ElogSecret y lambda) pub aux (fst am) (snd am) = pf).
Proof.
  intros pub Hz Hu. split.
  2:{ intros ([alpha m] & (_ & <-) & _). apply (elog_run q C A Hq HC). }
  intros V. apply (elog_accept q C A HC) in V. destruct V as [Ve (E1 & E2 & E3)].
  unfold pub in E1, E2, E3. cbn [elp_l elp_m elp_x elp_y elp_h] in E1, E2, E3.
  set (e := el_e pf) in *.
  exists ((el_z pf - lambda * e) mod q, (el_u pf - y * e) mod q). split.
  - cbn [fst snd]. split; [split; apply Z.mod_pos_bound; lia|].
    unfold elog_new. cbn [els_y els_lambda elp_x elp_h pub].
    rewrite !(pmul_mod q C Hq HC).
    assert (Ea : pmul C (el_z pf - lambda * e) (gen C) = el_a pf).
    { apply padd_cancel with (pmul C e (pmul C lambda (gen C))). rewrite <- E1, (c_mulA _ _ HC), <- (c_mulDl _ _ HC).
      f_equal. lia. }
    assert (En : padd C (pmul C (el_u pf - y * e) (gen C)) (pmul C (el_z pf - lambda * e) xp) = el_n pf).
    { apply padd_cancel with (pmul C e (padd C (pmul C y (gen C)) (pmul C lambda xp))). rewrite <- E2.
      rewrite (c_mulDr _ _ HC), !(c_mulA _ _ HC), (padd_4 q C HC), <- !(c_mulDl _ _ HC). do 2 f_equal; lia. }
    assert (Eb : pmul C (el_u pf - y * e) h = el_b pf).
    { apply padd_cancel with (pmul C e (pmul C y h)). rewrite <- E3, (c_mulA _ _ HC), <- (c_mulDl _ _ HC).
      f_equal. lia. }
    rewrite Ea, En, Eb, <- Ve. fold e. destruct pf as [e0 a n b z u]. cbn in *. unfold e.
    f_equal.
    + rewrite Zplus_mod_idemp_l. replace (z - lambda * e0 + lambda * e0) with z by lia. now apply Z.mod_small.
    + rewrite Zplus_mod_idemp_l. replace (u - y * e0 + y * e0) with u by lia. now apply Z.mod_small.
  - intros [alpha m] ((Ha & Hm) & E). cbn [fst snd] in *.
    assert (Ez : el_z pf = (alpha + lambda * e) mod q) by (unfold e; now rewrite <- E).
    assert (Eu : el_u pf = (m + y * e) mod q) by (unfold e; now rewrite <- E).
    f_equal; symmetry; apply unmask; auto; lia.
Qed.
End ElogH.

Section PrmH.
Variables (S : sparams) (C : curve) (A : Type).
Notation P := (sp_pail S).
Hypothesis HP : params_ok (sp_pail S).

Definition answer (lam phi : Z) (de : Z * bool) : Z := if snd de then (fst de + lam) mod phi else fst de.

(** What the prover computes. *)
Lemma prm_new_eq (X : xof A (pt C)) p q lam_draw sec t qr_draws setup aux draws :
  prime p -> prime q -> p <> q -> Z.odd p = true -> Z.odd q = true ->
  p < 2 ^ prime_bits P -> q < 2 ^ prime_bits P ->
  0 <= lam_draw < (p - 1) * (q - 1) / 4 ->
  rp_secret_new P p q lam_draw = Ret sec ->
  random_quadratic_residue (p * q) qr_draws = Some t ->
  rp_with_secret sec t = Ret setup ->
  length draws = sp_secbits S -> Forall (fun d => 0 <= d < (p - 1) * (q - 1)) draws ->
  let com := map (fun d => (t ^ d) mod (p * q)) draws in
  let e := prm_challenge_of S X com setup aux in
  prm_new S X sec setup aux draws = Ret (PrmProof com e (map (answer lam_draw ((p - 1) * (q - 1))) (combine draws e))).
Proof.
  intros Hp Hq Hne Op Oq Bp Bq Hd E1 E2 E3 Hl Hdr com e.
  destruct (rp_generated P p q qr_draws lam_draw sec t setup HP Hp Hq Op Oq Bp Bq Hd E1 E2 E3)
    as (En & Et & El & Es & Rs & Rt & Gs & Gt & _).
  pose proof (prime_ge_2 _ Hp). pose proof (prime_ge_2 _ Hq).
  destruct (modulus_bound P p q HP) as [HN Hmb]; try lia.
  assert (Epr : rps_primes sec = Primes p q ((p - 1) * (q - 1))).
  { clear - E1 Hp Hq H H0. unfold rp_secret_new, primes_new, csub in E1.
    rewrite (proj2 (Z.leb_le 1 p)), (proj2 (Z.leb_le 1 q)) in E1 by lia. cbn [oexpect obind] in E1.
    destruct (oassert _) in E1; [|discriminate]. cbn [obind] in E1.
    destruct (unsigned_new _ _ _) as [l|] eqn:El in E1; [|discriminate]. cbn [oexpect obind] in E1.
    inversion E1. reflexivity. }
  assert (p <> 2) by (intros ->; discriminate Op). assert (q <> 2) by (intros ->; discriminate Oq).
  assert (Htot : 0 < (p - 1) * (q - 1) < p * q) by nia.
  set (phi := (p - 1) * (q - 1)) in *.
  unfold prm_new. rewrite Hl, Nat.eqb_refl. cbn [oassert obind]. rewrite Epr.
  assert (S1 : omap (random_residue_mod_totient P (Primes p q phi)) draws
     = Ret (map (mkU (modulus_bits P)) draws)).
  { clear - Hdr Htot HN Hmb HP. induction Hdr as [|d ds Hd _ IH]; [reflexivity|].
    cbn [omap map]. unfold random_residue_mod_totient at 1. cbn [pr_totient].
    destruct (Z.eqb_spec phi 0); [lia|]. cbn [negb oassert obind].
    pose proof HP as (HP1 & HP2 & HP3 & HP4 & HP5 & HP6).
    rewrite unsigned_new_ok by lia. cbn [oexpect obind]. now rewrite IH. }
  rewrite S1. cbn [obind].
  assert (S2 : omap (fun a => pow_unsigned (rp_n setup) (rp_t setup) a) (map (mkU (modulus_bits P)) draws)
     = Ret com).
  { unfold com. rewrite En, Et. clear - Hdr Htot HN Hmb. induction Hdr as [|d ds Hd _ IH]; [reflexivity|].
    cbn [omap map]. rewrite pow_unsigned_spec by (cbn; lia). cbn [obind uword]. now rewrite IH. }
  rewrite S2. cbn [obind pr_totient]. cbv zeta. fold e. do 2 f_equal.
  clearbody e. clear - El. revert e. induction draws as [|d ds IH]; intros [|b e]; cbn [map combine]; [reflexivity..|].
  rewrite IH. f_equal. unfold answer. cbn [fst snd uword]. now rewrite El.
Qed.

Definition undo (lam phi : Z) (ze : Z * bool) : Z := if snd ze then (fst ze - lam) mod phi else fst ze.

Lemma undo_answer lam phi draws e : 0 < phi -> length e = length draws -> Forall (fun d => 0 <= d < phi) draws ->
  map (undo lam phi) (combine (map (answer lam phi) (combine draws e)) e) = draws.
Proof.
  intros Hphi Hl H. revert e Hl. induction H as [|d ds Hd _ IH]; intros [|b e] Hl; try discriminate; [reflexivity|].
  cbn [combine map]. rewrite IH by (now injection Hl). f_equal. unfold undo, answer. cbn [fst snd].
  destruct b; [|reflexivity]. rewrite Zminus_mod_idemp_l. replace (d + lam - lam) with d by lia. now apply Z.mod_small.
Qed.
Lemma answer_undo lam phi zs e : 0 < phi -> length e = length zs -> Forall (fun d => 0 <= d < phi) zs ->
  map (answer lam phi) (combine (map (undo lam phi) (combine zs e)) e) = zs.
Proof.
  intros Hphi Hl H. revert e Hl. induction H as [|d ds Hd _ IH]; intros [|b e] Hl; try discriminate; [reflexivity|].
  cbn [combine map]. rewrite IH by (now injection Hl). f_equal. unfold undo, answer. cbn [fst snd].
  destruct b; [|reflexivity]. rewrite Zplus_mod_idemp_l. replace (d - lam + lam) with d by lia. now apply Z.mod_small.
Qed.

Lemma prm_hides (X : xof A (pt C)) p q lam_draw sec t qr_draws setup aux pf :
  prime p -> prime q -> p <> q -> Z.odd p = true -> Z.odd q = true ->
  p < 2 ^ prime_bits P -> q < 2 ^ prime_bits P ->
  0 <= lam_draw < (p - 1) * (q - 1) / 4 ->
  rp_secret_new P p q lam_draw = Ret sec ->
  random_quadratic_residue (p * q) qr_draws = Some t ->
  rp_with_secret sec t = Ret setup ->
  length (prm_commitment pf) = sp_secbits S -> length (prm_challenge pf) = sp_secbits S -> length (prm_elems pf) = sp_secbits S ->
  Forall (fun a => 0 <= a < p * q) (prm_commitment pf) -> Forall (fun z => 0 <= z < (p - 1) * (q - 1)) (prm_elems pf) ->
  (prm_verify S X pf setup aux = Ret true <->
   exists! draws, (length draws = sp_secbits S /\ Forall (fun d => 0 <= d < (p - 1) * (q - 1)) draws) /\
     prm_new S X sec setup aux draws = Ret pf).
Proof.
  intros Hp Hq Hne Op Oq Bp Bq Hd E1 E2 E3 L1 L2 L3 R1 R2.
  set (phi := (p - 1) * (q - 1)) in *.
  pose proof (prime_ge_2 _ Hp). pose proof (prime_ge_2 _ Hq).
  assert (p <> 2) by (intros ->; discriminate Op). assert (q <> 2) by (intros ->; discriminate Oq).
  assert (Htot : 0 < phi < p * q) by (unfold phi; nia).
  destruct (rp_generated P p q qr_draws lam_draw sec t setup HP Hp Hq Op Oq Bp Bq Hd E1 E2 E3)
    as (En & Et & El & Es & Rs & Rt & Gs & Gt & _).
  split.
  2:{ intros (draws & ((Hl & Hdr) & E) & _).
      destruct (prm_run S C A HP X p q lam_draw sec t qr_draws setup aux draws Hp Hq Hne Op Oq Bp Bq Hd E1 E2 E3 Hl Hdr) as (pf' & E' & V & _).
      rewrite E in E'. injection E' as <-. exact V. }
  intros V. apply prm_accept in V; [|rewrite En; nia|eapply Forall_impl; [|exact R2]; intros; cbn in *; lia].
  destruct V as [Ve Veq].
  exists (map (undo lam_draw phi) (combine (prm_elems pf) (prm_challenge pf))). split.
  - assert (Hl : length (map (undo lam_draw phi) (combine (prm_elems pf) (prm_challenge pf))) = sp_secbits S).
    { rewrite map_length, combine_length. lia. }
    assert (Hr : Forall (fun d => 0 <= d < phi) (map (undo lam_draw phi) (combine (prm_elems pf) (prm_challenge pf)))).
    { apply Forall_map, Forall_forall. intros [z b] Hin. unfold undo. cbn [fst snd].
      destruct b; [apply Z.mod_pos_bound; lia|]. apply in_combine_l in Hin. rewrite Forall_forall in R2. now apply R2. }
    split; [split; assumption|].
    rewrite (prm_new_eq X p q lam_draw sec t qr_draws setup aux _ Hp Hq Hne Op Oq Bp Bq Hd E1 E2 E3 Hl Hr).
    assert (Ec : map (fun d => (t ^ d) mod (p * q)) (map (undo lam_draw phi) (combine (prm_elems pf) (prm_challenge pf))) = prm_commitment pf).
    { assert (Hall : forall i e z a, nth_error (prm_challenge pf) i = Some e -> nth_error (prm_elems pf) i = Some z ->
        nth_error (prm_commitment pf) i = Some a -> 0 <= z < phi /\ 0 <= a < p * q /\ eqm (p * q) (t ^ z) (a * ((t ^ lam_draw) mod (p * q)) ^ b2z e)).
      { intros i e z a He Hz Ha. pose proof (Veq i e z a He Hz Ha) as HH. unfold prm_eq in HH. rewrite En, Et, Es in HH.
        split; [rewrite Forall_forall in R2; apply R2; eapply nth_error_In; eauto|].
        split; [rewrite Forall_forall in R1; apply R1; eapply nth_error_In; eauto|exact HH]. }
      assert (Hlen : length (prm_challenge pf) = length (prm_elems pf) /\ length (prm_commitment pf) = length (prm_elems pf)) by lia.
      clear - Hall Hlen Hp Hq Hne Htot Gt Hd En. revert Hlen Hall.
      generalize (prm_commitment pf), (prm_challenge pf). induction (prm_elems pf) as [|z zs IH];
        intros [|a l] [|b e] [L L'] Hall; try discriminate; [reflexivity|].
      cbn [combine map]. rewrite IH with (l := l);
        [|now split; [injection L|injection L']|intros i; apply (Hall (Datatypes.S i))]. f_equal.
      destruct (Hall O b z a eq_refl eq_refl eq_refl) as (Hz & Ha & HE).
      rewrite <- (Z.mod_small a (p * q)) by lia. change (eqm (p * q) (t ^ undo lam_draw phi (z, b)) a).
      unfold undo. cbn [fst snd]. destruct b; cbn [b2z] in HE.
      - rewrite Z.pow_1_r, eqm_mod in HE. apply gauss_eqm with (t ^ lam_draw); [nia|apply gcd_pow_1; [lia|exact Gt]|].
        rewrite (Z.mul_comm (t ^ lam_draw) a), <- HE, <- Z.pow_add_r by (try apply Z.mod_pos_bound; lia).
        unfold phi. apply euler_exp; auto; try lia; [pose proof (Z.mod_pos_bound (z - lam_draw) phi); fold phi; lia|].
        fold phi. unfold eqm. rewrite Zplus_mod_idemp_r. f_equal. lia.
      - rewrite Z.pow_0_r, Z.mul_1_r in HE. exact HE. }
    rewrite Ec, <- Ve. destruct pf as [com ch els]. cbn [prm_commitment prm_challenge prm_elems] in *. do 2 f_equal.
    apply answer_undo; auto; lia.
  - intros draws ((Hl & Hdr) & E).
    pose proof (prm_new_eq X p q lam_draw sec t qr_draws setup aux _ Hp Hq Hne Op Oq Bp Bq Hd E1 E2 E3 Hl Hdr) as E'.
    rewrite E in E'. injection E' as E'. rewrite E'. cbn [prm_elems prm_challenge].
    apply undo_answer; auto; [lia|]. rewrite E' in L2. cbn [prm_challenge] in L2. lia.
Qed.
End PrmH.
