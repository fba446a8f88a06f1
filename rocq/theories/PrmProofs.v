(** * Ring-Pedersen parameter proof: completeness, acceptance, extraction. *)
From Coq Require Import ZArith Znumtheory Lia List Bool Setoid.
From Verif Require Import Base BaseFacts SignedModel SignedSpec SignedProofs ModArith RsaFacts
  PaillierModel PaillierSpec PaillierProofs RnsProofs RpProofs ZkBase ZkModel ZkSpec ZkFacts.
Import ListNotations.
Open Scope Z_scope.

(** [zip] of three vectors truncates: membership is by common index. *)
Lemma Forall_zip3 {B C L} (Q : B * C * L -> Prop) e cs ls :
  (Forall Q (combine (combine e cs) ls) <->
   forall i b c l, nth_error e i = Some b -> nth_error cs i = Some c -> nth_error ls i = Some l -> Q (b, c, l)).
Proof.
  revert cs ls. induction e as [|b e IH]; intros cs ls.
  { cbn. split; [intros _ [|i]; discriminate|constructor]. }
  destruct cs as [|c cs].
  { cbn. split; [intros _ [|i]; discriminate|constructor]. }
  destruct ls as [|l ls]; cbn [combine].
  { split; [intros _ [|i]; discriminate|constructor]. }
  split.
  - intros H. apply Forall_cons_iff in H. destruct H as [H0 Hr].
    intros [|i] b' c' l'; cbn; [now intros [= <-] [= <-] [= <-]|]. now apply IH.
  - intros H. constructor; [now apply (H O)|]. apply IH. intros i. apply (H (Datatypes.S i)).
Qed.
Lemma Forall_zip2 {C L} (Q : C * L -> Prop) cs ls :
  (Forall Q (combine cs ls) <->
   forall i c l, nth_error cs i = Some c -> nth_error ls i = Some l -> Q (c, l)).
Proof.
  revert ls. induction cs as [|c cs IH]; intros ls.
  { cbn. split; [intros _ [|i]; discriminate|constructor]. }
  destruct ls as [|l ls]; cbn [combine].
  { split; [intros _ [|i]; discriminate|constructor]. }
  split.
  - intros H. apply Forall_cons_iff in H. destruct H as [H0 Hr].
    intros [|i] c' l'; cbn; [now intros [= <-] [= <-]|]. now apply IH.
  - intros H. constructor; [now apply (H O)|]. apply IH. intros i. apply (H (Datatypes.S i)).
Qed.

Lemma list_diff {T} (dec : forall a b : T, {a = b} + {a <> b}) (u v : list T) :
  length u = length v -> u <> v -> exists i a b, nth_error u i = Some a /\ nth_error v i = Some b /\ a <> b.
Proof.
  revert v. induction u as [|x u IH]; intros [|y v] Hl Hne; try discriminate; [congruence|].
  destruct (dec x y) as [<-|Hxy].
  - destruct (IH v) as (i & a & b & H1 & H2 & H3); [now injection Hl|congruence|].
    now exists (Datatypes.S i), a, b.
  - now exists O, x, y.
Qed.

Section Prm.
Variables (S : sparams) (C : curve) (A : Type).
Notation P := (sp_pail S).
Hypothesis HP : params_ok (sp_pail S).


Lemma pow_bits m t z : 0 <= z -> pow_bounded m t z (bits z) = (t ^ z) mod m.
Proof.
  intros Hz. rewrite pow_bounded_eq. rewrite (Z.mod_small z); auto. split; auto.
  apply bits_lt_pow; lia.
Qed.

Lemma prm_step N t s z a (e : bool) : 0 < N -> 0 <= z ->
  (if e then pow_bounded N t z (bits z) =? ((a mod N) * s) mod N
        else pow_bounded N t z (bits z) =? a mod N) = true <->
  (t ^ z) mod N = (a * s ^ b2z e) mod N.
Proof.
  intros HN Hz. rewrite pow_bits by auto. destruct e; cbn [b2z]; rewrite Z.eqb_eq.
  - rewrite Z.mul_mod_idemp_l, Z.pow_1_r by lia. reflexivity.
  - rewrite Z.pow_0_r, Z.mul_1_r. reflexivity.
Qed.

Lemma prm_accept (X : xof A (pt C)) pf setup aux : 0 < rp_n setup -> Forall (fun z => 0 <= z) (prm_elems pf) ->
  (prm_verify S X pf setup aux = Ret true <->
   prm_challenge pf = prm_challenge_of S X (prm_commitment pf) setup aux /\
   forall i e z a, nth_error (prm_challenge pf) i = Some e -> nth_error (prm_elems pf) i = Some z ->
     nth_error (prm_commitment pf) i = Some a -> prm_eq setup e z a).
Proof.
  intros HN Hz. unfold prm_verify. cbv zeta. rewrite check_true, bits_eqb_eq, oforall_true, Forall_zip3.
  split; intros [H1 H2]; (split; [now symmetry|]); intros i e z a He Hzi Ha.
  - assert (0 <= z) by (eapply Forall_forall; [exact Hz|eapply nth_error_In; eauto]).
    rewrite <- H1 in He. specialize (H2 i e z a He Hzi Ha). cbn in H2. injection H2 as H2.
    unfold prm_eq. now apply prm_step.
  - assert (0 <= z) by (eapply Forall_forall; [exact Hz|eapply nth_error_In; eauto]).
    rewrite <- H1 in He. specialize (H2 i e z a He Hzi Ha). f_equal. now apply prm_step.
Qed.

(** The verifier never panics. *)
Lemma prm_verify_total (X : xof A (pt C)) pf setup aux : exists r, prm_verify S X pf setup aux = Ret r.
Proof.
  unfold prm_verify. cbv zeta. destruct (bits_eqb _ _); cbn [check]; [|eauto].
  match goal with |- context [oforall ?f ?l] =>
    destruct (oforall_ok f (fun x => f x = Ret true) l) as (b & -> & _); [|eauto] end.
  apply Forall_forall. intros [[e z] a] _. eexists. split; [reflexivity|].
  split; [intros ->; reflexivity|now intros [= ->]].
Qed.

Lemma prm_run (X : xof A (pt C)) p q lam_draw sec t qr_draws setup aux draws :
  prime p -> prime q -> p <> q -> Z.odd p = true -> Z.odd q = true ->
  p < 2 ^ prime_bits P -> q < 2 ^ prime_bits P ->
  0 <= lam_draw < (p - 1) * (q - 1) / 4 ->
  rp_secret_new P p q lam_draw = Ret sec ->
  random_quadratic_residue (p * q) qr_draws = Some t ->
  rp_with_secret sec t = Ret setup ->
  length draws = sp_secbits S -> Forall (fun d => 0 <= d < (p - 1) * (q - 1)) draws ->
  exists pf, prm_new S X sec setup aux draws = Ret pf /\ prm_verify S X pf setup aux = Ret true /\
    length (prm_commitment pf) = sp_secbits S.
Proof.
  intros Hp Hq Hne Op Oq Bp Bq Hd E1 E2 E3 Hl Hdr.
  destruct (rp_generated P p q qr_draws lam_draw sec t setup HP Hp Hq Op Oq Bp Bq Hd E1 E2 E3)
    as (En & Et & El & Es & Rs & Rt & Gs & Gt & _).
  pose proof (prime_ge_2 _ Hp). pose proof (prime_ge_2 _ Hq).
  destruct (modulus_bound P p q HP) as [HN Hmb]; try lia.
  assert (Epr : rps_primes sec = Primes p q ((p - 1) * (q - 1))).
  { clear - E1 Hp Hq H H0. unfold rp_secret_new, primes_new, csub in E1.
    rewrite (proj2 (Z.leb_le 1 p)), (proj2 (Z.leb_le 1 q)) in E1 by lia. cbn [oexpect obind] in E1.
    destruct (oassert _) in E1; [|discriminate]. cbn [obind] in E1.
    destruct (unsigned_new _ _ _) as [l|] eqn:El in E1; [|discriminate]. cbn [oexpect obind] in E1.
    inversion E1. reflexivity. }
  assert (p <> 2) by (intros ->; discriminate Op). assert (q <> 2) by (intros ->; discriminate Oq).
  assert (Htot : 0 < (p - 1) * (q - 1) < p * q) by nia.
  set (phi := (p - 1) * (q - 1)) in *.
  unfold prm_new. rewrite Hl, Nat.eqb_refl. cbn [oassert obind]. rewrite Epr.
  assert (S1 : omap (random_residue_mod_totient P (Primes p q phi)) draws
     = Ret (map (mkU (modulus_bits P)) draws)).
  { clear - Hdr Htot HN Hmb HP. induction Hdr as [|d ds Hd _ IH]; [reflexivity|].
    cbn [omap map]. unfold random_residue_mod_totient at 1. cbn [pr_totient].
    destruct (Z.eqb_spec phi 0); [lia|]. cbn [negb oassert obind].
    pose proof HP as (HP1 & HP2 & HP3 & HP4 & HP5 & HP6).
    rewrite unsigned_new_ok by lia. cbn [oexpect obind]. now rewrite IH. }
  rewrite S1. cbn [obind].
  assert (S2 : omap (fun a => pow_unsigned (rp_n setup) (rp_t setup) a) (map (mkU (modulus_bits P)) draws)
     = Ret (map (fun d => (t ^ d) mod (p * q)) draws)).
  { rewrite En, Et. clear - Hdr Htot HN Hmb. induction Hdr as [|d ds Hd _ IH]; [reflexivity|].
    cbn [omap map]. rewrite pow_unsigned_spec by (cbn; lia). cbn [obind uword]. now rewrite IH. }
  rewrite S2. cbn [obind pr_totient]. cbv zeta.
  eexists. split; [reflexivity|]. cbn [prm_commitment]. rewrite map_length. split; [|exact Hl].
  set (com := map (fun d => (t ^ d) mod (p * q)) draws).
  set (e := prm_challenge_of S X com setup aux).
  apply prm_accept; cbn [prm_elems prm_challenge prm_commitment]; [lia| |].
  - apply Forall_map, Forall_forall. intros [u b] Hin. cbn. apply in_combine_l, in_map_iff in Hin.
    destruct Hin as (d & <- & Hin). cbn. rewrite Forall_forall in Hdr. specialize (Hdr d Hin).
    destruct b; [|lia]. apply Z.mod_pos_bound. lia.
  - split; [reflexivity|]. intros i b z a Hb Hz Ha.
    unfold com in Ha. rewrite nth_error_map in Ha.
    destruct (nth_error draws i) as [d|] eqn:Ed; [|discriminate]. cbn in Ha. injection Ha as <-.
    assert (Hd2 : 0 <= d < phi) by (rewrite Forall_forall in Hdr; apply Hdr; eapply nth_error_In; eauto).
    assert (Hzz : z = if b then u_add_mod d lam_draw phi else d).
    { rewrite nth_error_map in Hz.
      destruct (nth_error (combine (map (mkU (modulus_bits P)) draws) e) i) as [[u b']|] eqn:Ec; [|discriminate].
      cbn in Hz. injection Hz as <-.
      assert (Hu : nth_error (map (mkU (modulus_bits P)) draws) i = Some u /\ nth_error e i = Some b').
      { clear - Ec. revert Ec. generalize (map (mkU (modulus_bits P)) draws) as us. intros us. revert i us.
        induction e as [|x l IH]; intros [|i] [|y us]; cbn; try discriminate.
        - now intros [= <- <-].
        - intros Hc. now apply IH. }
      destruct Hu as [Hu Hb']. rewrite nth_error_map, Ed in Hu. injection Hu as <-.
      rewrite Hb in Hb'. injection Hb' as <-. cbn. now rewrite El. }
    unfold prm_eq. rewrite En, Et, Es, Hzz. change (eqm (p * q) (t ^ (if b then u_add_mod d lam_draw phi else d))
      ((t ^ d) mod (p * q) * ((t ^ lam_draw) mod (p * q)) ^ b2z b)).
    rewrite eqm_mod. destruct b; cbn [b2z].
    + rewrite Z.pow_1_r, eqm_mod. rewrite <- Z.pow_add_r by lia. unfold u_add_mod, phi.
      apply euler_exp; auto; try lia; [apply Z.mod_pos_bound; fold phi; lia|].
      fold phi. apply eqm_mod.
    + rewrite Z.pow_0_r. apply eqm_eq. ring.
Qed.

(** Two accepting answers to different challenges at a position both proofs cover. *)
Lemma prm_open setup a (z0 z1 : Z) : 1 < rp_n setup -> Z.gcd (rp_t setup) (rp_n setup) = 1 ->
  0 <= z0 -> 0 <= z1 ->
  prm_eq setup false z0 a -> prm_eq setup true z1 a ->
  eqm (rp_n setup) (zpow (rp_n setup) (rp_t setup) (z1 - z0)) (rp_s setup).
Proof.
  intros HN Ht Hz0 Hz1 H0 H1. unfold prm_eq in *. cbn [b2z] in *. rewrite Z.pow_0_r, Z.mul_1_r in H0.
  rewrite Z.pow_1_r in H1. set (N := rp_n setup) in *. set (t := rp_t setup) in *.
  change (eqm N (t ^ z0) a) in H0. change (eqm N (t ^ z1) (a * rp_s setup)) in H1.
  apply gauss_eqm with (t ^ z0); [lia| |].
  - apply gcd_pow_1; auto; lia.
  - rewrite H0 at 2. rewrite <- H1.
    rewrite <- (zpow_nonneg N t z0) by lia. rewrite <- (zpow_nonneg N t z1) by lia.
    rewrite <- zpow_add by (auto; lia). apply eqm_eq. f_equal. lia.
Qed.

Lemma prm_extract (X1 X2 : xof A (pt C)) pf1 pf2 setup aux :
  1 < rp_n setup -> Z.gcd (rp_t setup) (rp_n setup) = 1 ->
  Forall (fun z => 0 <= z) (prm_elems pf1) -> Forall (fun z => 0 <= z) (prm_elems pf2) ->
  prm_commitment pf1 = prm_commitment pf2 ->
  length (prm_commitment pf1) = sp_secbits S ->
  length (prm_challenge pf1) = sp_secbits S -> length (prm_challenge pf2) = sp_secbits S ->
  length (prm_elems pf1) = sp_secbits S -> length (prm_elems pf2) = sp_secbits S ->
  prm_challenge pf1 <> prm_challenge pf2 ->
  prm_verify S X1 pf1 setup aux = Ret true -> prm_verify S X2 pf2 setup aux = Ret true ->
  exists z, eqm (rp_n setup) (zpow (rp_n setup) (rp_t setup) z) (rp_s setup).
Proof.
  intros HN Ht N1 N2 Hc Hlc Hch1 Hch2 Hl1 Hl2 Hne V1 V2.
  apply prm_accept in V1; auto; [|lia]. apply prm_accept in V2; auto; [|lia].
  destruct V1 as [_ V1]. destruct V2 as [_ V2].
  destruct (list_diff Bool.bool_dec (prm_challenge pf1) (prm_challenge pf2)) as (i & b1 & b2 & B1 & B2 & Hb);
    [congruence|auto|].
  assert (Hi : (i < sp_secbits S)%nat).
  { rewrite <- Hch1. apply nth_error_Some. congruence. }
  assert (G : forall T (l : list T), length l = sp_secbits S -> exists x, nth_error l i = Some x).
  { intros T l Hl. destruct (nth_error l i) eqn:E; [eauto|]. apply nth_error_None in E. lia. }
  destruct (G _ _ Hl1) as [z1 Z1]. destruct (G _ _ Hl2) as [z2 Z2]. destruct (G _ _ Hlc) as [a Ha].
  assert (0 <= z1) by (eapply Forall_forall; [exact N1|eapply nth_error_In; eauto]).
  assert (0 <= z2) by (eapply Forall_forall; [exact N2|eapply nth_error_In; eauto]).
  specialize (V1 i b1 z1 a B1 Z1 Ha). rewrite Hc in Ha. specialize (V2 i b2 z2 a B2 Z2 Ha).
  destruct b1, b2; try congruence.
  - exists (z1 - z2). now apply prm_open with a.
  - exists (z2 - z1). now apply prm_open with a.
Qed.

(** The verifier never looks at the length of the response vector. *)
Lemma prm_empty (X : xof A (pt C)) com setup aux :
  prm_verify S X (PrmProof com (prm_challenge_of S X com setup aux) []) setup aux = Ret true.
Proof.
  unfold prm_verify. cbn [prm_commitment prm_challenge prm_elems]. cbv zeta. rewrite bits_eqb_refl. cbn [check].
  now destruct (prm_challenge_of S X com setup aux).
Qed.
End Prm.
