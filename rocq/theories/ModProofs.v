(** * Paillier-Blum modulus proof: completeness, acceptance, extraction. *)
From Coq Require Import ZArith Znumtheory Lia List Bool Setoid.
From Verif Require Import Base BaseFacts SignedModel SignedSpec SignedProofs ModArith RsaFacts
  PaillierModel PaillierSpec PaillierProofs RnsProofs RpProofs ZkBase ZkModel ZkSpec ZkFacts PrmProofs.
Import ListNotations.
Open Scope Z_scope.

Section Mod.
Variables (S : sparams) (C : curve) (A : Type).
Notation P := (sp_pail S).
Notation w := (uint_w (sp_pail S)).
Notation ww := (wide_w (sp_pail S)).
Hypothesis HP : params_ok (sp_pail S).


Lemma mod_elem_verify_ok N com Ns el y : 1 < N -> wf ww Ns -> sval ww Ns = N ->
  exists r, mod_elem_verify S N com Ns (el, y) = Ret r /\ (r = true <-> mod_elem_spec N com el y).
Proof.
  intros HN HNs ENs. unfold mod_elem_verify, mod_elem_spec, is_invertible. cbv zeta.
  rewrite pow_pub_nonneg; auto; [|apply Z.mod_pos_bound; lia|lia]. rewrite ENs.
  assert (E1 : ((me_z el mod N) ^ N) mod N = (me_z el ^ N) mod N) by (apply eqm_pow, eqm_mod).
  assert (E2 : ((me_x el mod N * (me_x el mod N)) mod N * ((me_x el mod N * (me_x el mod N)) mod N)) mod N
    = (me_x el ^ 4) mod N).
  { match goal with |- ?a mod _ = ?b mod _ => change (eqm N a b) end. rewrite !eqm_mod. apply eqm_eq. ring. }
  assert (E3 : forall a b : bool,
     (let ym := if a then (- (y mod N)) mod N else y mod N in
      if b then (ym * (com mod N)) mod N else ym)
     = ((if a then -1 else 1) * (if b then com else 1) * y) mod N).
  { intros a b. destruct a, b; cbv zeta;
      match goal with |- ?a mod _ = ?b mod _ => change (eqm N a b) end; rewrite ?eqm_mod; apply eqm_eq; ring. }
  cbv zeta in E3. cbn [obind]. rewrite E1, E2, E3.
  eexists (_ && (_ && _)). split.
  - unfold check. instantiate (3 := Z.gcd y N =? 1). destruct (Z.gcd y N =? 1); cbn [andb]; [|reflexivity].
    instantiate (2 := (me_z el ^ N) mod N =? y mod N).
    destruct ((me_z el ^ N) mod N =? y mod N); cbn [andb]; reflexivity.
  - rewrite !andb_true_iff, !Z.eqb_eq. split; intros (H1 & H2 & H3); repeat split; auto.
Qed.

Lemma mod_accept (X : xof A (pt C)) pf N aux : 1 < N < 2 ^ modulus_bits P ->
  exists r, mod_verify S X pf N aux = Ret r /\
  (r = true <->
   mod_challenge pf = mod_challenge_of S X N (mod_commitment pf) aux /\
   x_is_prime X Tmod_rng [IZ (mod_commitment pf); IZ N; IA aux] N = false /\
   Z.gcd (mod_commitment pf) N = 1 /\
   forall i el y, nth_error (mod_elems pf) i = Some el -> nth_error (mod_challenge pf) i = Some y ->
     mod_elem_spec N (mod_commitment pf) el y).
Proof.
  intros HN. unfold mod_verify. cbv zeta.
  assert (Hmb : 1 <= modulus_bits P).
  { destruct (Z.le_gt_cases 1 (modulus_bits P)) as [?|Hle]; auto.
    pose proof (Z.pow_le_mono_r 2 (modulus_bits P) 0 ltac:(lia) ltac:(lia)). lia. }
  destruct (modulus_signed_ok P N HP Hmb ltac:(lia)) as (Ns & -> & HNs & ENs). cbn [obind].
  destruct (oforall_ok (mod_elem_verify S N (mod_commitment pf) Ns)
     (fun ey => mod_elem_spec N (mod_commitment pf) (fst ey) (snd ey))
     (combine (mod_elems pf) (mod_challenge pf))) as (b & -> & Hb).
  { apply Forall_forall. intros [el y] _. apply mod_elem_verify_ok; auto; lia. }
  rewrite Forall_zip2 in Hb. cbn [fst snd] in Hb. rewrite (Z.gcd_comm N).
  destruct (zs_eqb _ _) eqn:E1; cbn [check].
  2:{ exists false. split; auto. split; [discriminate|]. intros (H & _).
      rewrite (proj2 (zs_eqb_eq _ _)) in E1; [discriminate|]. now symmetry. }
  apply zs_eqb_eq in E1.
  destruct (x_is_prime _ _ _ _) eqn:E2; cbn [negb check].
  { exists false. split; auto. split; [discriminate|]. intros (_ & H & _). discriminate. }
  destruct (Z.eqb_spec (Z.gcd (mod_commitment pf) N) 1) as [E3|E3]; cbn [check].
  2:{ exists false. split; auto. split; [discriminate|]. now intros (_ & _ & H & _). }
  exists b. split; auto. rewrite Hb. split; [intros H; split; [now symmetry|]; split; [auto|]; split; [auto|]; exact H|tauto].
Qed.

Lemma mod_empty (X : xof A (pt C)) N com aux : 1 < N < 2 ^ modulus_bits P -> Z.gcd com N = 1 ->
  x_is_prime X Tmod_rng [IZ com; IZ N; IA aux] N = false ->
  mod_verify S X (ModProof com (mod_challenge_of S X N com aux) []) N aux = Ret true.
Proof.
  intros HN Hg Hp.
  destruct (mod_accept X (ModProof com (mod_challenge_of S X N com aux) []) N aux HN) as (r & -> & Hr).
  f_equal. apply Hr. cbn. split; [reflexivity|]. split; [exact Hp|]. split; [exact Hg|]. now intros [|i].
Qed.

Section Key.
Variables (p q : Z) (sk : skey).
Hypotheses (HK : key_ok (sp_pail S) p q sk) (P4 : p mod 4 = 3) (Q4 : q mod 4 = 3).
Let N := p * q.

Definition cand (com y : Z) (ab : bool * bool) : Z :=
  (if fst ab then -1 else 1) * (if snd ab then com else 1) * y.

Lemma mod_candidate_eq com y ab :
  mod_candidate S sk (y mod p, y mod q) (com mod p, com mod q) ab
  = rns_sqrt P sk (cand com y ab mod p, cand com y ab mod q).
Proof.
  destruct (key_facts P p q sk HP HK) as (Hp & Hq & HN & Hmb & Hphi & Ho).
  unfold mod_candidate, cand. rewrite (ko_primes _ _ _ _ HK). cbn [pr_p pr_q].
  destruct ab as [[|] [|]]; cbn [fst snd]; do 2 f_equal;
   match goal with |- ?a mod ?m = ?b mod _ => change (eqm m a b) end; rewrite ?eqm_mod; apply eqm_eq; ring.
Qed.

Lemma rns_sqrt_range x a b : rns_sqrt P sk (x mod p, x mod q) = Some (a, b) -> 0 <= a < p /\ 0 <= b < q.
Proof.
  destruct (key_facts P p q sk HP HK) as (Hp & Hq & HN & Hmb & Hphi & Ho).
  unfold rns_sqrt. rewrite (ko_primes _ _ _ _ HK). cbn [pr_p pr_q fst snd].
  pose proof (sqrt_part_spec P p q HP p (x mod p) (ko_p _ _ _ _ HK) P4 (ko_bp _ _ _ _ HK)
                ltac:(apply Z.mod_pos_bound; lia)) as Sp.
  pose proof (sqrt_part_spec P p q HP q (x mod q) (ko_q _ _ _ _ HK) Q4 (ko_bq _ _ _ _ HK)
                ltac:(apply Z.mod_pos_bound; lia)) as Sq.
  destruct (sqrt_part P p (x mod p)), (sqrt_part P q (x mod q)); try discriminate.
  intros [= <- <-]. tauto.
Qed.

(** The square root found is itself split into its two residues. *)
Lemma rns_sqrt_split x : is_square_mod N x ->
  exists y, rns_sqrt P sk (x mod p, x mod q) = Some (y mod p, y mod q) /\
    rns_join P sk (y mod p, y mod q) = Ret y /\ eqm N (y * y) x /\ is_square_mod N y.
Proof.
  intros Hx. pose proof (rns_sqrt_spec P p q sk HP HK x P4 Q4) as H.
  destruct (rns_sqrt P sk (x mod p, x mod q)) as [[a b]|] eqn:E; [|tauto].
  apply rns_sqrt_range in E. destruct E as [Ra Rb].
  destruct H as [_ (y & Hj & Hy & H1 & H2)].
  destruct (rns_join_ok P p q sk HP HK a b Ra Rb) as (y' & Hj' & _ & <- & <-).
  rewrite Hj in Hj'. injection Hj' as <-. exists y. repeat split; auto.
Qed.

Lemma mod_search_found com y : Z.gcd com N = 1 -> Z.gcd y N = 1 ->
  (is_square_mod p com <-> ~ is_square_mod q com) ->
  exists ab rt, mod_search S sk (y mod p, y mod q) (com mod p, com mod q) = Some (rt, fst ab, snd ab) /\
    rns_sqrt P sk (cand com y ab mod p, cand com y ab mod q) = Some rt /\ is_square_mod N (cand com y ab).
Proof.
  intros Gc Gy Hc.
  destruct (four_candidates P p q sk HP HK com y P4 Q4 Gc Gy Hc) as (a & b & Hab).
  assert (Hab' : forall ab, is_square_mod N (cand com y ab) <-> ab = (a, b)).
  { intros [a' b']. unfold cand. cbn [fst snd]. unfold N. rewrite Hab. split; [intros [-> ->]; auto|now intros [= -> ->]]. }
  assert (Hs : forall ab, mod_candidate S sk (y mod p, y mod q) (com mod p, com mod q) ab = None <-> ab <> (a, b)).
  { intros ab. rewrite mod_candidate_eq. pose proof (rns_sqrt_spec P p q sk HP HK (cand com y ab) P4 Q4) as H.
    destruct (rns_sqrt P sk (cand com y ab mod p, cand com y ab mod q)).
    - destruct H as [H _]. apply Hab' in H. split; [discriminate|]. intros; congruence.
    - split; [|reflexivity]. intros _ He. apply H. now apply Hab'. }
  destruct (mod_candidate S sk (y mod p, y mod q) (com mod p, com mod q) (a, b)) as [rt|] eqn:E.
  2:{ exfalso. now apply (Hs (a, b)). }
  exists (a, b), rt. split; [|split].
  - unfold mod_search. cbn [fold_left fst snd].
    destruct a, b;
      repeat match goal with |- context [mod_candidate S sk ?u ?v ?ab] =>
        first [rewrite E | rewrite (proj2 (Hs ab)) by congruence] end; reflexivity.
  - rewrite <- mod_candidate_eq. exact E.
  - now apply Hab'.
Qed.

Lemma mod_elem_run com y : 0 <= y < 2 ^ w -> Z.gcd com N = 1 -> Z.gcd y N = 1 ->
  (is_square_mod p com <-> ~ is_square_mod q com) ->
  exists el, mod_elem_new S sk (com mod p, com mod q) y = Ret el /\ mod_elem_spec N com el y.
Proof.
  intros Ry Gc Gy Hc. destruct (key_facts P p q sk HP HK) as (Hp & Hq & HN & Hmb & Hphi & Ho).
  unfold mod_elem_new. rewrite (rns_split_ok P p q sk HP HK y Ry). cbn [obind].
  destruct (mod_search_found com y Gc Gy Hc) as (ab & rt & -> & Hrt & Hsq). cbn [oexpect obind].
  destruct (rns_sqrt_split _ Hsq) as (v & E1 & E2 & E3 & E4).
  rewrite E1 in Hrt. injection Hrt as <-.
  destruct (rns_sqrt_split _ E4) as (u & E5 & E5' & E6 & _). rewrite E5. cbn [oexpect obind]. rewrite E5'. cbn [obind].
  rewrite pow_unsigned_spec.
  2:{ rewrite (ko_im_b _ _ _ _ HK). pose proof (ko_im_r _ _ _ _ HK). lia. }
  cbn [obind]. eexists. split; [reflexivity|]. unfold mod_elem_spec. cbn [me_z me_x me_a me_b].
  rewrite (ko_pk _ _ _ _ HK). fold N. split; auto.
  split.
  - match goal with |- ?a mod _ = ?b mod _ => change (eqm N a b) end.
    rewrite eqm_pow; [|apply eqm_mod]. rewrite eqm_pow; [|apply eqm_pow, eqm_mod].
    apply (derive_root P p q sk HP HK). exact Gy.
  - match goal with |- ?a mod _ = ?b mod _ => change (eqm N a b) end.
    replace (u ^ 4) with ((u * u) * (u * u)) by ring. rewrite E6, E3. unfold cand. reflexivity.
Qed.

Lemma mod_run (X : xof A (pt C)) aux com : xof_ok (sp_q S) X ->
  0 <= com < N -> Z.gcd com N = 1 -> (is_square_mod p com <-> ~ is_square_mod q com) ->
  exists pf, mod_new S X sk aux com = Ret pf /\
    length (mod_elems pf) = sp_secbits S /\ mod_commitment pf = com /\
    mod_challenge pf = mod_challenge_of S X N com aux /\
    mod_verify S X pf N aux = Ret (negb (x_is_prime X Tmod_rng [IZ com; IZ N; IA aux] N)).
Proof.
  intros HX Rc Gc Hc. destruct (key_facts P p q sk HP HK) as (Hp & Hq & HN & Hmb & Hphi & Ho).
  pose proof HP as (HP1 & HP2 & HP3 & HP4 & HP5 & HP6).
  assert (Hw : 2 ^ modulus_bits P <= 2 ^ w) by (apply pow2_le; lia).
  unfold mod_new. cbv zeta. rewrite (ko_pk _ _ _ _ HK). fold N.
  set (ch := mod_challenge_of S X N com aux).
  rewrite (rns_split_ok P p q sk HP HK com) by (unfold N in *; lia). cbn [obind].
  destruct (xo_residues _ _ HX Tmod [IZ N; IZ com; IA aux] N (sp_secbits S) ltac:(unfold N in *; lia)) as [Hlen Hall].
  fold (mod_challenge_of S X N com aux) in Hlen, Hall. fold ch in Hlen, Hall.
  destruct (omap_ok (mod_elem_new S sk (com mod p, com mod q)) (fun y el => mod_elem_spec N com el y) ch)
    as (els & -> & Hels).
  { apply Forall_impl with (2 := Hall). intros y [Ry Gy].
    assert (2 ^ bits N <= 2 ^ modulus_bits P).
    { apply pow2_le. apply bits_le; unfold N in *; lia. }
    apply mod_elem_run; auto. lia. }
  cbn [obind]. exists (ModProof com ch els). split; [reflexivity|]. cbn [mod_elems mod_commitment mod_challenge].
  split; [rewrite <- Hlen; symmetry; clear - Hels; induction Hels; cbn; auto|].
  split; [reflexivity|]. split; [reflexivity|]. 
  destruct (mod_accept X (ModProof com ch els) N aux) as (r & -> & Hr); [unfold N in *; lia|].
  cbn [mod_elems mod_commitment mod_challenge] in Hr. f_equal.
  assert (Hel : forall i el y, nth_error els i = Some el -> nth_error ch i = Some y -> mod_elem_spec N com el y).
  { clear - Hels. intros i el y. revert i. induction Hels as [|y' el' ys es Hye _ IH]; intros [|i]; cbn; try discriminate.
    - now intros [= <-] [= <-].
    - apply IH. }
  destruct (x_is_prime X Tmod_rng [IZ com; IZ N; IA aux] N); cbn [negb].
  - destruct r; auto. destruct Hr as [Hr _]. destruct (Hr eq_refl) as (_ & H & _). discriminate.
  - apply Hr. split; [reflexivity|]. split; [reflexivity|]. split; [exact Gc|]. exact Hel.
Qed.
End Key.
End Mod.
