(** * Lemmas: a decryption proof for any claimed product. *)
From Coq Require Import ZArith Znumtheory List Bool Lia.
From Verif Require Import Base ModArith IntLemmas SignedModel SignedSpec SignedProofs PaillierModel PaillierSpec PaillierProofs
  RpProofs ZkBase ZkModel ZkSpec ZkFacts ZkExtract ZkLemmas DecProofs DecForgeSpec.
Import ListNotations.
Open Scope Z_scope.

Lemma wire_signed_ok w e v : 0 <= e < w -> Z.abs v < 2 ^ e -> wf w (wire_signed w e v) /\ sval w (wire_signed w e v) = v.
Proof.
  intros He Hv.
  assert (E : sval w (wire_signed w e v) = v).
  { unfold sval, wire_signed. cbn [word]. apply twos_mod; [lia|].
    assert (2 ^ e <= 2 ^ (w - 1)) by (apply Z.pow_le_mono_r; lia). lia. }
  split; [|exact E]. unfold wf. rewrite E. cbn [word bound wire_signed].
  split; [apply Z.mod_pos_bound; apply Z.pow_pos_nonneg; lia|]. split; [lia|exact Hv].
Qed.

Lemma half_pm e v u : 2 <= e -> Z.abs v < 2 ^ (e - 2) -> Z.abs u <= 2 ^ (e - 2) ->
  pm_interval e (v + u) /\ Z.abs (v + u) < 2 ^ e.
Proof.
  intros He Hv Hu. unfold pm_interval.
  assert (E1 : 2 ^ (e - 1) = 2 * 2 ^ (e - 2)) by (rewrite <- Z.pow_succ_r by lia; f_equal; lia).
  assert (E2 : 2 ^ e = 2 * 2 ^ (e - 1)) by (rewrite <- Z.pow_succ_r by lia; f_equal; lia).
  lia.
Qed.

Lemma encv_wrap N m t rho : 0 < N -> encv N (m + N * t) rho = encv N m rho.
Proof.
  intros HN. unfold encv.
  replace ((1 + (m + N * t) * N) * rho ^ N) with ((1 + m * N) * rho ^ N + (t * rho ^ N) * (N * N)) by ring.
  apply Z.mod_add. nia.
Qed.

Section Forge.
Variables (S : sparams) (C : curve) (A : Type).
Notation P := (sp_pail S).
Notation w := (uint_w (sp_pail S)).
Notation ww := (wide_w (sp_pail S)).
Notation q := (sp_q S).
Hypothesis HG : good_params S.
Hypothesis HS : sp_ok S.
Hypothesis HC : curve_ok q C.

(** Every self-consistent parameter set leaves more room than the modulus. *)
Lemma room n : 2 <= n < 2 ^ 64 ->
  modulus_bits P + sp_kappa S <= dec_y_exp S n + sp_eps S - 2.
Proof. intros Hn. pose proof (log2_up_64 n Hn). unfold dec_y_exp. destruct HS. lia. Qed.

Section One.
Variables (X : xof A (pt C)) (pub : dec_public C) (setup : rpparams) (aux : A) (x y rho : Z) (ms : list lie).
Hypothesis HX : xof_ok q X.
Hypothesis HN : modulus_ok S (dp_pk0 pub).
Hypothesis Hn : 2 <= dp_num_parties pub < 2 ^ 64.
Hypothesis Ek : ct_pk (dp_cap_k pub) = dp_pk0 pub.
Hypothesis Ed : ct_pk (dp_cap_d pub) = dp_pk0 pub.
Hypothesis Uk : unit_ok (dp_pk0 pub) (ct_val (dp_cap_k pub)).
Hypothesis Urho : unit_ok (dp_pk0 pub) rho.
Hypothesis Hd : ct_val (dp_cap_d pub) = affv (dp_pk0 pub) (ct_val (dp_cap_k pub)) (- x) y rho.
Hypothesis Hx : Z.abs x <= 2 ^ (sp_l S + sp_eps S - 2).
Hypothesis Hy : Z.abs y <= 2 ^ (dec_y_exp S (dp_num_parties pub) + sp_eps S - 2).
Hypothesis Hcx : dp_cap_x pub = pmul C x (gen C).
Hypothesis Hcs : dp_cap_s pub = pmul C y (dp_cap_g pub).
Hypothesis Hlen : length ms = Z.to_nat (sp_kappa S).
Hypothesis Hms : Forall (lie_ok S (dp_pk0 pub) (dp_num_parties pub)) ms.
Notation N := (dp_pk0 pub).
Notation n := (dp_num_parties pub).

Lemma forge_elem_good m e : lie_ok S N n m ->
  dec_elem_wf S (forge_elem S pub x y rho (m, e)) /\
  dec_elem_ok S pub (e, forge_com pub m, forge_elem S pub x y rho (m, e)).
Proof.
  intros [Ha Hb [Hr0 Hrg]].
  pose proof (dec_exp_lt S HS n Hn) as [Hye0 Hye].
  assert (Hexy : 2 <= dec_y_exp S n + sp_eps S) by (pose proof (log2_up_64 n Hn); unfold dec_y_exp; destruct HS; lia).
  assert (Hb1 : forall v u, 0 <= u -> Z.abs v <= u -> Z.abs (v * b2z e) <= u) by (intros v u ? ?; destruct e; cbn [b2z]; lia).
  assert (P1 : 0 <= 2 ^ (sp_l S + sp_eps S - 2)) by (apply Z.pow_nonneg; lia).
  assert (P2 : 0 <= 2 ^ (dec_y_exp S n + sp_eps S - 2)) by (apply Z.pow_nonneg; lia).
  assert (He2 : 2 <= sp_l S + sp_eps S) by (destruct HS; lia).
  assert (He3 : 0 <= sp_l S + sp_eps S < w) by (destruct HS; lia).
  assert (He4 : 0 <= dec_y_exp S n + sp_eps S < ww) by lia.
  destruct (half_pm (sp_l S + sp_eps S) _ _ He2 Ha (Hb1 _ _ P1 Hx)) as (Rz & Az).
  destruct (half_pm (dec_y_exp S n + sp_eps S) _ _ Hexy Hb (Hb1 _ _ P2 Hy)) as (Rw & Aw).
  destruct (wire_signed_ok w _ _ He3 Az) as (Wz & Vz).
  destruct (wire_signed_ok ww _ _ He4 Aw) as (Ww & Vw).
  assert (Ng : 1 < N) by apply HN.
  destruct Uk as [Hk0 Hkg], Urho as [Hq0 Hqg].
  split.
  { cbn [forge_elem]. split; [exact Wz|]. split; [exact Ww|]. cbn [de_nu]. apply Z.mod_pos_bound. lia. }
  unfold dec_elem_ok, forge_elem, forge_com. cbn [de_z de_w de_nu dc_a dc_b dc_c]. cbv zeta. rewrite Vz, Vw.
  split; [|split; [|split; [|split]]]; auto.
  - exists (zpow (N * N) (ct_val (dp_cap_k pub)) (- (li_a m + x * b2z e))).
    split; [apply unit_power_zpow; [nia|apply gcd_sq; auto; lia|reflexivity]|].
    eexists. split; [apply encv_textbook; [exact Ng|reflexivity]|].
    rewrite Hd. set (K := ct_val (dp_cap_k pub)) in *.
    fold (affv N K (- (li_a m + x * b2z e)) (li_b m + y * b2z e) ((li_r m * rho ^ b2z e) mod N)).
    destruct e; cbn [b2z].
    + rewrite !Z.mul_1_r, !Z.pow_1_r. rewrite (affv_mul N K Ng Hkg). f_equal. lia.
    + rewrite !Z.mul_0_r, !Z.add_0_r, !Z.pow_0_r, !Z.mul_1_r.
      rewrite (Z.mod_small (affv _ _ _ _ _)) by now apply affv_range.
      apply affv_same; auto. apply eqm_mod.
  - rewrite Hcx, (c_mulDl _ _ HC), (c_mulA _ _ HC). now rewrite (Z.mul_comm x).
  - rewrite Hcs, (c_mulDl _ _ HC), (c_mulA _ _ HC). now rewrite (Z.mul_comm y).
Qed.

Lemma forge_ok : dec_verify S X (forge S X pub setup aux x y rho ms) pub setup aux = Ret true.
Proof.
  set (pf := forge S X pub setup aux x y rho ms).
  set (e := dec_challenge S X (map (forge_com pub) ms) pub setup aux).
  assert (Le : length e = Z.to_nat (sp_kappa S)) by apply (xo_bits _ _ HX).
  assert (Lc : length (combine ms e) = Z.to_nat (sp_kappa S)) by (rewrite combine_length, Le, Hlen; apply Nat.min_id).
  apply (dec_accept S C A HS HC); auto; [|apply Uk|].
  - cbn [dg_elems pf forge]. fold e. apply Forall_map, Forall_forall. intros [m b] Hin.
    apply forge_elem_good. apply in_combine_l in Hin. revert m Hin. now apply Forall_forall.
  - cbn [dg_e dg_coms dg_elems pf forge]. fold e. split; [reflexivity|]. split; [exact Le|].
    rewrite !map_length. split; [exact Hlen|]. split; [exact Lc|].
    intros i b com el E1 E2 E3.
    rewrite nth_error_map in E2, E3.
    destruct (nth_error ms i) as [m|] eqn:Em; [|discriminate]. injection E2 as <-.
    assert (Ec : nth_error (combine ms e) i = Some (m, b)).
    { clear -Em E1. clearbody e. revert i e Em E1. induction ms as [|m' l IH]; intros [|i] [|b' e]; cbn; try discriminate.
      - congruence.
      - apply IH. }
    rewrite Ec in E3. injection E3 as <-. apply forge_elem_good.
    apply nth_error_In in Em. exact (proj1 (Forall_forall _ _) Hms _ Em).
Qed.
End One.

Lemma shift_to N y s : 1 < N -> Z.gcd N q = 1 -> Z.abs y <= N ->
  exists t, eqm q (y + N * t) s /\ Z.abs (y + N * t) <= N * q.
Proof.
  intros HN G Hy. assert (Hq : 1 < q) by (destruct (so_conv _ HS); lia).
  set (t := ((s - y) * zinv q N) mod q).
  assert (Ht : 0 <= t < q) by (apply Z.mod_pos_bound; lia).
  exists t. split.
  - unfold t. transitivity (y + N * ((s - y) * zinv q N)).
    { now rewrite eqm_mod. }
    transitivity (y + (s - y) * (N * zinv q N)); [apply eqm_eq; ring|].
    transitivity (y + (s - y) * 1); [|apply eqm_eq; ring].
    rewrite zinv_spec by (auto; lia). reflexivity.
  - nia.
Qed.

Lemma keygen_gcd p0 q0 : keygen_primes (prime_bits P) p0 q0 -> Z.gcd (p0 * q0) q = 1.
Proof.
  intros (Pp & Pq & _ & _ & _ & Rp & Rq).
  assert (Hq : 1 < q) by (destruct (so_conv _ HS); lia).
  assert (B : q < 3 * 2 ^ (prime_bits P - 2)).
  { pose proof (q_le S HG). assert (2 ^ sp_kappa S <= 2 ^ (prime_bits P - 2)) by (apply Z.pow_le_mono_r; destruct HS; lia). lia. }
  assert (G : forall p, prime p -> 3 * 2 ^ (prime_bits P - 2) <= p -> Z.gcd p q = 1).
  { intros p Hp Hle. apply Zgcd_1_rel_prime. apply rel_prime_sym, rel_prime_le_prime; auto. lia. }
  apply gcd_mul_1; apply G; tauto.
Qed.

Theorem any_claim (X : xof A (pt C)) (pub : dec_public C) setup aux p0 q0 x y rho s :
  xof_ok q X -> keygen_primes (prime_bits P) p0 q0 -> dp_pk0 pub = p0 * q0 ->
  2 <= dp_num_parties pub < 2 ^ 64 ->
  ct_pk (dp_cap_k pub) = dp_pk0 pub -> ct_pk (dp_cap_d pub) = dp_pk0 pub ->
  unit_ok (p0 * q0) (ct_val (dp_cap_k pub)) -> unit_ok (p0 * q0) rho ->
  affine_cipher (p0 * q0) (ct_val (dp_cap_k pub)) (- x) y rho (ct_val (dp_cap_d pub)) ->
  pm_interval (sp_l S) x -> Z.abs y <= p0 * q0 ->
  dp_cap_x pub = pmul C x (gen C) -> dp_cap_s pub = pmul C s (dp_cap_g pub) ->
  exists y', Z.abs y' <= p0 * q0 * q /\ eqm q y' s /\
    forall ms, length ms = Z.to_nat (sp_kappa S) -> Forall (lie_ok S (dp_pk0 pub) (dp_num_parties pub)) ms ->
      dec_verify S X (forge S X pub setup aux x y' rho ms) pub setup aux = Ret true.
Proof.
  intros HX K HN Hn E1 E2 Uk Ur Hd Hx Hy Hcx Hcs.
  pose proof (so_par _ HS) as HP.
  assert (N1 : 1 < p0 * q0) by apply (N_gt1 P p0 q0 HP K).
  assert (HM : modulus_ok S (p0 * q0)).
  { split; [exact N1|]. destruct K as (_ & _ & _ & _ & _ & Rp & Rq). destruct HS.
    rewrite so_mod2. replace (2 * prime_bits P) with (prime_bits P + prime_bits P) by lia.
    rewrite Z.pow_add_r by lia. assert (0 <= 2 ^ (prime_bits P - 2)) by (apply Z.pow_nonneg; lia). nia. }
  destruct (shift_to (p0 * q0) y s N1 (keygen_gcd _ _ K) Hy) as (t & Et & Bt).
  assert (Hq : 1 < q) by (destruct (so_conv _ HS); lia).
  exists (y + p0 * q0 * t). split; [exact Bt|]. split; [exact Et|].
  assert (Hd' : ct_val (dp_cap_d pub) = affv (dp_pk0 pub) (ct_val (dp_cap_k pub)) (- x) (y + p0 * q0 * t) rho).
  { rewrite HN, (affine_affv _ _ _ _ _ _ N1 (proj2 Uk) Hd). unfold affv. now rewrite encv_wrap by lia. }
  assert (Hx' : Z.abs x <= 2 ^ (sp_l S + sp_eps S - 2)).
  { unfold pm_interval in Hx.
    assert (2 ^ (sp_l S - 1) <= 2 ^ (sp_l S + sp_eps S - 2)) by (apply Z.pow_le_mono_r; destruct HS; lia). lia. }
  assert (Hy' : Z.abs (y + p0 * q0 * t) <= 2 ^ (dec_y_exp S (dp_num_parties pub) + sp_eps S - 2)).
  { transitivity (p0 * q0 * q); [exact Bt|]. transitivity (2 ^ modulus_bits P * 2 ^ sp_kappa S).
    - pose proof (q_le S HG). destruct HM. nia.
    - rewrite <- Z.pow_add_r by (destruct HS; lia). apply Z.pow_le_mono_r; [lia|]. now apply room. }
  assert (Hs' : dp_cap_s pub = pmul C (y + p0 * q0 * t) (dp_cap_g pub)).
  { rewrite Hcs. rewrite <- (pmul_mod q C HC s), <- (pmul_mod q C HC (y + _)) by lia. f_equal. symmetry. exact Et. }
  rewrite <- HN in Uk, Ur, HM.
  intros ms Hl Hms. now apply forge_ok.
Qed.

(** Below a quarter of the modulus the ciphertexts do pin the product. *)
Theorem small_pinned p0 q0 K D k x1 x2 y1 y2 :
  keygen_primes (prime_bits P) p0 q0 ->
  encrypts (p0 * q0) K k -> Z.abs k < 2 ^ (sp_l S + sp_eps S) ->
  encrypts (p0 * q0) D (y1 - k * x1) -> encrypts (p0 * q0) D (y2 - k * x2) ->
  Z.abs x1 < 2 ^ (sp_l S + sp_eps S) -> Z.abs x2 < 2 ^ (sp_l S + sp_eps S) ->
  x1 mod q = x2 mod q -> 4 * Z.abs y1 <= p0 * q0 -> 4 * Z.abs y2 <= p0 * q0 ->
  y1 mod q = y2 mod q.
Proof.
  intros HK _ Hk E1 E2 Hx1 Hx2 Ex Hy1 Hy2.
  pose proof (so_par _ HS) as HP.
  assert (N1 : 1 < p0 * q0) by apply (N_gt1 P p0 q0 HP HK).
  pose proof (encrypts_unique P p0 q0 HP HK _ _ _ E1 E2) as E.
  set (u := 2 ^ (sp_l S + sp_eps S)) in *.
  assert (Hu : 0 < u) by (apply Z.pow_pos_nonneg; destruct HS; lia).
  assert (Hbig : 4 * (u * (2 * u)) < p0 * q0).
  { destruct HK as (_ & _ & _ & _ & _ & Rp & Rq). set (v := 2 ^ (prime_bits P - 2)) in *.
    assert (Hv : 4 * u <= v).
    { unfold u, v. change 4 with (2 ^ 2). rewrite <- Z.pow_add_r by (destruct HS; lia).
      apply Z.pow_le_mono_r; destruct HS; lia. }
    assert (3 * v * (3 * v) <= p0 * q0) by (apply Z.mul_le_mono_nonneg; lia). nia. }
  assert (Hkx : Z.abs (k * (x1 - x2)) <= u * (2 * u)).
  { rewrite Z.abs_mul. apply Z.mul_le_mono_nonneg; lia. }
  assert (E0 : y1 - y2 = k * (x1 - x2)).
  { apply eqm_divide in E; [|lia]. destruct E as (c & Ec).
    assert (c = 0); [|subst c; lia].
    assert (Hc : Z.abs (c * (p0 * q0)) < p0 * q0) by lia.
    rewrite Z.abs_mul in Hc. nia. }
  pose proof (q_le S HG). apply eqm_divide in Ex; [|lia]. destruct Ex as (c & Ec). apply eqm_divide; [lia|]. exists (k * c). rewrite E0, Ec. ring.
Qed.
End Forge.
