(** * Concrete instances used beside the theorems: certified primes, a toy
    curve, constant hash oracles, small self-consistent parameters. *)
From Coq Require Import ZArith Znumtheory List Bool Lia Eqdep_dec.
From Verif Require Import Base ModArith RsaFacts SignedModel SignedSpec PaillierModel PaillierSpec PaillierProofs RpProofs ZkBase.
Import ListNotations.
Open Scope Z_scope.

(** ** Certified primes *)

Fixpoint trial (k : nat) (d n : Z) : bool :=
  match k with
  | O => true
  | S k' => if n mod d =? 0 then false else trial k' (d + 1) n
  end.
Lemma trial_ok k : forall d n, 0 < d -> trial k d n = true -> forall x, d <= x < d + Z.of_nat k -> ~ (x | n).
Proof.
  induction k as [|k IH]; intros d n Hd H x Hx; [lia|].
  cbn [trial] in H. destruct (Z.eqb_spec (n mod d) 0) as [|E]; [discriminate|].
  destruct (Z.eq_dec x d) as [->|Hne].
  - intros Hdiv. apply E. apply Z.mod_divide; [lia|auto].
  - apply (IH (d + 1) n); auto; lia.
Qed.
(** Trial division up to the square root. *)
Lemma trial_prime k n : 1 < n -> n < Z.of_nat k * Z.of_nat k -> trial k 2 n = true -> prime n.
Proof.
  intros H1 Hk Ht. apply prime_alt. split; auto. intros x Hx (y & Hy).
  assert (Hlow : forall z, 2 <= z < 2 + Z.of_nat k -> ~ (z | n)) by (apply trial_ok; [lia|auto]).
  assert (Hy2 : 2 <= y) by nia.
  destruct (Z_lt_le_dec x (2 + Z.of_nat k)) as [Hs|Hs].
  - apply (Hlow x); [lia|]. exists y. lia.
  - apply (Hlow y); [nia|]. exists x. lia.
Qed.

Lemma powm_pos_ok m a e : 0 < m -> powm_pos m a e = (a ^ Zpos e) mod m.
Proof.
  intros Hm. induction e as [e IH|e IH|]; cbn [powm_pos].
  - rewrite IH, Pos2Z.inj_xI, Z.pow_add_r, Z.mul_comm, Z.pow_1_r by lia.
    rewrite Z.pow_mul_r by lia. rewrite (Z.pow_2_r a), Z.pow_mul_l.
    rewrite Zmult_mod_idemp_r, (Z.mul_comm a). rewrite <- Zmult_mod_idemp_l.
    rewrite <- (Zmult_mod (a ^ Zpos e) (a ^ Zpos e) m). rewrite Zmult_mod_idemp_l. reflexivity.
  - rewrite IH, Pos2Z.inj_xO, Z.pow_mul_r by lia.
    rewrite (Z.pow_2_r a), Z.pow_mul_l. symmetry. apply Zmult_mod.
  - rewrite Z.pow_1_r. reflexivity.
Qed.

Lemma prime_factor : forall n, 1 < n -> exists p, prime p /\ (p | n).
Proof.
  intros n. assert (H : 0 <= n \/ n < 0) by lia. destruct H as [H|H]; [|lia].
  revert n H. apply (Z_lt_induction (fun n => 1 < n -> exists p, prime p /\ (p | n))).
  intros n IH Hn. destruct (prime_dec n) as [Hp|Hp].
  - exists n. split; auto. apply Z.divide_refl.
  - destruct (not_prime_divide n Hn Hp) as (d & Hd & Dd).
    destruct (IH d ltac:(lia) ltac:(lia)) as (p & Pp & Dp).
    exists p. split; auto. eapply Z.divide_trans; eauto.
Qed.

(** Pocklington's criterion with one large prime factor [r] of [n - 1]. *)
Lemma pocklington n r h a : 1 < n -> prime r -> n - 1 = r * h -> 0 < h -> n < r * r ->
  powm_pos n a (Z.to_pos (n - 1)) = 1 -> Z.gcd (powm_pos n a (Z.to_pos h) - 1) n = 1 -> prime n.
Proof.
  intros Hn Hr Hf Hh Hrr Hp Hg.
  rewrite powm_pos_ok, Z2Pos.id in Hp by lia. rewrite powm_pos_ok, Z2Pos.id in Hg by lia.
  pose proof (prime_ge_2 _ Hr) as Hr2.
  apply prime_alt. split; auto. intros x Hx Hdx.
  (* every prime factor of n exceeds the square root *)
  assert (Big : forall p, prime p -> (p | n) -> r < p).
  { intros p Pp Dp. pose proof (prime_ge_2 _ Pp) as Hp2.
    assert (R : forall u v, u mod n = v mod n -> eqm p u v).
    { intros u v E. destruct Dp as (k & Hk). unfold eqm.
      assert (W : u = v + (u / n - v / n) * k * p).
      { pose proof (Z.div_mod u n ltac:(lia)). pose proof (Z.div_mod v n ltac:(lia)). nia. }
      rewrite W. apply Z.mod_add. lia. }
    set (b := a ^ h).
    assert (Hb1 : eqm p (b ^ r) 1).
    { unfold b. rewrite <- Z.pow_mul_r by lia. replace (h * r) with (n - 1) by lia. apply R.
      rewrite Hp, Z.mod_small; lia. }
    assert (Hbne : ~ eqm p b 1).
    { intros E. assert (D : (p | b mod n - 1)).
      { apply Z.mod_divide; [lia|]. rewrite Zminus_mod.
        replace ((b mod n) mod p) with (b mod p). 2:{ apply R. rewrite Z.mod_mod; lia. }
        unfold eqm in E. rewrite E, Z.sub_diag. apply Z.mod_0_l. lia. }
      assert (D2 : (p | 1)). { rewrite <- Hg. apply Z.gcd_greatest; auto. }
      apply Z.divide_1_r_nonneg in D2; lia. }
    assert (Hbu : Z.gcd b p = 1).
    { apply prime_gcd; auto. intros D. apply Z.mod_divide in D; [|lia].
      assert (E0 : eqm p b 0) by (unfold eqm; rewrite D, Z.mod_0_l by lia; reflexivity).
      rewrite E0, Z.pow_0_l in Hb1 by lia. unfold eqm in Hb1. rewrite Z.mod_0_l, Z.mod_1_l in Hb1 by lia. lia. }
    pose proof (fermat_unit p b Pp Hbu) as Hfer.
    destruct (Zdivide_dec r (p - 1)) as [Hk|Hnd].
    { apply Z.divide_pos_le in Hk; lia. }
    exfalso.
    destruct (Zis_gcd_bezout r (p - 1) 1) as [u v Huv].
    { apply prime_rel_prime; auto. }
    apply Hbne.
    assert (Hp0 : 0 < p) by lia.
    assert (Z1 : eqm p (zpow p b (u * r + v * (p - 1))) 1).
    { rewrite zpow_add by auto. rewrite !(Z.mul_comm _ r), !(Z.mul_comm _ (p - 1)), !zpow_mul by auto.
      rewrite (zpow_eqm p (zpow p b r) 1), (zpow_eqm p (zpow p b (p - 1)) 1), !zpow_base1; auto.
      all: first [reflexivity | apply zpow_gcd; auto; fail | rewrite zpow_nonneg by lia; assumption]. }
    rewrite Huv in Z1. rewrite <- Z1, zpow_nonneg by lia. rewrite Z.pow_1_r. reflexivity. }
  destruct Hdx as (y & Hy). assert (Hy2 : 1 < y) by nia.
  destruct (prime_factor x ltac:(lia)) as (p1 & Q1 & D1).
  destruct (prime_factor y ltac:(lia)) as (p2 & Q2 & D2).
  assert (r < p1). { apply Big; auto. rewrite Hy. apply Z.divide_mul_r. auto. }
  assert (r < p2). { apply Big; auto. rewrite Hy. apply Z.divide_mul_l. auto. }
  apply Z.divide_pos_le in D1, D2; nia.
Qed.


(** Four primes of 66 bits, congruent to 3 modulo 4. *)
Definition toy_p0 : Z := 55340233925894895067.
Definition toy_q0 : Z := 55340233310793243451.
Definition toy_p1 : Z := 55340232611068126459.
Definition toy_q1 : Z := 55340234717090324927.
Ltac pock r h :=
  apply (pocklington _ r h 2); [lia| |reflexivity|lia|lia|vm_compute; reflexivity|vm_compute; reflexivity].
Lemma toy_p0_prime : prime toy_p0.
Proof.
  unfold toy_p0. pock 8591310733 6441419202. pock 131101 65532.
  apply (trial_prime 400); [lia|lia|vm_compute; reflexivity].
Qed.
Lemma toy_q0_prime : prime toy_q0.
Proof.
  unfold toy_q0. pock 8591054099 6441611550. pock 136111 63118.
  apply (trial_prime 400); [lia|lia|vm_compute; reflexivity].
Qed.
Lemma toy_p1_prime : prime toy_p1.
Proof.
  unfold toy_p1. pock 8590881997 6441740514. pock 141121 60876.
  apply (trial_prime 400); [lia|lia|vm_compute; reflexivity].
Qed.
Lemma toy_q1_prime : prime toy_q1.
Proof.
  unfold toy_q1. pock 8591629391 6441180386. pock 146141 58790.
  apply (trial_prime 400); [lia|lia|vm_compute; reflexivity].
Qed.
Lemma toy_keygen0 : keygen_primes 66 toy_p0 toy_q0.
Proof.
  split; [exact toy_p0_prime|]. split; [exact toy_q0_prime|]. unfold toy_p0, toy_q0.
  repeat split; vm_compute; congruence.
Qed.
Lemma toy_keygen1 : keygen_primes 66 toy_p1 toy_q1.
Proof.
  split; [exact toy_p1_prime|]. split; [exact toy_q1_prime|]. unfold toy_p1, toy_q1.
  repeat split; vm_compute; congruence.
Qed.

(** ** The additive group modulo [q] as a toy curve *)

Section Zq.
Variable q : Z.
Hypothesis Hq : 1 < q.
Definition zq : Type := { x : Z | x mod q = x }.
Definition zq_mk (x : Z) : zq := exist _ (x mod q) (Zmod_mod x q).
Lemma zq_eq (x y : zq) : proj1_sig x = proj1_sig y -> x = y.
Proof.
  destruct x as [x Hx], y as [y Hy]. cbn. intros ->. f_equal. apply UIP_dec. apply Z.eq_dec.
Qed.
Definition zq_curve : curve :=
  {| pt := zq; p0 := zq_mk 0; padd := fun x y => zq_mk (proj1_sig x + proj1_sig y);
     popp := fun x => zq_mk (- proj1_sig x); pmul := fun a x => zq_mk (a * proj1_sig x);
     peqb := fun x y => proj1_sig x =? proj1_sig y; gen := zq_mk 1 |}.
Lemma zq_curve_ok : curve_ok q zq_curve.
Proof.
  split; cbn [pt p0 padd popp pmul peqb gen zq_curve]; intros.
  - apply zq_eq. cbn -[Z.modulo Z.add Z.mul Z.opp]. rewrite Zplus_mod_idemp_r, Zplus_mod_idemp_l. f_equal. lia.
  - apply zq_eq. cbn -[Z.modulo Z.add Z.mul Z.opp]. f_equal. lia.
  - apply zq_eq. cbn -[Z.modulo Z.add Z.mul Z.opp]. rewrite Zplus_mod_idemp_r, Z.add_0_r. apply proj2_sig.
  - apply zq_eq. cbn -[Z.modulo Z.add Z.mul Z.opp]. rewrite Zplus_mod_idemp_r. f_equal. lia.
  - apply zq_eq. cbn -[Z.modulo Z.add Z.mul Z.opp]. rewrite Zplus_mod_idemp_r, Zplus_mod_idemp_l. f_equal. lia.
  - apply zq_eq. cbn -[Z.modulo Z.add Z.mul Z.opp]. rewrite Zplus_mod_idemp_r, Zplus_mod_idemp_l, Zmult_mod_idemp_r. f_equal. lia.
  - apply zq_eq. cbn -[Z.modulo Z.add Z.mul Z.opp]. rewrite Zmult_mod_idemp_r. f_equal. lia.
  - apply zq_eq. cbn -[Z.modulo Z.add Z.mul Z.opp]. rewrite Z.mul_1_l. apply proj2_sig.
  - apply zq_eq. cbn -[Z.modulo Z.add Z.mul Z.opp]. rewrite Z.mul_comm, Z_mod_mult. reflexivity.
  - rewrite Z.eqb_eq. split; [apply zq_eq|congruence].
Qed.
End Zq.

(** ** Constant oracles *)

Definition const_xof {A T} (sc : Z) (b : bool) (u : Z) : xof A T :=
  {| x_scalar := fun _ _ => sc; x_bits := fun _ _ n => repeat b n;
     x_uint := fun _ _ n => u mod 2 ^ n; x_residues := fun _ _ N n => repeat (if (Z.gcd u N =? 1) && (0 <=? u) && (u <? 2 ^ bits N) then u else 1) n;
     x_is_prime := fun _ _ _ => false |}.
Lemma const_xof_ok {A T} q sc b u : 0 <= sc < q -> xof_ok q (@const_xof A T sc b u).
Proof.
  intros Hs. split; cbn; intros; auto.
  - apply repeat_length.
  - apply Z.mod_pos_bound. apply Z.pow_pos_nonneg; lia.
  - split; [apply repeat_length|]. apply Forall_forall. intros y Hy. apply repeat_spec in Hy.
    destruct ((Z.gcd u N =? 1) && (0 <=? u) && (u <? 2 ^ bits N)) eqn:E; subst.
    { rewrite !andb_true_iff, Z.eqb_eq, Z.leb_le, Z.ltb_lt in E. intuition lia. }
    split; [|apply Z.gcd_1_l]. split; [lia|]. apply Z.pow_gt_1; [lia|].
    unfold bits. destruct (Z.leb_spec N 0); [lia|]. pose proof (Z.log2_nonneg N). lia.
Qed.

(** ** Small self-consistent parameters: order 7, 66-bit primes *)

Definition toy_S : sparams := SParams (PParams 66 132 128 256 512) 512 7 3 1 4 8 16 3 21 87 24.
Lemma toy_S_ok : sp_compiles toy_S = true /\ sp_self_consistent toy_S = true.
Proof. vm_compute. auto. Qed.
Notation toyC := (zq_curve 7).
Notation toyX := (@const_xof unit (pt toyC)).

(** ** Fast checks of the specification relations on concrete numbers *)

Definition fpow (m b e : Z) : Z :=
  match e with
  | Z0 => 1 mod m
  | Zpos p => powm_pos m b p
  | Zneg p => powm_pos m (zinv m b) p
  end.
Lemma fpow_ok m b e : 0 < m -> fpow m b e = zpow m b e.
Proof.
  intros Hm. unfold fpow, zpow. destruct e; cbn [Z.ltb Z.compare].
  - reflexivity.
  - apply powm_pos_ok; auto.
  - rewrite powm_pos_ok by auto. reflexivity.
Qed.
Lemma unit_power_fast m b v r : 1 < m -> Z.gcd b m = 1 -> fpow m b v = r -> unit_power m b v r.
Proof. intros Hm Hg <-. apply unit_power_zpow; auto. apply fpow_ok. lia. Qed.
Lemma rp_opens_fast N s t v r c : 1 < N -> Z.gcd s N = 1 -> Z.gcd t N = 1 ->
  (fpow N s v * fpow N t r) mod N = c -> rp_opens N s t v r c.
Proof.
  intros HN Hs Ht <-. rewrite !fpow_ok by lia. apply rp_opens_comv; auto.
Qed.
Lemma paillier_fast N m rho c : 1 < N -> ((1 + m * N) * fpow (N * N) rho N) mod (N * N) = c ->
  paillier_cipher N m rho c.
Proof.
  intros HN <-. apply encv_textbook; auto. rewrite fpow_ok by nia. unfold encv, zpow.
  destruct (Z.ltb_spec N 0); [lia|]. rewrite Zmult_mod_idemp_r. reflexivity.
Qed.
