(** * Assembled lemmas behind the integer and encoding properties C01-C15. *)
From Coq Require Import ZArith List Bool Lia Permutation.
From Verif Require Import Base BaseFacts SignedModel SignedSpec SignedProofs EncodingModel EncodingProofs ConversionModel ConversionProofs.
Import ListNotations.
Open Scope Z_scope.

Lemma signed_add_sub_exact w x y : wf w x -> wf w y ->
  (sec_checked_add w x y = None <-> w <= Z.max (bound x) (bound y) + 1) /\
  (sec_checked_sub w x y = None <-> w <= Z.max (bound x) (bound y) + 1) /\
  (forall z, sec_checked_add w x y = Some z -> wf w z /\ sval w z = sval w x + sval w y) /\
  (forall z, sec_checked_sub w x y = Some z -> wf w z /\ sval w z = sval w x - sval w y).
Proof.
  intros Hx Hy. destruct (checked_add_spec w x y Hx Hy) as [A1 A2].
  destruct (checked_sub_spec w x y Hx Hy) as [S1 S2].
  split; auto. split; auto. split; intros z Hz; [apply A2 in Hz|apply S2 in Hz]; tauto.
Qed.

Lemma signed_operators w x y : wf w x -> wf w y ->
  (sec_add w x y = Panic <-> w <= Z.max (bound x) (bound y) + 1) /\
  (sec_sub w x y = Panic <-> w <= Z.max (bound x) (bound y) + 1) /\
  (sec_mul w x y = Panic <-> w <= bound x + bound y) /\
  (forall z, sec_add w x y = Ret z -> wf w z /\ sval w z = sval w x + sval w y) /\
  (forall z, sec_sub w x y = Ret z -> wf w z /\ sval w z = sval w x - sval w y) /\
  (forall z, sec_mul w x y = Ret z -> wf w z /\ sval w z = sval w x * sval w y).
Proof.
  intros Hx Hy. destruct (checked_add_spec w x y Hx Hy) as [A1 A2].
  destruct (checked_sub_spec w x y Hx Hy) as [S1 S2].
  destruct (checked_mul_spec w x y Hx Hy) as [M1 M2].
  unfold sec_add, sec_sub, sec_mul.
  repeat match goal with |- _ /\ _ => split end.
  - rewrite <- A1; destruct (sec_checked_add w x y); cbn; split; congruence.
  - rewrite <- S1; destruct (sec_checked_sub w x y); cbn; split; congruence.
  - rewrite <- M1; destruct (sec_checked_mul w x y); cbn; split; congruence.
  - destruct (sec_checked_add w x y) eqn:E; cbn; intros z Hz; inversion Hz; subst. destruct (A2 _ eq_refl); tauto.
  - destruct (sec_checked_sub w x y) eqn:E; cbn; intros z Hz; inversion Hz; subst. destruct (S2 _ eq_refl); tauto.
  - destruct (sec_checked_mul w x y) eqn:E; cbn; intros z Hz; inversion Hz; subst. destruct (M2 _ eq_refl); tauto.
Qed.

Definition zsum (l : list Z) : Z := fold_right Z.add 0 l.

Lemma fold_left_add_zsum {A} (f : A -> Z) l a : fold_left (fun a x => a + f x) l a = a + zsum (map f l).
Proof.
  revert a; induction l as [|x l IH]; intros a; [cbn; lia|].
  cbn [fold_left map]. rewrite IH. change (zsum (f x :: map f l)) with (f x + zsum (map f l)). lia.
Qed.

Lemma signed_sum_exact w l z : 1 <= w -> Forall (wf w) l -> sec_sum w l = Ret z ->
  wf w z /\ sval w z = zsum (map (sval w) l).
Proof.
  intros Hw Hl E. apply sec_sum_spec in E; auto.
  rewrite fold_left_add_zsum in E. cbn in E. auto.
Qed.

Lemma signed_mul_exact w x y : wf w x -> wf w y ->
  (sec_checked_mul w x y = None <-> w <= bound x + bound y) /\
  (forall z, sec_checked_mul w x y = Some z -> wf w z /\ sval w z = sval w x * sval w y).
Proof.
  intros Hx Hy. destruct (checked_mul_spec w x y Hx Hy) as [M1 M2].
  split; auto. intros z Hz. apply M2 in Hz; tauto.
Qed.

Lemma signed_mul_wide_exact w wr x y : wf w x -> wf wr y ->
  exists z, sec_mul_wide_public w wr x y = Ret z /\ wf (w + wr) z /\
    sval (w + wr) z = sval w x * sval wr y.
Proof.
  intros Hx Hy. destruct (mul_wide_spec w wr x y Hx Hy) as (z & E & W & V & _). eauto.
Qed.

Lemma constructors_bounded w v b neg x : 2 <= w -> 0 <= v < 2 ^ w -> 0 <= b ->
  (sec_new_from_unsigned w v b = Some x \/ pub_new_from_unsigned w v b = Some x \/
   sec_new_from_abs w v b neg = Some x \/ pub_new_from_abs w v b neg = Some x \/
   pub_new_positive w v b = Some x \/ x = s_zero \/ x = pub_one) -> wf w x.
Proof.
  intros Hw Hv Hb H. pose proof (pow2_pos w ltac:(lia)).
  destruct H as [H|[H|[H|[H|[H|[H|H]]]]]].
  - apply sec_new_from_unsigned_iff in H; try lia; tauto.
  - rewrite pub_new_from_unsigned_eq in H. apply sec_new_from_unsigned_iff in H; try lia; tauto.
  - unfold sec_new_from_abs in H. apply sec_new_from_unsigned_iff in H; try lia; try tauto.
    destruct neg; auto. apply Z.mod_pos_bound; auto.
  - apply pub_new_from_abs_spec in H; try lia; tauto.
  - apply pub_new_from_abs_spec in H; try lia; tauto.
  - subst. apply s_zero_wf; lia.
  - subst. apply pub_one_wf; lia.
Qed.

Lemma constructors_value w v b : 1 <= w -> 0 <= b ->
  (0 <= v < 2 ^ w ->
     (sec_new_from_unsigned w v b = None <-> w <= b \/ 2 ^ b <= Z.abs (twos w v)) /\
     pub_new_from_unsigned w v b = sec_new_from_unsigned w v b /\
     (forall x, sec_new_from_unsigned w v b = Some x -> sval w x = twos w v /\ bound x = b)) /\
  (0 <= v < 2 ^ w -> forall neg,
     (pub_new_from_abs w v b neg = None <-> w <= b \/ 2 ^ b <= v) /\
     (forall x, pub_new_from_abs w v b neg = Some x -> sval w x = (if neg then - v else v) /\ bound x = b)) /\
  (0 <= v < 2 ^ (w - 1) -> forall neg x,
     sec_new_from_abs w v b neg = Some x -> sval w x = (if neg then - v else v) /\ bound x = b).
Proof.
  intros Hw Hb. split; [|split]; intros Hv.
  - split; [apply new_from_unsigned_None; auto|]. split; [apply pub_new_from_unsigned_eq|].
    intros x Hx. apply sec_new_from_unsigned_iff in Hx as [-> _]; auto.
  - intros neg. split; [apply pub_new_from_abs_None; lia|].
    intros x Hx. apply pub_new_from_abs_spec in Hx; try lia; tauto.
  - intros neg x Hx. apply sec_new_from_abs_spec in Hx; auto; tauto.
Qed.

Lemma new_positive_exact w v b x : 1 <= w -> 0 <= v < 2 ^ w -> 0 <= b ->
  sec_new_positive w v b = Some x ->
  sval w x = v /\ bound x = b /\ (wf w x <-> v < 2 ^ b) /\
  (sec_to_public w x = Ret x <-> v < 2 ^ b) /\ (sec_to_public w x = Panic <-> 2 ^ b <= v).
Proof.
  intros Hw Hv Hb H. pose proof (sec_new_positive_wf w v b x Hw Hv Hb H) as [W V].
  apply sec_new_positive_spec in H as (-> & Hbw & Hm); auto.
  pose proof (sec_to_public_spec w (mkS b v) Hw Hv Hb) as [P1 P2].
  split; auto. split; auto. split; auto. split.
  - rewrite P1; auto.
  - rewrite P2, W. lia.
Qed.

Lemma new_positive_breaks_bound :
  exists w v b x, 1 <= w /\ 0 <= v < 2 ^ w /\ 0 <= b /\
    sec_new_positive w v b = Some x /\ ~ wf w x /\ sec_to_public w x = Panic.
Proof.
  exists 64, 1000, 3, (mkS 3 1000). split; [lia|]. split; [lia|]. split; [lia|].
  split; [vm_compute; reflexivity|]. split; [|vm_compute; reflexivity].
  intros (_ & _ & H). vm_compute in H. discriminate.
Qed.

Lemma range_check_exact w x e : wf w x -> 1 <= e <= w ->
  exists b, sec_in_range w x e = Ret b /\ pub_in_range w x e = Ret b /\
    (b = true <-> pm_interval e (sval w x)).
Proof.
  intros Hx He. destruct (pub_in_range_spec w x e Hx He) as (b & Hp & Hb).
  exists b. rewrite range_checks_agree by auto. auto.
Qed.

Lemma range_check_edges w x e : wf w x -> 0 <= e ->
  (pub_in_range w x e = Panic <-> e = 0 \/ w < e) /\
  (sec_in_range w x e = Panic <-> e = 0) /\
  (w < e -> sec_in_range w x e = Ret true).
Proof.
  intros Hx He. split; [apply pub_in_range_panic; auto|]. split.
  - destruct (Z.eq_dec e 0) as [->|].
    + split; auto. intros _. unfold sec_in_range. rewrite sec_abs_spec by auto. reflexivity.
    + destruct (sec_in_range_spec w x e Hx ltac:(lia)) as (b & -> & _). split; [discriminate|lia].
  - intros Hlt. destruct (sec_in_range_spec w x e Hx) as (b & -> & H); [destruct Hx as (_ & ? & _); lia|].
    f_equal. tauto.
Qed.

Lemma ensure_range_exact w x e : wf w x -> 1 <= e < w - 1 ->
  (pm_interval e (sval w x) ->
     exists y, sec_ensure_range w x e = Ret (Some y) /\ wf w y /\ sval w y = sval w x /\ bound y = e + 1) /\
  (~ pm_interval e (sval w x) -> sec_ensure_range w x e = Ret None) /\
  (sec_assert_range w x e = Ret tt <-> pm_interval e (sval w x)) /\
  (sec_assert_range w x e = Panic <-> ~ pm_interval e (sval w x)).
Proof.
  intros Hx He. destruct (sec_ensure_range_spec w x e Hx ltac:(lia)) as (r & Er & Hr).
  split; [|split].
  - intros P. destruct r as [y|].
    + exists y. tauto.
    + destruct Hr; [lia|contradiction].
  - intros P. destruct r as [y|]; auto. tauto.
  - unfold sec_assert_range. destruct (range_check_exact w x e Hx ltac:(lia)) as (b & -> & _ & Hb).
    cbn [obind]. destruct b; cbn [oassert].
    + assert (P : pm_interval e (sval w x)) by (apply Hb; auto).
      split; split; intros H; auto; try discriminate; contradiction.
    + assert (P : ~ pm_interval e (sval w x)) by (intros P; apply Hb in P; discriminate).
      split; split; intros H; auto; try discriminate; contradiction.
Qed.

Lemma sampling_bijective w e : 0 < e < w ->
  (forall draw, 0 <= draw < 2 ^ e ->
     exists x, sec_random_range w e draw = Ret x /\ wf w x /\ bound x = e /\ pm_interval e (sval w x)) /\
  (forall v, pm_interval e v ->
     exists draw, 0 <= draw < 2 ^ e /\
       (exists x, sec_random_range w e draw = Ret x /\ sval w x = v) /\
       forall draw' x', 0 <= draw' < 2 ^ e -> sec_random_range w e draw' = Ret x' -> sval w x' = v -> draw' = draw).
Proof.
  intros He. pose proof (pow2_pred e ltac:(lia)). unfold pm_interval. split.
  - intros d Hd. destruct (random_range_spec w e d He Hd) as (x & E & W & B & V).
    exists x. rewrite V. repeat split; auto; try apply W; lia.
  - intros v Hv. exists (v + (2 ^ (e - 1) - 1)). split; [lia|]. split.
    + destruct (random_range_spec w e (v + (2 ^ (e - 1) - 1)) He ltac:(lia)) as (x & E & W & B & V).
      exists x. split; auto. lia.
    + intros d x' Hd E V'. destruct (random_range_spec w e d He Hd) as (x & E' & W & B & V).
      rewrite E in E'. inversion E'; subst. lia.
Qed.

Lemma sampling_limit w e : 0 < e < w -> sec_random_range_limit w e = 2 ^ e.
Proof.
  intros. unfold sec_random_range_limit. rewrite Z.mul_1_l. apply Z.mod_small.
  pose proof (pow2_lt e w). pose proof (pow2_pos e). lia.
Qed.

Lemma sampling_scaled_bijective w ww e scale : 0 < e < w -> w <= ww -> 0 < scale -> e + bits scale < ww ->
  sec_random_range_scaled_limit ww e scale = scale * 2 ^ e /\
  (forall draw, 0 <= draw < scale * 2 ^ e ->
     exists x, sec_random_range_scaled w ww e scale draw = Ret x /\
       sec_random_range_scaled_wide w ww e scale draw = Ret x /\ wf ww x /\ bound x = e + bits scale /\
       - scale * 2 ^ (e - 1) + 1 <= sval ww x <= scale * 2 ^ (e - 1)) /\
  (forall v, - scale * 2 ^ (e - 1) + 1 <= v <= scale * 2 ^ (e - 1) ->
     exists draw, 0 <= draw < scale * 2 ^ e /\
       (exists x, sec_random_range_scaled w ww e scale draw = Ret x /\ sval ww x = v) /\
       forall draw' x', 0 <= draw' < scale * 2 ^ e -> sec_random_range_scaled w ww e scale draw' = Ret x' ->
          sval ww x' = v -> draw' = draw).
Proof.
  intros He Hw Hs Hfit. pose proof (pow2_pred e ltac:(lia)) as Hp.
  split; [|split].
  - unfold sec_random_range_scaled_limit. apply Z.mod_small.
    pose proof (bits_lt_pow scale ltac:(lia)). pose proof (bits_nonneg scale).
    pose proof (pow2_lt (e + bits scale) ww ltac:(lia) ltac:(lia)).
    rewrite Z.pow_add_r in H1 by lia. pose proof (pow2_pos e ltac:(lia)). nia.
  - intros d Hd. destruct (random_range_scaled_spec w ww e scale d He Hw Hs Hfit Hd) as (x & E & W & B & V).
    exists x. rewrite V. split; auto. split; [exact E|]. split; auto. split; auto. lia.
  - intros v Hv. exists (v + (scale * 2 ^ (e - 1) - 1)).
    assert (Hd : 0 <= v + (scale * 2 ^ (e - 1) - 1) < scale * 2 ^ e) by lia.
    split; auto. split.
    + destruct (random_range_scaled_spec w ww e scale _ He Hw Hs Hfit Hd) as (x & E & W & B & V).
      exists x. split; auto. lia.
    + intros d x' Hd' E V'. destruct (random_range_scaled_spec w ww e scale d He Hw Hs Hfit Hd') as (x & E' & W & B & V).
      rewrite E in E'. inversion E'; subst. lia.
Qed.

Lemma centred_reduction w m mbits v : 1 <= w -> 0 < m < 2 ^ w -> 0 <= v < m -> 1 <= mbits <= w -> m < 2 ^ mbits ->
  forall r, sec_new_modulo w v m mbits = Ret r ->
  match r with
  | Some x => wf w x /\ sval w x mod m = v /\ - m < 2 * sval w x <= m /\ bound x = mbits - 1
  | None => (* only a power-of-two half can hit the excluded bound *)
            2 * v = m /\ m = 2 ^ mbits
  end.
Proof.
  intros Hw Hm Hv Hb Hmb r Hr.
  destruct (new_modulo_spec w m mbits v Hw Hm Hv ltac:(lia)) as (r' & E & H).
  rewrite E in Hr; inversion Hr; subst; clear Hr. cbv zeta in H.
  set (c := if m / 2 <? v then v - m else v) in *.
  pose proof (Z.div_mod m 2 ltac:(lia)) as Hdm. pose proof (Z.mod_pos_bound m 2 ltac:(lia)) as Hmm.
  assert (Hc : - m < 2 * c <= m /\ (c = v \/ c = v - m)).
  { unfold c. destruct (Z.ltb_spec (m / 2) v); lia. }
  destruct H as [(A & B & x & -> & W & V & Bd)|(-> & A)].
  - split; auto. rewrite V. split; [|split; [lia|auto]].
    destruct Hc as [_ [-> | ->]].
    + apply Z.mod_small; lia.
    + apply (mod_unique _ _ _ (-1)); lia.
  - rewrite (pow2_pred mbits) in Hmb |- * by lia. lia.
Qed.

Lemma new_modulo_total w m mbits v : 1 <= w -> 0 < m < 2 ^ w -> 0 <= v < m -> 1 <= mbits <= w -> m < 2 ^ mbits ->
  exists x, sec_new_modulo w v m mbits = Ret (Some x).
Proof.
  intros Hw Hm Hv Hb Hmb.
  destruct (new_modulo_spec w m mbits v Hw Hm Hv ltac:(lia)) as (r' & E & H).
  pose proof (centred_reduction w m mbits v Hw Hm Hv Hb Hmb r' E).
  destruct r'; eauto. lia.
Qed.

Lemma centred_unique m v a b : 0 < m -> a mod m = v -> b mod m = v ->
  - m < 2 * a <= m -> - m < 2 * b <= m -> a = b.
Proof.
  intros Hm Ha Hb H1 H2.
  pose proof (Z.div_mod a m ltac:(lia)). pose proof (Z.div_mod b m ltac:(lia)).
  rewrite Ha in H. rewrite Hb in H0. assert (a / m = b / m); [|congruence]. nia.
Qed.

Lemma widening_preserves w ww x : w <= ww -> wf w x ->
  (exists z, sec_to_wide w ww x = Ret z /\ wf ww z /\ sval ww z = sval w x /\ bound z = bound x) /\
  (exists z, pub_to_wide w ww x = Ret z /\ wf ww z /\ sval ww z = sval w x /\ bound z = bound x) /\
  sec_to_public w x = Ret x /\
  sec_abs w x = Ret (mkU (bound x) (Z.abs (sval w x))) /\
  pub_abs w x = Z.abs (sval w x) /\
  (wf w (sec_neg w x) /\ sval w (sec_neg w x) = - sval w x) /\
  (wf w (pub_neg w x) /\ sval w (pub_neg w x) = - sval w x).
Proof.
  intros Hw Hx. pose proof Hx as (Hu & Hb & _).
  split; [apply sec_to_wide_spec; auto|]. split; [apply pub_to_wide_spec; auto|].
  split; [apply sec_to_public_spec; auto; lia|].
  split; [apply sec_abs_spec; auto|].
  split; [apply pub_abs_spec; auto; lia|].
  split; [apply sec_neg_spec; auto|]. rewrite pub_neg_sec. apply sec_neg_spec; auto.
Qed.

Lemma wire_signed_stable L p x : (0 < L)%nat -> 0 <= p_bound p -> Forall byte_ok (p_bytes p) ->
  unpack_signed L p = Ret (Some x) ->
  exists p', pack_signed L x = Ret p' /\ unpack_signed L p' = Ret (Some x).
Proof.
  intros HL Hb Hbytes H. destruct (signed_wire_adversarial L p HL Hb Hbytes) as (r & E & W).
  rewrite H in E; inversion E; subst. destruct (W x eq_refl) as (Wx & _).
  apply signed_wire_round_trip; auto.
Qed.

Lemma bitvec_not_injective : exists p p' v, p <> p' /\ bitvec_unpack p = Some v /\ bitvec_unpack p' = Some v.
Proof.
  exists (mkPB 3 [160]), (mkPB 3 [191]), [true; false; true]. split; [discriminate|]. split; vm_compute; reflexivity.
Qed.

Lemma xof_residue_can_exceed : exists n draws r, 1 < n /\ Z.odd n = true /\
  Forall (fun d => 0 <= d < 2 ^ bits n) draws /\
  invertible_from_xof n draws = Some r /\ n <= r.
Proof.
  exists 33, [37], 37. split; [lia|]. split; [reflexivity|]. split.
  - constructor; [|constructor]. vm_compute. split; [discriminate|reflexivity].
  - split; [vm_compute; reflexivity|lia].
Qed.

Lemma xof_residue n draws r : 1 < n ->
  Forall (fun d => 0 <= d < 2 ^ bits n) draws ->
  invertible_from_xof n draws = Some r ->
  Z.gcd r n = 1 /\ 0 <= r < 2 ^ bits n /\ r < 2 * n.
Proof.
  intros Hn Hd H. apply invertible_from_xof_spec in H as [G I].
  rewrite Forall_forall in Hd. apply Hd in I. split; auto. split; auto.
  pose proof (bits_spec n ltac:(lia)). pose proof (pow2_pred (bits n)).
  assert (0 < bits n). { unfold bits. destruct (Z.leb_spec n 0); [lia|]. pose proof (Z.log2_nonneg n); lia. }
  lia.
Qed.

Lemma scalar_xof_range q slen lo hi : 0 < q -> 0 <= scalar_from_xof q slen lo hi < q.
Proof. intros; apply Z.mod_pos_bound; auto. Qed.

Lemma scalar_xof_value q slen lo hi : length lo = slen ->
  scalar_from_xof q slen lo hi = be_value (hi ++ lo) mod q.
Proof.
  intros <-. unfold scalar_from_xof. rewrite be_value_app. f_equal. f_equal. f_equal.
  rewrite Z.pow_mul_r by lia. reflexivity.
Qed.

Lemma digest_length sb : 0 <= sb -> 2 * sb <= 8 * finalize_len sb < 2 * sb + 8.
Proof. intros H. unfold finalize_len. pose proof (div_ceil8_spec (sb * 2) ltac:(lia)). lia. Qed.

Section Conv.
Variables (q num_bits : Z) (slen L LW : nat).
Hypothesis OK : conv_params_ok q num_bits slen L LW.

Lemma scalar_round_trip_public s : 0 <= s < q ->
  exists x, public_signed_from_scalar q slen L s = Ret x /\ wf (BITS L) x /\ sval (BITS L) x = s /\
    scalar_from_signed q slen L LW x = Ret s.
Proof.
  intros Hs. destruct (public_signed_from_scalar_spec q num_bits slen L LW OK s Hs) as (x & E & W & V & _).
  exists x. split; auto. split; auto. split; auto.
  destruct (scalar_from_signed_spec q num_bits slen L LW OK x W) as [-> _].
  rewrite V, Z.mod_small; auto.
Qed.

Lemma scalar_round_trip_secret s : 0 <= s < q ->
  exists x, secret_signed_from_scalar q num_bits slen L s = Ret x /\ wf (BITS L) x /\
    2 * Z.abs (sval (BITS L) x) < q /\ secret_scalar_from_signed q slen L LW x = Ret s.
Proof.
  intros Hs. destruct (secret_signed_from_scalar_spec q num_bits slen L LW OK s Hs) as (x & E & W & V & A & _).
  exists x. split; auto. split; auto. split; auto.
  destruct (scalar_from_signed_spec q num_bits slen L LW OK x W) as [_ ->].
  rewrite V; auto.
Qed.

Lemma signed_to_scalar_residue x : wf (BITS L) x ->
  scalar_from_signed q slen L LW x = Ret (sval (BITS L) x mod q) /\
  secret_scalar_from_signed q slen L LW x = Ret (sval (BITS L) x mod q).
Proof. apply scalar_from_signed_spec with num_bits; auto. Qed.

Lemma wide_signed_to_scalar_residue x : wf (BITS LW) x ->
  scalar_from_wide_signed q slen L LW x = Ret (sval (BITS LW) x mod q) /\
  secret_scalar_from_wide_signed q slen L LW x = Ret (sval (BITS LW) x mod q).
Proof. apply scalar_from_wide_signed_spec with num_bits; auto. Qed.

(** Integer sums and products computed with [+] and [*] map to scalar sums and
    products. *)
Lemma conversion_morphism x y z t a b : wf (BITS L) x -> wf (BITS L) y ->
  sec_checked_add (BITS L) x y = Some z -> sec_checked_mul (BITS L) x y = Some t ->
  secret_scalar_from_signed q slen L LW x = Ret a -> secret_scalar_from_signed q slen L LW y = Ret b ->
  secret_scalar_from_signed q slen L LW z = Ret ((a + b) mod q) /\
  secret_scalar_from_signed q slen L LW t = Ret ((a * b) mod q).
Proof.
  intros Hx Hy Hz Ht Ha Hb.
  apply checked_add_spec in Hz as (Wz & Vz & _); auto. apply checked_mul_spec in Ht as (Wt & Vt & _); auto.
  rewrite (proj2 (signed_to_scalar_residue x Hx)) in Ha. rewrite (proj2 (signed_to_scalar_residue y Hy)) in Hb.
  rewrite (proj2 (signed_to_scalar_residue z Wz)), (proj2 (signed_to_scalar_residue t Wt)).
  inversion Ha; inversion Hb; subst. rewrite Vz, Vt.
  destruct OK as (Hq & _). rewrite <- Z.add_mod, <- Z.mul_mod by lia. auto.
Qed.
End Conv.
