(** * Lemmas about bounded signed integers. *)
From Coq Require Import ZArith List Bool Lia.
From Verif Require Import Base BaseFacts SignedModel SignedSpec.
Open Scope Z_scope.

Lemma twos_mod w v : 1 <= w -> - 2 ^ (w - 1) <= v < 2 ^ (w - 1) -> twos w (v mod 2 ^ w) = v.
Proof.
  intros Hw Hv. unfold twos. rewrite (pow2_pred w) by lia.
  pose proof (pow2_pos (w - 1) ltac:(lia)).
  destruct (Z_lt_le_dec v 0).
  - rewrite (mod_unique v _ (v + 2 * 2 ^ (w - 1)) (-1)) by lia.
    destruct (Z.ltb_spec (v + 2 * 2 ^ (w - 1)) (2 ^ (w - 1))); lia.
  - rewrite Z.mod_small by lia.
    destruct (Z.ltb_spec v (2 ^ (w - 1))); lia.
Qed.

Lemma twos_range w u : 1 <= w -> 0 <= u < 2 ^ w -> - 2 ^ (w - 1) <= twos w u < 2 ^ (w - 1).
Proof.
  intros Hw Hu. unfold twos. rewrite (pow2_pred w) in * by lia.
  destruct (Z.ltb_spec u (2 ^ (w - 1))); lia.
Qed.

Lemma twos_word w u : 1 <= w -> 0 <= u < 2 ^ w -> twos w u mod 2 ^ w = u.
Proof.
  intros Hw Hu. unfold twos. destruct (Z.ltb_spec u (2 ^ (w - 1))).
  - apply Z.mod_small; lia.
  - apply (mod_unique _ _ _ (-1)); lia.
Qed.

(** Everything needed to conclude well-formedness from an integer value. *)
Lemma wf_intro w b v : 0 <= b < w -> Z.abs v < 2 ^ b ->
  wf w (mkS b (v mod 2 ^ w)) /\ sval w (mkS b (v mod 2 ^ w)) = v.
Proof.
  intros Hb Hv.
  pose proof (pow2_le b (w - 1) ltac:(lia)).
  assert (E : twos w (v mod 2 ^ w) = v) by (apply twos_mod; lia).
  unfold wf, sval; cbn. rewrite E.
  pose proof (Z.mod_pos_bound v (2 ^ w) (pow2_pos w ltac:(lia))). auto with zarith.
Qed.

Lemma wf_elim w x : wf w x ->
  1 <= w /\ 0 <= bound x < w /\ word x = sval w x mod 2 ^ w /\
  Z.abs (sval w x) < 2 ^ bound x /\ 2 ^ bound x <= 2 ^ (w - 1).
Proof.
  intros (Hu & Hb & Hv). repeat split; try lia.
  - unfold sval. rewrite twos_word; auto; lia.
  - apply pow2_le; lia.
Qed.

Lemma msb_twos w u : 1 <= w -> 0 <= u < 2 ^ w -> msb w u = (twos w u <? 0).
Proof.
  intros Hw Hu. rewrite msb_spec by auto. unfold twos. rewrite (pow2_pred w) in Hu |- * by lia.
  destruct (Z.leb_spec (2 ^ (w - 1)) u), (Z.ltb_spec u (2 ^ (w - 1)));
    destruct (Z.ltb_spec (u - 2 * 2 ^ (w - 1)) 0), (Z.ltb_spec u 0); lia.
Qed.

Lemma is_negative_spec w x : 1 <= w -> 0 <= word x < 2 ^ w -> is_negative w x = (sval w x <? 0).
Proof. intros; apply msb_twos; auto. Qed.

(** [wrapping_neg] of a word computes the absolute value of negatives, also at
    the most negative word. *)
Lemma wneg_twos w u : 1 <= w -> 0 <= u < 2 ^ w -> twos w u < 0 -> wneg w u = Z.abs (twos w u).
Proof.
  intros Hw Hu Hn. unfold wneg, twos in *. pose proof (pow2_pos (w - 1) ltac:(lia)).
  rewrite (pow2_pred w) in * by lia.
  destruct (Z.ltb_spec u (2 ^ (w - 1))); [lia|].
  rewrite (mod_unique (- u) _ (2 * 2 ^ (w - 1) - u) (-1)) by lia. lia.
Qed.

Lemma abs_word w u : 1 <= w -> 0 <= u < 2 ^ w ->
  (if msb w u then wneg w u else u) = Z.abs (twos w u).
Proof.
  intros Hw Hu. rewrite msb_twos by auto.
  destruct (Z.ltb_spec (twos w u) 0).
  - apply wneg_twos; auto.
  - unfold twos in *. rewrite (pow2_pred w) in * by lia.
    pose proof (pow2_pos (w - 1) ltac:(lia)).
    destruct (Z.ltb_spec u (2 ^ (w - 1))); lia.
Qed.

Lemma sec_abs_value_spec w x : 1 <= w -> 0 <= word x < 2 ^ w ->
  sec_abs_value w x = Z.abs (sval w x).
Proof. intros; unfold sec_abs_value, is_negative; apply abs_word; auto. Qed.

Lemma pub_abs_spec w x : 1 <= w -> 0 <= word x < 2 ^ w ->
  pub_abs w x = Z.abs (sval w x).
Proof.
  intros. change ((if is_negative w x then wneg w (word x) else word x) = Z.abs (sval w x)).
  apply sec_abs_value_spec; auto.
Qed.

Lemma wneg_mod w v : 0 <= w -> wneg w (v mod 2 ^ w) = (- v) mod 2 ^ w.
Proof.
  intros Hw. unfold wneg. pose proof (pow2_pos w Hw).
  rewrite <- (Z.sub_0_l (v mod _)), Zminus_mod_idemp_r. reflexivity.
Qed.

Lemma sec_neg_spec w x : wf w x -> wf w (sec_neg w x) /\ sval w (sec_neg w x) = - sval w x.
Proof.
  intros H; apply wf_elim in H as (Hw & Hb & E & Hv & _).
  unfold sec_neg. rewrite E, wneg_mod by lia. apply wf_intro; auto. lia.
Qed.

Lemma pub_neg_sec w x : pub_neg w x = sec_neg w x.
Proof. reflexivity. Qed.

Lemma sec_abs_spec w x : wf w x -> sec_abs w x = Ret (mkU (bound x) (Z.abs (sval w x))).
Proof.
  intros H; pose proof H as (Hu & Hb & Hv).
  unfold sec_abs, unsigned_new. rewrite sec_abs_value_spec by lia.
  rewrite (proj2 (Z.leb_le _ _)) by lia.
  rewrite (proj2 (Z.leb_le _ _)); [reflexivity|].
  apply bits_le; lia.
Qed.

(** ** Constructors *)

Lemma sec_new_from_unsigned_iff w v b : 1 <= w -> 0 <= v < 2 ^ w -> 0 <= b ->
  forall x, sec_new_from_unsigned w v b = Some x <-> x = mkS b v /\ wf w x.
Proof.
  intros Hw Hv Hb x. unfold sec_new_from_unsigned. rewrite abs_word by auto.
  destruct (Z.ltb_spec b w); destruct (Z.leb_spec (bits (Z.abs (twos w v))) b); cbn.
  - rewrite bits_le in H0 by lia. split; intros E.
    + inversion E; subst. unfold wf, sval; cbn. auto with zarith.
    + f_equal; symmetry; tauto.
  - split; [discriminate|]. intros [-> (_ & Hb' & Hx)].
    cbn in *. apply bits_le in Hx; unfold sval in *; cbn in *; lia.
  - split; [discriminate|]. intros [-> (_ & Hb' & Hx)]; cbn in *; lia.
  - split; [discriminate|]. intros [-> (_ & Hb' & Hx)]; cbn in *; lia.
Qed.

Lemma pub_new_from_unsigned_eq w v b : pub_new_from_unsigned w v b = sec_new_from_unsigned w v b.
Proof.
  unfold pub_new_from_unsigned, sec_new_from_unsigned, pub_abs, is_negative, pub_neg, wsub; cbn.
  fold (wneg w v). generalize (bits (if msb w v then wneg w v else v)); intros c.
  destruct (Z.leb_spec w b), (Z.ltb_spec b w), (Z.ltb_spec b c), (Z.leb_spec c b); cbn; auto; lia.
Qed.

Lemma new_from_unsigned_None w v b : 1 <= w -> 0 <= v < 2 ^ w -> 0 <= b ->
  (sec_new_from_unsigned w v b = None <-> w <= b \/ 2 ^ b <= Z.abs (twos w v)).
Proof.
  intros Hw Hv Hb. unfold sec_new_from_unsigned. rewrite abs_word by auto.
  destruct (Z.ltb_spec b w); cbn.
  - destruct (Z.leb_spec (bits (Z.abs (twos w v))) b).
    + rewrite bits_le in H0 by lia. split; [discriminate|lia].
    + split; auto. intros _; right.
      destruct (Z_lt_le_dec (Z.abs (twos w v)) (2 ^ b)); auto.
      apply bits_le in l; lia.
  - split; auto.
Qed.

Lemma sec_new_from_abs_spec w a b neg x : 1 <= w -> 0 <= a < 2 ^ (w - 1) -> 0 <= b ->
  sec_new_from_abs w a b neg = Some x ->
  wf w x /\ bound x = b /\ sval w x = if neg then - a else a.
Proof.
  intros Hw Ha Hb H. unfold sec_new_from_abs in H.
  pose proof (pow2_pos (w - 1) ltac:(lia)).
  assert (E : (if neg then wneg w a else a) = (if neg then - a else a) mod 2 ^ w).
  { destruct neg; [reflexivity|]. rewrite Z.mod_small; auto.
    rewrite (pow2_pred w) by lia; lia. }
  rewrite E in H.
  apply sec_new_from_unsigned_iff in H; auto; try lia.
  - destruct H as [-> Hwf]. split; auto. split; auto.
    unfold sval; cbn. apply twos_mod; destruct neg; lia.
  - apply Z.mod_pos_bound, pow2_pos; lia.
Qed.

Lemma sec_new_from_abs_ok w a b neg : 1 <= w -> 0 <= b < w -> 0 <= a < 2 ^ b ->
  exists x, sec_new_from_abs w a b neg = Some x /\
  wf w x /\ bound x = b /\ sval w x = if neg then - a else a.
Proof.
  intros Hw Hb Ha.
  pose proof (pow2_le b (w - 1) ltac:(lia)).
  assert (E : (if neg then wneg w a else a) = (if neg then - a else a) mod 2 ^ w).
  { destruct neg; [reflexivity|]. rewrite Z.mod_small; auto.
    rewrite (pow2_pred w) by lia; lia. }
  destruct (wf_intro w b (if neg then - a else a) Hb ltac:(destruct neg; lia)) as [W V].
  exists (mkS b ((if neg then - a else a) mod 2 ^ w)).
  split; [|auto]. unfold sec_new_from_abs. rewrite E.
  apply sec_new_from_unsigned_iff; auto; try lia.
  apply Z.mod_pos_bound, pow2_pos; lia.
Qed.

Lemma pub_new_from_abs_spec w a b neg x : 1 <= w -> 0 <= a -> 0 <= b ->
  pub_new_from_abs w a b neg = Some x ->
  wf w x /\ bound x = b /\ sval w x = if neg then - a else a.
Proof.
  intros Hw Ha Hb. unfold pub_new_from_abs.
  destruct (Z.leb_spec w b); [discriminate|].
  destruct (Z.ltb_spec b (bits a)); [discriminate|].
  intros E; inversion E; subst; clear E.
  apply bits_le in H0; auto.
  pose proof (pow2_le b (w - 1) ltac:(lia)).
  assert (E : (if neg then wneg w a else a) = (if neg then - a else a) mod 2 ^ w).
  { destruct neg; [reflexivity|]. rewrite Z.mod_small; auto.
    rewrite (pow2_pred w) by lia; lia. }
  rewrite E.
  destruct (wf_intro w b (if neg then - a else a) ltac:(lia) ltac:(destruct neg; lia)) as [W V]; auto.
Qed.

Lemma pub_new_from_abs_None w a b neg : 0 <= a -> 0 <= b ->
  (pub_new_from_abs w a b neg = None <-> w <= b \/ 2 ^ b <= a).
Proof.
  intros Ha Hb. unfold pub_new_from_abs.
  destruct (Z.leb_spec w b); cbn; [tauto|].
  destruct (Z.ltb_spec b (bits a)); split; intros; auto; try discriminate.
  - right. destruct (Z_lt_le_dec a (2 ^ b)); auto. apply bits_le in l; auto; lia.
  - apply bits_le in H0; auto; lia.
Qed.

Lemma pub_new_from_abs_ok w a b neg : 1 <= w -> 0 <= b < w -> 0 <= a < 2 ^ b ->
  exists x, pub_new_from_abs w a b neg = Some x /\
  wf w x /\ bound x = b /\ sval w x = if neg then - a else a.
Proof.
  intros Hw Hb Ha. destruct (pub_new_from_abs w a b neg) eqn:E.
  - exists s; split; auto. apply pub_new_from_abs_spec in E; auto; lia.
  - apply pub_new_from_abs_None in E; lia.
Qed.

Lemma sec_new_positive_spec w v b x : 1 <= w -> 0 <= v < 2 ^ w -> 0 <= b ->
  (sec_new_positive w v b = Some x <-> x = mkS b v /\ b < w /\ v < 2 ^ (w - 1)).
Proof.
  intros Hw Hv Hb. unfold sec_new_positive. rewrite msb_spec by auto.
  destruct (Z.ltb_spec b w); cbn; [|split; [discriminate|intros (_ & ? & _); lia]].
  destruct (Z.ltb_spec (bits v) w); cbn.
  - destruct (Z.leb_spec (2 ^ (w - 1)) v); cbn; split; try discriminate; intros E.
    + exfalso; destruct E as (_ & _ & ?); lia.
    + inversion E; auto.
    + destruct E as (-> & _); auto.
  - split; [discriminate|]. intros (_ & _ & Hlt).
    apply bits_le in Hlt; lia.
Qed.

Lemma sec_new_positive_wf w v b x : 1 <= w -> 0 <= v < 2 ^ w -> 0 <= b ->
  sec_new_positive w v b = Some x -> (wf w x <-> v < 2 ^ b) /\ sval w x = v.
Proof.
  intros Hw Hv Hb H. apply sec_new_positive_spec in H as (-> & Hbw & Hm); auto.
  assert (E : sval w (mkS b v) = v).
  { unfold sval, twos; cbn. destruct (Z.ltb_spec v (2 ^ (w - 1))); lia. }
  split; auto. unfold wf. rewrite E; cbn. rewrite Z.abs_eq by lia. lia.
Qed.

(** [to_public] panics exactly when the declared bound is not respected. *)
Lemma sec_to_public_spec w x : 1 <= w -> 0 <= word x < 2 ^ w -> 0 <= bound x ->
  (sec_to_public w x = Ret x <-> wf w x) /\ (sec_to_public w x = Panic <-> ~ wf w x).
Proof.
  intros Hw Hu Hb. unfold sec_to_public.
  rewrite pub_new_from_unsigned_eq.
  destruct (sec_new_from_unsigned w (word x) (bound x)) as [y|] eqn:E; cbn.
  - apply sec_new_from_unsigned_iff in E as [-> W]; auto.
    destruct x as [b u]; cbn in *. split; split; auto; try discriminate; tauto.
  - assert (~ wf w x).
    { intros W. assert (sec_new_from_unsigned w (word x) (bound x) = Some x).
      { apply sec_new_from_unsigned_iff; auto. destruct x; auto. }
      congruence. }
    split; split; auto; try discriminate; tauto.
Qed.

(** ** Arithmetic *)

Lemma mod_add_mod a b m : m <> 0 -> (a mod m + b mod m) mod m = (a + b) mod m.
Proof. intros; rewrite <- Z.add_mod; auto. Qed.
Lemma mod_sub_mod a b m : (a mod m - b mod m) mod m = (a - b) mod m.
Proof. rewrite <- Zminus_mod; auto. Qed.
Lemma mod_mul_mod a b m : m <> 0 -> ((a mod m) * (b mod m)) mod m = (a * b) mod m.
Proof. intros; rewrite <- Z.mul_mod; auto. Qed.

Lemma checked_add_spec w x y : wf w x -> wf w y ->
  (sec_checked_add w x y = None <-> w <= Z.max (bound x) (bound y) + 1) /\
  forall z, sec_checked_add w x y = Some z ->
    wf w z /\ sval w z = sval w x + sval w y /\ bound z = Z.max (bound x) (bound y) + 1.
Proof.
  intros Hx Hy. apply wf_elim in Hx as (Hw & Hbx & Ex & Hvx & _).
  apply wf_elim in Hy as (_ & Hby & Ey & Hvy & _).
  pose proof (pow2_pos w ltac:(lia)).
  unfold sec_checked_add. destruct (Z.ltb_spec (Z.max (bound x) (bound y) + 1) w).
  - split; [split; [discriminate|lia]|]. intros z E; inversion E; subst; clear E; cbn.
    rewrite Ex, Ey. unfold wadd.
    rewrite !mod_add_mod by lia.
    assert (Z.abs (sval w x + sval w y) < 2 ^ (Z.max (bound x) (bound y) + 1)).
    { rewrite pow2_S by lia.
      pose proof (pow2_le (bound x) (Z.max (bound x) (bound y)) ltac:(lia)).
      pose proof (pow2_le (bound y) (Z.max (bound x) (bound y)) ltac:(lia)). lia. }
    pose proof (wf_intro w (Z.max (bound x) (bound y) + 1) (sval w x + sval w y) ltac:(lia) H1) as [W V].
    auto.
  - split; [tauto|]. discriminate.
Qed.

Lemma checked_sub_spec w x y : wf w x -> wf w y ->
  (sec_checked_sub w x y = None <-> w <= Z.max (bound x) (bound y) + 1) /\
  forall z, sec_checked_sub w x y = Some z ->
    wf w z /\ sval w z = sval w x - sval w y /\ bound z = Z.max (bound x) (bound y) + 1.
Proof.
  intros Hx Hy. apply wf_elim in Hx as (Hw & Hbx & Ex & Hvx & _).
  apply wf_elim in Hy as (_ & Hby & Ey & Hvy & _).
  pose proof (pow2_pos w ltac:(lia)).
  unfold sec_checked_sub. destruct (Z.ltb_spec (Z.max (bound x) (bound y) + 1) w).
  - split; [split; [discriminate|lia]|]. intros z E; inversion E; subst; clear E; cbn.
    rewrite Ex, Ey. unfold wsub.
    rewrite !mod_sub_mod by lia.
    assert (Z.abs (sval w x - sval w y) < 2 ^ (Z.max (bound x) (bound y) + 1)).
    { rewrite pow2_S by lia.
      pose proof (pow2_le (bound x) (Z.max (bound x) (bound y)) ltac:(lia)).
      pose proof (pow2_le (bound y) (Z.max (bound x) (bound y)) ltac:(lia)). lia. }
    pose proof (wf_intro w (Z.max (bound x) (bound y) + 1) (sval w x - sval w y) ltac:(lia) H1) as [W V].
    auto.
  - split; [tauto|]. discriminate.
Qed.

Lemma abs_mul_bound x y a b : 0 <= a -> 0 <= b -> Z.abs x < 2 ^ a -> Z.abs y < 2 ^ b ->
  Z.abs (x * y) < 2 ^ (a + b).
Proof.
  intros. rewrite Z.abs_mul, Z.pow_add_r by lia.
  pose proof (pow2_pos a ltac:(lia)); pose proof (pow2_pos b ltac:(lia)). nia.
Qed.

Lemma checked_mul_spec w x y : wf w x -> wf w y ->
  (sec_checked_mul w x y = None <-> w <= bound x + bound y) /\
  forall z, sec_checked_mul w x y = Some z ->
    wf w z /\ sval w z = sval w x * sval w y /\ bound z = bound x + bound y.
Proof.
  intros Hx Hy. apply wf_elim in Hx as (Hw & Hbx & Ex & Hvx & _).
  apply wf_elim in Hy as (_ & Hby & Ey & Hvy & _).
  pose proof (pow2_pos w ltac:(lia)).
  unfold sec_checked_mul. destruct (Z.ltb_spec (bound x + bound y) w).
  - split; [split; [discriminate|lia]|]. intros z E; inversion E; subst; clear E; cbn.
    rewrite Ex, Ey. unfold wmul.
    rewrite !mod_mul_mod by lia.
    pose proof (abs_mul_bound (sval w x) (sval w y) (bound x) (bound y) ltac:(lia) ltac:(lia) Hvx Hvy) as Hm.
    pose proof (wf_intro w (bound x + bound y) (sval w x * sval w y) ltac:(lia) Hm) as [W V].
    auto.
  - split; [tauto|]. discriminate.
Qed.

Lemma mul_wide_spec w wr x y : wf w x -> wf wr y ->
  exists z, sec_mul_wide_public w wr x y = Ret z /\ wf (w + wr) z /\
    sval (w + wr) z = sval w x * sval wr y /\ bound z = bound x + bound y.
Proof.
  intros Hx Hy. pose proof Hx as (Hux & _). pose proof Hy as (Huy & _).
  apply wf_elim in Hx as (Hw & Hbx & Ex & Hvx & _).
  apply wf_elim in Hy as (Hwr & Hby & Ey & Hvy & _).
  unfold sec_mul_wide_public.
  rewrite sec_abs_value_spec, pub_abs_spec, !is_negative_spec by lia.
  pose proof (abs_mul_bound _ _ _ _ (proj1 Hbx) (proj1 Hby) Hvx Hvy) as Hm.
  rewrite Z.abs_mul in Hm.
  destruct (sec_new_from_abs_ok (w + wr) (Z.abs (sval w x) * Z.abs (sval wr y)) (bound x + bound y)
     (xorb (sval w x <? 0) (sval wr y <? 0))) as (z & E & W & B & V); try lia.
  exists z. rewrite E; cbn. repeat split; try apply W; auto.
  rewrite V. destruct (Z.ltb_spec (sval w x) 0), (Z.ltb_spec (sval wr y) 0); cbn;
    rewrite ?(Z.abs_neq (sval w x)), ?(Z.abs_neq (sval wr y)), ?(Z.abs_eq (sval w x)), ?(Z.abs_eq (sval wr y)) by lia; ring.
Qed.

Lemma sec_to_wide_spec w ww x : w <= ww -> wf w x ->
  exists z, sec_to_wide w ww x = Ret z /\ wf ww z /\ sval ww z = sval w x /\ bound z = bound x.
Proof.
  intros Hle Hx. pose proof Hx as (Hux & _).
  apply wf_elim in Hx as (Hw & Hbx & Ex & Hvx & _).
  unfold sec_to_wide. rewrite sec_abs_value_spec, is_negative_spec by lia.
  destruct (sec_new_from_abs_ok ww (Z.abs (sval w x)) (bound x) (sval w x <? 0)) as (z & E & W & B & V); try lia.
  exists z. rewrite E; cbn. repeat split; try apply W; auto.
  rewrite V. destruct (Z.ltb_spec (sval w x) 0); lia.
Qed.

Lemma pub_to_wide_spec w ww x : w <= ww -> wf w x ->
  exists z, pub_to_wide w ww x = Ret z /\ wf ww z /\ sval ww z = sval w x /\ bound z = bound x.
Proof.
  intros Hle Hx. pose proof Hx as (Hux & _).
  apply wf_elim in Hx as (Hw & Hbx & Ex & Hvx & _).
  unfold pub_to_wide. rewrite pub_abs_spec, is_negative_spec by lia.
  destruct (pub_new_from_abs_ok ww (Z.abs (sval w x)) (bound x) (sval w x <? 0)) as (z & E & W & B & V); try lia.
  exists z. rewrite E; cbn. repeat split; try apply W; auto.
  rewrite V. destruct (Z.ltb_spec (sval w x) 0); lia.
Qed.

Lemma s_zero_wf w : 1 <= w -> wf w s_zero /\ sval w s_zero = 0.
Proof.
  intros Hw. pose proof (wf_intro w 0 0 ltac:(lia) ltac:(cbn; lia)) as H.
  rewrite Z.mod_0_l in H; auto. pose proof (pow2_pos w); lia.
Qed.

Lemma pub_one_wf w : 2 <= w -> wf w pub_one /\ sval w pub_one = 1.
Proof.
  intros Hw. pose proof (wf_intro w 1 1 ltac:(lia) ltac:(cbn; lia)) as H.
  rewrite Z.mod_small in H; auto. pose proof (pow2_lt 0 w ltac:(lia) ltac:(lia)). change (2^0) with 1 in *. lia.
Qed.

(** Folding [+]: exact as long as no step panics. *)
Lemma sec_sum_panic w l : List.fold_left (fun acc x => a <~ acc ;; sec_add w a x) l Panic = Panic.
Proof. induction l; auto. Qed.

Lemma sec_sum_spec w l z : 1 <= w -> List.Forall (wf w) l -> sec_sum w l = Ret z ->
  wf w z /\ sval w z = List.fold_left (fun a x => a + sval w x) l 0.
Proof.
  intros Hw Hl. unfold sec_sum.
  assert (H : forall l acc z, List.Forall (wf w) l -> wf w acc ->
     List.fold_left (fun acc x => a <~ acc ;; sec_add w a x) l (Ret acc) = Ret z ->
     wf w z /\ sval w z = List.fold_left (fun a x => a + sval w x) l (sval w acc)).
  { clear. induction l as [|x l IH]; cbn; intros acc z Hl Ha E.
    - inversion E; subst; auto.
    - inversion Hl; subst. unfold sec_add in E at 2.
      destruct (sec_checked_add w acc x) as [y|] eqn:Ey; cbn in E.
      + pose proof (checked_add_spec w acc x Ha H1) as [_ S].
        apply S in Ey as (Wy & Vy & _). rewrite <- Vy. apply IH; auto.
      + rewrite sec_sum_panic in E; discriminate. }
  intros E. destruct (s_zero_wf w Hw) as [W0 V0].
  apply H in E; auto. rewrite V0 in E; auto.
Qed.

(** ** Range checks *)

Lemma land_neg_pow2 w a k : 0 <= k < w -> 0 <= a < 2 ^ w ->
  Z.land a (wneg w (2 ^ k)) = (a / 2 ^ k) * 2 ^ k.
Proof.
  intros Hk Ha. pose proof (pow2_pos k ltac:(lia)). pose proof (pow2_lt k w ltac:(lia) ltac:(lia)).
  unfold wneg.
  replace ((- 2 ^ k) mod 2 ^ w) with (2 ^ w - 2 ^ k) by (symmetry; apply (mod_unique _ _ _ (-1)); lia).
  (* 2^w - 2^k = ones (w - k) << k *)
  assert (E : 2 ^ w - 2 ^ k = Z.shiftl (Z.ones (w - k)) k).
  { rewrite Z.shiftl_mul_pow2, Z.ones_equiv, <- Z.sub_1_r, Z.mul_sub_distr_r, <- Z.pow_add_r by lia.
    replace (w - k + k) with w by lia. ring. }
  rewrite E, <- Z.shiftl_mul_pow2, <- Z.shiftr_div_pow2 by lia.
  apply Z.bits_inj'. intros n Hn.
  rewrite Z.land_spec, !Z.shiftl_spec by lia.
  destruct (Z_lt_le_dec n k).
  - rewrite !(Z.testbit_neg_r _ (n - k)) by lia. apply andb_false_r.
  - rewrite Z.shiftr_spec by lia. replace (n - k + k) with n by lia.
    rewrite Z.testbit_ones_nonneg by lia.
    destruct (Z_lt_le_dec (n - k) (w - k)).
    + rewrite (proj2 (Z.ltb_lt _ _)) by lia. apply andb_true_r.
    + rewrite (proj2 (Z.ltb_ge _ _)) by lia. rewrite andb_false_r.
      symmetry. destruct (Z.eq_dec a 0) as [->|]; [apply Z.bits_0|].
      apply Z.bits_above_log2; [lia|].
      assert (Z.log2 a < w) by (apply Z.log2_lt_pow2; lia). lia.
Qed.

Lemma sec_in_range_spec w x e : wf w x -> 1 <= e ->
  exists b, sec_in_range w x e = Ret b /\ (b = true <-> w < e \/ pm_interval e (sval w x)).
Proof.
  intros Hx He. unfold sec_in_range. rewrite sec_abs_spec by auto. cbn [obind].
  rewrite (proj2 (Z.leb_le _ _)) by lia. cbn [oassert obind uword unsigned_and ubound].
  eexists; split; [reflexivity|].
  pose proof Hx as (Hux & _). apply wf_elim in Hx as (Hw & Hb & E & Hv & Hle).
  rewrite is_negative_spec by lia. unfold wshl, pm_interval.
  pose proof (pow2_pos (e - 1) ltac:(lia)).
  destruct (Z.ltb_spec (e - 1) w).
  - rewrite Z.mul_1_l, (Z.mod_small (2 ^ (e - 1))) by (pose proof (pow2_lt (e - 1) w); lia).
    rewrite land_neg_pow2; try lia.
    2: { rewrite (pow2_pred w) by lia. lia. }
    rewrite orb_true_iff, andb_true_iff, negb_true_iff, !Z.eqb_eq, Z.ltb_ge.
    assert (Hz : Z.abs (sval w x) / 2 ^ (e - 1) * 2 ^ (e - 1) = 0 <-> Z.abs (sval w x) < 2 ^ (e - 1)).
    { split; intros.
      - assert (Z.abs (sval w x) / 2 ^ (e - 1) = 0) by nia.
        apply Z.div_small_iff in H2; lia.
      - rewrite Z.div_small; lia. }
    rewrite Hz. lia.
  - (* shift by the full width or more: the mask is zero *)
    change (wneg w 0) with (0 mod 2 ^ w). rewrite Z.mod_0_l by (pose proof (pow2_pos w); lia).
    rewrite Z.land_0_r. cbn. split; auto. intros _; left; lia.
Qed.

Lemma pub_in_range_spec w x e : wf w x -> 1 <= e <= w ->
  exists b, pub_in_range w x e = Ret b /\ (b = true <-> pm_interval e (sval w x)).
Proof.
  intros Hx He. unfold pub_in_range.
  rewrite (proj2 (Z.leb_le _ _)) by lia. cbn [oassert obind].
  unfold oshl. rewrite (proj2 (Z.ltb_lt _ _)) by lia. cbn [oexpect obind].
  eexists; split; [reflexivity|].
  pose proof Hx as (Hux & _). apply wf_elim in Hx as (Hw & Hb & E & Hv & Hle).
  rewrite pub_abs_spec, is_negative_spec by lia. unfold pm_interval.
  rewrite Z.mul_1_l, (Z.mod_small (2 ^ (e - 1)))
    by (pose proof (pow2_lt (e - 1) w); pose proof (pow2_pos (e - 1)); lia).
  rewrite orb_true_iff, andb_true_iff, negb_true_iff, Z.eqb_eq, Z.ltb_lt, Z.ltb_ge.
  pose proof (bits_le (Z.abs (sval w x)) (e - 1) ltac:(lia) ltac:(lia)). lia.
Qed.

Lemma pub_in_range_panic w x e : 0 <= e -> (pub_in_range w x e = Panic <-> e = 0 \/ w < e).
Proof.
  intros He. unfold pub_in_range, oshl.
  destruct (Z.leb_spec 1 e); cbn.
  - destruct (Z.ltb_spec (e - 1) w); cbn; split; intros; try discriminate; auto; lia.
  - split; auto. intros _; lia.
Qed.

Lemma range_checks_agree w x e : wf w x -> 1 <= e <= w ->
  sec_in_range w x e = pub_in_range w x e.
Proof.
  intros Hx He. destruct (sec_in_range_spec w x e Hx ltac:(lia)) as (b1 & -> & H1).
  destruct (pub_in_range_spec w x e Hx He) as (b2 & -> & H2). f_equal.
  apply eq_iff_eq_true. rewrite H1, H2. split; [intros [?|?]; [lia|auto]|auto].
Qed.

Lemma sec_ensure_range_spec w x e : wf w x -> 1 <= e ->
  exists r, sec_ensure_range w x e = Ret r /\
    match r with
    | Some y => wf w y /\ sval w y = sval w x /\ bound y = e + 1 /\ pm_interval e (sval w x)
    | None => w - 1 <= e \/ ~ pm_interval e (sval w x)
    end.
Proof.
  intros Hx He. unfold sec_ensure_range.
  destruct (sec_in_range_spec w x e Hx He) as (b & -> & Hb). cbn.
  eexists; split; [reflexivity|].
  destruct b; cbn.
  - destruct (Z.ltb_spec e (w - 1)); [|lia].
    assert (P : pm_interval e (sval w x)) by (destruct (proj1 Hb eq_refl); [lia|auto]).
    pose proof Hx as (Hux & _). split; [|auto].
    unfold wf; cbn. split; [auto|]. split; [lia|].
    change (sval w (mkS (e + 1) (word x))) with (sval w x).
    unfold pm_interval in P. pose proof (pow2_pos (e - 1) ltac:(lia)).
    replace (e + 1) with (e - 1 + 1 + 1) by lia. rewrite !pow2_S by lia. lia.
  - right. intros P. assert (false = true) by tauto. discriminate.
Qed.

(** ** Sampling *)

Lemma random_range_spec w e draw : 0 < e < w -> 0 <= draw < 2 ^ e ->
  exists x, sec_random_range w e draw = Ret x /\ wf w x /\ bound x = e /\
    sval w x = draw - (2 ^ (e - 1) - 1).
Proof.
  intros He Hd. unfold sec_random_range, oshl, csub.
  pose proof (pow2_pos e ltac:(lia)). pose proof (pow2_pos (e - 1) ltac:(lia)).
  pose proof (pow2_lt e w ltac:(lia) ltac:(lia)). pose proof (pow2_pred e ltac:(lia)).
  rewrite !(proj2 (Z.ltb_lt _ _)) by lia. cbn [oassert obind oexpect].
  rewrite !Z.mul_1_l, !Z.mod_small by lia.
  rewrite (proj2 (Z.eqb_neq _ _)) by lia. cbn [oassert obind oexpect negb].
  rewrite (proj2 (Z.leb_le _ _)) by lia. cbn [oassert obind oexpect].
  eexists; split; [reflexivity|].
  unfold wsub. pose proof (wf_intro w e (draw - (2 ^ (e - 1) - 1)) ltac:(lia) ltac:(lia)) as [W V].
  auto.
Qed.

Lemma random_range_scaled_spec w ww e scale draw : 0 < e < w -> w <= ww ->
  0 < scale -> e + bits scale < ww -> 0 <= draw < scale * 2 ^ e ->
  exists x, sec_random_range_scaled w ww e scale draw = Ret x /\ wf ww x /\
    bound x = e + bits scale /\ sval ww x = draw - (scale * 2 ^ (e - 1) - 1).
Proof.
  intros He Hw Hs Hfit Hd. unfold sec_random_range_scaled, oshl, csub.
  pose proof (pow2_pos e ltac:(lia)). pose proof (pow2_pos (e - 1) ltac:(lia)).
  pose proof (pow2_pred e ltac:(lia)) as Hp.
  pose proof (bits_lt_pow scale ltac:(lia)) as Hbs. pose proof (bits_nonneg scale).
  assert (Hse : scale * 2 ^ e < 2 ^ (e + bits scale)).
  { rewrite Z.pow_add_r by lia. nia. }
  pose proof (pow2_lt (e + bits scale) ww ltac:(lia) ltac:(lia)).
  rewrite !(proj2 (Z.ltb_lt _ _)) by lia. cbn [oassert obind oexpect].
  rewrite !Z.mod_small by nia.
  rewrite (proj2 (Z.eqb_neq _ _)) by nia. cbn [oassert obind oexpect negb].
  rewrite (proj2 (Z.leb_le _ _)) by nia. cbn [oassert obind oexpect].
  eexists; split; [reflexivity|].
  unfold wsub. pose proof (wf_intro ww (e + bits scale) (draw - (scale * 2 ^ (e - 1) - 1)) ltac:(lia) ltac:(nia)) as [W V].
  auto.
Qed.

Lemma random_range_scaled_wide_eq w xw e scale draw :
  sec_random_range_scaled_wide w xw e scale draw = sec_random_range_scaled w xw e scale draw.
Proof. reflexivity. Qed.

Lemma xof_range_spec w e h : 0 < e < w -> 0 <= h < 2 ^ e ->
  exists x, pub_from_xof_range w e h = Ret x /\ wf w x /\ bound x = e /\
    sval w x = h - (2 ^ (e - 1) - 1).
Proof.
  intros He Hd. unfold pub_from_xof_range, oshl, csub.
  pose proof (pow2_pos e ltac:(lia)). pose proof (pow2_pos (e - 1) ltac:(lia)).
  pose proof (pow2_lt e w ltac:(lia) ltac:(lia)). pose proof (pow2_pred e ltac:(lia)).
  rewrite !(proj2 (Z.ltb_lt _ _)) by lia. cbn [oassert obind oexpect].
  rewrite !Z.mul_1_l, !Z.mod_small by lia.
  rewrite (proj2 (Z.leb_le _ _)) by lia. cbn [oassert obind oexpect].
  unfold wsub. pose proof (wf_intro w e (h - (2 ^ (e - 1) - 1)) ltac:(lia) ltac:(lia)) as [W V].
  rewrite pub_new_from_unsigned_eq.
  rewrite (proj2 (sec_new_from_unsigned_iff w _ e ltac:(lia) ltac:(apply Z.mod_pos_bound; lia) ltac:(lia) (mkS e ((h - (2 ^ (e - 1) - 1)) mod 2 ^ w)))); auto.
  cbn. eexists; split; [reflexivity|]. auto.
Qed.

(** ** Centred reduction *)

Lemma new_modulo_spec w m mbits v : 1 <= w -> 0 < m < 2 ^ w -> 0 <= v < m -> 1 <= mbits ->
  exists r, sec_new_modulo w v m mbits = Ret r /\
  let c := if m / 2 <? v then v - m else v in
  ((mbits - 1 < w /\ Z.abs c < 2 ^ (mbits - 1) /\ 
    exists x, r = Some x /\ wf w x /\ sval w x = c /\ bound x = mbits - 1)
   \/ (r = None /\ (w <= mbits - 1 \/ 2 ^ (mbits - 1) <= Z.abs c))).
Proof.
  intros Hw Hm Hv Hb. unfold sec_new_modulo, csub, wshr.
  rewrite (proj2 (Z.leb_le v m)) by lia. rewrite (proj2 (Z.leb_le 1 mbits)) by lia.
  cbn [obind oexpect oassert].
  eexists; split; [reflexivity|]. cbv zeta.
  set (c := if m / 2 <? v then v - m else v).
  assert (Hhalf : (if 1 <? w then m / 2 ^ 1 else 0) = m / 2).
  { destruct (Z.ltb_spec 1 w); [reflexivity|]. assert (w = 1) by lia; subst w.
    change (2^1) with 2 in *. assert (m = 1) by lia; subst m. reflexivity. }
  rewrite Hhalf.
  assert (Hc : - 2 ^ (w - 1) <= c < 2 ^ (w - 1)).
  { unfold c. rewrite (pow2_pred w) in Hm by lia.
    pose proof (Z.div_mod m 2 ltac:(lia)). pose proof (Z.mod_pos_bound m 2 ltac:(lia)).
    destruct (Z.ltb_spec (m / 2) v); lia. }
  assert (E : (if m / 2 <? v then wneg w (m - v) else v) = c mod 2 ^ w).
  { unfold c, wneg. destruct (m / 2 <? v).
    - f_equal; lia.
    - rewrite Z.mod_small; lia. }
  rewrite E.
  pose proof (Z.mod_pos_bound c (2 ^ w) ltac:(lia)) as Hr.
  assert (Et : twos w (c mod 2 ^ w) = c) by (apply twos_mod; auto).
  destruct (sec_new_from_unsigned w (c mod 2 ^ w) (mbits - 1)) as [x|] eqn:Ex.
  - left. apply sec_new_from_unsigned_iff in Ex as [-> W]; auto; try lia.
    pose proof W as (_ & B & V). unfold sval in V. cbn in V, B. rewrite Et in V.
    split; [lia|]. split; [auto|]. eexists; split; [reflexivity|]. split; auto.
  - right. split; auto. apply new_from_unsigned_None in Ex; auto.
    + rewrite Et in Ex. auto.
    + lia.
Qed.

(** ** Exponentiation *)

Lemma pow_pub_spec w m b x : 1 < m -> wf w x -> 0 <= b ->
  pow_pub w m b x =
    if sval w x <? 0 then oexpect (inv_mod m ((b ^ (- sval w x)) mod m))
    else Ret ((b ^ sval w x) mod m).
Proof.
  intros Hm Hx Hb. unfold pow_pub. rewrite !pow_bounded_eq.
  pose proof Hx as (Hux & _). pose proof (wf_elim w x Hx) as (Hw & Hbd & E & Hv & Hle).
  rewrite pub_abs_spec, is_negative_spec by lia.
  rewrite (Z.mod_small (Z.abs (sval w x))) by lia.
  destruct (Z.ltb_spec (sval w x) 0); rewrite ?Z.abs_neq, ?Z.abs_eq by lia; reflexivity.
Qed.

Lemma pow_sec_spec w m b x : 1 < m -> wf w x -> 0 <= b ->
  pow_sec w m b x =
    match inv_mod m ((b ^ Z.abs (sval w x)) mod m) with
    | Some i => Ret (if sval w x <? 0 then i else (b ^ sval w x) mod m)
    | None => Panic
    end.
Proof.
  intros Hm Hx Hb. unfold pow_sec.
  rewrite sec_abs_spec by auto. cbn [obind uword ubound]. rewrite !pow_bounded_eq.
  pose proof Hx as (Hux & _). pose proof (wf_elim w x Hx) as (Hw & Hbd & E & Hv & Hle).
  rewrite is_negative_spec by lia.
  rewrite (Z.mod_small (Z.abs (sval w x))) by lia.
  destruct (inv_mod m _); cbn; auto.
  destruct (Z.ltb_spec (sval w x) 0); rewrite ?Z.abs_neq, ?Z.abs_eq by lia; reflexivity.
Qed.

Lemma inv_mod_pow_None m b n : 1 < m -> 0 <= n ->
  (inv_mod m ((b ^ n) mod m) = None <-> Z.gcd b m <> 1 /\ 0 < n).
Proof.
  intros Hm Hn. rewrite inv_mod_None, gcd_mod_l by lia.
  destruct (Z.eq_dec n 0) as [->|].
  - rewrite Z.pow_0_r, Z.gcd_1_l. lia.
  - split.
    + intros H; split; [|lia]. intros G. apply H. apply gcd_pow_1; auto.
    + intros [H _] G. apply H. apply gcd_pow_1_inv with n; auto; lia.
Qed.

Lemma pow_agree_units w m b x : 1 < m -> wf w x -> 0 <= b -> Z.gcd b m = 1 ->
  pow_sec w m b x = pow_pub w m b x.
Proof.
  intros Hm Hx Hb Hg. rewrite pow_sec_spec, pow_pub_spec by auto.
  destruct (inv_mod m ((b ^ Z.abs (sval w x)) mod m)) eqn:E.
  - destruct (Z.ltb_spec (sval w x) 0); auto.
    rewrite Z.abs_neq in E by lia. rewrite E; reflexivity.
  - apply inv_mod_pow_None in E; tauto || lia.
Qed.

(** Meaning of [powers] independent of the implementation: [r] is the
    [v]-th power of [b] modulo [m]. *)
Definition is_spower (m b v r : Z) : Prop :=
  0 <= r < m /\
  (0 <= v -> r = (b ^ v) mod m) /\
  (v < 0 -> (r * b ^ (- v)) mod m = 1 mod m).

Lemma pow_pub_correct w m b x : 1 < m -> wf w x -> 0 <= b -> Z.gcd b m = 1 ->
  exists r, pow_pub w m b x = Ret r /\ is_spower m b (sval w x) r.
Proof.
  intros Hm Hx Hb Hg. rewrite pow_pub_spec by auto.
  destruct (Z.ltb_spec (sval w x) 0).
  - destruct (inv_mod m _) eqn:E; cbn.
    + eexists; split; [reflexivity|]. apply inv_mod_Some in E; [|lia].
      destruct E as [Hr E]. repeat split; try lia. intros _.
      rewrite Z.mul_mod_idemp_l in E by lia. rewrite Z.mul_comm. auto.
    + apply inv_mod_pow_None in E; tauto || lia.
  - eexists; split; [reflexivity|].
    pose proof (Z.mod_pos_bound (b ^ sval w x) m ltac:(lia)).
    repeat split; auto; lia.
Qed.

Lemma pow_pub_panic w m b x : 1 < m -> wf w x -> 0 <= b ->
  (pow_pub w m b x = Panic <-> Z.gcd b m <> 1 /\ sval w x < 0).
Proof.
  intros Hm Hx Hb. rewrite pow_pub_spec by auto.
  destruct (Z.ltb_spec (sval w x) 0).
  - destruct (inv_mod m _) eqn:E; cbn.
    + split; [discriminate|]. intros [G _].
      assert (inv_mod m ((b ^ (- sval w x)) mod m) = None) by (apply inv_mod_pow_None; try split; auto; lia).
      congruence.
    + apply inv_mod_pow_None in E; try lia. tauto.
  - split; [discriminate|lia].
Qed.

Lemma pow_sec_panic w m b x : 1 < m -> wf w x -> 0 <= b ->
  (pow_sec w m b x = Panic <-> Z.gcd b m <> 1 /\ sval w x <> 0).
Proof.
  intros Hm Hx Hb. rewrite pow_sec_spec by auto.
  destruct (inv_mod m _) eqn:E; cbn.
  - split; [discriminate|]. intros [G N].
    assert (inv_mod m ((b ^ Z.abs (sval w x)) mod m) = None) by (apply inv_mod_pow_None; try split; auto; lia).
    congruence.
  - apply inv_mod_pow_None in E; try lia. split; [|auto]. intros _. split; [tauto|lia].
Qed.

Lemma try_from_wide_spec w ww a : 0 <= w <= ww -> 0 <= a < 2 ^ ww ->
  uint_try_from_wide w ww a = if a <? 2 ^ w then Some a else None.
Proof.
  intros Hw Ha. unfold uint_try_from_wide.
  pose proof (bits_le a w ltac:(lia) ltac:(lia)).
  destruct (Z.ltb_spec w (bits a)), (Z.ltb_spec a (2 ^ w)); try lia; auto.
  rewrite Z.mod_small by lia; auto.
Qed.
