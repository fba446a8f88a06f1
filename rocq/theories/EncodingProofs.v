(** * Lemmas about encodings. *)
From Coq Require Import ZArith List Bool Lia Permutation.
From Verif Require Import Base BaseFacts SignedModel SignedSpec SignedProofs EncodingModel.
Import ListNotations.
Open Scope Z_scope.

(** Little-endian value. *)
Definition le_val (k : Z) (l : list Z) : Z := fold_right (fun d acc => d + 2 ^ k * acc) 0 l.

Lemma digits_length k n x : length (digits k n x) = n.
Proof. revert x; induction n; cbn; auto. Qed.

Lemma digits_range k n x : 0 <= k -> Forall (fun d => 0 <= d < 2 ^ k) (digits k n x).
Proof.
  intros Hk. revert x; induction n; cbn; constructor; auto.
  apply Z.mod_pos_bound, pow2_pos; auto.
Qed.

Lemma digits_val k n : forall x, 0 <= k -> le_val k (digits k n x) = x mod 2 ^ (k * Z.of_nat n).
Proof.
  induction n as [|n IH]; intros x Hk.
  - cbn. rewrite Z.mul_0_r. change (2^0) with 1. rewrite Z.mod_1_r; auto.
  - cbn [digits le_val fold_right]. fold (le_val k (digits k n (x / 2 ^ k))).
    rewrite IH by auto. rewrite Nat2Z.inj_succ.
    replace (k * Z.succ (Z.of_nat n)) with (k + k * Z.of_nat n) by ring.
    rewrite Z.pow_add_r by lia.
    pose proof (pow2_pos k Hk). pose proof (pow2_pos (k * Z.of_nat n) ltac:(lia)).
    rewrite Z.rem_mul_r by lia. reflexivity.
Qed.

Lemma digits_app k a b : forall x, 0 <= k ->
  digits k (a + b) x = digits k a x ++ digits k b (x / 2 ^ (k * Z.of_nat a)).
Proof.
  induction a as [|a IH]; intros x Hk.
  - cbn. rewrite Z.mul_0_r. change (2^0) with 1. rewrite Z.div_1_r; auto.
  - cbn [Nat.add digits app]. f_equal. rewrite IH by auto. f_equal. f_equal.
    pose proof (pow2_pos k Hk). pose proof (pow2_pos (k * Z.of_nat a) ltac:(lia)).
    rewrite Z.div_div by lia. rewrite <- Z.pow_add_r by lia. f_equal. f_equal. lia.
Qed.

Lemma digits_mod k n : forall x, 0 <= k -> digits k n (x mod 2 ^ (k * Z.of_nat n)) = digits k n x.
Proof.
  induction n as [|n IH]; intros x Hk; [reflexivity|].
  cbn [digits]. rewrite Nat2Z.inj_succ.
  replace (k * Z.succ (Z.of_nat n)) with (k + k * Z.of_nat n) by ring.
  rewrite Z.pow_add_r by lia.
  pose proof (pow2_pos k Hk). pose proof (pow2_pos (k * Z.of_nat n) ltac:(lia)).
  rewrite Z.rem_mul_r by lia. f_equal.
  - rewrite Z.mul_comm, Z_mod_plus_full, Z.mod_mod by lia. reflexivity.
  - rewrite Z.mul_comm, Z_div_plus_full by lia.
    rewrite (Z.div_small (x mod 2 ^ k)) by (apply Z.mod_pos_bound; lia).
    rewrite Z.add_0_l. apply IH; auto.
Qed.

Lemma digits_le_val k l : 0 <= k -> Forall (fun d => 0 <= d < 2 ^ k) l ->
  digits k (length l) (le_val k l) = l.
Proof.
  intros Hk. induction 1 as [|d l Hd Hl IH]; [reflexivity|].
  cbn [length digits le_val fold_right]. fold (le_val k l).
  pose proof (pow2_pos k Hk).
  rewrite Z.mul_comm, Z_mod_plus_full, Z_div_plus_full, Z.mod_small, Z.div_small by lia.
  f_equal. apply IH.
Qed.

Lemma le_val_range k l : 0 <= k -> Forall (fun d => 0 <= d < 2 ^ k) l ->
  0 <= le_val k l < 2 ^ (k * Z.of_nat (length l)).
Proof.
  intros Hk. induction 1 as [|d l Hd Hl IH].
  - cbn. rewrite Z.mul_0_r. change (2^0) with 1. lia.
  - cbn [length le_val fold_right]. fold (le_val k l). rewrite Nat2Z.inj_succ.
    replace (k * Z.succ (Z.of_nat (length l))) with (k + k * Z.of_nat (length l)) by ring.
    rewrite Z.pow_add_r by lia. nia.
Qed.

Lemma be_value_rev l : be_value l = le_val 8 (rev l).
Proof.
  unfold be_value, le_val. rewrite fold_left_rev_right.
  change (2 ^ 8) with 256.
  enough (forall acc, fold_left (fun a b => a * 256 + b) l acc =
                      fold_left (fun x y => y + 256 * x) l acc) by auto.
  induction l as [|d l IH]; intros acc; cbn [fold_left]; auto. rewrite IH.
  replace (acc * 256 + d) with (d + 256 * acc) by ring. reflexivity.
Qed.

Lemma be_value_app a b : be_value (a ++ b) = be_value a * 256 ^ Z.of_nat (length b) + be_value b.
Proof.
  unfold be_value. rewrite fold_left_app.
  generalize (fold_left (fun acc b0 => acc * 256 + b0) a 0) as v.
  induction b as [|c b IH] using rev_ind; intros v.
  - cbn. ring.
  - rewrite !fold_left_app; cbn. rewrite IH, app_length. cbn [length].
    rewrite Nat.add_1_r, Nat2Z.inj_succ, Z.pow_succ_r by lia. ring.
Qed.

Lemma be_value_zeros n l : be_value (repeat 0 n ++ l) = be_value l.
Proof.
  induction n; cbn; auto.
Qed.

Lemma Forall_byte l : Forall byte_ok l <-> Forall (fun d => 0 <= d < 2 ^ 8) l.
Proof. reflexivity. Qed.

Lemma be_value_range l : Forall byte_ok l -> 0 <= be_value l < 2 ^ (8 * Z.of_nat (length l)).
Proof.
  intros H. rewrite be_value_rev. rewrite <- (rev_length l).
  apply le_val_range; [lia|]. apply Forall_rev. auto.
Qed.

Lemma uint_to_be_bytes_eq L x : uint_to_be_bytes L x = rev (digits 8 (BYTES L) x).
Proof.
  unfold uint_to_be_bytes, uint_limbs, BYTES. revert x.
  induction L as [|L IH]; intros x; [reflexivity|].
  cbn [digits map rev]. rewrite concat_app. cbn [concat]. rewrite app_nil_r.
  rewrite IH. replace (8 * S L)%nat with (8 + 8 * L)%nat by lia.
  rewrite (digits_app 8 8 (8 * L)) by lia. rewrite rev_app_distr.
  unfold limb_to_be_bytes. f_equal. f_equal.
  change (2 ^ 64) with (2 ^ (8 * Z.of_nat 8)). rewrite digits_mod by lia. reflexivity.
Qed.

Lemma uint_to_be_bytes_length L x : length (uint_to_be_bytes L x) = BYTES L.
Proof. rewrite uint_to_be_bytes_eq, rev_length, digits_length; auto. Qed.

Lemma BITS_BYTES L : 8 * Z.of_nat (BYTES L) = BITS L.
Proof. unfold BITS, BYTES. lia. Qed.

Lemma uint_to_be_bytes_value L x : be_value (uint_to_be_bytes L x) = x mod 2 ^ BITS L.
Proof.
  rewrite uint_to_be_bytes_eq, be_value_rev, rev_involutive, digits_val by lia.
  rewrite BITS_BYTES. reflexivity.
Qed.

Lemma uint_to_be_bytes_ok L x : Forall byte_ok (uint_to_be_bytes L x).
Proof.
  rewrite uint_to_be_bytes_eq. apply Forall_rev.
  apply (digits_range 8); lia.
Qed.

Lemma uint_round_trip L x : 0 <= x < 2 ^ BITS L ->
  uint_try_from_be_bytes L (uint_to_be_bytes L x) = Some x.
Proof.
  intros Hx. unfold uint_try_from_be_bytes.
  rewrite uint_to_be_bytes_length, Nat.eqb_refl, uint_to_be_bytes_value.
  rewrite Z.mod_small; auto.
Qed.

Lemma uint_decode_spec L l : Forall byte_ok l ->
  (length l = BYTES L -> exists x, uint_try_from_be_bytes L l = Some x /\ 0 <= x < 2 ^ BITS L
                                  /\ uint_to_be_bytes L x = l) /\
  (length l <> BYTES L -> uint_try_from_be_bytes L l = None).
Proof.
  intros Hl. unfold uint_try_from_be_bytes. split; intros H.
  - rewrite H, Nat.eqb_refl. eexists; split; [reflexivity|]. split.
    + pose proof (be_value_range l Hl) as R. rewrite H, BITS_BYTES in R. auto.
    + rewrite uint_to_be_bytes_eq, be_value_rev, <- H, <- (rev_length l).
      rewrite digits_le_val; [apply rev_involutive|lia|apply Forall_rev; auto].
  - destruct (Nat.eqb_spec (length l) (BYTES L)); auto. contradiction.
Qed.

(** ** Packed signed integers *)

Lemma div_ceil8_spec b : 0 <= b -> b <= 8 * div_ceil8 b < b + 8.
Proof.
  intros. unfold div_ceil8. pose proof (Z.div_mod (b + 7) 8 ltac:(lia)).
  pose proof (Z.mod_pos_bound (b + 7) 8 ltac:(lia)). lia.
Qed.

Lemma be_value_skipn n l : Forall byte_ok l -> (n <= length l)%nat ->
  be_value l < 2 ^ (8 * Z.of_nat (length l - n)) -> be_value (skipn n l) = be_value l.
Proof.
  intros Hl Hn Hv. rewrite <- (firstn_skipn n l) in Hv at 1. rewrite <- (firstn_skipn n l) at 2.
  rewrite be_value_app in *. rewrite skipn_length in *.
  assert (F1 : Forall byte_ok (firstn n l)).
  { rewrite <- (firstn_skipn n l) in Hl. apply Forall_app in Hl; tauto. }
  assert (F2 : Forall byte_ok (skipn n l)).
  { rewrite <- (firstn_skipn n l) in Hl. apply Forall_app in Hl; tauto. }
  pose proof (be_value_range _ F1). pose proof (be_value_range _ F2).
  rewrite skipn_length in H0.
  change 256 with (2 ^ 8) in *. rewrite <- Z.pow_mul_r in * by lia.
  set (P := 2 ^ (8 * Z.of_nat (length l - n))) in *.
  assert (be_value (firstn n l) = 0) by nia. rewrite H1. ring.
Qed.

Lemma pack_signed_spec L x : (0 < L)%nat -> wf (BITS L) x ->
  exists p, pack_signed L x = Ret p /\ p_bound p = bound x /\
    p_neg p = (sval (BITS L) x <? 0) /\
    Z.of_nat (length (p_bytes p)) = div_ceil8 (bound x) /\ Forall byte_ok (p_bytes p) /\
    be_value (p_bytes p) = Z.abs (sval (BITS L) x).
Proof.
  intros HL Hx. pose proof Hx as (Hux & _).
  pose proof (wf_elim _ _ Hx) as (Hw & Hb & E & Hv & Hle).
  unfold pack_signed. rewrite pub_abs_spec, is_negative_spec by lia.
  rewrite uint_to_be_bytes_length.
  pose proof (div_ceil8_spec (bound x) ltac:(lia)) as Hd.
  pose proof (BITS_BYTES L).
  rewrite (proj2 (Z.leb_le _ _)) by (unfold BITS, BYTES in *; lia). cbn [oassert obind].
  eexists; split; [reflexivity|]. cbn [p_bound p_neg p_bytes].
  split; [auto|]. split; [auto|].
  set (r := uint_to_be_bytes L (Z.abs (sval (BITS L) x))).
  assert (Hr : length r = BYTES L) by apply uint_to_be_bytes_length.
  split.
  - rewrite skipn_length, Hr. unfold BITS, BYTES in *; lia.
  - assert (Forall byte_ok r) by apply uint_to_be_bytes_ok. split.
    + rewrite <- (firstn_skipn (BYTES L - Z.to_nat (div_ceil8 (bound x))) r) in H0.
      apply Forall_app in H0; tauto.
    + assert (Hval : be_value r = Z.abs (sval (BITS L) x)).
      { unfold r. rewrite uint_to_be_bytes_value, Z.mod_small; auto.
        split; [lia|]. pose proof (pow2_lt (BITS L - 1) (BITS L)). lia. }
      rewrite be_value_skipn; auto; [lia|]. rewrite Hval, Hr.
      eapply Z.lt_le_trans; [exact Hv|]. apply pow2_le. unfold BITS, BYTES in *; lia.
Qed.

Lemma zeros_repr L : uint_to_be_bytes L 0 = repeat 0 (BYTES L).
Proof.
  rewrite uint_to_be_bytes_eq. generalize (BYTES L) as n.
  assert (H : forall n, digits 8 n 0 = repeat 0 n).
  { induction n; auto. cbn [digits repeat]. rewrite Z.div_0_l, Z.mod_0_l by lia. f_equal; auto. }
  intros n; rewrite H.
  induction n; auto. cbn. rewrite IHn. clear.
  induction n; auto. cbn. f_equal; auto.
Qed.

Lemma firstn_repeat {A} (a : A) n m : (n <= m)%nat -> firstn n (repeat a m) = repeat a n.
Proof.
  revert m; induction n; intros m H; auto.
  destruct m; [lia|]. cbn. f_equal. apply IHn; lia.
Qed.

Lemma unpack_signed_eq L p :
  unpack_signed L p =
    if Nat.ltb (BYTES L) (length (p_bytes p)) then Ret None
    else Ret (pub_new_from_abs (BITS L) (be_value (p_bytes p)) (p_bound p) (p_neg p)).
Proof.
  unfold unpack_signed. rewrite uint_to_be_bytes_length.
  destruct (Nat.ltb_spec (BYTES L) (length (p_bytes p))); auto.
  unfold uint_try_from_be_bytes.
  rewrite zeros_repr, firstn_repeat by lia.
  rewrite app_length, repeat_length.
  rewrite (proj2 (Nat.eqb_eq _ _)) by lia. cbn [obind oexpect].
  rewrite be_value_zeros. reflexivity.
Qed.

Lemma signed_eq w x y : wf w x -> wf w y -> bound x = bound y -> sval w x = sval w y -> x = y.
Proof.
  intros Hx Hy Hb Hv. apply wf_elim in Hx as (_ & _ & Ex & _). apply wf_elim in Hy as (_ & _ & Ey & _).
  destruct x, y; cbn in *. rewrite Hv in Ex. congruence.
Qed.

Lemma signed_wire_round_trip L x : (0 < L)%nat -> wf (BITS L) x ->
  exists p, pack_signed L x = Ret p /\ unpack_signed L p = Ret (Some x).
Proof.
  intros HL Hx. destruct (pack_signed_spec L x HL Hx) as (p & Hp & B & N & Len & Ok & V).
  exists p; split; auto. rewrite unpack_signed_eq.
  pose proof (wf_elim _ _ Hx) as (Hw & Hb & E & Hv & Hle).
  pose proof (div_ceil8_spec (bound x) ltac:(lia)) as Hd.
  destruct (Nat.ltb_spec (BYTES L) (length (p_bytes p))).
  { unfold BYTES, BITS in *; lia. }
  rewrite V, B, N.
  destruct (pub_new_from_abs_ok (BITS L) (Z.abs (sval (BITS L) x)) (bound x) (sval (BITS L) x <? 0))
    as (y & Ey & W & B' & V'); try lia.
  rewrite Ey. do 2 f_equal. apply (signed_eq (BITS L)); auto.
  rewrite V'. destruct (Z.ltb_spec (sval (BITS L) x) 0); lia.
Qed.

Lemma signed_wire_adversarial L p : (0 < L)%nat -> 0 <= p_bound p -> Forall byte_ok (p_bytes p) ->
  exists r, unpack_signed L p = Ret r /\
    forall x, r = Some x -> wf (BITS L) x /\ bound x = p_bound p /\
       sval (BITS L) x = (if p_neg p then - be_value (p_bytes p) else be_value (p_bytes p)).
Proof.
  intros HL Hb Hbytes. rewrite unpack_signed_eq.
  pose proof (be_value_range _ Hbytes).
  destruct (Nat.ltb (BYTES L) (length (p_bytes p))); eexists; (split; [reflexivity|]).
  - discriminate.
  - intros x Hx. apply pub_new_from_abs_spec in Hx; auto; unfold BITS in *; lia.
Qed.

Lemma signed_wire_rejects L p : (0 < L)%nat -> 0 <= p_bound p -> Forall byte_ok (p_bytes p) ->
  (unpack_signed L p = Ret None <->
   (BYTES L < length (p_bytes p))%nat \/ BITS L <= p_bound p \/ 2 ^ p_bound p <= be_value (p_bytes p)).
Proof.
  intros HL Hb Hbytes. rewrite unpack_signed_eq.
  pose proof (be_value_range _ Hbytes).
  destruct (Nat.ltb_spec (BYTES L) (length (p_bytes p))).
  - split; auto.
  - split.
    + intros E; inversion E as [E']. apply pub_new_from_abs_None in E'; auto; lia.
    + intros [?|[?|?]]; [lia| |]; f_equal; apply pub_new_from_abs_None; auto; lia.
Qed.

(** ** Bit vectors *)

Lemma or_at_length l i m : length (or_at l i m) = length l.
Proof. revert i; induction l; destruct i; cbn; auto. Qed.

Lemma or_at_nth l i m j : (i < length l)%nat ->
  nth j (or_at l i m) 0 = if Nat.eqb j i then Z.lor (nth i l 0) m else nth j l 0.
Proof.
  revert i j; induction l as [|b l IH]; intros i j Hi; cbn in Hi; [lia|].
  destruct i; cbn.
  - destruct j; auto.
  - destruct j; cbn; auto. apply IH; lia.
Qed.

Lemma pack_loop_length v i l : length (pack_loop v i l) = length l.
Proof. revert i l; induction v; cbn; auto. intros. rewrite IHv. destruct a; auto using or_at_length. Qed.

Lemma idx_lt i n : (i < n)%nat -> (i / 8 < Z.to_nat (div_ceil8 (Z.of_nat n)))%nat.
Proof.
  intros. pose proof (div_ceil8_spec (Z.of_nat n) ltac:(lia)).
  pose proof (Nat.div_mod i 8 ltac:(lia)).
  pose proof (Nat.mod_upper_bound i 8 ltac:(lia)). lia.
Qed.

Lemma pos_inj i j : (i / 8 = j / 8)%nat -> (i mod 8 = j mod 8)%nat -> i = j.
Proof.
  intros. rewrite (Nat.div_mod i 8), (Nat.div_mod j 8) by lia. lia.
Qed.

Lemma bit_at_or_at l i j : (i / 8 < length l)%nat ->
  bit_at (or_at l (i / 8) (2 ^ (7 - Z.of_nat (i mod 8)))) j = (bit_at l j || Nat.eqb i j).
Proof.
  intros Hi. unfold bit_at. rewrite or_at_nth by auto.
  pose proof (Nat.mod_upper_bound i 8 ltac:(lia)). pose proof (Nat.mod_upper_bound j 8 ltac:(lia)).
  destruct (Nat.eqb_spec (j / 8) (i / 8)) as [E|E].
  - rewrite Z.lor_spec, Z.pow2_bits_eqb by lia. rewrite E. f_equal.
    destruct (Nat.eqb_spec i j) as [->|Hne].
    + apply Z.eqb_refl.
    + apply Z.eqb_neq. intros Heq. apply Hne. apply pos_inj; lia.
  - destruct (Nat.eqb_spec i j) as [->|Hne]; [contradiction|]. rewrite orb_false_r; auto.
Qed.

Lemma pack_loop_bits v : forall i l n, n = (i + length v)%nat ->
  length l = Z.to_nat (div_ceil8 (Z.of_nat n)) ->
  forall j, bit_at (pack_loop v i l) j =
    bit_at l j || (if Nat.leb i j then nth (j - i) v false else false).
Proof.
  induction v as [|b v IH]; intros i l n Hn Hl j.
  - cbn. destruct (Nat.leb i j); [destruct (j - i)%nat|]; cbn; auto using orb_false_r.
  - cbn [pack_loop]. rewrite (IH (S i) _ n); cbn [length] in *; try lia.
    2: { destruct b; auto. rewrite or_at_length; auto. }
    assert (Hi : (i / 8 < length l)%nat) by (rewrite Hl; apply idx_lt; lia).
    destruct (Nat.leb_spec (S i) j), (Nat.leb_spec i j); try lia.
    + replace (j - i)%nat with (S (j - S i)) by lia. cbn [nth]. destruct b; auto.
      rewrite bit_at_or_at by auto. rewrite (proj2 (Nat.eqb_neq i j)) by lia. rewrite orb_false_r; auto.
    + assert (j = i) by lia; subst j. rewrite Nat.sub_diag, orb_false_r. cbn [nth].
      destruct b; [|rewrite orb_false_r; auto].
      rewrite bit_at_or_at, Nat.eqb_refl by auto. auto.
    + rewrite !orb_false_r. destruct b; auto.
      rewrite bit_at_or_at by auto. rewrite (proj2 (Nat.eqb_neq i j)) by lia. apply orb_false_r.
Qed.

Lemma bit_at_zeros n j : bit_at (repeat 0 n) j = false.
Proof.
  unfold bit_at. assert (E : nth (j / 8) (repeat 0 n) 0 = 0).
  { generalize (j / 8)%nat. induction n; intros []; cbn; auto. }
  rewrite E. apply Z.bits_0.
Qed.

Lemma map_nth_seq {A} (l : list A) d : map (fun i => nth i l d) (seq 0 (length l)) = l.
Proof.
  apply (nth_ext _ _ d d).
  - rewrite map_length, seq_length; auto.
  - intros n Hn. rewrite map_length, seq_length in Hn.
    rewrite (nth_indep _ d (nth 0 l d)) by (rewrite map_length, seq_length; auto).
    rewrite (map_nth (fun i => nth i l d)), seq_nth; auto.
Qed.

Lemma bitvec_round_trip v : bitvec_unpack (bitvec_pack v) = Some v.
Proof.
  unfold bitvec_unpack, bitvec_pack; cbn [pb_bits pb_bytes].
  rewrite pack_loop_length, repeat_length.
  pose proof (div_ceil8_spec (Z.of_nat (length v)) ltac:(lia)).
  rewrite Z2Nat.id by lia. rewrite Z.ltb_irrefl. f_equal.
  unfold bitvec_from_bytes. rewrite Nat2Z.id.
  transitivity (map (fun i => nth i v false) (seq 0 (length v))); [|apply map_nth_seq].
  apply map_ext. intros j. rewrite (pack_loop_bits v 0 _ (length v)); auto using repeat_length.
  rewrite bit_at_zeros. cbn. rewrite Nat.sub_0_r; auto.
Qed.

Lemma bitvec_unpack_length p v : 0 <= pb_bits p ->
  bitvec_unpack p = Some v -> Z.of_nat (length v) = pb_bits p.
Proof.
  intros Hp. unfold bitvec_unpack. destruct (_ <? _); [discriminate|].
  intros E; inversion E. unfold bitvec_from_bytes. rewrite map_length, seq_length. lia.
Qed.

Lemma bitvec_unpack_accepts p : 0 <= pb_bits p ->
  ((exists v, bitvec_unpack p = Some v) <-> pb_bits p <= 8 * Z.of_nat (length (pb_bytes p))).
Proof.
  intros Hp. unfold bitvec_unpack. pose proof (div_ceil8_spec _ Hp).
  destruct (Z.ltb_spec (Z.of_nat (length (pb_bytes p))) (div_ceil8 (pb_bits p))).
  - split; [intros [v Hv]; discriminate|lia].
  - split; [lia|eauto].
Qed.

Lemma bitvec_trailing p junk v : bitvec_unpack p = Some v -> 0 <= pb_bits p ->
  bitvec_unpack (mkPB (pb_bits p) (pb_bytes p ++ junk)) = Some v.
Proof.
  unfold bitvec_unpack; cbn [pb_bits pb_bytes]. intros H Hb.
  destruct (Z.ltb_spec (Z.of_nat (length (pb_bytes p))) (div_ceil8 (pb_bits p))); [discriminate|].
  rewrite app_length, Nat2Z.inj_add.
  rewrite (proj2 (Z.ltb_ge _ _)) by lia. rewrite <- H. f_equal.
  unfold bitvec_from_bytes. apply map_ext_in. intros i Hi. apply in_seq in Hi.
  unfold bit_at. f_equal. apply app_nth1.
  pose proof (div_ceil8_spec _ Hb).
  pose proof (idx_lt i (Z.to_nat (pb_bits p)) ltac:(lia)).
  rewrite Z2Nat.id in H2 by lia. lia.
Qed.

(** ** XOR *)

Lemma bitvec_xor_Ret a b c : bitvec_xor a b = Ret c ->
  length a = length b /\ c = map (fun p => xorb (fst p) (snd p)) (combine a b) /\ length c = length a.
Proof.
  unfold bitvec_xor. destruct (Nat.eqb_spec (length a) (length b)); [|discriminate].
  intros E; inversion E. repeat split; auto. rewrite map_length, combine_length. lia.
Qed.

(** pointwise xor, total version used in the specification *)
Fixpoint bxor (a b : list bool) : list bool :=
  match a, b with
  | x :: a', y :: b' => xorb x y :: bxor a' b'
  | _, _ => []
  end.

Lemma bxor_combine a b : map (fun p => xorb (fst p) (snd p)) (combine a b) = bxor a b.
Proof. revert b; induction a; destruct b; cbn; f_equal; auto. Qed.

Lemma bxor_length a b : length a = length b -> length (bxor a b) = length a.
Proof. revert b; induction a; destruct b; cbn; intros; auto; discriminate. Qed.

Lemma bxor_comm a b : bxor a b = bxor b a.
Proof. revert b; induction a; destruct b; cbn; auto. rewrite xorb_comm. f_equal; auto. Qed.

Lemma bxor_assoc a b c : length a = length b -> length b = length c ->
  bxor (bxor a b) c = bxor a (bxor b c).
Proof.
  revert b c; induction a; destruct b, c; cbn; intros; auto; try discriminate.
  rewrite xorb_assoc. f_equal. apply IHa; lia.
Qed.

Lemma bxor_self_inv a b : length a = length b -> bxor (bxor a b) b = a.
Proof.
  revert b; induction a as [|x a IH]; destruct b; cbn; intros; auto; try discriminate.
  rewrite xorb_assoc, xorb_nilpotent, xorb_false_r. f_equal. apply IH. lia.
Qed.

Lemma bitvec_xor_eq a b : bitvec_xor a b = if Nat.eqb (length a) (length b) then Ret (bxor a b) else Panic.
Proof. unfold bitvec_xor. rewrite bxor_combine. auto. Qed.

Lemma fold_xor_panic l : fold_left (fun acc b => a <~ acc ;; bitvec_xor a b) l Panic = Panic.
Proof. induction l; auto. Qed.

Lemma xor_all_spec mine others :
  (Forall (fun b => length b = length mine) others ->
     xor_all mine others = Ret (fold_left bxor others mine)) /\
  (~ Forall (fun b => length b = length mine) others -> xor_all mine others = Panic).
Proof.
  unfold xor_all. revert mine. induction others as [|b others IH]; intros mine; cbn [fold_left].
  - split; auto. intros H; exfalso; apply H; constructor.
  - cbn [obind]. rewrite bitvec_xor_eq.
    destruct (Nat.eqb_spec (length mine) (length b)).
    + assert (Hl : length (bxor mine b) = length mine) by (apply bxor_length; auto).
      specialize (IH (bxor mine b)). rewrite Hl in IH. destruct IH as [IH1 IH2].
      split; intros H.
      * apply IH1. inversion H; auto.
      * apply IH2. intros H'. apply H. constructor; auto.
    + rewrite fold_xor_panic. split; auto. intros H; inversion H; congruence.
Qed.

Lemma fold_bxor_length l a : Forall (fun b => length b = length a) l -> length (fold_left bxor l a) = length a.
Proof.
  revert a; induction l as [|b l IH]; intros a H; cbn; auto.
  inversion H; subst. rewrite IH; rewrite bxor_length; auto.
Qed.

Lemma fold_bxor_shift l a b : Forall (fun c => length c = length a) l -> length b = length a ->
  fold_left bxor l (bxor a b) = bxor (fold_left bxor l a) b.
Proof.
  revert a b; induction l as [|c l IH]; intros a b H Hb; cbn; auto.
  inversion H as [|? ? Hc Hl]; subst.
  rewrite (bxor_assoc a b c) by lia. rewrite (bxor_comm b c).
  rewrite <- (bxor_assoc a c b) by lia.
  apply IH; rewrite bxor_length by lia; auto.
Qed.

Lemma fold_bxor_perm n l l' a : Permutation l l' -> length a = n -> Forall (fun b => length b = n) l ->
  fold_left bxor l a = fold_left bxor l' a.
Proof.
  intros P; revert a; induction P; intros a Ha H; cbn; auto.
  - inversion H; subst. apply IHP; auto. rewrite bxor_length; lia.
  - inversion H as [|? ? H1 H2]; subst. inversion H2 as [|? ? H3 H4]; subst. f_equal.
    rewrite (bxor_assoc a y x), (bxor_comm y x), <- (bxor_assoc a x y) by lia. auto.
  - rewrite IHP1; auto. apply IHP2; auto. eapply Permutation_Forall; eauto.
Qed.

Lemma Forall_length_perm n l l' : Permutation l l' ->
  Forall (fun b : list bool => length b = n) l -> Forall (fun b => length b = n) l'.
Proof. intros; eapply Permutation_Forall; eauto. Qed.

(** All parties compute the same combined value: swapping who starts the fold. *)
Lemma xor_all_perm mine others mine' others' :
  Permutation (mine :: others) (mine' :: others') -> xor_all mine others = xor_all mine' others'.
Proof.
  intros P.
  destruct (xor_all_spec mine others) as [H1 H2]. destruct (xor_all_spec mine' others') as [H1' H2'].
  assert (Hdec : forall n (l : list (list bool)), {Forall (fun b => length b = n) l} + {~ Forall (fun b => length b = n) l}).
  { intros; apply Forall_dec. intros; apply Nat.eq_dec. }
  destruct (Hdec (length mine) others) as [F|F].
  - assert (F' : Forall (fun b => length b = length mine) (mine' :: others')).
    { eapply Forall_length_perm; [exact P|]. constructor; auto. }
    inversion F' as [|? ? Hm Ho]; subst. rewrite H1 by auto. rewrite H1' by (rewrite Hm; auto).
    f_equal.
    pose (z := repeat false (length mine)).
    assert (Hz : length z = length mine) by apply repeat_length.
    assert (Z0 : forall a, length a = length mine -> bxor z a = a).
    { intros a. unfold z. generalize (length mine). clear.
      induction a; destruct n; cbn; intros; auto; try discriminate. f_equal; [destruct a; auto|apply IHa; lia]. }
    transitivity (fold_left bxor (mine :: others) z).
    + cbn. rewrite Z0; auto.
    + rewrite (fold_bxor_perm (length mine) _ (mine' :: others') z P); auto.
      cbn. rewrite Z0; auto.
  - rewrite H2 by auto. rewrite H2'; auto. intros F'. apply F.
    assert (G : Forall (fun b => length b = length mine') (mine :: others)).
    { eapply Forall_length_perm; [apply Permutation_sym; exact P|]. constructor; auto. }
    inversion G as [|? ? Hm Ho]; subst. rewrite Hm; auto.
Qed.

Lemma xor_all_bij n target others : length target = n -> Forall (fun b => length b = n) others ->
  exists mine, length mine = n /\ xor_all mine others = Ret target /\
    forall mine', length mine' = n -> xor_all mine' others = Ret target -> mine' = mine.
Proof.
  intros Ht Ho.
  assert (Hfix : forall a b, length a = n -> length b = n -> fold_left bxor others (bxor a b) = bxor (fold_left bxor others a) b).
  { intros; apply fold_bxor_shift; [|lia]. rewrite H; auto. }
  pose (z := repeat false n).
  assert (Hz : length z = n) by apply repeat_length.
  assert (Z0 : forall a, length a = n -> bxor z a = a).
  { intros a. unfold z. generalize n. clear.
    induction a; destruct n; cbn; intros; auto; try discriminate. f_equal; [destruct a; auto|apply IHa; lia]. }
  set (K := fold_left bxor others z).
  assert (HK : length K = n) by (unfold K; rewrite fold_bxor_length; rewrite Hz; auto).
  assert (HF : forall a, length a = n -> fold_left bxor others a = bxor K a).
  { intros a Ha. rewrite <- (Z0 a Ha) at 1. apply Hfix; auto. }
  exists (bxor K target).
  assert (Hl : length (bxor K target) = n) by (rewrite bxor_length; lia).
  split; auto. split.
  - rewrite (proj1 (xor_all_spec _ _)) by (rewrite Hl; auto). f_equal.
    rewrite HF by auto. rewrite (bxor_comm K target), bxor_comm, bxor_self_inv; auto; lia.
  - intros m Hm E. rewrite (proj1 (xor_all_spec _ _)) in E by (rewrite Hm; auto).
    inversion E as [E']. rewrite HF by auto.
    rewrite (bxor_comm K m), (bxor_comm K), bxor_self_inv; auto; lia.
Qed.

(** ** Framing *)

Lemma frame_inj f g r s : Z.of_nat (length f) < 2 ^ 64 -> Z.of_nat (length g) < 2 ^ 64 ->
  frame f ++ r = frame g ++ s -> f = g /\ r = s.
Proof.
  intros Hf Hg. unfold frame. rewrite <- !app_assoc. intros E.
  assert (L : length (rev (digits 8 8 (Z.of_nat (length f)))) = length (rev (digits 8 8 (Z.of_nat (length g))))).
  { rewrite !rev_length, !digits_length; auto. }
  assert (Ed : rev (digits 8 8 (Z.of_nat (length f))) = rev (digits 8 8 (Z.of_nat (length g))) /\ f ++ r = g ++ s).
  { apply app_eq_app in E. destruct E as [t [[E1 E2]|[E1 E2]]].
    - assert (t = []) by (apply length_zero_iff_nil; apply (f_equal (@length Z)) in E1; rewrite app_length in E1; lia).
      subst; rewrite app_nil_r in E1; auto.
    - assert (t = []) by (apply length_zero_iff_nil; apply (f_equal (@length Z)) in E1; rewrite app_length in E1; lia).
      subst; rewrite app_nil_r in E1; auto. }
  destruct Ed as [Ed Er].
  assert (Elen : length f = length g).
  { apply (f_equal be_value) in Ed. rewrite !be_value_rev, !rev_involutive, !digits_val in Ed by lia.
    change (8 * Z.of_nat 8) with 64 in Ed. rewrite !Z.mod_small in Ed by lia. lia. }
  apply app_eq_app in Er. destruct Er as [t [[E1 E2]|[E1 E2]]].
  - assert (t = []) by (apply length_zero_iff_nil; apply (f_equal (@length Z)) in E1; rewrite app_length in E1; lia).
    subst; rewrite app_nil_r in *; auto.
  - assert (t = []) by (apply length_zero_iff_nil; apply (f_equal (@length Z)) in E1; rewrite app_length in E1; lia).
    subst; rewrite app_nil_r in *; auto.
Qed.

Lemma frames_inj : forall fs gs,
  Forall (fun f => Z.of_nat (length f) < 2 ^ 64) fs -> Forall (fun f => Z.of_nat (length f) < 2 ^ 64) gs ->
  concat (map frame fs) = concat (map frame gs) -> fs = gs.
Proof.
  assert (Hne : forall f r, frame f ++ r <> []).
  { intros f r H. unfold frame in H. apply (f_equal (@length Z)) in H.
    rewrite !app_length, rev_length, digits_length in H. cbn in H. lia. }
  induction fs as [|f fs IH]; intros [|g gs] Hf Hg E; cbn in E; auto.
  - symmetry in E; apply Hne in E; contradiction.
  - apply Hne in E; contradiction.
  - inversion Hf; subst; inversion Hg; subst.
    apply frame_inj in E as [-> E]; auto. f_equal. apply IH; auto.
Qed.

Lemma absorbed_inj d1 d2 fs gs :
  Forall (fun f => Z.of_nat (length f) < 2 ^ 64) (d1 :: fs) ->
  Forall (fun f => Z.of_nat (length f) < 2 ^ 64) (d2 :: gs) ->
  absorbed d1 fs = absorbed d2 gs -> d1 = d2 /\ fs = gs.
Proof.
  intros H1 H2 E. apply frames_inj in E; auto. inversion E; auto.
Qed.

(** ** Hash-derived integers *)

Lemma land7 n : 0 <= n -> Z.land n 7 = n mod 8.
Proof. intros. change 7 with (Z.ones 3). rewrite Z.land_ones by lia. reflexivity. Qed.

Lemma mask_first_spec nbits buf : 0 < nbits -> Forall byte_ok buf ->
  Z.of_nat (length buf) = div_ceil8 nbits ->
  Forall byte_ok (mask_first (xof_mask nbits) buf) /\
  be_value (mask_first (xof_mask nbits) buf) = be_value buf mod 2 ^ nbits.
Proof.
  intros Hn Hb Hl. unfold xof_mask. rewrite land7 by lia.
  pose proof (div_ceil8_spec nbits ltac:(lia)) as Hd.
  destruct buf as [|b r]; cbn [length] in Hl; [lia|].
  inversion Hb as [|? ? Hb0 Hr]; subst. cbn [mask_first].
  pose proof (be_value_range r Hr) as Rr.
  pose proof (Z.div_mod nbits 8 ltac:(lia)) as Hdm. pose proof (Z.mod_pos_bound nbits 8 ltac:(lia)) as Hm.
  change (b :: r) with ([b] ++ r).
  assert (E : forall c, be_value (c :: r) = c * 2 ^ (8 * Z.of_nat (length r)) + be_value r).
  { intros c. change (c :: r) with ([c] ++ r). rewrite be_value_app. cbn [be_value fold_left].
    rewrite Z.pow_mul_r by lia. change (2 ^ 8) with 256. ring. }
  cbn [app]. rewrite !E.
  set (R := 2 ^ (8 * Z.of_nat (length r))) in *.
  assert (HR : 0 < R) by (apply pow2_pos; lia).
  destruct (Z.eqb_spec (nbits mod 8) 0) as [H0|H0].
  - assert (Hlen : nbits = 8 + 8 * Z.of_nat (length r)) by lia.
    replace (Z.land b 255) with b.
    2: { change 255 with (Z.ones 8). rewrite Z.land_ones, Z.mod_small by (unfold byte_ok in *; lia). auto. }
    split; [constructor; auto|].
    rewrite Z.mod_small; auto.
    rewrite Hlen, Z.pow_add_r by lia. fold R. unfold byte_ok in *. change (2 ^ 8) with 256. nia.
  - assert (Hlen : nbits = nbits mod 8 + 8 * Z.of_nat (length r)) by lia.
    replace (2 ^ (nbits mod 8) - 1) with (Z.ones (nbits mod 8)) by (rewrite Z.ones_equiv; lia).
    rewrite Z.land_ones by lia.
    pose proof (pow2_pos (nbits mod 8) ltac:(lia)).
    pose proof (Z.mod_pos_bound b (2 ^ (nbits mod 8)) ltac:(lia)).
    assert (2 ^ (nbits mod 8) <= 256) by (change 256 with (2 ^ 8); apply pow2_le; lia).
    split; [constructor; auto; unfold byte_ok; lia|].
    rewrite Hlen at 2. rewrite (Z.add_comm (nbits mod 8)), Z.pow_add_r by lia. fold R.
    rewrite Z.rem_mul_r by lia.
    rewrite (Z.add_comm (b * R)), Z_mod_plus_full, Z_div_plus_full by lia.
    rewrite (Z.mod_small (be_value r)), (Z.div_small (be_value r)) by lia.
    rewrite Z.add_0_l. ring.
Qed.

Lemma uint_from_xof_spec L nbits buf : 0 <= nbits <= BITS L -> Forall byte_ok buf ->
  Z.of_nat (length buf) = div_ceil8 nbits ->
  uint_from_xof L nbits buf = Ret (be_value buf mod 2 ^ nbits).
Proof.
  intros Hn Hb Hl. unfold uint_from_xof.
  rewrite (proj2 (Z.leb_le _ _)) by lia. cbn [obind oassert].
  unfold uint_try_from_be_bytes.
  assert (Hlen : length (mask_first (xof_mask nbits) buf) = length buf) by (destruct buf; auto).
  pose proof (div_ceil8_spec nbits ltac:(lia)).
  rewrite app_length, repeat_length, Hlen.
  rewrite (proj2 (Nat.eqb_eq _ _)) by (unfold BITS, BYTES in *; lia).
  cbn [oexpect]. rewrite be_value_zeros. f_equal.
  destruct (Z.eq_dec nbits 0) as [->|].
  - change (div_ceil8 0) with 0 in Hl. destruct buf; [|cbn in Hl; lia]. reflexivity.
  - apply mask_first_spec; auto; lia.
Qed.

Lemma uint_from_xof_surj L nbits x : 0 <= nbits <= BITS L -> 0 <= x < 2 ^ nbits ->
  exists buf, Forall byte_ok buf /\ Z.of_nat (length buf) = div_ceil8 nbits /\
    uint_from_xof L nbits buf = Ret x.
Proof.
  intros Hn Hx. pose proof (div_ceil8_spec nbits ltac:(lia)).
  exists (rev (digits 8 (Z.to_nat (div_ceil8 nbits)) x)).
  assert (H1 : Forall byte_ok (rev (digits 8 (Z.to_nat (div_ceil8 nbits)) x))).
  { apply Forall_rev, (digits_range 8); lia. }
  assert (H2 : Z.of_nat (length (rev (digits 8 (Z.to_nat (div_ceil8 nbits)) x))) = div_ceil8 nbits).
  { rewrite rev_length, digits_length. lia. }
  split; auto. split; auto.
  rewrite uint_from_xof_spec by auto. f_equal.
  rewrite be_value_rev, rev_involutive, digits_val by lia.
  rewrite Z2Nat.id by lia.
  rewrite (Z.mod_small x); [apply Z.mod_small; lia|].
  pose proof (pow2_le nbits (8 * div_ceil8 nbits) ltac:(lia)). lia.
Qed.

Lemma challenge_from_xof_spec L e buf : 0 < e < BITS L -> Forall byte_ok buf ->
  Z.of_nat (length buf) = div_ceil8 e ->
  exists x, challenge_from_xof L e buf = Ret x /\ wf (BITS L) x /\ bound x = e /\
    pm_interval e (sval (BITS L) x).
Proof.
  intros He Hb Hl. unfold challenge_from_xof.
  rewrite !(proj2 (Z.ltb_lt _ _)) by lia. cbn [obind oassert].
  rewrite uint_from_xof_spec by (auto; lia). cbn [obind].
  pose proof (Z.mod_pos_bound (be_value buf) (2 ^ e) (pow2_pos e ltac:(lia))).
  destruct (xof_range_spec (BITS L) e (be_value buf mod 2 ^ e) He H) as (x & Ex & W & B & V).
  exists x. split; auto. split; auto. split; auto.
  rewrite V. unfold pm_interval. pose proof (pow2_pred e ltac:(lia)). lia.
Qed.

Lemma invertible_from_xof_spec n draws r : invertible_from_xof n draws = Some r ->
  Z.gcd r n = 1 /\ In r draws.
Proof.
  induction draws as [|d draws IH]; cbn; [discriminate|].
  destruct (Z.eqb_spec (Z.gcd d n) 1).
  - intros E; inversion E; subst; auto.
  - intros E; apply IH in E; tauto.
Qed.
