(** * Lemmas about scalar/integer conversions. *)
From Coq Require Import ZArith List Bool Lia.
From Verif Require Import Base BaseFacts SignedModel SignedSpec SignedProofs EncodingModel EncodingProofs ConversionModel.
Import ListNotations.
Open Scope Z_scope.

Section Conv.
Variables (q num_bits : Z) (slen L LW : nat).
(** The curve order fits the scalar encoding, has exactly [num_bits] bits and
    is odd; the scalar encoding is shorter than [Uint]; [WideUint] is wider. *)
Definition conv_params_ok : Prop :=
  1 < q /\ Z.odd q = true /\ bits q = num_bits /\ num_bits < BITS L /\
  num_bits <= 8 * Z.of_nat slen /\ (slen <= BYTES L)%nat /\ (L <= LW)%nat.
Hypothesis OK : conv_params_ok.

Lemma sbytes_spec s : 0 <= s < 2 ^ (8 * Z.of_nat slen) ->
  length (sbytes slen s) = slen /\ Forall byte_ok (sbytes slen s) /\ be_value (sbytes slen s) = s.
Proof.
  intros Hs. unfold sbytes. rewrite rev_length, digits_length. split; auto. split.
  - apply Forall_rev, (digits_range 8); lia.
  - rewrite be_value_rev, rev_involutive, digits_val, Z.mod_small by lia. auto.
Qed.

Lemma pad_to_uint_spec b : (length b <= BYTES L)%nat -> pad_to_uint L b = Ret (be_value b).
Proof.
  intros Hb. unfold pad_to_uint. rewrite uint_to_be_bytes_length.
  rewrite (proj2 (Nat.leb_le _ _)) by auto. cbn [oassert obind].
  unfold uint_try_from_be_bytes. rewrite zeros_repr, firstn_repeat by lia.
  rewrite app_length, repeat_length, (proj2 (Nat.eqb_eq _ _)) by lia.
  cbn [oexpect]. rewrite be_value_zeros; auto.
Qed.

Lemma q_lt : q < 2 ^ num_bits /\ 2 ^ (num_bits - 1) <= q /\ q < 2 ^ (8 * Z.of_nat slen) /\ 2 <= num_bits.
Proof.
  destruct OK as (H1 & H2 & H3 & H4 & H5 & H6 & H7).
  pose proof (bits_spec q ltac:(lia)). rewrite H3 in H.
  pose proof (pow2_le num_bits (8 * Z.of_nat slen) H5).
  repeat split; try lia.
  assert (~ num_bits <= 1); [|lia]. intros C.
  assert (2 ^ num_bits <= 2 ^ 1) by (apply pow2_le; auto). change (2^1) with 2 in *.
  assert (q = 2 - 1 \/ q <= 1) by lia. lia.
Qed.

Lemma curve_order_uint_spec : curve_order_uint q slen L = Ret q.
Proof.
  destruct OK as (H1 & H2 & H3 & H4 & H5 & H6 & H7). pose proof q_lt.
  destruct (sbytes_spec q ltac:(lia)) as (A & B & C).
  unfold curve_order_uint. rewrite pad_to_uint_spec; rewrite ?C; auto. lia.
Qed.

Lemma uint_from_scalar_spec s : 0 <= s < q -> uint_from_scalar slen L s = Ret s.
Proof.
  intros Hs. destruct OK as (H1 & H2 & H3 & H4 & H5 & H6 & H7). pose proof q_lt.
  destruct (sbytes_spec s ltac:(lia)) as (A & B & C).
  unfold uint_from_scalar. rewrite pad_to_uint_spec; rewrite ?C; auto. lia.
Qed.

Lemma L_pos : (0 < L)%nat.
Proof. destruct OK as (_ & _ & _ & H & _). pose proof q_lt. unfold BITS in *. lia. Qed.

Lemma public_signed_from_scalar_spec s : 0 <= s < q ->
  exists x, public_signed_from_scalar q slen L s = Ret x /\ wf (BITS L) x /\
    sval (BITS L) x = s /\ bound x = num_bits.
Proof.
  intros Hs. unfold public_signed_from_scalar.
  rewrite curve_order_uint_spec, uint_from_scalar_spec by auto. cbn [obind].
  destruct OK as (H1 & H2 & H3 & H4 & H5 & H6 & H7). pose proof q_lt. rewrite H3.
  destruct (pub_new_from_abs_ok (BITS L) s num_bits false) as (x & E & W & B & V); try lia.
  exists x. unfold pub_new_positive. rewrite E. cbn. auto.
Qed.

Lemma scalar_from_wide_uint_spec v : 0 <= v -> scalar_from_wide_uint q slen L LW v = Ret (v mod q).
Proof.
  intros Hv. unfold scalar_from_wide_uint. rewrite curve_order_uint_spec. cbn [obind].
  destruct OK as (H1 & H2 & H3 & H4 & H5 & H6 & H7). pose proof q_lt as (Q1 & Q2 & Q3 & Q4).
  rewrite uint_to_be_bytes_length.
  assert (Hlw : (slen <= BYTES LW)%nat) by (unfold BYTES in *; lia).
  rewrite (proj2 (Nat.leb_le _ _)) by auto. cbn [oassert obind].
  pose proof (Z.mod_pos_bound v q ltac:(lia)) as Hr.
  pose proof (uint_to_be_bytes_ok LW (v mod q)) as Hok.
  pose proof (uint_to_be_bytes_length LW (v mod q)) as Hlen.
  assert (Hval : be_value (uint_to_be_bytes LW (v mod q)) = v mod q).
  { rewrite uint_to_be_bytes_value, Z.mod_small; auto.
    assert (8 * Z.of_nat slen <= BITS LW) by (unfold BITS, BYTES in *; lia).
    pose proof (pow2_le _ _ H). lia. }
  assert (Hs : be_value (skipn (BYTES LW - slen) (uint_to_be_bytes LW (v mod q))) = v mod q).
  { rewrite be_value_skipn; auto; [lia|]. rewrite Hval, Hlen.
    replace (BYTES LW - (BYTES LW - slen))%nat with slen by lia. lia. }
  unfold scalar_try_from_be_bytes. rewrite Hs, skipn_length, Hlen.
  rewrite (proj2 (Nat.eqb_eq _ _)) by lia. rewrite (proj2 (Z.ltb_lt _ _)) by lia. reflexivity.
Qed.

Lemma neg_mod v : 0 <= v -> (- (v mod q)) mod q = (- v) mod q.
Proof.
  intros. rewrite <- (Z.sub_0_l (v mod q)), Zminus_mod_idemp_r. reflexivity.
Qed.

Lemma scalar_from_signed_spec x : wf (BITS L) x ->
  scalar_from_signed q slen L LW x = Ret (sval (BITS L) x mod q) /\
  secret_scalar_from_signed q slen L LW x = Ret (sval (BITS L) x mod q).
Proof.
  intros Hx. pose proof Hx as (Hu & _). pose proof L_pos.
  assert (1 <= BITS L) by (unfold BITS; lia).
  unfold scalar_from_signed, secret_scalar_from_signed, uint_to_wide.
  rewrite sec_abs_value_spec, pub_abs_spec, is_negative_spec by auto.
  rewrite scalar_from_wide_uint_spec by lia. cbn [obind].
  assert (E : (if sval (BITS L) x <? 0 then scalar_neg q (Z.abs (sval (BITS L) x) mod q) else Z.abs (sval (BITS L) x) mod q) = sval (BITS L) x mod q).
  { unfold scalar_neg. rewrite neg_mod by lia. destruct (Z.ltb_spec (sval (BITS L) x) 0); f_equal; lia. }
  rewrite E; auto.
Qed.

Lemma scalar_from_wide_signed_spec x : wf (BITS LW) x ->
  scalar_from_wide_signed q slen L LW x = Ret (sval (BITS LW) x mod q) /\
  secret_scalar_from_wide_signed q slen L LW x = Ret (sval (BITS LW) x mod q).
Proof.
  intros Hx. pose proof Hx as (Hu & _). pose proof L_pos.
  destruct OK as (H1 & H2 & H3 & H4 & H5 & H6 & H7).
  assert (1 <= BITS LW) by (unfold BITS; lia).
  unfold scalar_from_wide_signed, secret_scalar_from_wide_signed.
  rewrite sec_abs_value_spec, pub_abs_spec, is_negative_spec by auto.
  rewrite scalar_from_wide_uint_spec by lia. cbn [obind].
  assert (E : (if sval (BITS LW) x <? 0 then scalar_neg q (Z.abs (sval (BITS LW) x) mod q) else Z.abs (sval (BITS LW) x) mod q) = sval (BITS LW) x mod q).
  { unfold scalar_neg. rewrite neg_mod by lia. destruct (Z.ltb_spec (sval (BITS LW) x) 0); f_equal; lia. }
  rewrite E; auto.
Qed.

(** The centred conversion: congruent to the scalar and at most [q/2] in
    absolute value. *)
Lemma secret_signed_from_scalar_spec s : 0 <= s < q ->
  exists x, secret_signed_from_scalar q num_bits slen L s = Ret x /\ wf (BITS L) x /\
    sval (BITS L) x mod q = s /\ 2 * Z.abs (sval (BITS L) x) < q /\ bound x = num_bits - 1.
Proof.
  intros Hs. unfold secret_signed_from_scalar.
  rewrite curve_order_uint_spec, uint_from_scalar_spec by auto. cbn [obind].
  destruct OK as (H1 & H2 & H3 & H4 & H5 & H6 & H7). pose proof q_lt as (Q1 & Q2 & Q3 & Q4).
  assert (HqL : q < 2 ^ BITS L) by (pose proof (pow2_le num_bits (BITS L)); lia).
  destruct (new_modulo_spec (BITS L) q num_bits s) as (r & -> & Hr); try lia.
  cbn [obind]. cbv zeta in Hr.
  assert (Hodd : q = 2 * (q / 2) + 1).
  { pose proof (Zdiv2_odd_eqn q) as E. rewrite H2, Z.div2_div in E. auto. }
  set (c := if q / 2 <? s then s - q else s) in *.
  assert (Hc : 2 * Z.abs c < q) by (unfold c; destruct (Z.ltb_spec (q / 2) s); lia).
  assert (Hb : Z.abs c < 2 ^ (num_bits - 1)).
  { rewrite (pow2_pred num_bits) in Q1 by lia. lia. }
  destruct Hr as [(A & B & x & -> & W & V & Bd)|(_ & [A|A])]; try lia.
  exists x. cbn [oexpect]. rewrite V. split; auto. split; auto. split; auto.
  unfold c. destruct (Z.ltb_spec (q / 2) s).
  - apply (mod_unique _ _ _ (-1)); lia.
  - apply Z.mod_small; lia.
Qed.
End Conv.
