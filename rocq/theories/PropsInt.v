(** * Properties C01-C15: bounded integers, encodings, hash-derived values,
    conversions.  Each theorem is followed by a concrete case meeting its
    hypotheses and by its assumptions. *)
From Coq Require Import ZArith List Bool Lia Permutation.
From Verif Require Import Base BaseFacts SignedModel SignedSpec SignedProofs EncodingModel EncodingProofs
  ConversionModel ConversionProofs IntLemmas.
Import ListNotations.
Open Scope Z_scope.

(** ** C01 *)
Theorem C01_signed_add_sub_exact : forall w x y, wf w x -> wf w y ->
  (sec_checked_add w x y = None <-> w <= Z.max (bound x) (bound y) + 1) /\
  (sec_checked_sub w x y = None <-> w <= Z.max (bound x) (bound y) + 1) /\
  (forall z, sec_checked_add w x y = Some z -> wf w z /\ sval w z = sval w x + sval w y) /\
  (forall z, sec_checked_sub w x y = Some z -> wf w z /\ sval w z = sval w x - sval w y).
Proof. exact signed_add_sub_exact. Qed.
Print Assumptions C01_signed_add_sub_exact.

(** -100 + -28 in 16 bits with bounds 7 and 9. *)
Example C01_case : let x := mkS 7 (2 ^ 16 - 100) in let y := mkS 9 (2 ^ 16 - 28) in
  wf 16 x /\ wf 16 y /\ sval 16 x = -100 /\ sval 16 y = -28 /\
  sec_checked_add 16 x y = Some (mkS 10 (2 ^ 16 - 128)) /\ sval 16 (mkS 10 (2 ^ 16 - 128)) = -128.
Proof. unfold wf; vm_compute; intuition congruence. Qed.

(** The operators [+], [-], [*] panic exactly when the bound does not fit. *)
Theorem C01_signed_operators : forall w x y, wf w x -> wf w y ->
  (sec_add w x y = Panic <-> w <= Z.max (bound x) (bound y) + 1) /\
  (sec_sub w x y = Panic <-> w <= Z.max (bound x) (bound y) + 1) /\
  (sec_mul w x y = Panic <-> w <= bound x + bound y) /\
  (forall z, sec_add w x y = Ret z -> wf w z /\ sval w z = sval w x + sval w y) /\
  (forall z, sec_sub w x y = Ret z -> wf w z /\ sval w z = sval w x - sval w y) /\
  (forall z, sec_mul w x y = Ret z -> wf w z /\ sval w z = sval w x * sval w y).
Proof. exact signed_operators. Qed.
Print Assumptions C01_signed_operators.

Example C01_operators_case : let x := mkS 14 (2 ^ 16 - 9000) in
  wf 16 x /\ sec_add 16 x x = Ret (mkS 15 (2 ^ 16 - 18000)) /\
  (exists y, wf 16 y /\ bound y = 15 /\ sec_add 16 y x = Panic).
Proof.
  intro x; split; [|split; [|exists (mkS 15 20000)]]; unfold wf; subst x; vm_compute; intuition congruence.
Qed.

(** Summation of any list of values. *)
Theorem C01_signed_sum_exact : forall w l z, 1 <= w -> Forall (wf w) l -> sec_sum w l = Ret z ->
  wf w z /\ sval w z = zsum (map (sval w) l).
Proof. exact signed_sum_exact. Qed.
Print Assumptions C01_signed_sum_exact.

Example C01_sum_case : let l := [mkS 7 (2 ^ 16 - 100); mkS 3 5; mkS 9 300] in
  Forall (wf 16) l /\ sec_sum 16 l = Ret (mkS 10 205) /\ zsum (map (sval 16) l) = 205.
Proof. split; [repeat constructor; vm_compute; congruence|]. vm_compute. auto. Qed.

(** ** C02 *)
Theorem C02_signed_mul_exact : forall w x y, wf w x -> wf w y ->
  (sec_checked_mul w x y = None <-> w <= bound x + bound y) /\
  (forall z, sec_checked_mul w x y = Some z -> wf w z /\ sval w z = sval w x * sval w y).
Proof. exact signed_mul_exact. Qed.
Print Assumptions C02_signed_mul_exact.

Theorem C02_signed_mul_wide_exact : forall w wr x y, wf w x -> wf wr y ->
  exists z, sec_mul_wide_public w wr x y = Ret z /\ wf (w + wr) z /\
    sval (w + wr) z = sval w x * sval wr y.
Proof. exact signed_mul_wide_exact. Qed.
Print Assumptions C02_signed_mul_wide_exact.

Example C02_case : let x := mkS 7 (2 ^ 16 - 100) in let y := mkS 7 120 in
  wf 16 x /\ wf 16 y /\ sec_checked_mul 16 x y = Some (mkS 14 (2 ^ 16 - 12000)) /\
  sec_mul_wide_public 16 16 x y = Ret (mkS 14 (2 ^ 32 - 12000)) /\
  sval 32 (mkS 14 (2 ^ 32 - 12000)) = -12000.
Proof. unfold wf; vm_compute; intuition congruence. Qed.

(** ** C03 *)
Theorem C03_constructors_bounded : forall w v b neg x, 2 <= w -> 0 <= v < 2 ^ w -> 0 <= b ->
  (sec_new_from_unsigned w v b = Some x \/ pub_new_from_unsigned w v b = Some x \/
   sec_new_from_abs w v b neg = Some x \/ pub_new_from_abs w v b neg = Some x \/
   pub_new_positive w v b = Some x \/ x = s_zero \/ x = pub_one) -> wf w x.
Proof. exact constructors_bounded. Qed.
Print Assumptions C03_constructors_bounded.

(** What each constructor denotes and when it refuses. *)
Theorem C03_constructors_value : forall w v b, 1 <= w -> 0 <= b ->
  (0 <= v < 2 ^ w ->
     (sec_new_from_unsigned w v b = None <-> w <= b \/ 2 ^ b <= Z.abs (twos w v)) /\
     pub_new_from_unsigned w v b = sec_new_from_unsigned w v b /\
     (forall x, sec_new_from_unsigned w v b = Some x -> sval w x = twos w v /\ bound x = b)) /\
  (0 <= v < 2 ^ w -> forall neg,
     (pub_new_from_abs w v b neg = None <-> w <= b \/ 2 ^ b <= v) /\
     (forall x, pub_new_from_abs w v b neg = Some x -> sval w x = (if neg then - v else v) /\ bound x = b)) /\
  (0 <= v < 2 ^ (w - 1) -> forall neg x,
     sec_new_from_abs w v b neg = Some x -> sval w x = (if neg then - v else v) /\ bound x = b).
Proof. exact constructors_value. Qed.
Print Assumptions C03_constructors_value.

Example C03_case : sec_new_from_unsigned 8 200 6 = Some (mkS 6 200) /\ sval 8 (mkS 6 200) = -56 /\
  sec_new_from_unsigned 8 200 5 = None /\ pub_new_from_abs 8 31 5 true = Some (mkS 5 225).
Proof. vm_compute; auto. Qed.

(** The positive secret constructor: accepted values respect the bound exactly
    when [v < 2^b]; publishing the value aborts exactly otherwise. *)
Theorem C03_new_positive_exact : forall w v b x, 1 <= w -> 0 <= v < 2 ^ w -> 0 <= b ->
  sec_new_positive w v b = Some x ->
  sval w x = v /\ bound x = b /\ (wf w x <-> v < 2 ^ b) /\
  (sec_to_public w x = Ret x <-> v < 2 ^ b) /\ (sec_to_public w x = Panic <-> 2 ^ b <= v).
Proof. exact new_positive_exact. Qed.
Print Assumptions C03_new_positive_exact.

Theorem C03_new_positive_bound_refuted :
  exists w v b x, 1 <= w /\ 0 <= v < 2 ^ w /\ 0 <= b /\
    sec_new_positive w v b = Some x /\ ~ wf w x /\ sec_to_public w x = Panic.
Proof. exact new_positive_breaks_bound. Qed.
Print Assumptions C03_new_positive_bound_refuted.

(** ** C04 *)
Theorem C04_range_check_exact : forall w x e, wf w x -> 1 <= e <= w ->
  exists b, sec_in_range w x e = Ret b /\ pub_in_range w x e = Ret b /\
    (b = true <-> - 2 ^ (e - 1) + 1 <= sval w x <= 2 ^ (e - 1)).
Proof. exact range_check_exact. Qed.
Print Assumptions C04_range_check_exact.

Theorem C04_range_check_edges : forall w x e, wf w x -> 0 <= e ->
  (pub_in_range w x e = Panic <-> e = 0 \/ w < e) /\
  (sec_in_range w x e = Panic <-> e = 0) /\
  (w < e -> sec_in_range w x e = Ret true).
Proof. exact range_check_edges. Qed.
Print Assumptions C04_range_check_edges.

Theorem C04_ensure_range_exact : forall w x e, wf w x -> 1 <= e < w - 1 ->
  (pm_interval e (sval w x) ->
     exists y, sec_ensure_range w x e = Ret (Some y) /\ wf w y /\ sval w y = sval w x /\ bound y = e + 1) /\
  (~ pm_interval e (sval w x) -> sec_ensure_range w x e = Ret None) /\
  (sec_assert_range w x e = Ret tt <-> pm_interval e (sval w x)) /\
  (sec_assert_range w x e = Panic <-> ~ pm_interval e (sval w x)).
Proof. exact ensure_range_exact. Qed.
Print Assumptions C04_ensure_range_exact.

(** At e = 4 the interval is [-7, 8]. *)
Example C04_case :
  wf 16 (mkS 5 8) /\ sec_in_range 16 (mkS 5 8) 4 = Ret true /\ pub_in_range 16 (mkS 5 8) 4 = Ret true /\
  wf 16 (mkS 5 (2 ^ 16 - 8)) /\ sec_in_range 16 (mkS 5 (2 ^ 16 - 8)) 4 = Ret false /\
  sec_in_range 16 (mkS 5 (2 ^ 16 - 7)) 4 = Ret true /\ sec_in_range 16 (mkS 5 9) 4 = Ret false /\
  sec_ensure_range 16 (mkS 9 8) 4 = Ret (Some (mkS 5 8)).
Proof. unfold wf; vm_compute; intuition congruence. Qed.

(** ** C05 *)
Theorem C05_sampling_bijective : forall w e, 0 < e < w ->
  (forall draw, 0 <= draw < 2 ^ e ->
     exists x, sec_random_range w e draw = Ret x /\ wf w x /\ bound x = e /\ pm_interval e (sval w x)) /\
  (forall v, pm_interval e v ->
     exists draw, 0 <= draw < 2 ^ e /\
       (exists x, sec_random_range w e draw = Ret x /\ sval w x = v) /\
       forall draw' x', 0 <= draw' < 2 ^ e -> sec_random_range w e draw' = Ret x' -> sval w x' = v -> draw' = draw).
Proof. exact sampling_bijective. Qed.
Print Assumptions C05_sampling_bijective.

Theorem C05_sampling_draw_limit : forall w e, 0 < e < w -> sec_random_range_limit w e = 2 ^ e.
Proof. exact sampling_limit. Qed.
Print Assumptions C05_sampling_draw_limit.

Theorem C05_sampling_scaled_bijective : forall w ww e scale,
  0 < e < w -> w <= ww -> 0 < scale -> e + bits scale < ww ->
  sec_random_range_scaled_limit ww e scale = scale * 2 ^ e /\
  (forall draw, 0 <= draw < scale * 2 ^ e ->
     exists x, sec_random_range_scaled w ww e scale draw = Ret x /\
       sec_random_range_scaled_wide w ww e scale draw = Ret x /\ wf ww x /\ bound x = e + bits scale /\
       - scale * 2 ^ (e - 1) + 1 <= sval ww x <= scale * 2 ^ (e - 1)) /\
  (forall v, - scale * 2 ^ (e - 1) + 1 <= v <= scale * 2 ^ (e - 1) ->
     exists draw, 0 <= draw < scale * 2 ^ e /\
       (exists x, sec_random_range_scaled w ww e scale draw = Ret x /\ sval ww x = v) /\
       forall draw' x', 0 <= draw' < scale * 2 ^ e -> sec_random_range_scaled w ww e scale draw' = Ret x' ->
          sval ww x' = v -> draw' = draw).
Proof. exact sampling_scaled_bijective. Qed.
Print Assumptions C05_sampling_scaled_bijective.

Theorem C05_challenge_in_interval : forall L e buf, 0 < e < BITS L -> Forall byte_ok buf ->
  Z.of_nat (length buf) = div_ceil8 e ->
  exists x, challenge_from_xof L e buf = Ret x /\ wf (BITS L) x /\ bound x = e /\
    pm_interval e (sval (BITS L) x).
Proof. exact challenge_from_xof_spec. Qed.
Print Assumptions C05_challenge_in_interval.

Example C05_case : sec_random_range 64 4 0 = Ret (mkS 4 (2 ^ 64 - 7)) /\ sec_random_range 64 4 15 = Ret (mkS 4 8) /\
  sec_random_range_scaled 32 64 3 10 79 = Ret (mkS 7 40) /\
  challenge_from_xof 1 10 [255; 7] = Ret (mkS 10 264).
Proof. vm_compute; auto. Qed.

(** ** C06 *)
Theorem C06_centred_reduction : forall w m mbits v,
  1 <= w -> 0 < m < 2 ^ w -> 0 <= v < m -> 1 <= mbits <= w -> m < 2 ^ mbits ->
  exists x, sec_new_modulo w v m mbits = Ret (Some x) /\
    wf w x /\ sval w x mod m = v /\ - m < 2 * sval w x <= m /\ bound x = mbits - 1.
Proof.
  exact (fun w m mbits v A B C D E =>
    ex_ind (fun x H => ex_intro _ x (conj H (centred_reduction w m mbits v A B C D E (Some x) H)))
      (new_modulo_total w m mbits v A B C D E)).
Qed.
Print Assumptions C06_centred_reduction.

Theorem C06_centred_unique : forall m v a b, 0 < m -> a mod m = v -> b mod m = v ->
  - m < 2 * a <= m -> - m < 2 * b <= m -> a = b.
Proof. exact centred_unique. Qed.
Print Assumptions C06_centred_unique.

Example C06_case : sec_new_modulo 16 60 101 7 = Ret (Some (mkS 6 (2 ^ 16 - 41))) /\
  sec_new_modulo 16 50 101 7 = Ret (Some (mkS 6 50)) /\ (-41) mod 101 = 60.
Proof. vm_compute; auto. Qed.

(** ** C07 *)
Theorem C07_pow_correct : forall w m b x, 1 < m -> wf w x -> 0 <= b -> Z.gcd b m = 1 ->
  exists r, pow_pub w m b x = Ret r /\ pow_sec w m b x = Ret r /\
    0 <= r < m /\
    (0 <= sval w x -> r = (b ^ sval w x) mod m) /\
    (sval w x < 0 -> (r * b ^ (- sval w x)) mod m = 1 mod m).
Proof.
  exact (fun w m b x A B C D =>
    match pow_pub_correct w m b x A B C D with
    | ex_intro _ r (conj H1 H2) => ex_intro _ r (conj H1 (conj (eq_trans (pow_agree_units w m b x A B C D) H1) H2))
    end).
Qed.
Print Assumptions C07_pow_correct.

Theorem C07_pow_public_panics : forall w m b x, 1 < m -> wf w x -> 0 <= b ->
  (pow_pub w m b x = Panic <-> Z.gcd b m <> 1 /\ sval w x < 0).
Proof. exact pow_pub_panic. Qed.
Print Assumptions C07_pow_public_panics.

Theorem C07_pow_secret_panics : forall w m b x, 1 < m -> wf w x -> 0 <= b ->
  (pow_sec w m b x = Panic <-> Z.gcd b m <> 1 /\ sval w x <> 0).
Proof. exact pow_sec_panic. Qed.
Print Assumptions C07_pow_secret_panics.

(** 3^-2 mod 77 = 60; base 7 is not invertible mod 77. *)
Example C07_case : wf 16 (mkS 3 (2 ^ 16 - 2)) /\ pow_pub 16 77 3 (mkS 3 (2 ^ 16 - 2)) = Ret 60 /\
  pow_sec 16 77 3 (mkS 3 (2 ^ 16 - 2)) = Ret 60 /\ (60 * 3 ^ 2) mod 77 = 1 /\
  pow_sec 16 77 7 (mkS 3 2) = Panic /\ pow_pub 16 77 7 (mkS 3 2) = Ret 49.
Proof. unfold wf; vm_compute; intuition congruence. Qed.

(** ** C08 *)
Theorem C08_value_preserved : forall w ww x, w <= ww -> wf w x ->
  (exists z, sec_to_wide w ww x = Ret z /\ wf ww z /\ sval ww z = sval w x /\ bound z = bound x) /\
  (exists z, pub_to_wide w ww x = Ret z /\ wf ww z /\ sval ww z = sval w x /\ bound z = bound x) /\
  sec_to_public w x = Ret x /\
  sec_abs w x = Ret (mkU (bound x) (Z.abs (sval w x))) /\
  pub_abs w x = Z.abs (sval w x) /\
  (wf w (sec_neg w x) /\ sval w (sec_neg w x) = - sval w x) /\
  (wf w (pub_neg w x) /\ sval w (pub_neg w x) = - sval w x).
Proof. exact widening_preserves. Qed.
Print Assumptions C08_value_preserved.

Theorem C08_narrowing_exact : forall w ww a, 0 <= w <= ww -> 0 <= a < 2 ^ ww ->
  uint_try_from_wide w ww a = if a <? 2 ^ w then Some a else None.
Proof. exact try_from_wide_spec. Qed.
Print Assumptions C08_narrowing_exact.

Example C08_case : wf 16 (mkS 7 (2 ^ 16 - 100)) /\ sec_to_wide 16 32 (mkS 7 (2 ^ 16 - 100)) = Ret (mkS 7 (2 ^ 32 - 100)) /\
  uint_try_from_wide 8 16 255 = Some 255 /\ uint_try_from_wide 8 16 256 = None.
Proof. unfold wf; vm_compute; intuition congruence. Qed.

(** ** C09 *)
Theorem C09_signed_wire_round_trip : forall L x, (0 < L)%nat -> wf (BITS L) x ->
  exists p, pack_signed L x = Ret p /\ unpack_signed L p = Ret (Some x).
Proof. exact signed_wire_round_trip. Qed.
Print Assumptions C09_signed_wire_round_trip.

Theorem C09_signed_wire_adversarial : forall L p, (0 < L)%nat -> 0 <= p_bound p -> Forall byte_ok (p_bytes p) ->
  exists r, unpack_signed L p = Ret r /\
    forall x, r = Some x -> wf (BITS L) x /\ bound x = p_bound p /\
       sval (BITS L) x = (if p_neg p then - be_value (p_bytes p) else be_value (p_bytes p)).
Proof. exact signed_wire_adversarial. Qed.
Print Assumptions C09_signed_wire_adversarial.

Theorem C09_signed_wire_rejects : forall L p, (0 < L)%nat -> 0 <= p_bound p -> Forall byte_ok (p_bytes p) ->
  (unpack_signed L p = Ret None <->
   (BYTES L < length (p_bytes p))%nat \/ BITS L <= p_bound p \/ 2 ^ p_bound p <= be_value (p_bytes p)).
Proof. exact signed_wire_rejects. Qed.
Print Assumptions C09_signed_wire_rejects.

Theorem C09_signed_wire_stable : forall L p x, (0 < L)%nat -> 0 <= p_bound p -> Forall byte_ok (p_bytes p) ->
  unpack_signed L p = Ret (Some x) ->
  exists p', pack_signed L x = Ret p' /\ unpack_signed L p' = Ret (Some x).
Proof. exact wire_signed_stable. Qed.
Print Assumptions C09_signed_wire_stable.

Example C09_case : pack_signed 1 (mkS 10 (2 ^ 64 - 1000)) = Ret (mkPacked 10 true [3; 232]) /\
  unpack_signed 1 (mkPacked 10 true [3; 232]) = Ret (Some (mkS 10 (2 ^ 64 - 1000))) /\
  unpack_signed 1 (mkPacked 9 true [3; 232]) = Ret None.
Proof. vm_compute; auto. Qed.

(** ** C10 *)
Theorem C10_uint_wire_round_trip : forall L x, 0 <= x < 2 ^ BITS L ->
  length (public_uint_ser L x) = BYTES L /\ Forall byte_ok (public_uint_ser L x) /\
  be_value (public_uint_ser L x) = x /\
  public_uint_de L (public_uint_ser L x) = Some x.
Proof.
  exact (fun L x H => conj (uint_to_be_bytes_length L x) (conj (uint_to_be_bytes_ok L x)
    (conj (eq_trans (uint_to_be_bytes_value L x) (Z.mod_small _ _ H)) (uint_round_trip L x H)))).
Qed.
Print Assumptions C10_uint_wire_round_trip.

Theorem C10_uint_wire_decode : forall L l, Forall byte_ok l ->
  (length l = BYTES L -> exists x, public_uint_de L l = Some x /\ 0 <= x < 2 ^ BITS L
                                  /\ public_uint_ser L x = l) /\
  (length l <> BYTES L -> public_uint_de L l = None).
Proof. exact uint_decode_spec. Qed.
Print Assumptions C10_uint_wire_decode.

Example C10_case : public_uint_ser 2 (2 ^ 64 + 258) = [0;0;0;0;0;0;0;1; 0;0;0;0;0;0;1;2] /\
  public_uint_de 1 [0;0;0;0;0;0;1;2] = Some 258 /\ public_uint_de 1 [1;2] = None.
Proof. vm_compute; auto. Qed.

(** ** C11 *)
Theorem C11_bitvec_round_trip : forall v, bitvec_unpack (bitvec_pack v) = Some v.
Proof. exact bitvec_round_trip. Qed.
Print Assumptions C11_bitvec_round_trip.

Theorem C11_bitvec_accepts : forall p, 0 <= pb_bits p ->
  ((exists v, bitvec_unpack p = Some v) <-> pb_bits p <= 8 * Z.of_nat (length (pb_bytes p))) /\
  (forall v, bitvec_unpack p = Some v -> Z.of_nat (length v) = pb_bits p).
Proof. exact (fun p H => conj (bitvec_unpack_accepts p H) (fun v => bitvec_unpack_length p v H)). Qed.
Print Assumptions C11_bitvec_accepts.

Theorem C11_bitvec_trailing_ignored : forall p junk v, bitvec_unpack p = Some v -> 0 <= pb_bits p ->
  bitvec_unpack (mkPB (pb_bits p) (pb_bytes p ++ junk)) = Some v.
Proof. exact bitvec_trailing. Qed.
Print Assumptions C11_bitvec_trailing_ignored.

Theorem C11_bitvec_injective_refuted :
  exists p p' v, p <> p' /\ bitvec_unpack p = Some v /\ bitvec_unpack p' = Some v.
Proof. exact bitvec_not_injective. Qed.
Print Assumptions C11_bitvec_injective_refuted.

Example C11_case :
  bitvec_pack [true;false;true;true;false;false;false;false;true] = mkPB 9 [176; 128] /\
  bitvec_unpack (mkPB 9 [176; 128]) = Some [true;false;true;true;false;false;false;false;true] /\
  bitvec_unpack (mkPB 9 [176]) = None.
Proof. vm_compute; auto. Qed.

(** ** C12 *)
Theorem C12_transcript_injective : forall d1 d2 fs gs,
  Forall (fun f => Z.of_nat (length f) < 2 ^ 64) (d1 :: fs) ->
  Forall (fun f => Z.of_nat (length f) < 2 ^ 64) (d2 :: gs) ->
  absorbed d1 fs = absorbed d2 gs -> d1 = d2 /\ fs = gs.
Proof. exact absorbed_inj. Qed.
Print Assumptions C12_transcript_injective.

Example C12_case : absorbed [1] [[65;66];[67;68]] <> absorbed [1] [[65;66;67];[68]] /\
  concat [[65;66];[67;68]] = concat [[65;66;67];[68]].
Proof. split; [intro H; vm_compute in H; discriminate|reflexivity]. Qed.

(** ** C13 *)
Theorem C13_xof_uint_range : forall L nbits buf, 0 <= nbits <= BITS L -> Forall byte_ok buf ->
  Z.of_nat (length buf) = div_ceil8 nbits ->
  exists x, uint_from_xof L nbits buf = Ret x /\ 0 <= x < 2 ^ nbits.
Proof.
  exact (fun L nbits buf A B C => ex_intro _ _ (conj (uint_from_xof_spec L nbits buf A B C)
     (Z.mod_pos_bound _ _ (pow2_pos nbits (proj1 A))))).
Qed.
Print Assumptions C13_xof_uint_range.

Theorem C13_xof_uint_surjective : forall L nbits x, 0 <= nbits <= BITS L -> 0 <= x < 2 ^ nbits ->
  exists buf, Forall byte_ok buf /\ Z.of_nat (length buf) = div_ceil8 nbits /\
    uint_from_xof L nbits buf = Ret x.
Proof. exact uint_from_xof_surj. Qed.
Print Assumptions C13_xof_uint_surjective.

(** Only the low [nbits] of the hash output matter, each value has the same
    number of preimages: the integer is the big-endian value mod 2^nbits. *)
Theorem C13_xof_uint_value : forall L nbits buf, 0 <= nbits <= BITS L -> Forall byte_ok buf ->
  Z.of_nat (length buf) = div_ceil8 nbits ->
  uint_from_xof L nbits buf = Ret (be_value buf mod 2 ^ nbits).
Proof. exact uint_from_xof_spec. Qed.
Print Assumptions C13_xof_uint_value.

Theorem C13_xof_residue : forall n draws r, 1 < n ->
  Forall (fun d => 0 <= d < 2 ^ bits n) draws ->
  invertible_from_xof n draws = Some r ->
  Z.gcd r n = 1 /\ 0 <= r < 2 ^ bits n /\ r < 2 * n.
Proof. exact xof_residue. Qed.
Print Assumptions C13_xof_residue.

Theorem C13_xof_residue_below_modulus_refuted :
  exists n draws r, 1 < n /\ Z.odd n = true /\
  Forall (fun d => 0 <= d < 2 ^ bits n) draws /\
  invertible_from_xof n draws = Some r /\ n <= r.
Proof. exact xof_residue_can_exceed. Qed.
Print Assumptions C13_xof_residue_below_modulus_refuted.

Theorem C13_xof_scalar_range : forall q slen lo hi, 0 < q -> 0 <= scalar_from_xof q slen lo hi < q.
Proof. exact scalar_xof_range. Qed.
Print Assumptions C13_xof_scalar_range.

(** The scalar is the residue of all the bytes read, the second buffer being
    the high part. *)
Theorem C13_xof_scalar_value : forall q slen lo hi, length lo = slen ->
  scalar_from_xof q slen lo hi = be_value (hi ++ lo) mod q.
Proof. exact scalar_xof_value. Qed.
Print Assumptions C13_xof_scalar_value.

(** A digest has twice the security level, rounded up to whole bytes. *)
Theorem C13_digest_length : forall sb, 0 <= sb -> 2 * sb <= 8 * finalize_len sb < 2 * sb + 8.
Proof. exact digest_length. Qed.
Print Assumptions C13_digest_length.

Example C13_case : uint_from_xof 1 10 [255; 7] = Ret 775 /\ 775 < 2 ^ 10 /\
  invertible_from_xof 77 [14; 22; 100; 5] = Some 100 /\
  scalar_from_xof 251 1 [3] [2] = 13 /\ finalize_len 129 = 33.
Proof. vm_compute; auto. Qed.

(** ** C14 *)
Theorem C14_scalar_round_trip_public : forall q num_bits slen L LW, conv_params_ok q num_bits slen L LW ->
  forall s, 0 <= s < q ->
  exists x, public_signed_from_scalar q slen L s = Ret x /\ wf (BITS L) x /\ sval (BITS L) x = s /\
    scalar_from_signed q slen L LW x = Ret s.
Proof. exact scalar_round_trip_public. Qed.
Print Assumptions C14_scalar_round_trip_public.

Theorem C14_scalar_round_trip_secret : forall q num_bits slen L LW, conv_params_ok q num_bits slen L LW ->
  forall s, 0 <= s < q ->
  exists x, secret_signed_from_scalar q num_bits slen L s = Ret x /\ wf (BITS L) x /\
    2 * Z.abs (sval (BITS L) x) < q /\ secret_scalar_from_signed q slen L LW x = Ret s.
Proof. exact scalar_round_trip_secret. Qed.
Print Assumptions C14_scalar_round_trip_secret.

Theorem C14_signed_to_scalar : forall q num_bits slen L LW, conv_params_ok q num_bits slen L LW ->
  forall x, wf (BITS L) x ->
  scalar_from_signed q slen L LW x = Ret (sval (BITS L) x mod q) /\
  secret_scalar_from_signed q slen L LW x = Ret (sval (BITS L) x mod q).
Proof. exact signed_to_scalar_residue. Qed.
Print Assumptions C14_signed_to_scalar.

Theorem C14_wide_signed_to_scalar : forall q num_bits slen L LW, conv_params_ok q num_bits slen L LW ->
  forall x, wf (BITS LW) x ->
  scalar_from_wide_signed q slen L LW x = Ret (sval (BITS LW) x mod q) /\
  secret_scalar_from_wide_signed q slen L LW x = Ret (sval (BITS LW) x mod q).
Proof. exact wide_signed_to_scalar_residue. Qed.
Print Assumptions C14_wide_signed_to_scalar.

Theorem C14_conversion_morphism : forall q num_bits slen L LW, conv_params_ok q num_bits slen L LW ->
  forall x y z t a b, wf (BITS L) x -> wf (BITS L) y ->
  sec_checked_add (BITS L) x y = Some z -> sec_checked_mul (BITS L) x y = Some t ->
  secret_scalar_from_signed q slen L LW x = Ret a -> secret_scalar_from_signed q slen L LW y = Ret b ->
  secret_scalar_from_signed q slen L LW z = Ret ((a + b) mod q) /\
  secret_scalar_from_signed q slen L LW t = Ret ((a * b) mod q).
Proof. exact conversion_morphism. Qed.
Print Assumptions C14_conversion_morphism.

(** The prime order 4294967291 = 2^32 - 5 in 4 bytes, 64-bit [Uint]. *)
Example C14_case : conv_params_ok 4294967291 32 4 1 2 /\
  secret_signed_from_scalar 4294967291 32 4 1 4294967290 = Ret (mkS 31 (2 ^ 64 - 1)) /\
  secret_scalar_from_signed 4294967291 4 1 2 (mkS 31 (2 ^ 64 - 1)) = Ret 4294967290.
Proof.
  split; [unfold conv_params_ok; repeat split; vm_compute; auto; congruence|].
  vm_compute; auto.
Qed.

(** ** C15 *)
Theorem C15_xor_order_independent : forall mine others mine' others',
  Permutation (mine :: others) (mine' :: others') -> xor_all mine others = xor_all mine' others'.
Proof. exact xor_all_perm. Qed.
Print Assumptions C15_xor_order_independent.

Theorem C15_xor_bijective : forall n target others, length target = n -> Forall (fun b => length b = n) others ->
  exists mine, length mine = n /\ xor_all mine others = Ret target /\
    forall mine', length mine' = n -> xor_all mine' others = Ret target -> mine' = mine.
Proof. exact xor_all_bij. Qed.
Print Assumptions C15_xor_bijective.

Theorem C15_xor_panics : forall mine others,
  (Forall (fun b => length b = length mine) others -> exists r, xor_all mine others = Ret r) /\
  (~ Forall (fun b => length b = length mine) others -> xor_all mine others = Panic).
Proof.
  exact (fun m o => conj (fun H => ex_intro _ _ (proj1 (xor_all_spec m o) H)) (proj2 (xor_all_spec m o))).
Qed.
Print Assumptions C15_xor_panics.

Example C15_case :
  xor_all [true;false] [[true;true];[false;true]] = Ret [false;false] /\
  xor_all [false;true] [[true;true];[true;false]] = Ret [false;false] /\
  xor_all [true;false] [[true;true];[false]] = Panic.
Proof. vm_compute; auto. Qed.
