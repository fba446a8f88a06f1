(** * Property C74: the Paillier-Blum proof reveals nothing about the factors.

    A proof can be made backwards from the modulus alone: pick [omega] with
    Jacobi symbol -1 and, for each repetition, two flags and a random square
    [r]; the commitment, the answers and the challenges they fit follow by
    powers and products modulo [N] (HideModSpec.v).  The theorems say that this
    is the honest proof, not just an accepted one: for those challenges the
    prover, with the factors in hand, outputs the very same bytes, and each
    commitment and each challenge arises from exactly one choice.  So the
    commitment, challenges and answers of an honest run, with the challenges
    uniform, are distributed as in the proof made without the factors. *)
From Coq Require Import ZArith Znumtheory List Bool Lia.
From Verif Require Import Base BaseFacts SignedModel SignedSpec PaillierModel PaillierSpec RsaFacts PaillierProofs PaillierLemmas PropsPaillier
  ZkBase ZkModel ZkSpec ZkFacts ZkToy ZkTranscripts ZkLemmas PropsZk1 HideModSpec HideMod.
Import ListNotations.
Open Scope Z_scope.

Lemma blum_key S p q sk : p_self_consistent (sp_pail S) = true ->
  prime p -> prime q -> p mod 4 = 3 -> q mod 4 = 3 ->
  p < 2 ^ prime_bits (sp_pail S) -> q < 2 ^ prime_bits (sp_pail S) ->
  skey_new (sp_pail S) p q = Ret sk -> key_ok (sp_pail S) p q sk.
Proof.
  intros HP Pp Pq P4 Q4 Rp Rq Hsk. apply params_okP in HP.
  exact (skey_new_inv (sp_pail S) p q sk HP Pp Pq ltac:(lia) ltac:(lia) Hsk).
Qed.

(** The honest prover's output is the proof made without the factors. *)
Theorem C74_made_without_factors : forall S C A (X : xof A (pt C)) p q sk aux omega omega' ds,
  xof_ok (sp_q S) X -> p_self_consistent (sp_pail S) = true ->
  prime p -> prime q -> p mod 4 = 3 -> q mod 4 = 3 ->
  p < 2 ^ prime_bits (sp_pail S) -> q < 2 ^ prime_bits (sp_pail S) ->
  skey_new (sp_pail S) p q = Ret sk ->
  let N := p * q in
  (omega * omega') mod N = 1 -> one_sided p q omega -> Forall (draw_ok N) ds ->
  let com := sim_com N omega in
  let ch := x_residues X Tmod [IZ N; IZ com; IA aux] N (sp_secbits S) in
  map (fun y => y mod N) ch = map (sim_y N omega') ds ->
  mod_new S X sk aux com = Ret (ModProof com ch (map (sim_elem N omega') ds)).
Proof.
  exact (fun S C A X p q sk aux omega omega' ds HX HP Pp Pq P4 Q4 Rp Rq Hsk Eo Ho Hds Hch =>
    sim_proof S C A (params_okP _ HP) p q sk (blum_key S p q sk HP Pp Pq P4 Q4 Rp Rq Hsk) P4 Q4
      omega omega' Eo Ho X aux ds HX Hds Hch).
Qed.
Print Assumptions C74_made_without_factors.

(** The four repetitions below use every pair of flags; the last challenge is
    [4 + 77], not reduced modulo [N], as the reader of the code may return. *)
Definition mix_ys : list Z := [38; 57; 61; 81].
Definition mixX : xof unit (pt toyC) :=
  {| x_scalar := fun _ _ => 1; x_bits := fun _ _ n => repeat true n; x_uint := fun _ _ _ => 0;
     x_residues := fun _ _ N n => if (N =? 77) && Nat.eqb n 4 then mix_ys else repeat 1 n;
     x_is_prime := fun _ _ _ => false |}.
Lemma mixX_ok : xof_ok 7 mixX.
Proof.
  split; cbn [x_scalar x_bits x_uint x_residues mixX]; intros.
  1: lia. 1: apply repeat_length. 1: split; [apply Z.le_refl|apply Z.pow_pos_nonneg; lia].
  destruct ((N =? 77) && Nat.eqb n 4) eqn:E.
  - apply andb_true_iff in E. destruct E as [E1 E2]. apply Z.eqb_eq in E1. apply Nat.eqb_eq in E2. subst.
    split; [reflexivity|]. repeat (apply Forall_cons; [vm_compute; repeat split; discriminate || reflexivity|]). constructor.
  - split; [apply repeat_length|]. apply Forall_forall. intros y Hy. apply repeat_spec in Hy. subst.
    split; [|apply Z.gcd_1_l]. split; [lia|]. apply Z.pow_gt_1; [lia|].
    unfold bits. destruct (Z.leb_spec N 0); [lia|]. pose proof (Z.log2_nonneg N). lia.
Qed.
Definition mix_ds : list mod_draw := [ModDraw true true 4; ModDraw false true 9; ModDraw true false 25; ModDraw false false 16].
Lemma mix_ds_ok : Forall (draw_ok 77) mix_ds.
Proof.
  unfold mix_ds, draw_ok. repeat (apply Forall_cons; [cbn [md_r]; split; [lia|split; [reflexivity|]]|]).
  - now exists 2.
  - now exists 3.
  - now exists 5.
  - now exists 4.
  - constructor.
Qed.
Lemma one_sided_2 : one_sided 7 11 2.
Proof.
  split; [intros _|intros _; now exists 3].
  intros [y Hy]. rewrite <- Z.mul_mod_idemp_l, <- Z.mul_mod_idemp_r in Hy by lia.
  assert (Hb := Z.mod_pos_bound y 11 ltac:(lia)). remember (y mod 11) as z. clear - Hy Hb.
  assert (H : z = 0 \/ z = 1 \/ z = 2 \/ z = 3 \/ z = 4 \/ z = 5 \/ z = 6 \/ z = 7 \/ z = 8 \/ z = 9 \/ z = 10) by lia.
  destruct H as [->|[->|[->|[->|[->|[->|[->|[->|[->|[->| ->]]]]]]]]]]; discriminate Hy.
Qed.
Example C74_made_without_factors_case :
  xof_ok 7 mixX /\ p_self_consistent (sp_pail S4) = true /\ prime 7 /\ prime 11 /\ (2 * 39) mod 77 = 1 /\ one_sided 7 11 2 /\
  Forall (draw_ok 77) mix_ds /\ map (fun y => y mod 77) mix_ys = map (sim_y 77 39) mix_ds /\
  exists sk, skey_new P4 7 11 = Ret sk /\
    mod_new S4 mixX sk tt 18 =
      Ret (ModProof 18 mix_ys [ModElem 16 true true 26; ModElem 4 false true 8; ModElem 9 true false 73; ModElem 25 false false 9]).
Proof.
  split; [exact mixX_ok|]. split; [reflexivity|]. split; [apply prime_check_ok; reflexivity|].
  split; [apply prime_check_ok; reflexivity|]. split; [reflexivity|]. split; [exact one_sided_2|].
  split; [exact mix_ds_ok|]. split; [vm_compute; reflexivity|]. eexists. split; [vm_compute; reflexivity|].
  vm_compute. reflexivity.
Qed.

(** Each challenge is answered by exactly one choice of flags and square, and
    every choice yields a legal challenge. *)
Theorem C74_challenges_once : forall S p q sk omega omega',
  p_self_consistent (sp_pail S) = true ->
  prime p -> prime q -> p mod 4 = 3 -> q mod 4 = 3 ->
  p < 2 ^ prime_bits (sp_pail S) -> q < 2 ^ prime_bits (sp_pail S) ->
  skey_new (sp_pail S) p q = Ret sk ->
  let N := p * q in
  (omega * omega') mod N = 1 -> one_sided p q omega ->
  (forall y, Z.gcd y N = 1 -> exists! d, draw_ok N d /\ sim_y N omega' d = y mod N) /\
  (forall d, draw_ok N d -> 0 <= sim_y N omega' d < N /\ Z.gcd (sim_y N omega' d) N = 1).
Proof.
  intros S p q sk omega omega' HP Pp Pq P4 Q4 Rp Rq Hsk N Eo Ho.
  pose proof (blum_key S p q sk HP Pp Pq P4 Q4 Rp Rq Hsk) as HK. apply params_okP in HP. split.
  - intros y Gy. now apply (sim_draw S HP p q sk HK P4 Q4 omega omega' Eo Ho).
  - intros d Hd. now apply (sim_y_unit S HP p q sk HK omega omega' Eo).
Qed.
Print Assumptions C74_challenges_once.

Example C74_challenges_once_case : p_self_consistent (sp_pail S4) = true /\ prime 7 /\ prime 11 /\ (2 * 39) mod 77 = 1 /\ one_sided 7 11 2 /\
  Z.gcd 81 77 = 1 /\ draw_ok 77 (ModDraw false false 16) /\ sim_y 77 39 (ModDraw false false 16) = 81 mod 77.
Proof.
  split; [reflexivity|]. split; [apply prime_check_ok; reflexivity|]. split; [apply prime_check_ok; reflexivity|].
  split; [reflexivity|]. split; [exact one_sided_2|]. split; [reflexivity|].
  split; [|vm_compute; reflexivity]. split; [cbn; lia|split; [reflexivity|now exists 4]].
Qed.

(** Each commitment the prover may send has exactly one [omega], and is sampled
    (src/paillier/keys.rs:267-298, [random_nonsquare_residue]) from exactly one square
    and one sign. *)
Theorem C74_commitments_once : forall S p q sk com,
  p_self_consistent (sp_pail S) = true ->
  prime p -> prime q -> p mod 4 = 3 -> q mod 4 = 3 ->
  p < 2 ^ prime_bits (sp_pail S) -> q < 2 ^ prime_bits (sp_pail S) ->
  skey_new (sp_pail S) p q = Ret sk ->
  let N := p * q in
  0 <= com < N -> Z.gcd com N = 1 -> one_sided p q com ->
  (exists! omega, (0 <= omega < N /\ Z.gcd omega N = 1 /\ one_sided p q omega) /\ sim_com N omega = com) /\
  (exists! yb, (0 <= fst yb < N /\ Z.gcd (fst yb) N = 1 /\ square_mod N (fst yb)) /\
    nonsquare_residue sk (fst yb) (snd yb) = com).
Proof.
  intros S p q sk com HP Pp Pq P4 Q4 Rp Rq Hsk N Rc Gc Hc.
  pose proof (blum_key S p q sk HP Pp Pq P4 Q4 Rp Rq Hsk) as HK. apply params_okP in HP. split.
  - now apply (com_root S HP p q sk HK).
  - now apply (com_sampled S HP p q sk HK P4 Q4).
Qed.
Print Assumptions C74_commitments_once.

Example C74_commitments_once_case : p_self_consistent (sp_pail S4) = true /\ prime 7 /\ prime 11 /\
  Z.gcd 18 77 = 1 /\ one_sided 7 11 18 /\ sim_com 77 2 = 18 /\
  exists sk, skey_new P4 7 11 = Ret sk /\ nonsquare_residue sk 4 true = 18 /\ square_mod 77 4.
Proof.
  split; [reflexivity|]. split; [apply prime_check_ok; reflexivity|]. split; [apply prime_check_ok; reflexivity|].
  split; [reflexivity|]. split.
  { split; [intros _|intros _; now exists 2].
    intros [y Hy]. rewrite <- Z.mul_mod_idemp_l, <- Z.mul_mod_idemp_r in Hy by lia.
    assert (Hb := Z.mod_pos_bound y 11 ltac:(lia)). remember (y mod 11) as z. clear - Hy Hb.
    assert (H : z = 0 \/ z = 1 \/ z = 2 \/ z = 3 \/ z = 4 \/ z = 5 \/ z = 6 \/ z = 7 \/ z = 8 \/ z = 9 \/ z = 10) by lia.
    destruct H as [->|[->|[->|[->|[->|[->|[->|[->|[->|[->| ->]]]]]]]]]]; discriminate Hy. }
  split; [vm_compute; reflexivity|]. eexists. split; [vm_compute; reflexivity|]. split; [vm_compute; reflexivity|].
  now exists 2.
Qed.

(** Two different roots of one number would give the factors away: *)
Theorem C74_two_roots_give_a_factor : forall p q x y, prime p -> prime q ->
  (x * x) mod (p * q) = (y * y) mod (p * q) ->
  x mod (p * q) <> y mod (p * q) -> x mod (p * q) <> (- y) mod (p * q) ->
  1 < Z.gcd (x - y) (p * q) < p * q.
Proof. exact two_roots_factor. Qed.
Print Assumptions C74_two_roots_give_a_factor.

Example C74_two_roots_give_a_factor_case : prime 7 /\ prime 11 /\ (16 * 16) mod (7 * 11) = (5 * 5) mod (7 * 11) /\
  Z.gcd (16 - 5) (7 * 11) = 11.
Proof. split; [apply prime_check_ok; reflexivity|]. split; [apply prime_check_ok; reflexivity|]. split; reflexivity. Qed.

(** over all the proofs a party makes for its key, with any commitments and
    challenges, it never shows two. *)
Theorem C74_one_root_per_number : forall S p q sk com1 com2 y1 y2 e1 e2,
  p_self_consistent (sp_pail S) = true ->
  prime p -> prime q -> p mod 4 = 3 -> q mod 4 = 3 ->
  p < 2 ^ prime_bits (sp_pail S) -> q < 2 ^ prime_bits (sp_pail S) ->
  skey_new (sp_pail S) p q = Ret sk ->
  let N := p * q in
  0 <= y1 < 2 ^ uint_w (sp_pail S) -> Z.gcd com1 N = 1 -> Z.gcd y1 N = 1 -> one_sided p q com1 ->
  0 <= y2 < 2 ^ uint_w (sp_pail S) -> Z.gcd com2 N = 1 -> Z.gcd y2 N = 1 -> one_sided p q com2 ->
  mod_elem_new S sk (com1 mod p, com1 mod q) y1 = Ret e1 ->
  mod_elem_new S sk (com2 mod p, com2 mod q) y2 = Ret e2 ->
  (me_x e1 ^ 4) mod N = (me_x e2 ^ 4) mod N -> me_x e1 = me_x e2.
Proof.
  exact (fun S p q sk com1 com2 y1 y2 e1 e2 HP Pp Pq P4 Q4 Rp Rq Hsk =>
    roots_agree S (params_okP _ HP) p q sk (blum_key S p q sk HP Pp Pq P4 Q4 Rp Rq Hsk) P4 Q4 com1 com2 y1 y2 e1 e2).
Qed.
Print Assumptions C74_one_root_per_number.

(** Commitments 18 and 59 = -18 twist the challenges 38 and 39 into the same
    number; both answers are its root 16. *)
Example C74_one_root_per_number_case : exists sk e1 e2, skey_new P4 7 11 = Ret sk /\
  mod_elem_new S4 sk (18 mod 7, 18 mod 11) 38 = Ret e1 /\ mod_elem_new S4 sk (59 mod 7, 59 mod 11) 39 = Ret e2 /\
  (me_x e1 ^ 4) mod 77 = (me_x e2 ^ 4) mod 77 /\ me_x e1 = 16 /\ me_x e2 = 16 /\ e1 <> e2.
Proof.
  do 3 eexists. split; [vm_compute; reflexivity|]. split; [vm_compute; reflexivity|]. split; [vm_compute; reflexivity|].
  split; [reflexivity|]. split; [reflexivity|]. split; [reflexivity|]. discriminate.
Qed.
