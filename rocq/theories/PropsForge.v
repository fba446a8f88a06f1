(** * Property C67: what a decryption proof says about the claimed product.

    Rounds 5 and 6 of signing are meant to expose a signer who announced a wrong
    [delta], resp. [S], in round 3: every signer proves with [DecProof] that its
    announcement is the plaintext of a ciphertext everybody can compute.  The
    verifier's interval for the response [w] is wider than the Paillier modulus
    for every parameter set that passes [SELF_CONSISTENT], and ciphertexts only
    determine plaintexts modulo the modulus. *)
From Coq Require Import ZArith Znumtheory List Bool Lia.
From Verif Require Import Base SignedModel SignedSpec PaillierModel PaillierSpec ZkBase ZkModel ZkSpec ZkFacts
  ZkToy ZkTranscripts ZkLemmas DecForgeSpec DecForge.
Import ListNotations.
Open Scope Z_scope.

(** Whoever can open the ciphertext [D] truthfully, as [y - k * x], can prove that
    any [s] is the product: the honest masks with the dishonest [y'] do it. *)
Theorem C67_any_product_accepted : forall S C A, good_params S -> curve_ok (sp_q S) C ->
  forall (X : xof A (pt C)) (pub : dec_public C) setup aux p0 q0 x y rho s,
  xof_ok (sp_q S) X -> keygen_primes (prime_bits (sp_pail S)) p0 q0 -> dp_pk0 pub = p0 * q0 ->
  2 <= dp_num_parties pub < 2 ^ 64 ->
  ct_pk (dp_cap_k pub) = dp_pk0 pub -> ct_pk (dp_cap_d pub) = dp_pk0 pub ->
  unit_ok (p0 * q0) (ct_val (dp_cap_k pub)) -> unit_ok (p0 * q0) rho ->
  affine_cipher (p0 * q0) (ct_val (dp_cap_k pub)) (- x) y rho (ct_val (dp_cap_d pub)) ->
  pm_interval (sp_l S) x -> Z.abs y <= p0 * q0 ->
  dp_cap_x pub = pmul C x (gen C) -> dp_cap_s pub = pmul C s (dp_cap_g pub) ->
  exists y', Z.abs y' <= p0 * q0 * sp_q S /\ y' mod sp_q S = s mod sp_q S /\
    forall ms, length ms = Z.to_nat (sp_kappa S) -> Forall (lie_ok S (dp_pk0 pub) (dp_num_parties pub)) ms ->
      dec_verify S X (forge S X pub setup aux x y' rho ms) pub setup aux = Ret true.
Proof. exact (fun S C A HG HC => any_claim S C A HG (good_ok S HG) HC). Qed.
Print Assumptions C67_any_product_accepted.

(** The statement of [C40_honest_case], where [y = -2^80] (that is 3 modulo 7) and
    the truthful claim is [3 * 3 = 2]; here the claim is [1 * 3] instead. *)
Definition lie_pub : dec_public toyC :=
  @DecPublic toyC toy_N0 (dp_cap_k dg_pub) (dp_cap_x dg_pub) (dp_cap_d dg_pub) (zq_mk 7 3) (dp_cap_g dg_pub) 3.
Definition lies : list lie := [Lie 12345 (2 ^ 135 + 99) 1; Lie (-77) (- 2 ^ 100) 1; Lie 0 5 1].
Lemma lies_ok : Forall (lie_ok toy_S toy_N0 3) lies.
Proof. unfold lies. repeat (apply Forall_cons; [split; toy_case|]). constructor. Qed.
Example C67_any_product_case :
  dp_cap_s dg_pub = pmul toyC (- 2 ^ 80) (dp_cap_g dg_pub) /\
  dp_cap_s lie_pub <> pmul toyC (- 2 ^ 80) (dp_cap_g lie_pub) /\
  exists y', dec_verify toy_S (toyX 1 true 0) (forge toy_S (toyX 1 true 0) lie_pub toy_rp tt 900 y' 1 lies)
    lie_pub toy_rp tt = Ret true.
Proof.
  split; [toy_case|]. split; [intros H; apply (f_equal (@proj1_sig _ _)) in H; revert H; vm_compute; discriminate|].
  destruct (C67_any_product_accepted toy_S toyC unit toy_S_ok (zq_curve_ok 7) (toyX 1 true 0) lie_pub toy_rp tt
    toy_p0 toy_q0 900 (- 2 ^ 80) 1 1) as (y' & _ & _ & H).
  all: first [exact toy_keygen0 | toy_case | idtac].
  exists y'. apply H; [reflexivity|exact lies_ok].
Qed.

(** The interval is the only culprit: two openings of the same ciphertexts with
    products below a quarter of the modulus agree modulo the curve order. *)
Theorem C67_small_products_pinned : forall S, good_params S ->
  forall p0 q0 K D k x1 x2 y1 y2,
  keygen_primes (prime_bits (sp_pail S)) p0 q0 ->
  encrypts (p0 * q0) K k -> Z.abs k < 2 ^ (sp_l S + sp_eps S) ->
  encrypts (p0 * q0) D (y1 - k * x1) -> encrypts (p0 * q0) D (y2 - k * x2) ->
  Z.abs x1 < 2 ^ (sp_l S + sp_eps S) -> Z.abs x2 < 2 ^ (sp_l S + sp_eps S) ->
  x1 mod sp_q S = x2 mod sp_q S -> 4 * Z.abs y1 <= p0 * q0 -> 4 * Z.abs y2 <= p0 * q0 ->
  y1 mod sp_q S = y2 mod sp_q S.
Proof. exact (fun S HG => small_pinned S HG (good_ok S HG)). Qed.
Print Assumptions C67_small_products_pinned.

(** The same ciphertexts as above, opened with [x = 900] and with [x = 907]. *)
Example C67_small_products_case :
  encrypts toy_N0 (ct_val (dp_cap_k dg_pub)) 33 /\
  encrypts toy_N0 (ct_val (dp_cap_d dg_pub)) (- 2 ^ 80 - 33 * 900) /\
  encrypts toy_N0 (ct_val (dp_cap_d dg_pub)) (- 2 ^ 80 + 33 * 7 - 33 * 907) /\
  900 mod sp_q toy_S = 907 mod sp_q toy_S /\ 4 * Z.abs (- 2 ^ 80) <= toy_p0 * toy_q0 /\
  (- 2 ^ 80) mod sp_q toy_S = (- 2 ^ 80 + 33 * 7) mod sp_q toy_S.
Proof.
  assert (E1 : encrypts toy_N0 (ct_val (dp_cap_k dg_pub)) 33) by (exists 1; split; toy_case).
  assert (E2 : encrypts toy_N0 (ct_val (dp_cap_d dg_pub)) (- 2 ^ 80 - 33 * 900)) by (exists 1; split; toy_case).
  assert (E3 : encrypts toy_N0 (ct_val (dp_cap_d dg_pub)) (- 2 ^ 80 + 33 * 7 - 33 * 907)) by (exists 1; split; toy_case).
  do 3 (split; [assumption|]). split; [toy_case|]. split; [toy_case|].
  apply (C67_small_products_pinned toy_S toy_S_ok toy_p0 toy_q0 (ct_val (dp_cap_k dg_pub)) (ct_val (dp_cap_d dg_pub)) 33 900 907 (- 2 ^ 80) (- 2 ^ 80 + 33 * 7) toy_keygen0 E1).
  all: first [exact E2 | exact E3 | toy_case].
Qed.
