(** * Property C73: the proofs relative to ring-Pedersen parameters reveal nothing.

    The proofs that a ciphertext encrypts a small number ([src/zk/enc_elg.rs]), that
    an affine operation was applied to one ([src/zk/aff_g.rs]) and that a modulus has
    no small factor ([src/zk/fac.rs]) commit to their secrets in the verifier's ring-Pedersen group.  Such a commitment says nothing
    about its value: whatever the value, any window of randomizers as long as the
    order of the base [t] contains exactly one that explains it.  For a true
    statement, and for each way to explain the commitments to the secrets, the
    accepted proofs with all answers in the inner interval of HideRpSpec.v (which
    depends on the parameters, not on the secrets) are exactly those the honest
    prover outputs, each for exactly one choice of the other draws.  And unless one
    of its masks is next to the ends of its interval, the honest prover's answers
    are inner. *)
From Coq Require Import ZArith Znumtheory List Bool Lia.
From Verif Require Import Base SignedModel SignedSpec PaillierModel PaillierSpec RsaFacts PaillierProofs PaillierLemmas PropsPaillier
  ZkBase ZkModel ZkSpec ZkFacts ZkToy ZkTranscripts ZkLemmas PropsZk2 HideSpec HideRpSpec HideRp HideFac.
Import ListNotations.
Open Scope Z_scope.

Theorem C73_commitment_hides : forall n s t o lambda k c a x, 1 < n -> Z.gcd t n = 1 -> has_order n t o ->
  unit_power n t lambda s -> unit_power n t k c ->
  exists! mu, a <= mu < a + o /\ rp_opens n s t x mu c.
Proof. exact commitment_hides_spec. Qed.
Print Assumptions C73_commitment_hides.

(** Modulus 77, [t = 4] of order 15, [s = 4^3]: the commitment [4^7 = 60] to the value 1000. *)
Example C73_commitment_case : has_order 77 4 15 /\ exists! mu, -8 <= mu < -8 + 15 /\ rp_opens 77 64 4 1000 mu 60.
Proof.
  assert (H : has_order 77 4 15).
  { split; [lia|]. split; [reflexivity|]. intros k Hk.
    assert (E : k = 1 \/ k = 2 \/ k = 3 \/ k = 4 \/ k = 5 \/ k = 6 \/ k = 7 \/ k = 8 \/ k = 9 \/ k = 10 \/ k = 11 \/
      k = 12 \/ k = 13 \/ k = 14) by lia.
    repeat (destruct E as [->|E]; [vm_compute; discriminate|]). subst k. vm_compute; discriminate. }
  split; [exact H|]. apply (C73_commitment_hides 77 64 4 15 3 7); [lia|reflexivity|exact H| |];
    (split; [lia|split; [reflexivity|lia]]).
Qed.

Theorem C73_enc_elg : forall S C A, good_params S -> curve_ok (sp_q S) C ->
  forall (X : xof A (pt C)) sec (pub : enc_elg_public C) setup aux x pf mu,
  xof_ok (sp_q S) X -> secret_of S (sp_l S) (es_x sec) x ->
  let N := ep_pk0 pub in
  let hat := rp_n setup in
  modulus_ok S N -> unit_ok N (es_rho sec) ->
  ct_pk (ep_cap_c pub) = N -> paillier_cipher N x (es_rho sec) (ct_val (ep_cap_c pub)) ->
  ep_cap_b pub = pmul C (es_b sec) (gen C) ->
  ep_cap_x pub = padd C (pmul C (es_b sec) (ep_cap_a pub)) (pmul C x (gen C)) ->
  setup_ok S setup -> enc_elg_inner S N hat (bound (es_x sec)) pf ->
  0 <= mu < hat * 2 ^ sp_l S ->
  rp_opens hat (rp_s setup) (rp_t setup) x (mask_scaled (sp_l S) hat mu) (ee_s pf) ->
  (enc_elg_verify S X pf pub setup aux = Ret true <->
   exists! rnd, (enc_elg_draw S N hat rnd /\ er_mu rnd = mu) /\ enc_elg_new S X sec pub setup aux rnd = Ret pf).
Proof. exact (fun S C A HG => enc_elg_hides S C A (good_ok S HG)). Qed.
Print Assumptions C73_enc_elg.

Theorem C73_enc_elg_inner : forall S C A, good_params S -> curve_ok (sp_q S) C ->
  forall (X : xof A (pt C)) sec (pub : enc_elg_public C) setup aux x rnd,
  xof_ok (sp_q S) X -> secret_of S (sp_l S) (es_x sec) x ->
  let N := ep_pk0 pub in
  let hat := rp_n setup in
  modulus_ok S N -> unit_ok N (es_rho sec) ->
  ct_pk (ep_cap_c pub) = N -> paillier_cipher N x (es_rho sec) (ct_val (ep_cap_c pub)) ->
  ep_cap_b pub = pmul C (es_b sec) (gen C) ->
  ep_cap_x pub = padd C (pmul C (es_b sec) (ep_cap_a pub)) (pmul C x (gen C)) ->
  setup_ok S setup -> enc_elg_draw S N hat rnd -> enc_elg_margin S hat rnd ->
  exists pf, enc_elg_new S X sec pub setup aux rnd = Ret pf /\ enc_elg_verify S X pf pub setup aux = Ret true /\
    enc_elg_inner S N hat (bound (es_x sec)) pf /\
    rp_opens hat (rp_s setup) (rp_t setup) x (mask_scaled (sp_l S) hat (er_mu rnd)) (ee_s pf).
Proof. exact (fun S C A HG => enc_elg_inner_honest S C A (good_ok S HG)). Qed.
Print Assumptions C73_enc_elg_inner.

(** [x = 1234], challenge 3, draws within the margin. *)
Definition he_rnd : enc_elg_rand := EncElgRand (2 ^ 44) 5 1 2 (toy_N1 * 2 ^ 44).
Lemma he_rnd_ok : enc_elg_draw toy_S toy_N0 toy_N1 he_rnd /\ enc_elg_margin toy_S toy_N1 he_rnd.
Proof. split; [split; [split; toy_case|split; toy_case]|unfold enc_elg_margin, margin_scaled; toy_case]. Qed.
Example C73_enc_elg_case : exists pf,
  enc_elg_new toy_S (toyX 3 true 0) ee_sec ee_pub toy_rp tt he_rnd = Ret pf /\
  enc_elg_verify toy_S (toyX 3 true 0) pf ee_pub toy_rp tt = Ret true /\
  exists! rnd, (enc_elg_draw toy_S toy_N0 toy_N1 rnd /\ er_mu rnd = 5) /\
    enc_elg_new toy_S (toyX 3 true 0) ee_sec ee_pub toy_rp tt rnd = Ret pf.
Proof.
  destruct (C73_enc_elg_inner toy_S toyC unit toy_S_ok (zq_curve_ok 7) (toyX 3 true 0) ee_sec ee_pub toy_rp tt 1234 he_rnd)
    as (pf & E & V & I & O).
  all: first [exact (proj1 he_rnd_ok) | exact (proj2 he_rnd_ok) | idtac].
  all: lazymatch goal with |- ex _ => idtac | |- _ => toy_case end.
  exists pf. split; [exact E|]. split; [exact V|].
  apply (C73_enc_elg toy_S toyC unit toy_S_ok (zq_curve_ok 7) (toyX 3 true 0) ee_sec ee_pub toy_rp tt 1234 pf 5).
  all: first [exact I | exact O | exact V | toy_case].
Qed.

Theorem C73_aff_g : forall S C A, good_params S -> curve_ok (sp_q S) C ->
  forall (X : xof A (pt C)) sec (pub : aff_g_public C) setup aux x y pf m mu,
  xof_ok (sp_q S) X -> secret_of S (sp_l S) (as_x sec) x -> secret_of S (sp_lp S) (as_y sec) y ->
  let N0 := ap_pk0 pub in
  let N1 := ap_pk1 pub in
  let hat := rp_n setup in
  modulus_ok S N0 -> modulus_ok S N1 -> unit_ok N0 (as_rho sec) -> unit_ok N1 (as_rho_y sec) ->
  ct_pk (ap_cap_c pub) = N0 -> ct_pk (ap_cap_d pub) = N0 -> ct_pk (ap_cap_y pub) = N1 ->
  unit_ok N0 (ct_val (ap_cap_c pub)) ->
  affine_cipher N0 (ct_val (ap_cap_c pub)) x (- y) (as_rho sec) (ct_val (ap_cap_d pub)) ->
  paillier_cipher N1 y (as_rho_y sec) (ct_val (ap_cap_y pub)) ->
  ap_cap_x pub = pmul C x (gen C) ->
  setup_ok S setup -> aff_g_inner S N0 N1 hat (bound (as_x sec)) (bound (as_y sec)) pf ->
  0 <= m < hat * 2 ^ sp_l S ->
  rp_opens hat (rp_s setup) (rp_t setup) x (mask_scaled (sp_l S) hat m) (ag_s pf) ->
  0 <= mu < hat * 2 ^ sp_l S ->
  rp_opens hat (rp_s setup) (rp_t setup) (- y) (mask_scaled (sp_l S) hat mu) (ag_t pf) ->
  (aff_g_verify S X pf pub setup aux = Ret true <->
   exists! rnd, (aff_g_draw S N0 N1 hat rnd /\ ar_m rnd = m /\ ar_mu rnd = mu) /\
     aff_g_new S X sec pub setup aux rnd = Ret pf).
Proof. exact (fun S C A HG => aff_g_hides S C A (good_ok S HG)). Qed.
Print Assumptions C73_aff_g.

Theorem C73_aff_g_inner : forall S C A, good_params S -> curve_ok (sp_q S) C ->
  forall (X : xof A (pt C)) sec (pub : aff_g_public C) setup aux x y rnd,
  xof_ok (sp_q S) X -> secret_of S (sp_l S) (as_x sec) x -> secret_of S (sp_lp S) (as_y sec) y ->
  let N0 := ap_pk0 pub in
  let N1 := ap_pk1 pub in
  let hat := rp_n setup in
  modulus_ok S N0 -> modulus_ok S N1 -> unit_ok N0 (as_rho sec) -> unit_ok N1 (as_rho_y sec) ->
  ct_pk (ap_cap_c pub) = N0 -> ct_pk (ap_cap_d pub) = N0 -> ct_pk (ap_cap_y pub) = N1 ->
  unit_ok N0 (ct_val (ap_cap_c pub)) ->
  affine_cipher N0 (ct_val (ap_cap_c pub)) x (- y) (as_rho sec) (ct_val (ap_cap_d pub)) ->
  paillier_cipher N1 y (as_rho_y sec) (ct_val (ap_cap_y pub)) ->
  ap_cap_x pub = pmul C x (gen C) ->
  setup_ok S setup -> aff_g_draw S N0 N1 hat rnd -> aff_g_margin S hat rnd ->
  exists pf, aff_g_new S X sec pub setup aux rnd = Ret pf /\ aff_g_verify S X pf pub setup aux = Ret true /\
    aff_g_inner S N0 N1 hat (bound (as_x sec)) (bound (as_y sec)) pf /\
    rp_opens hat (rp_s setup) (rp_t setup) x (mask_scaled (sp_l S) hat (ar_m rnd)) (ag_s pf) /\
    rp_opens hat (rp_s setup) (rp_t setup) (- y) (mask_scaled (sp_l S) hat (ar_mu rnd)) (ag_t pf).
Proof. exact (fun S C A HG => aff_g_inner_honest S C A (good_ok S HG)). Qed.
Print Assumptions C73_aff_g_inner.

(** [x = -1500], [y = 2^60 + 12345], challenge 3, draws within the margin. *)
Definition hg_rnd : aff_g_rand := AffGRand (2 ^ 44) (2 ^ 110) 1 1 (toy_N1 * 2 ^ 44) 2 (toy_N1 * 2 ^ 44 + 7) 4.
Lemma hg_rnd_ok : aff_g_draw toy_S toy_N0 toy_N1 toy_N1 hg_rnd /\ aff_g_margin toy_S toy_N1 hg_rnd.
Proof. split; [split; [split; toy_case|split; toy_case]|unfold aff_g_margin, margin_scaled; toy_case]. Qed.
Example C73_aff_g_case : exists pf,
  aff_g_new toy_S (toyX 3 true 0) ag_sec ag_pub toy_rp tt hg_rnd = Ret pf /\
  aff_g_verify toy_S (toyX 3 true 0) pf ag_pub toy_rp tt = Ret true /\
  exists! rnd, (aff_g_draw toy_S toy_N0 toy_N1 toy_N1 rnd /\ ar_m rnd = 2 /\ ar_mu rnd = 4) /\
    aff_g_new toy_S (toyX 3 true 0) ag_sec ag_pub toy_rp tt rnd = Ret pf.
Proof.
  destruct (C73_aff_g_inner toy_S toyC unit toy_S_ok (zq_curve_ok 7) (toyX 3 true 0) ag_sec ag_pub toy_rp tt
    (-1500) (2 ^ 60 + 12345) hg_rnd) as (pf & E & V & I & O1 & O2).
  all: first [exact (proj1 hg_rnd_ok) | exact (proj2 hg_rnd_ok) | idtac].
  all: lazymatch goal with |- ex _ => idtac | |- _ => toy_case end.
  exists pf. split; [exact E|]. split; [exact V|].
  apply (C73_aff_g toy_S toyC unit toy_S_ok (zq_curve_ok 7) (toyX 3 true 0) ag_sec ag_pub toy_rp tt
    (-1500) (2 ^ 60 + 12345) pf 2 4).
  all: first [exact I | exact O1 | exact O2 | exact V | toy_case].
Qed.

Theorem C73_fac : forall S C A, good_params S -> forall (X : xof A (pt C)) sk0 setup aux p q pf mu nu,
  xof_ok (sp_q S) X ->
  0 < p < 2 ^ prime_bits (sp_pail S) -> 0 < q < 2 ^ prime_bits (sp_pail S) -> modulus_ok S (p * q) ->
  pr_p (sk_primes sk0) = p -> pr_q (sk_primes sk0) = q -> sk_pk sk0 = p * q ->
  let hat := rp_n setup in
  setup_ok S setup -> sp_l S + sp_eps S + bits (p * q * hat) + 1 < sp_xw S ->
  fac_inner S (p * q) hat pf ->
  0 <= mu < hat * 2 ^ sp_l S -> rp_opens hat (rp_s setup) (rp_t setup) p (mask_scaled (sp_l S) hat mu) (fac_p pf) ->
  0 <= nu < hat * 2 ^ sp_l S -> rp_opens hat (rp_s setup) (rp_t setup) q (mask_scaled (sp_l S) hat nu) (fac_q pf) ->
  (fac_verify S X pf (p * q) setup aux = Ret true <->
   exists! rnd, (fac_rand_ok S (p * q) hat rnd /\ fr_mu rnd = mu /\ fr_nu rnd = nu) /\
     fac_new S X sk0 setup aux rnd = Ret pf).
Proof. exact (fun S C A HG => fac_hides S C A (good_ok S HG)). Qed.
Print Assumptions C73_fac.

Theorem C73_fac_inner : forall S C A, good_params S -> forall (X : xof A (pt C)) sk0 setup aux p q rnd,
  xof_ok (sp_q S) X ->
  0 < p < 2 ^ prime_bits (sp_pail S) -> 0 < q < 2 ^ prime_bits (sp_pail S) -> modulus_ok S (p * q) ->
  pr_p (sk_primes sk0) = p -> pr_q (sk_primes sk0) = q -> sk_pk sk0 = p * q ->
  let hat := rp_n setup in
  setup_ok S setup -> sp_l S + sp_eps S + bits (p * q * hat) + 1 < sp_xw S ->
  fac_rand_ok S (p * q) hat rnd -> fac_margins S (p * q) hat rnd ->
  exists pf, fac_new S X sk0 setup aux rnd = Ret pf /\ fac_verify S X pf (p * q) setup aux = Ret true /\
    fac_inner S (p * q) hat pf /\
    rp_opens hat (rp_s setup) (rp_t setup) p (mask_scaled (sp_l S) hat (fr_mu rnd)) (fac_p pf) /\
    rp_opens hat (rp_s setup) (rp_t setup) q (mask_scaled (sp_l S) hat (fr_nu rnd)) (fac_q pf).
Proof. exact (fun S C A HG => fac_inner_honest S C A (good_ok S HG)). Qed.
Print Assumptions C73_fac_inner.

(** The two 66-bit toy primes, challenge 5, draws within the margin. *)
Definition hf_rnd : fac_rand :=
  FacRand (2 ^ 108) (2 ^ 108 + 9) 12345 54321 (toy_p0 * toy_q0 * toy_N1 * 2 ^ 44) (toy_N1 * 2 ^ 44) (toy_N1 * 2 ^ 44 + 3).
Lemma hf_rnd_ok : fac_rand_ok toy_S (toy_p0 * toy_q0) toy_N1 hf_rnd /\ fac_margins toy_S (toy_p0 * toy_q0) toy_N1 hf_rnd.
Proof. split; [split; toy_case|unfold fac_margins, margin_by; toy_case]. Qed.
Example C73_fac_case : exists sk0 pf,
  skey_new (sp_pail toy_S) toy_p0 toy_q0 = Ret sk0 /\
  fac_new toy_S (toyX 1 true 1048580) sk0 toy_rp tt hf_rnd = Ret pf /\
  fac_verify toy_S (toyX 1 true 1048580) pf (toy_p0 * toy_q0) toy_rp tt = Ret true /\
  exists! rnd, (fac_rand_ok toy_S (toy_p0 * toy_q0) toy_N1 rnd /\ fr_mu rnd = 12345 /\ fr_nu rnd = 54321) /\
    fac_new toy_S (toyX 1 true 1048580) sk0 toy_rp tt rnd = Ret pf.
Proof.
  destruct (keygen_succeeds (sp_pail toy_S) toy_p0 toy_q0) as (sk0 & Hsk); [reflexivity|exact toy_keygen0|].
  exists sk0.
  pose proof (skey_new_inv (sp_pail toy_S) toy_p0 toy_q0 sk0 (params_okP (sp_pail toy_S) eq_refl)
    toy_p0_prime toy_q0_prime eq_refl eq_refl Hsk) as K.
  assert (Ep : pr_p (sk_primes sk0) = toy_p0) by (rewrite (ko_primes _ _ _ _ K); reflexivity).
  assert (Eq : pr_q (sk_primes sk0) = toy_q0) by (rewrite (ko_primes _ _ _ _ K); reflexivity).
  pose proof (ko_pk _ _ _ _ K) as EN. clear K.
  destruct (C73_fac_inner toy_S toyC unit toy_S_ok (toyX 1 true 1048580) sk0 toy_rp tt toy_p0 toy_q0 hf_rnd)
    as (pf & E & V & I & O1 & O2).
  all: first [exact Ep | exact Eq | exact EN | exact (proj1 hf_rnd_ok) | exact (proj2 hf_rnd_ok) | idtac].
  all: lazymatch goal with |- ex _ => idtac | |- _ => clear; toy_case end.
  exists pf. split; [exact Hsk|]. split; [exact E|]. split; [exact V|].
  apply (C73_fac toy_S toyC unit toy_S_ok (toyX 1 true 1048580) sk0 toy_rp tt toy_p0 toy_q0 pf 12345 54321).
  all: first [exact Ep | exact Eq | exact EN | exact I | exact O1 | exact O2 | exact V | clear; toy_case].
Qed.
