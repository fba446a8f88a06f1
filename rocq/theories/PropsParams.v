(** * Property C16: self-consistent parameters never overflow.

    In the model every overflow, failed assertion or lossy conversion of the
    Rust code is an explicit [Panic]; a prover that returns [Ret] performed all
    its integer operations within their declared widths. *)
From Coq Require Import ZArith Znumtheory List Bool Lia.
From Verif Require Import Base SignedModel SignedSpec PaillierModel PaillierSpec ZkBase ZkModel ZkSpec ZkFacts FacProofs
  ZkToy ZkTranscripts ZkLemmas ParamSets ParamLemmas PropsZk1 PropsZk2.
Open Scope Z_scope.

Theorem C16_enc_elg_fits : forall S C A, good_params S -> curve_ok (sp_q S) C ->
  forall (X : xof A (pt C)) sec (pub : enc_elg_public C) setup aux rnd x,
  xof_ok (sp_q S) X -> secret_of S (sp_l S) (es_x sec) x ->
  modulus_ok S (ep_pk0 pub) -> unit_ok (ep_pk0 pub) (es_rho sec) ->
  ct_pk (ep_cap_c pub) = ep_pk0 pub -> paillier_cipher (ep_pk0 pub) x (es_rho sec) (ct_val (ep_cap_c pub)) ->
  ep_cap_b pub = pmul C (es_b sec) (gen C) ->
  ep_cap_x pub = padd C (pmul C (es_b sec) (ep_cap_a pub)) (pmul C x (gen C)) ->
  setup_ok S setup -> enc_elg_rand_ok S (ep_pk0 pub) (rp_n setup) rnd ->
  exists pf r, enc_elg_new S X sec pub setup aux rnd = Ret pf /\ enc_elg_verify S X pf pub setup aux = Ret r.
Proof. exact enc_elg_total. Qed.
Print Assumptions C16_enc_elg_fits.

(** The toy parameters, with the extreme mask. *)
Example C16_enc_elg_case : exists pf r,
  enc_elg_new toy_S (toyX 3 true 0) ee_sec ee_pub toy_rp tt ee_rnd = Ret pf /\
  enc_elg_verify toy_S (toyX 3 true 0) pf ee_pub toy_rp tt = Ret r.
Proof.
  apply (C16_enc_elg_fits toy_S toyC unit toy_S_ok (zq_curve_ok 7) (toyX 3 true 0) ee_sec ee_pub toy_rp tt ee_rnd 1234).
  all: first [exact ee_rnd_ok | toy_case].
Qed.

Theorem C16_aff_g_fits : forall S C A, good_params S -> curve_ok (sp_q S) C ->
  forall (X : xof A (pt C)) sec (pub : aff_g_public C) setup aux rnd x y,
  xof_ok (sp_q S) X -> secret_of S (sp_l S) (as_x sec) x -> secret_of S (sp_lp S) (as_y sec) y ->
  let N0 := ap_pk0 pub in
  let N1 := ap_pk1 pub in
  modulus_ok S N0 -> modulus_ok S N1 -> unit_ok N0 (as_rho sec) -> unit_ok N1 (as_rho_y sec) ->
  ct_pk (ap_cap_c pub) = N0 -> ct_pk (ap_cap_d pub) = N0 -> ct_pk (ap_cap_y pub) = N1 ->
  unit_ok N0 (ct_val (ap_cap_c pub)) ->
  affine_cipher N0 (ct_val (ap_cap_c pub)) x (- y) (as_rho sec) (ct_val (ap_cap_d pub)) ->
  paillier_cipher N1 y (as_rho_y sec) (ct_val (ap_cap_y pub)) ->
  ap_cap_x pub = pmul C x (gen C) ->
  setup_ok S setup -> aff_g_rand_ok S N0 N1 (rp_n setup) rnd ->
  exists pf r, aff_g_new S X sec pub setup aux rnd = Ret pf /\ aff_g_verify S X pf pub setup aux = Ret r.
Proof. exact aff_g_total. Qed.
Print Assumptions C16_aff_g_fits.

Example C16_aff_g_case : exists pf r,
  aff_g_new toy_S (toyX 3 true 0) ag_sec ag_pub toy_rp tt ag_rnd = Ret pf /\
  aff_g_verify toy_S (toyX 3 true 0) pf ag_pub toy_rp tt = Ret r.
Proof.
  apply (C16_aff_g_fits toy_S toyC unit toy_S_ok (zq_curve_ok 7) (toyX 3 true 0) ag_sec ag_pub toy_rp tt ag_rnd
    (-1500) (2 ^ 60 + 12345)).
  all: first [exact ag_rnd_ok | toy_case].
Qed.

Theorem C16_aff_gs_fits : forall S C A, good_params S -> curve_ok (sp_q S) C ->
  forall (X : xof A (pt C)) sec (pub : aff_g_public C) aux rnds x y,
  xof_ok (sp_q S) X -> secret_of S (sp_l S) (ss_x sec) x -> secret_of S (sp_lp S) (ss_y sec) y ->
  let N0 := ap_pk0 pub in
  let N1 := ap_pk1 pub in
  modulus_ok S N0 -> modulus_ok S N1 -> unit_ok N0 (ss_rho sec) -> unit_ok N1 (ss_mu sec) ->
  ct_pk (ap_cap_c pub) = N0 -> ct_pk (ap_cap_d pub) = N0 -> ct_pk (ap_cap_y pub) = N1 ->
  unit_ok N0 (ct_val (ap_cap_c pub)) ->
  affine_cipher N0 (ct_val (ap_cap_c pub)) x (- y) (ss_rho sec) (ct_val (ap_cap_d pub)) ->
  paillier_cipher N1 y (ss_mu sec) (ct_val (ap_cap_y pub)) ->
  ap_cap_x pub = pmul C x (gen C) ->
  length rnds = Z.to_nat (sp_kappa S) -> Forall (aff_gs_rand_ok S N0 N1) rnds ->
  exists pf r, aff_gs_new S X sec pub aux rnds = Ret pf /\ aff_gs_verify S X pf pub aux = Ret r.
Proof. exact aff_gs_total. Qed.
Print Assumptions C16_aff_gs_fits.

Example C16_aff_gs_case : exists pf r,
  aff_gs_new toy_S (toyX 1 true 0) sg_sec ag_pub tt sg_rnds = Ret pf /\
  aff_gs_verify toy_S (toyX 1 true 0) pf ag_pub tt = Ret r.
Proof.
  apply (C16_aff_gs_fits toy_S toyC unit toy_S_ok (zq_curve_ok 7) (toyX 1 true 0) sg_sec ag_pub tt sg_rnds
    (-1500) (2 ^ 60 + 12345)).
  all: first [exact sg_rnds_ok | toy_case].
Qed.

Theorem C16_dec_fits : forall S C A, good_params S -> curve_ok (sp_q S) C ->
  forall (X : xof A (pt C)) sec (pub : dec_public C) setup aux rnds x y,
  xof_ok (sp_q S) X -> secret_of S (sp_l S) (ds_x sec) x ->
  let N := dp_pk0 pub in
  let n := dp_num_parties pub in
  2 <= n < 2 ^ 64 -> wf (uint_w (sp_pail S)) (ds_y sec) -> sval (uint_w (sp_pail S)) (ds_y sec) = y -> pm_interval (dec_y_exp S n) y ->
  modulus_ok S N -> unit_ok N (ds_rho sec) ->
  ct_pk (dp_cap_k pub) = N -> ct_pk (dp_cap_d pub) = N -> unit_ok N (ct_val (dp_cap_k pub)) ->
  affine_cipher N (ct_val (dp_cap_k pub)) (- x) y (ds_rho sec) (ct_val (dp_cap_d pub)) ->
  dp_cap_x pub = pmul C x (gen C) -> dp_cap_s pub = pmul C y (dp_cap_g pub) ->
  length rnds = Z.to_nat (sp_kappa S) -> Forall (dec_rand_ok S N n) rnds ->
  exists pf r, dec_new S X sec pub setup aux rnds = Ret pf /\ dec_verify S X pf pub setup aux = Ret r.
Proof. exact dec_total. Qed.
Print Assumptions C16_dec_fits.

Example C16_dec_case : exists pf r,
  dec_new toy_S (toyX 1 true 0) dg_sec dg_pub toy_rp tt dg_rnds = Ret pf /\
  dec_verify toy_S (toyX 1 true 0) pf dg_pub toy_rp tt = Ret r.
Proof.
  apply (C16_dec_fits toy_S toyC unit toy_S_ok (zq_curve_ok 7) (toyX 1 true 0) dg_sec dg_pub toy_rp tt dg_rnds
    900 (- 2 ^ 80)).
  all: first [exact dg_rnds_ok | toy_case].
Qed.

(** The no-small-factor proof needs one bit more than the predicate asks for. *)
Theorem C16_fac_fits : forall S C A, good_params S ->
  forall (X : xof A (pt C)) sk0 setup aux rnd p q,
  xof_ok (sp_q S) X ->
  0 < p < 2 ^ prime_bits (sp_pail S) -> 0 < q < 2 ^ prime_bits (sp_pail S) -> modulus_ok S (p * q) ->
  pr_p (sk_primes sk0) = p -> pr_q (sk_primes sk0) = q -> sk_pk sk0 = p * q ->
  setup_ok S setup -> fac_rand_ok S (p * q) (rp_n setup) rnd ->
  2 * modulus_bits (sp_pail S) + sp_l S + sp_eps S + 1 < sp_xw S ->
  exists pf r, fac_new S X sk0 setup aux rnd = Ret pf /\ fac_verify S X pf (p * q) setup aux = Ret r.
Proof. exact fac_total. Qed.
Print Assumptions C16_fac_fits.

Example C16_fac_case : 2 * modulus_bits (sp_pail toy_S) + sp_l toy_S + sp_eps toy_S + 1 < sp_xw toy_S /\
  exists sk0 pf, skey_new (sp_pail toy_S) toy_p0 toy_q0 = Ret sk0 /\
  fac_new toy_S (toyX 1 true 1048580) sk0 toy_rp tt (FacRand (2 ^ 108) (2 ^ 107) 12345 54321 (2 ^ 200) 777 888) = Ret pf /\
  fac_verify toy_S (toyX 1 true 1048580) pf toy_N0 toy_rp tt = Ret true.
Proof. split; [reflexivity|exact C36_honest_case]. Qed.

(** The shipped parameter sets satisfy the predicate and have the extra bit. *)
Theorem C16_shipped_sets : (forall q, Z.odd q = true -> 2 ^ 31 <= q < 2 ^ 32 ->
    good_params (dev_params q) /\ sp_defaults (dev_params q) = true /\
    2 * modulus_bits (sp_pail (dev_params q)) + sp_l (dev_params q) + sp_eps (dev_params q) + 1 < sp_xw (dev_params q)) /\
  (forall S, S = params_112 \/ S = params_128 ->
    good_params S /\ sp_defaults S = true /\ 2 * modulus_bits (sp_pail S) + sp_l S + sp_eps S + 1 < sp_xw S).
Proof. exact shipped_sets. Qed.
Print Assumptions C16_shipped_sets.

Example C16_shipped_case : Z.odd 4294967291 = true /\ 2 ^ 31 <= 4294967291 < 2 ^ 32 /\
  sp_xw (dev_params 4294967291) = 640 /\ sp_xw params_112 = 5120 /\ sp_xw params_128 = 7680.
Proof. repeat split; vm_compute; congruence. Qed.

(** Without it the claim fails: a parameter set that satisfies the predicate
    and the default constants, and a key made of two primes of the declared
    size, for which the prover panics whatever the randomness and the hash. *)
Theorem C16_predicate_one_bit_short_refuted : exists S C sk0 setup p q,
  good_params S /\ sp_defaults S = true /\ curve_ok (sp_q S) C /\
  keygen_primes (prime_bits (sp_pail S)) p q /\ skey_new (sp_pail S) p q = Ret sk0 /\ modulus_ok S (p * q) /\
  setup_ok S setup /\ (exists rnd, fac_rand_ok S (p * q) (rp_n setup) rnd) /\
  forall (X : xof unit (pt C)) aux rnd, xof_ok (sp_q S) X -> fac_rand_ok S (p * q) (rp_n setup) rnd ->
    fac_new S X sk0 setup aux rnd = Panic.
Proof. exact edge_panics. Qed.
Print Assumptions C16_predicate_one_bit_short_refuted.
