(** * Facts about the parameter sets, and the boundary case of the
    self-consistency predicate (C16). *)
From Coq Require Import ZArith Znumtheory List Bool Lia.
From Verif Require Import Base BaseFacts SignedModel SignedSpec PaillierModel PaillierSpec PaillierProofs ZkBase ZkModel ZkSpec
  ZkFacts FacProofs ZkToy ZkTranscripts ZkLemmas ParamSets.
Open Scope Z_scope.

(** ** The provers do not panic *)
Section Provers.
Variables (S : sparams) (C : curve) (A : Type).

Lemma enc_elg_total : good_params S -> curve_ok (sp_q S) C ->
  forall (X : xof A (pt C)) sec (pub : enc_elg_public C) setup aux rnd x,
  xof_ok (sp_q S) X -> secret_of S (sp_l S) (es_x sec) x ->
  modulus_ok S (ep_pk0 pub) -> unit_ok (ep_pk0 pub) (es_rho sec) ->
  ct_pk (ep_cap_c pub) = ep_pk0 pub -> paillier_cipher (ep_pk0 pub) x (es_rho sec) (ct_val (ep_cap_c pub)) ->
  ep_cap_b pub = pmul C (es_b sec) (gen C) ->
  ep_cap_x pub = padd C (pmul C (es_b sec) (ep_cap_a pub)) (pmul C x (gen C)) ->
  setup_ok S setup -> enc_elg_rand_ok S (ep_pk0 pub) (rp_n setup) rnd ->
  exists pf r, enc_elg_new S X sec pub setup aux rnd = Ret pf /\ enc_elg_verify S X pf pub setup aux = Ret r.
Proof.
  intros HG HC X sec pub setup aux rnd x H1 H2 H3 H4 H5 H6 H7 H8 H9 H10.
  destruct (enc_elg_honest S C A HG HC X sec pub setup aux rnd x) as (pf & r & E1 & E2 & _); auto.
  exists pf, r. auto.
Qed.

Lemma aff_g_total : good_params S -> curve_ok (sp_q S) C ->
  forall (X : xof A (pt C)) sec (pub : aff_g_public C) setup aux rnd x y,
  xof_ok (sp_q S) X -> secret_of S (sp_l S) (as_x sec) x -> secret_of S (sp_lp S) (as_y sec) y ->
  let N0 := ap_pk0 pub in
  let N1 := ap_pk1 pub in
  modulus_ok S N0 -> modulus_ok S N1 -> unit_ok N0 (as_rho sec) -> unit_ok N1 (as_rho_y sec) ->
  ct_pk (ap_cap_c pub) = N0 -> ct_pk (ap_cap_d pub) = N0 -> ct_pk (ap_cap_y pub) = N1 ->
  unit_ok N0 (ct_val (ap_cap_c pub)) ->
  affine_cipher N0 (ct_val (ap_cap_c pub)) x (- y) (as_rho sec) (ct_val (ap_cap_d pub)) ->
  paillier_cipher N1 y (as_rho_y sec) (ct_val (ap_cap_y pub)) ->
  ap_cap_x pub = pmul C x (gen C) ->
  setup_ok S setup -> aff_g_rand_ok S N0 N1 (rp_n setup) rnd ->
  exists pf r, aff_g_new S X sec pub setup aux rnd = Ret pf /\ aff_g_verify S X pf pub setup aux = Ret r.
Proof.
  intros HG HC X sec pub setup aux rnd x y H1 H2 H3 N0 N1 H4 H5 H6 H7 H8 H9 H10 H11 H12 H13 H14 H15 H16.
  destruct (aff_g_honest S C A HG HC X sec pub setup aux rnd x y) as (pf & r & E1 & E2 & _); auto.
  exists pf, r. auto.
Qed.

Lemma aff_gs_total : good_params S -> curve_ok (sp_q S) C ->
  forall (X : xof A (pt C)) sec (pub : aff_g_public C) aux rnds x y,
  xof_ok (sp_q S) X -> secret_of S (sp_l S) (ss_x sec) x -> secret_of S (sp_lp S) (ss_y sec) y ->
  let N0 := ap_pk0 pub in
  let N1 := ap_pk1 pub in
  modulus_ok S N0 -> modulus_ok S N1 -> unit_ok N0 (ss_rho sec) -> unit_ok N1 (ss_mu sec) ->
  ct_pk (ap_cap_c pub) = N0 -> ct_pk (ap_cap_d pub) = N0 -> ct_pk (ap_cap_y pub) = N1 ->
  unit_ok N0 (ct_val (ap_cap_c pub)) ->
  affine_cipher N0 (ct_val (ap_cap_c pub)) x (- y) (ss_rho sec) (ct_val (ap_cap_d pub)) ->
  paillier_cipher N1 y (ss_mu sec) (ct_val (ap_cap_y pub)) ->
  ap_cap_x pub = pmul C x (gen C) ->
  length rnds = Z.to_nat (sp_kappa S) -> Forall (aff_gs_rand_ok S N0 N1) rnds ->
  exists pf r, aff_gs_new S X sec pub aux rnds = Ret pf /\ aff_gs_verify S X pf pub aux = Ret r.
Proof.
  intros HG HC X sec pub aux rnds x y H1 H2 H3 N0 N1 H4 H5 H6 H7 H8 H9 H10 H11 H12 H13 H14 H15 H16.
  destruct (aff_gs_honest S C A HG HC X sec pub aux rnds x y) as (pf & r & E1 & E2 & _); auto.
  exists pf, r. auto.
Qed.

Lemma dec_total : good_params S -> curve_ok (sp_q S) C ->
  forall (X : xof A (pt C)) sec (pub : dec_public C) setup aux rnds x y,
  xof_ok (sp_q S) X -> secret_of S (sp_l S) (ds_x sec) x ->
  let N := dp_pk0 pub in
  let n := dp_num_parties pub in
  2 <= n < 2 ^ 64 -> wf (uint_w (sp_pail S)) (ds_y sec) -> sval (uint_w (sp_pail S)) (ds_y sec) = y -> pm_interval (dec_y_exp S n) y ->
  modulus_ok S N -> unit_ok N (ds_rho sec) ->
  ct_pk (dp_cap_k pub) = N -> ct_pk (dp_cap_d pub) = N -> unit_ok N (ct_val (dp_cap_k pub)) ->
  affine_cipher N (ct_val (dp_cap_k pub)) (- x) y (ds_rho sec) (ct_val (dp_cap_d pub)) ->
  dp_cap_x pub = pmul C x (gen C) -> dp_cap_s pub = pmul C y (dp_cap_g pub) ->
  length rnds = Z.to_nat (sp_kappa S) -> Forall (dec_rand_ok S N n) rnds ->
  exists pf r, dec_new S X sec pub setup aux rnds = Ret pf /\ dec_verify S X pf pub setup aux = Ret r.
Proof.
  intros HG HC X sec pub setup aux rnds x y H1 H2 N n H3 H4 H5 H6 H7 H8 H9 H10 H11 H12 H13 H14 H15 H16.
  destruct (dec_honest S C A HG HC X sec pub setup aux rnds x y) as (pf & r & E1 & E2 & _); auto.
  exists pf, r. auto.
Qed.

Lemma fac_total : good_params S ->
  forall (X : xof A (pt C)) sk0 setup aux rnd p q,
  xof_ok (sp_q S) X ->
  0 < p < 2 ^ prime_bits (sp_pail S) -> 0 < q < 2 ^ prime_bits (sp_pail S) -> modulus_ok S (p * q) ->
  pr_p (sk_primes sk0) = p -> pr_q (sk_primes sk0) = q -> sk_pk sk0 = p * q ->
  setup_ok S setup -> fac_rand_ok S (p * q) (rp_n setup) rnd ->
  2 * modulus_bits (sp_pail S) + sp_l S + sp_eps S + 1 < sp_xw S ->
  exists pf r, fac_new S X sk0 setup aux rnd = Ret pf /\ fac_verify S X pf (p * q) setup aux = Ret r.
Proof.
  intros HG X sk0 setup aux rnd p q H1 H2 H3 H4 H5 H6 H7 H8 H9 H10.
  pose proof (good_ok S HG) as HS.
  destruct (fac_run S C A HS X sk0 setup aux rnd p q) as (pf & r & e & E1 & E2 & _); auto.
  - assert (B : bits (p * q * rp_n setup) <= 2 * modulus_bits (sp_pail S)); [|lia].
    destruct H4 as [B1 B2]. destruct H8 as [[B3 B4] _].
    apply bits_modulus; [destruct HS; lia|].
    replace (2 * modulus_bits (sp_pail S)) with (modulus_bits (sp_pail S) + modulus_bits (sp_pail S)) by lia.
    rewrite Z.pow_add_r by (destruct HS; lia). clear - B1 B2 B3 B4. nia.
  - exists pf, r. auto.
Qed.
End Provers.

(** ** The shipped sets *)
Lemma dev_params_ok q : Z.odd q = true -> 2 ^ 31 <= q < 2 ^ 32 -> good_params (dev_params q).
Proof.
  intros Ho Hq. split.
  - unfold sp_compiles, dev_params, with_defaults. cbn [sp_pail sp_xw sp_q sp_num_bits sp_slen sp_L sp_LW].
    rewrite Ho.
    assert (Eb : bits q = 32). { unfold bits. destruct (Z.leb_spec q 0); [lia|].
      assert (Z.log2 q = 31); [|lia]. apply Z.log2_unique; lia. }
    rewrite Eb. replace (1 <? q) with true by (symmetry; apply Z.ltb_lt; lia).
    vm_compute. reflexivity.
  - vm_compute. reflexivity.
Qed.
Lemma params_112_ok : good_params params_112.
Proof. split; vm_compute; reflexivity. Qed.
Lemma params_128_ok : good_params params_128.
Proof. split; vm_compute; reflexivity. Qed.

Lemma shipped_sets : (forall q, Z.odd q = true -> 2 ^ 31 <= q < 2 ^ 32 ->
    good_params (dev_params q) /\ sp_defaults (dev_params q) = true /\
    2 * modulus_bits (sp_pail (dev_params q)) + sp_l (dev_params q) + sp_eps (dev_params q) + 1 < sp_xw (dev_params q)) /\
  (forall S, S = params_112 \/ S = params_128 ->
    good_params S /\ sp_defaults S = true /\ 2 * modulus_bits (sp_pail S) + sp_l S + sp_eps S + 1 < sp_xw S).
Proof.
  split.
  - intros q H1 H2. split; [now apply dev_params_ok|]. split; reflexivity.
  - intros S [->| ->]; (split; [first [exact params_112_ok | exact params_128_ok]|split; reflexivity]).
Qed.

(** ** The boundary case: one bit short *)

(** Default constants for a 25-bit curve order and 120-bit primes; the widest
    integer has 576 bits, the smallest whole number of limbs the predicate
    allows. *)
Definition edge_params : sparams :=
  SParams (PParams 120 240 128 256 512) 576 33554393 25 4 4 8 24 25 25 145 70.
Lemma edge_params_ok : good_params edge_params /\ sp_defaults edge_params = true.
Proof. split; [split|]; vm_compute; reflexivity. Qed.

Definition edge_p : Z := 1329227966075310021377757558474885983.
Definition edge_q : Z := 1329216502058039370193906299638433923.
Lemma edge_p_prime : prime edge_p.
Proof.
  unfold edge_p.
  pock 8162005765989000791 162855553424648402. pock 19280802403 423322930. pock 1782289 10818. pock 12377 144.
  apply (trial_prime 400); [lia|lia|vm_compute; reflexivity].
Qed.
Lemma edge_q_prime : prime edge_q.
Proof.
  unfold edge_q.
  pock 8821036030238531537 150687118554043106. pock 22781067563 387209072. pock 1249099 18238. pock 10957 114.
  apply (trial_prime 400); [lia|lia|vm_compute; reflexivity].
Qed.
Lemma edge_keygen : keygen_primes 120 edge_p edge_q.
Proof.
  split; [exact edge_p_prime|]. split; [exact edge_q_prime|]. unfold edge_p, edge_q.
  repeat split; vm_compute; congruence.
Qed.

Definition edge_rp : rpparams := RP (edge_p * edge_q) 4 4.

Lemma edge_panics : exists S C sk0 setup p q,
  good_params S /\ sp_defaults S = true /\ curve_ok (sp_q S) C /\
  keygen_primes (prime_bits (sp_pail S)) p q /\ skey_new (sp_pail S) p q = Ret sk0 /\ modulus_ok S (p * q) /\
  setup_ok S setup /\ (exists rnd, fac_rand_ok S (p * q) (rp_n setup) rnd) /\
  forall (X : xof unit (pt C)) aux rnd, xof_ok (sp_q S) X -> fac_rand_ok S (p * q) (rp_n setup) rnd ->
    fac_new S X sk0 setup aux rnd = Panic.
Proof.
  destruct (keygen_succeeds (sp_pail edge_params) edge_p edge_q) as (sk0 & Hsk);
    [vm_compute; reflexivity|exact edge_keygen|].
  pose proof (skey_new_inv (sp_pail edge_params) edge_p edge_q sk0 (params_okP (sp_pail edge_params) eq_refl)
    edge_p_prime edge_q_prime eq_refl eq_refl Hsk) as K.
  pose proof (ko_primes _ _ _ _ K) as E1. pose proof (ko_pk _ _ _ _ K) as E2. clear K.
  assert (HN : modulus_ok edge_params (edge_p * edge_q)) by (split; reflexivity).
  assert (Hset : setup_ok edge_params edge_rp).
  { unfold setup_ok. repeat (apply conj); vm_compute; congruence. }
  exists edge_params, (zq_curve 33554393), sk0, edge_rp, edge_p, edge_q.
  split; [apply edge_params_ok|]. split; [apply edge_params_ok|]. split; [apply zq_curve_ok|].
  split; [exact edge_keygen|]. split; [exact Hsk|]. split; [exact HN|]. split; [exact Hset|]. split.
  - exists (FacRand 0 0 0 0 0 0 0). clear. split; split; reflexivity || (vm_compute; congruence).
  - intros X aux rnd HX Hr.
    apply (fac_edge edge_params (zq_curve 33554393) unit (good_ok _ (proj1 edge_params_ok)) X sk0 edge_rp aux rnd edge_p edge_q); auto.
    all: lazymatch goal with
         | |- pr_p _ = _ => rewrite E1; reflexivity
         | |- pr_q _ = _ => rewrite E1; reflexivity
         | |- _ <= _ => clear; vm_compute; congruence
         | |- _ => clear; split; reflexivity
         end.
Qed.
