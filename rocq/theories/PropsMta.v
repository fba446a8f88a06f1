(** * Property C53: the multiplication-to-addition step of signing. *)
From mathcomp Require Import eqtype ssrnat.
From Coq Require Import ZArith Znumtheory List Bool Lia.
From Verif Require Import Base SignedModel SignedSpec PaillierModel PaillierSpec ZkBase ZkModel ZkSpec ZkFacts ZkToy ZkTranscripts.
From Verif Require Import ProtoBase AuxGenModel SigningModel MtaSpec MtaProofs.
Open Scope Z_scope.

(** Parameters the crate accepts leave room: factors in the range their proofs
    establish and a mask in the range its proof establishes never reach half the
    modulus. *)
Theorem C53_no_wrap : forall S, good_params S -> forall p r k x y, keygen_primes (prime_bits (sp_pail S)) p r ->
  pm_interval (sp_l S + sp_eps S) k -> pm_interval (sp_l S + sp_eps S) x -> pm_interval (sp_lp S + sp_eps S) y ->
  - (p * r) < 2 * (k * x - y) < p * r.
Proof. exact no_wrap. Qed.
Print Assumptions C53_no_wrap.

(** The extreme values at the toy parameters. *)
Example C53_no_wrap_case : let k := 2 ^ 44 in let y := - 2 ^ 110 + 1 in
  keygen_primes (prime_bits (sp_pail toy_S)) toy_p0 toy_q0 /\
  pm_interval (sp_l toy_S + sp_eps toy_S) k /\ pm_interval (sp_lp toy_S + sp_eps toy_S) y /\
  2 * (k * k - y) < toy_p0 * toy_q0.
Proof. split; [exact toy_keygen0|]. toy_case. Qed.

(** A masked product within half the modulus decrypts to itself: the share and
    the mask add up to the product as scalars. *)
Theorem C53_half_modulus : forall S, good_params S -> forall sk N k x y d, key_of S sk N ->
  - N < 2 * (k * x - y) < N -> encrypts N d (k * x - y) ->
  exists a, decrypt (sp_pail S) sk (Ct N d) = Ret a /\ sval (uint_w (sp_pail S)) a = k * x - y /\
    exists s, scalar_of_secret S a = Ret s /\ (s + y) mod sp_q S = (k * x) mod sp_q S.
Proof. exact half_shared. Qed.
Print Assumptions C53_half_modulus.

Example C53_half_modulus_case : exists sk, key_of toy_S sk toy_N0 /\
  let k := 987654 in let x := -777777 in let y := 2 ^ 100 + 3 in
  - toy_N0 < 2 * (k * x - y) < toy_N0 /\
  encrypts toy_N0 431560859731776368200169023739670900818591069323520408203465116002395824227237 (k * x - y).
Proof.
  eexists. split; [exists toy_p0, toy_q0; split; [exact toy_keygen0|split; vm_compute; reflexivity]|].
  split; [toy_case|]. exists 5. toy_case.
Qed.

(** Outside half the modulus it does not: what comes out is the nearest residue,
    so the shares miss the product by a non-zero multiple of the modulus. *)
Theorem C53_wrapped : forall S, good_params S -> forall sk N v d, key_of S sk N -> encrypts N d v ->
  exists a, decrypt (sp_pail S) sk (Ct N d) = Ret a /\ - N < 2 * sval (uint_w (sp_pail S)) a < N /\
    sval (uint_w (sp_pail S)) a mod N = v mod N.
Proof. exact centred_share. Qed.
Print Assumptions C53_wrapped.

(** Just past half the modulus the scalar is wrong. *)
Example C53_wrapped_case : exists sk, key_of toy_S sk toy_N0 /\
  let v := toy_N0 / 2 + 1 in
  let d := 2565910387765711794043319255563695407796833146792589687603641611074916332246192 in
  encrypts toy_N0 d v /\
  exists a, decrypt (sp_pail toy_S) sk (Ct toy_N0 d) = Ret a /\ sval (uint_w (sp_pail toy_S)) a = v - toy_N0 /\
    (v - toy_N0) mod sp_q toy_S <> v mod sp_q toy_S.
Proof.
  assert (H : exists sk, key_of toy_S sk toy_N0)
    by (eexists; exists toy_p0, toy_q0; split; [exact toy_keygen0|split; vm_compute; reflexivity]).
  destruct H as [sk K]. exists sk. split; [exact K|].
  set (v := toy_N0 / 2 + 1). cbv zeta.
  assert (E : encrypts toy_N0 2565910387765711794043319255563695407796833146792589687603641611074916332246192 v) by (exists 5; toy_case).
  split; [exact E|]. destruct (centred_share toy_S toy_S_ok sk toy_N0 v _ K E) as (a & D & B & M).
  exists a. split; [exact D|]. split; [|toy_case].
  assert (V : toy_N0 < 2 * v <= 2 * toy_N0 - 2) by toy_case.
  revert B M V. generalize (sval (uint_w (sp_pail toy_S)) a) v. clear. generalize toy_N0. intros N x v B M V.
  rewrite (Z.mod_small v N) in M by lia. pose proof (Z.div_mod x N ltac:(lia)) as Q. rewrite M in Q.
  assert (x / N = -1) by nia. nia.
Qed.

(** Hence every masked product whose three components are in the proved ranges. *)
Theorem C53_product_shared : forall S, good_params S -> forall sk N k x y d, key_of S sk N ->
  pm_interval (sp_l S + sp_eps S) k -> pm_interval (sp_l S + sp_eps S) x -> pm_interval (sp_lp S + sp_eps S) y ->
  encrypts N d (k * x - y) ->
  exists a, decrypt (sp_pail S) sk (Ct N d) = Ret a /\ sval (uint_w (sp_pail S)) a = k * x - y /\
    exists s, scalar_of_secret S a = Ret s /\ (s + y) mod sp_q S = (k * x) mod sp_q S.
Proof. exact product_shared. Qed.
Print Assumptions C53_product_shared.

Example C53_product_shared_case : let k := - 2 ^ 44 + 1 in let y := 2 ^ 110 in
  pm_interval (sp_l toy_S + sp_eps toy_S) k /\ pm_interval (sp_lp toy_S + sp_eps toy_S) y /\
  encrypts toy_N0 8192990042241204148264489710743590670869459567280544775967078637816470128768653 (k * k - y).
Proof. split; [toy_case|]. split; [toy_case|]. exists 5. toy_case. Qed.

(** What a signer computes for a peer, and what the peer makes of it: the proof
    verifies on the ciphertexts as the peer decodes them, the peer's decryption
    as a scalar and the signer's mask as a scalar add up to the product of the
    peer's encrypted value and the signer's secret (gamma or the key share). *)
Theorem C53_shares_add_up : forall S C (I HO : eqType), good_params S -> curve_ok (sp_q S) C ->
  forall (X : xof (list (hitem HO I (pt C))) (pt C)) sk N0 N1 rp aux x xv cap_x k rho_k ck rnd,
  xof_ok (sp_q S) X -> key_of S sk N0 -> modulus_ok S N1 -> setup_ok S rp ->
  secret_of S (sp_l S) x xv -> cap_x = pmul C xv (gen C) -> pm_interval (sp_l S) k ->
  unit_ok N0 rho_k -> paillier_cipher N0 k rho_k ck ->
  mta_rand_ok S N0 N1 (rp_n rp) rnd ->
  exists m a alpha beta, sg_mta S X N1 N0 rp aux x cap_x (Ct N0 ck) rnd = Ret m /\
    aff_g_verify S X (mt_psi m) (AffGPublic N0 N1 (Ct N0 ck) (ct_to_precomputed N0 (ct_val (mt_d m)))
      (ct_to_precomputed N1 (ct_val (mt_f m))) cap_x) rp aux = Ret true /\
    decrypt (sp_pail S) sk (ct_to_precomputed N0 (ct_val (mt_d m))) = Ret a /\
    scalar_of_secret S a = Ret alpha /\ scalar_of_secret S (mt_beta m) = Ret beta /\
    (alpha + beta) mod sp_q S = (k * xv) mod sp_q S /\
    beta = mask (sp_lp S) (mr_beta rnd) mod sp_q S.
Proof. exact mta_shares. Qed.
Print Assumptions C53_shares_add_up.

Definition mta_case_rnd : mta_rand :=
  MtaRand (2 ^ 86 + 2 ^ 80 + 99) 7 11 (AffGRand (2 ^ 44 + 2 ^ 40 + 1) (2 ^ 110 - 2 ^ 105 + 5) 3 2 123456789 1001 987654321 77).
Definition mta_case_c : Z := 5976013492052803793966854076830855526461642658747023743478119751949014415715064.
Example C53_shares_add_up_case :
  secret_of toy_S (sp_l toy_S) (mkS 20 777777) 777777 /\ pm_interval (sp_l toy_S) 987654 /\ setup_ok toy_S toy_rp /\
  modulus_ok toy_S toy_N1 /\ unit_ok toy_N0 5 /\ paillier_cipher toy_N0 987654 5 mta_case_c /\
  mta_rand_ok toy_S toy_N0 toy_N1 (rp_n toy_rp) mta_case_rnd /\
  mask (sp_lp toy_S) (mr_beta mta_case_rnd) = 2 ^ 80 + 100.
Proof.
  assert (H : aff_g_rand_ok toy_S toy_N0 toy_N1 (rp_n toy_rp) (mr_aff mta_case_rnd)) by (split; toy_case).
  do 6 (split; [toy_case|]). split; [|toy_case].
  split; [toy_case|toy_case|toy_case|exact H|unfold safe_draw; toy_case|unfold safe_draw; toy_case].
Qed.
