(** * Properties C37-C41: encryption in range, affine operation (with and
    without setup), decryption in the exponent, and the honest failure margin. *)
From Coq Require Import ZArith Znumtheory List Bool Lia.
From Verif Require Import Base SignedModel SignedSpec PaillierModel PaillierSpec RsaFacts
  ZkBase ZkModel ZkSpec EncElgProofs AffGProofs AffGStarProofs DecProofs ZkToy ZkTranscripts ZkLemmas ZkRefute PropsZk1.
Import ListNotations.
Open Scope Z_scope.

(** ** C37: encryption in range with an El-Gamal commitment *)

Theorem C37_honest : forall S C A, good_params S -> curve_ok (sp_q S) C ->
  forall (X : xof A (pt C)) sec (pub : enc_elg_public C) setup aux rnd x,
  xof_ok (sp_q S) X -> secret_of S (sp_l S) (es_x sec) x ->
  modulus_ok S (ep_pk0 pub) -> unit_ok (ep_pk0 pub) (es_rho sec) ->
  ct_pk (ep_cap_c pub) = ep_pk0 pub -> paillier_cipher (ep_pk0 pub) x (es_rho sec) (ct_val (ep_cap_c pub)) ->
  ep_cap_b pub = pmul C (es_b sec) (gen C) ->
  ep_cap_x pub = padd C (pmul C (es_b sec) (ep_cap_a pub)) (pmul C x (gen C)) ->
  setup_ok S setup -> enc_elg_rand_ok S (ep_pk0 pub) (rp_n setup) rnd ->
  exists pf r, enc_elg_new S X sec pub setup aux rnd = Ret pf /\
    enc_elg_verify S X pf pub setup aux = Ret r /\ 0 <= ee_e pf < sp_q S /\
    (r = true <-> pm_interval (sp_l S + sp_eps S) (mask (sp_l S + sp_eps S) (er_alpha rnd) + x * ee_e pf)).
Proof. exact enc_elg_honest. Qed.
Print Assumptions C37_honest.


(** [x = 1234] with its own mask; challenge 3. *)
Definition ee_sec : enc_elg_secret := EncElgSecret (mkS 21 1234) 1 3.
Definition ee_rnd : enc_elg_rand := EncElgRand 17592186000000 5 1 2 7.
Lemma ee_rnd_ok : enc_elg_rand_ok toy_S toy_N0 toy_N1 ee_rnd.
Proof. split; toy_case. Qed.
Example C37_honest_case : exists pf r,
  enc_elg_new toy_S (toyX 3 true 0) ee_sec ee_pub toy_rp tt ee_rnd = Ret pf /\
  enc_elg_verify toy_S (toyX 3 true 0) pf ee_pub toy_rp tt = Ret r /\ 0 <= ee_e pf < 7 /\
  (r = true <-> pm_interval 45 (17592186000000 - (2 ^ 44 - 1) + 1234 * ee_e pf)).
Proof.
  apply (C37_honest toy_S toyC unit toy_S_ok (zq_curve_ok 7) (toyX 3 true 0) ee_sec ee_pub toy_rp tt ee_rnd 1234).
  all: first [exact ee_rnd_ok | toy_case].
Qed.

Theorem C37_acceptance : forall S C A, good_params S -> curve_ok (sp_q S) C ->
  forall (X : xof A (pt C)) pf (pub : enc_elg_public C) setup aux,
  xof_ok (sp_q S) X ->
  wf (uint_w (sp_pail S)) (ee_z1 pf) -> wf (wide_w (sp_pail S)) (ee_z3 pf) -> 0 <= ee_z2 pf ->
  modulus_ok S (ep_pk0 pub) -> 0 <= ct_val (ep_cap_c pub) -> setup_ok S setup ->
  let N := ep_pk0 pub in
  let e := ee_e pf in
  let z1 := sval (uint_w (sp_pail S)) (ee_z1 pf) in
  enc_elg_verify S X pf pub setup aux = Ret true <->
    ct_pk (ep_cap_c pub) = N /\
    e = x_scalar X Tenc_elg
          [IZ (ee_s pf); IZ (ee_d pf); IP (ee_y pf); IP (ee_z pf); IZ (ee_t pf); IZ N; IZ (ct_val (ep_cap_c pub));
           IP (ep_cap_a pub); IP (ep_cap_b pub); IP (ep_cap_x pub);
           IL [IZ (rp_n setup); IZ (rp_t setup); IZ (rp_s setup)]; IA aux] /\
    pm_interval (sp_l S + sp_eps S) z1 /\
    paillier_cipher N z1 (ee_z2 pf) ((ee_d pf * ct_val (ep_cap_c pub) ^ e) mod (N * N)) /\
    padd C (pmul C (ee_w pf) (ep_cap_a pub)) (pmul C z1 (gen C)) = padd C (ee_y pf) (pmul C e (ep_cap_x pub)) /\
    pmul C (ee_w pf) (gen C) = padd C (ee_z pf) (pmul C e (ep_cap_b pub)) /\
    rp_opens (rp_n setup) (rp_s setup) (rp_t setup) z1 (sval (wide_w (sp_pail S)) (ee_z3 pf))
      ((ee_t pf * ee_s pf ^ e) mod rp_n setup).
Proof. exact (fun S C A HG => enc_elg_accept S C A (good_ok S HG)). Qed.
Print Assumptions C37_acceptance.


Example C37_acceptance_case :
  enc_elg_verify toy_S (toyX 1 true 0) ee_pf1 ee_pub toy_rp tt = Ret true /\
  enc_elg_verify toy_S (toyX 3 true 0) ee_pf2 ee_pub toy_rp tt = Ret true /\
  ee_e ee_pf1 = 1 /\ ee_e ee_pf2 = 3.
Proof.
  split; [|split; [|split; reflexivity]];
  apply (C37_acceptance toy_S toyC unit toy_S_ok (zq_curve_ok 7)); toy_case.
Qed.

Theorem C37_extraction : forall S C A, good_params S -> curve_ok (sp_q S) C ->
  forall (X1 X2 : xof A (pt C)) pf1 pf2 (pub : enc_elg_public C) setup aux1 aux2 p1 q1,
  xof_ok (sp_q S) X1 -> xof_ok (sp_q S) X2 -> prime (sp_q S) ->
  keygen_primes (prime_bits (sp_pail S)) p1 q1 -> ep_pk0 pub = p1 * q1 -> setup_ok S setup ->
  0 <= ct_val (ep_cap_c pub) < (p1 * q1) * (p1 * q1) -> Z.gcd (ct_val (ep_cap_c pub)) (p1 * q1) = 1 ->
  wf (uint_w (sp_pail S)) (ee_z1 pf1) -> wf (wide_w (sp_pail S)) (ee_z3 pf1) -> 0 <= ee_z2 pf1 ->
  wf (uint_w (sp_pail S)) (ee_z1 pf2) -> wf (wide_w (sp_pail S)) (ee_z3 pf2) -> 0 <= ee_z2 pf2 ->
  Z.gcd (ee_d pf1) (p1 * q1) = 1 -> Z.gcd (ee_t pf1) (rp_n setup) = 1 -> Z.gcd (ee_s pf1) (rp_n setup) = 1 ->
  ee_s pf2 = ee_s pf1 -> ee_d pf2 = ee_d pf1 -> ee_y pf2 = ee_y pf1 -> ee_z pf2 = ee_z pf1 -> ee_t pf2 = ee_t pf1 ->
  enc_elg_verify S X1 pf1 pub setup aux1 = Ret true ->
  enc_elg_verify S X2 pf2 pub setup aux2 = Ret true ->
  ee_e pf1 <> ee_e pf2 ->
  let de := ee_e pf1 - ee_e pf2 in
  let dz := sval (uint_w (sp_pail S)) (ee_z1 pf1) - sval (uint_w (sp_pail S)) (ee_z1 pf2) in
  exists m b x,
    encrypts (p1 * q1) (ct_val (ep_cap_c pub)) m /\ (m * de) mod (p1 * q1) = dz mod (p1 * q1) /\
    (b * de) mod sp_q S = (ee_w pf1 - ee_w pf2) mod sp_q S /\ (x * de) mod sp_q S = dz mod sp_q S /\
    ep_cap_b pub = pmul C b (gen C) /\
    ep_cap_x pub = padd C (pmul C b (ep_cap_a pub)) (pmul C x (gen C)) /\
    (exists c, unit_power (rp_n setup) (ee_s pf1) de c /\
       rp_opens (rp_n setup) (rp_s setup) (rp_t setup) dz (sval (wide_w (sp_pail S)) (ee_z3 pf1) - sval (wide_w (sp_pail S)) (ee_z3 pf2)) c) /\
    Z.abs dz < 2 ^ (sp_l S + sp_eps S) /\
    (forall d, dz = d * de ->
       encrypts (p1 * q1) (ct_val (ep_cap_c pub)) d /\ Z.abs d < 2 ^ (sp_l S + sp_eps S) /\
       ep_cap_x pub = padd C (pmul C b (ep_cap_a pub)) (pmul C d (gen C))).
Proof. exact (fun S C A HG => enc_elg_extract S C A (good_ok S HG)). Qed.
Print Assumptions C37_extraction.


(** The two transcripts above share their first message; the differences are
    [de = -2] and [dz = 1234 * de]: the extracted plaintext is 1234. *)
Example C37_extraction_case :
  prime (sp_q toy_S) /\ keygen_primes (prime_bits (sp_pail toy_S)) toy_p0 toy_q0 /\ ep_pk0 ee_pub = toy_p0 * toy_q0 /\
  cipher_ok toy_N0 (ct_val (ep_cap_c ee_pub)) /\ setup_ok toy_S toy_rp /\
  Z.gcd (ee_d ee_pf1) toy_N0 = 1 /\ Z.gcd (ee_t ee_pf1) toy_N1 = 1 /\ Z.gcd (ee_s ee_pf1) toy_N1 = 1 /\
  ee_s ee_pf2 = ee_s ee_pf1 /\ ee_d ee_pf2 = ee_d ee_pf1 /\ ee_y ee_pf2 = ee_y ee_pf1 /\ ee_z ee_pf2 = ee_z ee_pf1 /\
  ee_t ee_pf2 = ee_t ee_pf1 /\ ee_e ee_pf1 <> ee_e ee_pf2 /\
  sval 256 (ee_z1 ee_pf1) - sval 256 (ee_z1 ee_pf2) = 1234 * (ee_e ee_pf1 - ee_e ee_pf2) /\
  encrypts toy_N0 (ct_val (ep_cap_c ee_pub)) 1234.
Proof.
  split; [toy_case|]. split; [exact toy_keygen0|].
  repeat (apply conj); try toy_case. exists 1. split; toy_case.
Qed.

(** ** C38: affine operation *)

Theorem C38_honest : forall S C A, good_params S -> curve_ok (sp_q S) C ->
  forall (X : xof A (pt C)) sec (pub : aff_g_public C) setup aux rnd x y,
  xof_ok (sp_q S) X -> secret_of S (sp_l S) (as_x sec) x -> secret_of S (sp_lp S) (as_y sec) y ->
  let N0 := ap_pk0 pub in
  let N1 := ap_pk1 pub in
  modulus_ok S N0 -> modulus_ok S N1 -> unit_ok N0 (as_rho sec) -> unit_ok N1 (as_rho_y sec) ->
  ct_pk (ap_cap_c pub) = N0 -> ct_pk (ap_cap_d pub) = N0 -> ct_pk (ap_cap_y pub) = N1 ->
  unit_ok N0 (ct_val (ap_cap_c pub)) ->
  affine_cipher N0 (ct_val (ap_cap_c pub)) x (- y) (as_rho sec) (ct_val (ap_cap_d pub)) ->
  paillier_cipher N1 y (as_rho_y sec) (ct_val (ap_cap_y pub)) ->
  ap_cap_x pub = pmul C x (gen C) ->
  setup_ok S setup -> aff_g_rand_ok S N0 N1 (rp_n setup) rnd ->
  exists pf r, aff_g_new S X sec pub setup aux rnd = Ret pf /\
    aff_g_verify S X pf pub setup aux = Ret r /\ 0 <= ag_e pf < sp_q S /\
    (r = true <->
      pm_interval (sp_l S + sp_eps S) (mask (sp_l S + sp_eps S) (ar_alpha rnd) + x * ag_e pf) /\
      pm_interval (sp_lp S + sp_eps S) (mask (sp_lp S + sp_eps S) (ar_beta rnd) - y * ag_e pf)).
Proof. exact aff_g_honest. Qed.
Print Assumptions C38_honest.


(** [x = -1500], [y = 2^60 + 12345], challenge 1. *)
Definition ag_sec : aff_g_secret := AffGSecret (mkS 21 (2 ^ 256 - 1500)) (mkS 87 (2 ^ 60 + 12345)) 1 1.
Definition ag_rnd : aff_g_rand := AffGRand (2 ^ 44) (2 ^ 110) 1 1 1 2 3 4.
Lemma ag_rnd_ok : aff_g_rand_ok toy_S toy_N0 toy_N1 toy_N1 ag_rnd.
Proof. split; toy_case. Qed.
Example C38_honest_case : exists pf,
  aff_g_new toy_S (toyX 1 true 0) ag_sec ag_pub toy_rp tt ag_rnd = Ret pf /\
  aff_g_verify toy_S (toyX 1 true 0) pf ag_pub toy_rp tt = Ret true.
Proof.
  destruct (C38_honest toy_S toyC unit toy_S_ok (zq_curve_ok 7) (toyX 1 true 0) ag_sec ag_pub toy_rp tt ag_rnd
    (-1500) (2 ^ 60 + 12345)) as (pf & r & E1 & E2 & He & Hr).
  16: exact ag_rnd_ok.
  16: { exists pf. split; [exact E1|]. rewrite E2. f_equal. apply Hr.
        change (sp_q toy_S) with 7 in He. revert He. clear. generalize (ag_e pf). intros e He.
        change (mask (sp_l toy_S + sp_eps toy_S) (ar_alpha ag_rnd)) with 1.
        change (mask (sp_lp toy_S + sp_eps toy_S) (ar_beta ag_rnd)) with 1.
        unfold pm_interval. change (sp_l toy_S + sp_eps toy_S - 1) with 44.
        change (sp_lp toy_S + sp_eps toy_S - 1) with 110. lia. }
  all: toy_case.
Qed.

Theorem C38_acceptance : forall S C A, good_params S -> curve_ok (sp_q S) C ->
  forall (X : xof A (pt C)) pf (pub : aff_g_public C) setup aux,
  xof_ok (sp_q S) X ->
  wf (uint_w (sp_pail S)) (ag_z1 pf) -> wf (uint_w (sp_pail S)) (ag_z2 pf) -> wf (wide_w (sp_pail S)) (ag_z3 pf) -> wf (wide_w (sp_pail S)) (ag_z4 pf) -> 0 <= ag_w pf -> 0 <= ag_wy pf ->
  modulus_ok S (ap_pk0 pub) -> modulus_ok S (ap_pk1 pub) -> setup_ok S setup ->
  0 <= ct_val (ap_cap_c pub) -> 0 <= ct_val (ap_cap_d pub) -> 0 <= ct_val (ap_cap_y pub) ->
  let N0 := ap_pk0 pub in
  let N1 := ap_pk1 pub in
  let e := ag_e pf in
  let z1 := sval (uint_w (sp_pail S)) (ag_z1 pf) in
  let z2 := sval (uint_w (sp_pail S)) (ag_z2 pf) in
  aff_g_verify S X pf pub setup aux = Ret true <->
    ct_pk (ap_cap_c pub) = N0 /\ ct_pk (ap_cap_d pub) = N0 /\ ct_pk (ap_cap_y pub) = N1 /\
    e = x_scalar X Taff_g
          [IZ (ag_a pf); IP (ag_bx pf); IZ (ag_by pf); IZ (ag_ce pf); IZ (ag_f pf); IZ (ag_s pf); IZ (ag_t pf);
           IZ N0; IZ N1; IZ (ct_val (ap_cap_c pub)); IZ (ct_val (ap_cap_d pub)); IZ (ct_val (ap_cap_y pub));
           IP (ap_cap_x pub); IL [IZ (rp_n setup); IZ (rp_t setup); IZ (rp_s setup)]; IA aux] /\
    pm_interval (sp_l S + sp_eps S) z1 /\ pm_interval (sp_lp S + sp_eps S) z2 /\
    (exists cz, unit_power (N0 * N0) (ct_val (ap_cap_c pub)) z1 cz /\
      exists ez, paillier_cipher N0 z2 (ag_w pf) ez /\
        (cz * ez) mod (N0 * N0) = (ag_a pf * ct_val (ap_cap_d pub) ^ e) mod (N0 * N0)) /\
    pmul C z1 (gen C) = padd C (ag_bx pf) (pmul C e (ap_cap_x pub)) /\
    (exists ye, unit_power (N1 * N1) (ct_val (ap_cap_y pub)) (- e) ye /\
      paillier_cipher N1 z2 (ag_wy pf) ((ag_by pf * ye) mod (N1 * N1))) /\
    rp_opens (rp_n setup) (rp_s setup) (rp_t setup) z1 (sval (wide_w (sp_pail S)) (ag_z3 pf)) ((ag_ce pf * ag_s pf ^ e) mod rp_n setup) /\
    rp_opens (rp_n setup) (rp_s setup) (rp_t setup) z2 (sval (wide_w (sp_pail S)) (ag_z4 pf)) ((ag_f pf * ag_t pf ^ e) mod rp_n setup).
Proof. exact (fun S C A HG => aff_g_accept S C A (good_ok S HG)). Qed.
Print Assumptions C38_acceptance.


Example C38_acceptance_case :
  aff_g_verify toy_S (toyX 1 true 0) ag_pf1 ag_pub toy_rp tt = Ret true /\
  aff_g_verify toy_S (toyX 3 true 0) ag_pf2 ag_pub toy_rp tt = Ret true.
Proof.
  split; apply (C38_acceptance toy_S toyC unit toy_S_ok (zq_curve_ok 7)); try toy_case;
  (do 6 (split; [toy_case|]); split; [eexists; split; [toy_case|eexists; split; [toy_case|toy_case]]|];
   split; [toy_case|]; split; [eexists; split; [toy_case|toy_case]|toy_case]).
Qed.

Theorem C38_wrong_key : forall S C A (X : xof A (pt C)) pf (pub : aff_g_public C) setup aux,
  ct_pk (ap_cap_c pub) <> ap_pk0 pub \/ ct_pk (ap_cap_d pub) <> ap_pk0 pub \/ ct_pk (ap_cap_y pub) <> ap_pk1 pub ->
  aff_g_verify S X pf pub setup aux = Panic.
Proof. exact aff_g_wrong_key. Qed.
Print Assumptions C38_wrong_key.

(** The ciphertexts of the statement under swapped keys. *)
Example C38_wrong_key_case :
  let pub := @AffGPublic toyC toy_N1 toy_N0 (ap_cap_c ag_pub) (ap_cap_d ag_pub) (ap_cap_y ag_pub) (ap_cap_x ag_pub) in
  ct_pk (ap_cap_c pub) <> ap_pk0 pub /\ aff_g_verify toy_S (toyX 1 true 0) ag_pf1 pub toy_rp tt = Panic.
Proof. split; [vm_compute; congruence|]. apply C38_wrong_key. left. vm_compute. congruence. Qed.

Theorem C38_extraction : forall S C A, good_params S -> curve_ok (sp_q S) C ->
  forall (X1 X2 : xof A (pt C)) pf1 pf2 (pub : aff_g_public C) setup aux1 aux2 p0 q0 p1 q1,
  xof_ok (sp_q S) X1 -> xof_ok (sp_q S) X2 -> prime (sp_q S) ->
  keygen_primes (prime_bits (sp_pail S)) p0 q0 -> ap_pk0 pub = p0 * q0 ->
  keygen_primes (prime_bits (sp_pail S)) p1 q1 -> ap_pk1 pub = p1 * q1 -> setup_ok S setup ->
  cipher_ok (p0 * q0) (ct_val (ap_cap_c pub)) ->
  cipher_ok (p0 * q0) (ct_val (ap_cap_d pub)) ->
  cipher_ok (p1 * q1) (ct_val (ap_cap_y pub)) ->
  (forall pf, pf = pf1 \/ pf = pf2 ->
    wf (uint_w (sp_pail S)) (ag_z1 pf) /\ wf (uint_w (sp_pail S)) (ag_z2 pf) /\ wf (wide_w (sp_pail S)) (ag_z3 pf) /\ wf (wide_w (sp_pail S)) (ag_z4 pf) /\ 0 <= ag_w pf /\ 0 <= ag_wy pf) ->
  Z.gcd (ag_a pf1) (p0 * q0) = 1 -> Z.gcd (ag_by pf1) (p1 * q1) = 1 ->
  Z.gcd (ag_ce pf1) (rp_n setup) = 1 -> Z.gcd (ag_s pf1) (rp_n setup) = 1 ->
  Z.gcd (ag_f pf1) (rp_n setup) = 1 -> Z.gcd (ag_t pf1) (rp_n setup) = 1 ->
  ag_a pf2 = ag_a pf1 -> ag_bx pf2 = ag_bx pf1 -> ag_by pf2 = ag_by pf1 -> ag_ce pf2 = ag_ce pf1 ->
  ag_s pf2 = ag_s pf1 -> ag_f pf2 = ag_f pf1 -> ag_t pf2 = ag_t pf1 ->
  aff_g_verify S X1 pf1 pub setup aux1 = Ret true ->
  aff_g_verify S X2 pf2 pub setup aux2 = Ret true ->
  ag_e pf1 <> ag_e pf2 ->
  let N0 := p0 * q0 in
  let N1 := p1 * q1 in
  let de := ag_e pf1 - ag_e pf2 in
  let dz1 := sval (uint_w (sp_pail S)) (ag_z1 pf1) - sval (uint_w (sp_pail S)) (ag_z1 pf2) in
  let dz2 := sval (uint_w (sp_pail S)) (ag_z2 pf1) - sval (uint_w (sp_pail S)) (ag_z2 pf2) in
  exists c d y x,
    encrypts N0 (ct_val (ap_cap_c pub)) c /\ encrypts N0 (ct_val (ap_cap_d pub)) d /\
    encrypts N1 (ct_val (ap_cap_y pub)) y /\ ap_cap_x pub = pmul C x (gen C) /\
    (d * de) mod N0 = (c * dz1 + dz2) mod N0 /\ (y * - de) mod N1 = dz2 mod N1 /\ (x * de) mod sp_q S = dz1 mod sp_q S /\
    (exists u, unit_power (rp_n setup) (ag_s pf1) de u /\
       rp_opens (rp_n setup) (rp_s setup) (rp_t setup) dz1 (sval (wide_w (sp_pail S)) (ag_z3 pf1) - sval (wide_w (sp_pail S)) (ag_z3 pf2)) u) /\
    (exists u, unit_power (rp_n setup) (ag_t pf1) de u /\
       rp_opens (rp_n setup) (rp_s setup) (rp_t setup) dz2 (sval (wide_w (sp_pail S)) (ag_z4 pf1) - sval (wide_w (sp_pail S)) (ag_z4 pf2)) u) /\
    Z.abs dz1 < 2 ^ (sp_l S + sp_eps S) /\ Z.abs dz2 < 2 ^ (sp_lp S + sp_eps S) /\
    (forall x' y', dz1 = x' * de -> dz2 = - y' * de ->
       encrypts N0 (ct_val (ap_cap_d pub)) (c * x' - y') /\ encrypts N1 (ct_val (ap_cap_y pub)) y' /\
       ap_cap_x pub = pmul C x' (gen C) /\
       Z.abs x' < 2 ^ (sp_l S + sp_eps S) /\ Z.abs y' < 2 ^ (sp_lp S + sp_eps S)).
Proof. exact (fun S C A HG => aff_g_extract S C A (good_ok S HG)). Qed.
Print Assumptions C38_extraction.


Example C38_extraction_case :
  keygen_primes (prime_bits (sp_pail toy_S)) toy_p0 toy_q0 /\ keygen_primes (prime_bits (sp_pail toy_S)) toy_p1 toy_q1 /\
  ap_pk0 ag_pub = toy_p0 * toy_q0 /\ ap_pk1 ag_pub = toy_p1 * toy_q1 /\
  cipher_ok toy_N0 (ct_val (ap_cap_c ag_pub)) /\ cipher_ok toy_N0 (ct_val (ap_cap_d ag_pub)) /\
  cipher_ok toy_N1 (ct_val (ap_cap_y ag_pub)) /\
  Z.gcd (ag_a ag_pf1) toy_N0 = 1 /\ Z.gcd (ag_by ag_pf1) toy_N1 = 1 /\ Z.gcd (ag_ce ag_pf1) toy_N1 = 1 /\
  Z.gcd (ag_s ag_pf1) toy_N1 = 1 /\ Z.gcd (ag_f ag_pf1) toy_N1 = 1 /\ Z.gcd (ag_t ag_pf1) toy_N1 = 1 /\
  ag_a ag_pf2 = ag_a ag_pf1 /\ ag_bx ag_pf2 = ag_bx ag_pf1 /\ ag_by ag_pf2 = ag_by ag_pf1 /\
  ag_ce ag_pf2 = ag_ce ag_pf1 /\ ag_s ag_pf2 = ag_s ag_pf1 /\ ag_f ag_pf2 = ag_f ag_pf1 /\ ag_t ag_pf2 = ag_t ag_pf1 /\
  ag_e ag_pf1 <> ag_e ag_pf2 /\
  sval 256 (ag_z1 ag_pf1) - sval 256 (ag_z1 ag_pf2) = -1500 * (ag_e ag_pf1 - ag_e ag_pf2) /\
  sval 256 (ag_z2 ag_pf1) - sval 256 (ag_z2 ag_pf2) = - (2 ^ 60 + 12345) * (ag_e ag_pf1 - ag_e ag_pf2).
Proof.
  split; [exact toy_keygen0|]. split; [exact toy_keygen1|]. repeat (apply conj); toy_case.
Qed.

(** ** C39: setup-less affine operation *)

Theorem C39_honest : forall S C A, good_params S -> curve_ok (sp_q S) C ->
  forall (X : xof A (pt C)) sec (pub : aff_g_public C) aux rnds x y,
  xof_ok (sp_q S) X -> secret_of S (sp_l S) (ss_x sec) x -> secret_of S (sp_lp S) (ss_y sec) y ->
  let N0 := ap_pk0 pub in
  let N1 := ap_pk1 pub in
  modulus_ok S N0 -> modulus_ok S N1 -> unit_ok N0 (ss_rho sec) -> unit_ok N1 (ss_mu sec) ->
  ct_pk (ap_cap_c pub) = N0 -> ct_pk (ap_cap_d pub) = N0 -> ct_pk (ap_cap_y pub) = N1 ->
  unit_ok N0 (ct_val (ap_cap_c pub)) ->
  affine_cipher N0 (ct_val (ap_cap_c pub)) x (- y) (ss_rho sec) (ct_val (ap_cap_d pub)) ->
  paillier_cipher N1 y (ss_mu sec) (ct_val (ap_cap_y pub)) ->
  ap_cap_x pub = pmul C x (gen C) ->
  length rnds = Z.to_nat (sp_kappa S) -> Forall (aff_gs_rand_ok S N0 N1) rnds ->
  exists pf r, aff_gs_new S X sec pub aux rnds = Ret pf /\ aff_gs_verify S X pf pub aux = Ret r /\
    length (sg_e pf) = Z.to_nat (sp_kappa S) /\
    (r = true <-> Forall (aff_gs_in_range S x y) (combine rnds (sg_e pf))).
Proof. exact aff_gs_honest. Qed.
Print Assumptions C39_honest.


(** Three repetitions ([kappa = 3]), all challenge bits set. *)
Definition sg_sec : aff_gs_secret := AffGStarSecret (mkS 21 (2 ^ 256 - 1500)) (mkS 87 (2 ^ 60 + 12345)) 1 1.
Definition sg_rnds : list aff_gs_rand :=
  [AffGStarRand (2 ^ 44) (2 ^ 110) 1 1; AffGStarRand (2 ^ 43) (2 ^ 109 + 1) 1 1; AffGStarRand (2 ^ 44 + 17) (2 ^ 110) 1 1].
Lemma sg_rnds_ok : Forall (aff_gs_rand_ok toy_S toy_N0 toy_N1) sg_rnds.
Proof. unfold sg_rnds. repeat (apply Forall_cons; [split; toy_case|]). constructor. Qed.
Example C39_honest_case : exists pf r,
  aff_gs_new toy_S (toyX 1 true 0) sg_sec ag_pub tt sg_rnds = Ret pf /\
  aff_gs_verify toy_S (toyX 1 true 0) pf ag_pub tt = Ret r /\ length (sg_e pf) = 3%nat /\
  (r = true <-> Forall (aff_gs_in_range toy_S (-1500) (2 ^ 60 + 12345)) (combine sg_rnds (sg_e pf))).
Proof.
  apply (C39_honest toy_S toyC unit toy_S_ok (zq_curve_ok 7) (toyX 1 true 0) sg_sec ag_pub tt sg_rnds
    (-1500) (2 ^ 60 + 12345)).
  all: first [exact sg_rnds_ok | toy_case].
Qed.

Theorem C39_acceptance : forall S C A, good_params S -> curve_ok (sp_q S) C ->
  forall (X : xof A (pt C)) pf (pub : aff_g_public C) aux,
  xof_ok (sp_q S) X ->
  Forall (aff_gs_elem_wf S) (sg_elems pf) -> modulus_ok S (ap_pk0 pub) -> modulus_ok S (ap_pk1 pub) ->
  0 <= ct_val (ap_cap_c pub) -> 0 <= ct_val (ap_cap_y pub) ->
  aff_gs_verify S X pf pub aux = Ret true <->
    ct_pk (ap_cap_c pub) = ap_pk0 pub /\ ct_pk (ap_cap_d pub) = ap_pk0 pub /\ ct_pk (ap_cap_y pub) = ap_pk1 pub /\
    sg_e pf = x_bits X Taff_g_star
        [IL (map (fun c => IL [IZ (sc_a c); IP (sc_r c); IZ (sc_b c)]) (sg_coms pf)); IZ (ap_pk0 pub); IZ (ap_pk1 pub);
         IZ (ct_val (ap_cap_c pub)); IZ (ct_val (ap_cap_d pub)); IZ (ct_val (ap_cap_y pub));
         IP (ap_cap_x pub); IA aux] (Z.to_nat (sp_kappa S)) /\
    length (sg_e pf) = Z.to_nat (sp_kappa S) /\
    length (sg_coms pf) = Z.to_nat (sp_kappa S) /\ length (sg_elems pf) = Z.to_nat (sp_kappa S) /\
    (forall i b com el, nth_error (sg_e pf) i = Some b -> nth_error (sg_coms pf) i = Some com ->
       nth_error (sg_elems pf) i = Some el -> aff_gs_elem_ok S pub (b, com, el)).
Proof. exact (fun S C A HG => aff_gs_accept S C A (good_ok S HG)). Qed.
Print Assumptions C39_acceptance.


Ltac three_cases :=
  let i := fresh "i" in
  intros i b com el E1 E2 E3;
  lazymatch type of E1 with nth_error (sg_e ?pf) _ = _ =>
    let E := fresh "E" in
    assert (E : nth_error (sg_e pf) 0 = Some b /\ nth_error (sg_coms pf) 0 = Some com /\ nth_error (sg_elems pf) 0 = Some el)
      by (clear -E1 E2 E3; destruct i as [|[|[|i]]]; [auto|auto|auto|destruct i; discriminate]);
    clear E1 E2 E3; destruct E as (E1 & E2 & E3)
  end;
  (injection E1 as <-; injection E2 as <-; injection E3 as <-;
  split; [toy_case|]; split; [toy_case|];
  split; [eexists; split; [toy_case|eexists; split; [toy_case|toy_case]]|];
  split; [toy_case|]; eexists; split; [toy_case|toy_case]).
(** One transcript answering all bits set, one answering all bits clear. *)
Example C39_acceptance_case :
  aff_gs_verify toy_S (toyX 1 true 0) sg_pf1 ag_pub tt = Ret true /\
  aff_gs_verify toy_S (toyX 1 false 0) sg_pf2 ag_pub tt = Ret true.
Proof.
  split; apply (C39_acceptance toy_S toyC unit toy_S_ok (zq_curve_ok 7)).
  all: lazymatch goal with |- Forall _ _ => repeat (apply Forall_cons; [split; toy_case|]); constructor | |- _ => idtac end.
  all: lazymatch goal with |- _ /\ _ => do 7 (split; [toy_case|]); three_cases | |- _ => toy_case end.
Qed.

Theorem C39_extraction : forall S C A, good_params S -> curve_ok (sp_q S) C ->
  forall (X1 X2 : xof A (pt C)) pf1 pf2 (pub : aff_g_public C) aux1 aux2 p0 q0 p1 q1 c i com,
  xof_ok (sp_q S) X1 -> xof_ok (sp_q S) X2 ->
  keygen_primes (prime_bits (sp_pail S)) p0 q0 -> ap_pk0 pub = p0 * q0 ->
  keygen_primes (prime_bits (sp_pail S)) p1 q1 -> ap_pk1 pub = p1 * q1 ->
  0 <= ct_val (ap_cap_c pub) -> encrypts (p0 * q0) (ct_val (ap_cap_c pub)) c ->
  cipher_ok (p0 * q0) (ct_val (ap_cap_d pub)) ->
  cipher_ok (p1 * q1) (ct_val (ap_cap_y pub)) ->
  Forall (aff_gs_elem_wf S) (sg_elems pf1) -> Forall (aff_gs_elem_wf S) (sg_elems pf2) ->
  sg_coms pf1 = sg_coms pf2 -> nth_error (sg_coms pf1) i = Some com ->
  Z.gcd (sc_a com) (p0 * q0) = 1 -> Z.gcd (sc_b com) (p1 * q1) = 1 ->
  aff_gs_verify S X1 pf1 pub aux1 = Ret true ->
  aff_gs_verify S X2 pf2 pub aux2 = Ret true ->
  nth_error (sg_e pf1) i <> nth_error (sg_e pf2) i ->
  exists x y,
    encrypts (p0 * q0) (ct_val (ap_cap_d pub)) (c * x - y) /\
    encrypts (p1 * q1) (ct_val (ap_cap_y pub)) y /\
    ap_cap_x pub = pmul C x (gen C) /\
    Z.abs x < 2 ^ (sp_l S + sp_eps S) /\ Z.abs y < 2 ^ (sp_lp S + sp_eps S).
Proof. exact (fun S C A HG => aff_gs_extract S C A (good_ok S HG)). Qed.
Print Assumptions C39_extraction.


Example C39_extraction_case :
  encrypts toy_N0 (ct_val (ap_cap_c ag_pub)) 42 /\ cipher_ok toy_N0 (ct_val (ap_cap_d ag_pub)) /\
  sg_coms sg_pf1 = sg_coms sg_pf2 /\
  (exists com, nth_error (sg_coms sg_pf1) 1 = Some com /\ Z.gcd (sc_a com) toy_N0 = 1 /\ Z.gcd (sc_b com) toy_N1 = 1) /\
  nth_error (sg_e sg_pf1) 1 <> nth_error (sg_e sg_pf2) 1.
Proof.
  split; [exists 1; split; toy_case|]. split; [toy_case|]. split; [reflexivity|].
  split; [|vm_compute; congruence]. eexists. split; [reflexivity|]. split; toy_case.
Qed.

(** ** C40: decryption in the exponent *)

Theorem C40_honest : forall S C A, good_params S -> curve_ok (sp_q S) C ->
  forall (X : xof A (pt C)) sec (pub : dec_public C) setup aux rnds x y,
  xof_ok (sp_q S) X -> secret_of S (sp_l S) (ds_x sec) x ->
  let N := dp_pk0 pub in
  let n := dp_num_parties pub in
  2 <= n < 2 ^ 64 -> wf (uint_w (sp_pail S)) (ds_y sec) -> sval (uint_w (sp_pail S)) (ds_y sec) = y -> pm_interval (dec_y_exp S n) y ->
  modulus_ok S N -> unit_ok N (ds_rho sec) ->
  ct_pk (dp_cap_k pub) = N -> ct_pk (dp_cap_d pub) = N -> unit_ok N (ct_val (dp_cap_k pub)) ->
  affine_cipher N (ct_val (dp_cap_k pub)) (- x) y (ds_rho sec) (ct_val (dp_cap_d pub)) ->
  dp_cap_x pub = pmul C x (gen C) -> dp_cap_s pub = pmul C y (dp_cap_g pub) ->
  length rnds = Z.to_nat (sp_kappa S) -> Forall (dec_rand_ok S N n) rnds ->
  exists pf r, dec_new S X sec pub setup aux rnds = Ret pf /\ dec_verify S X pf pub setup aux = Ret r /\
    length (dg_e pf) = Z.to_nat (sp_kappa S) /\
    (r = true <-> Forall (dec_in_range S n x y) (combine rnds (dg_e pf))).
Proof. exact dec_honest. Qed.
Print Assumptions C40_honest.


(** Three parties, [x = 900], [y = -2^80], all challenge bits set. *)
Definition dg_sec : dec_secret := DecSecret (mkS 21 900) (mkS 114 (2 ^ 256 - 2 ^ 80)) 1.
Definition dg_rnds : list dec_rand := [DecRand (2 ^ 44) (2 ^ 137) 1; DecRand 0 (2 ^ 137) 1; DecRand (2 ^ 44) (2 ^ 136) 1].
Lemma dg_rnds_ok : Forall (dec_rand_ok toy_S toy_N0 3) dg_rnds.
Proof. unfold dg_rnds. repeat (apply Forall_cons; [split; toy_case|]). constructor. Qed.
Example C40_honest_case : exists pf r,
  dec_new toy_S (toyX 1 true 0) dg_sec dg_pub toy_rp tt dg_rnds = Ret pf /\
  dec_verify toy_S (toyX 1 true 0) pf dg_pub toy_rp tt = Ret r /\ length (dg_e pf) = 3%nat /\
  (r = true <-> Forall (dec_in_range toy_S 3 900 (- 2 ^ 80)) (combine dg_rnds (dg_e pf))).
Proof.
  apply (C40_honest toy_S toyC unit toy_S_ok (zq_curve_ok 7) (toyX 1 true 0) dg_sec dg_pub toy_rp tt dg_rnds
    900 (- 2 ^ 80)).
  all: first [exact dg_rnds_ok | toy_case].
Qed.

Theorem C40_acceptance : forall S C A, good_params S -> curve_ok (sp_q S) C ->
  forall (X : xof A (pt C)) pf (pub : dec_public C) setup aux,
  xof_ok (sp_q S) X ->
  Forall (dec_elem_wf S) (dg_elems pf) -> modulus_ok S (dp_pk0 pub) -> 2 <= dp_num_parties pub < 2 ^ 64 ->
  ct_pk (dp_cap_k pub) = dp_pk0 pub -> ct_pk (dp_cap_d pub) = dp_pk0 pub -> 0 <= ct_val (dp_cap_k pub) ->
  dec_verify S X pf pub setup aux = Ret true <->
    dg_e pf = x_bits X Tdec
        [IL (map (fun c => IL [IZ (dc_a c); IP (dc_b c); IP (dc_c c)]) (dg_coms pf)); IZ (dp_pk0 pub);
         IZ (ct_val (dp_cap_k pub)); IP (dp_cap_x pub); IZ (ct_val (dp_cap_d pub)); IP (dp_cap_s pub); IP (dp_cap_g pub);
         IL [IZ (rp_n setup); IZ (rp_t setup); IZ (rp_s setup)]; IA aux] (Z.to_nat (sp_kappa S)) /\
    length (dg_e pf) = Z.to_nat (sp_kappa S) /\
    length (dg_coms pf) = Z.to_nat (sp_kappa S) /\ length (dg_elems pf) = Z.to_nat (sp_kappa S) /\
    (forall i b com el, nth_error (dg_e pf) i = Some b -> nth_error (dg_coms pf) i = Some com ->
       nth_error (dg_elems pf) i = Some el -> dec_elem_ok S pub (b, com, el)).
Proof. exact (fun S C A HG => dec_accept S C A (good_ok S HG)). Qed.
Print Assumptions C40_acceptance.


Ltac three_dec_cases :=
  let i := fresh "i" in
  intros i b com el E1 E2 E3;
  lazymatch type of E1 with nth_error (dg_e ?pf) _ = _ =>
    let E := fresh "E" in
    assert (E : nth_error (dg_e pf) 0 = Some b /\ nth_error (dg_coms pf) 0 = Some com /\ nth_error (dg_elems pf) 0 = Some el)
      by (clear -E1 E2 E3; destruct i as [|[|[|i]]]; [auto|auto|auto|destruct i; discriminate]);
    clear E1 E2 E3; destruct E as (E1 & E2 & E3)
  end;
  (injection E1 as <-; injection E2 as <-; injection E3 as <-;
  split; [eexists; split; [toy_case|eexists; split; [toy_case|toy_case]]|];
  split; [toy_case|]; split; [toy_case|]; split; toy_case).
Example C40_acceptance_case :
  dec_verify toy_S (toyX 1 true 0) dg_pf1 dg_pub toy_rp tt = Ret true /\
  dec_verify toy_S (toyX 1 false 0) dg_pf2 dg_pub toy_rp tt = Ret true.
Proof.
  split; apply (C40_acceptance toy_S toyC unit toy_S_ok (zq_curve_ok 7)).
  all: lazymatch goal with |- Forall _ _ => repeat (apply Forall_cons; [split; toy_case|]); constructor | |- _ => idtac end.
  all: lazymatch goal with |- _ = _ /\ _ => do 4 (split; [toy_case|]); three_dec_cases | |- _ => toy_case end.
Qed.

Theorem C40_extraction : forall S C A, good_params S -> curve_ok (sp_q S) C ->
  forall (X1 X2 : xof A (pt C)) pf1 pf2 (pub : dec_public C) setup aux1 aux2 p0 q0 k i com,
  xof_ok (sp_q S) X1 -> xof_ok (sp_q S) X2 ->
  keygen_primes (prime_bits (sp_pail S)) p0 q0 -> dp_pk0 pub = p0 * q0 -> 2 <= dp_num_parties pub < 2 ^ 64 ->
  ct_pk (dp_cap_k pub) = dp_pk0 pub -> ct_pk (dp_cap_d pub) = dp_pk0 pub ->
  encrypts (p0 * q0) (ct_val (dp_cap_k pub)) k ->
  cipher_ok (p0 * q0) (ct_val (dp_cap_d pub)) ->
  Forall (dec_elem_wf S) (dg_elems pf1) -> Forall (dec_elem_wf S) (dg_elems pf2) ->
  dg_coms pf1 = dg_coms pf2 -> nth_error (dg_coms pf1) i = Some com ->
  Z.gcd (dc_a com) (p0 * q0) = 1 ->
  dec_verify S X1 pf1 pub setup aux1 = Ret true ->
  dec_verify S X2 pf2 pub setup aux2 = Ret true ->
  nth_error (dg_e pf1) i <> nth_error (dg_e pf2) i ->
  exists x y,
    encrypts (p0 * q0) (ct_val (dp_cap_d pub)) (y - k * x) /\
    dp_cap_x pub = pmul C x (gen C) /\ dp_cap_s pub = pmul C y (dp_cap_g pub) /\
    Z.abs x < 2 ^ (sp_l S + sp_eps S) /\ Z.abs y < 2 ^ (dec_y_exp S (dp_num_parties pub) + sp_eps S).
Proof. exact (fun S C A HG => dec_extract S C A (good_ok S HG)). Qed.
Print Assumptions C40_extraction.


Example C40_extraction_case :
  encrypts toy_N0 (ct_val (dp_cap_k dg_pub)) 33 /\ cipher_ok toy_N0 (ct_val (dp_cap_d dg_pub)) /\
  dg_coms dg_pf1 = dg_coms dg_pf2 /\
  (exists com, nth_error (dg_coms dg_pf1) 2 = Some com /\ Z.gcd (dc_a com) toy_N0 = 1) /\
  nth_error (dg_e dg_pf1) 2 <> nth_error (dg_e dg_pf2) 2.
Proof.
  split; [exists 1; split; toy_case|]. split; [toy_case|]. split; [reflexivity|].
  split; [|vm_compute; congruence]. eexists. split; [reflexivity|]. toy_case.
Qed.

(** The party-count slack used for [y] is [ceil(log2 n)] (part of [dec_y_exp]
    above); for a single party the prover aborts. *)
Theorem C40_slack : forall n, 2 <= n -> exists k,
  ceil_log2_parties n = Ret k /\ 2 ^ (k - 1) < n <= 2 ^ k.
Proof. exact dec_slack. Qed.
Print Assumptions C40_slack.

Example C40_slack_case : ceil_log2_parties 2 = Ret 1 /\ ceil_log2_parties 3 = Ret 2 /\ ceil_log2_parties 4 = Ret 2 /\
  ceil_log2_parties 5 = Ret 3.
Proof. vm_compute. auto. Qed.

Theorem C40_single_party_aborts : forall S C A (X : xof A (pt C)) sec (pub : dec_public C) setup aux rnds,
  dp_num_parties pub <= 1 -> dec_new S X sec pub setup aux rnds = Panic.
Proof. exact dec_single_party. Qed.
Print Assumptions C40_single_party_aborts.

Example C40_single_party_case :
  let pub := @DecPublic toyC toy_N0 (dp_cap_k dg_pub) (dp_cap_x dg_pub) (dp_cap_d dg_pub) (dp_cap_s dg_pub) (dp_cap_g dg_pub) 1 in
  dp_num_parties pub <= 1 /\ dec_new toy_S (toyX 1 true 0) dg_sec pub toy_rp tt dg_rnds = Panic.
Proof. split; [vm_compute; congruence|]. apply C40_single_party_aborts. vm_compute. congruence. Qed.

(** ** C41: the margin of honest failures *)

Theorem C41_margin : forall a k eps x e draw,
  1 <= a -> 0 <= k -> k <= eps -> pm_interval a x -> 0 <= e <= 2 ^ k ->
  2 ^ (a + k - 1) <= draw < 2 ^ (a + eps) - 2 ^ (a + k - 1) ->
  pm_interval (a + eps) (mask (a + eps) draw + x * e) /\ pm_interval (a + eps) (mask (a + eps) draw - x * e).
Proof. exact range_margin. Qed.
Print Assumptions C41_margin.

(** 5-bit secrets, 3-bit challenges, slack 6: all but [2 * 2^7] of the [2^11] masks are safe. *)
Example C41_margin_case : pm_interval 5 (-15) /\ 2 ^ 7 <= 128 < 2 ^ 11 - 2 ^ 7 /\
  mask 11 128 = -895 /\ mask 11 128 + -15 * 8 = -1015 /\ pm_interval 11 (-1015).
Proof. unfold pm_interval, mask. lia. Qed.

Theorem C41_enc_elg_complete : forall S C A, good_params S -> curve_ok (sp_q S) C ->
  forall (X : xof A (pt C)) sec (pub : enc_elg_public C) setup aux rnd x,
  xof_ok (sp_q S) X -> secret_of S (sp_l S) (es_x sec) x ->
  modulus_ok S (ep_pk0 pub) -> unit_ok (ep_pk0 pub) (es_rho sec) ->
  ct_pk (ep_cap_c pub) = ep_pk0 pub -> paillier_cipher (ep_pk0 pub) x (es_rho sec) (ct_val (ep_cap_c pub)) ->
  ep_cap_b pub = pmul C (es_b sec) (gen C) ->
  ep_cap_x pub = padd C (pmul C (es_b sec) (ep_cap_a pub)) (pmul C x (gen C)) ->
  setup_ok S setup -> enc_elg_rand_ok S (ep_pk0 pub) (rp_n setup) rnd ->
  2 ^ (sp_l S + sp_kappa S - 1) <= er_alpha rnd < 2 ^ (sp_l S + sp_eps S) - 2 ^ (sp_l S + sp_kappa S - 1) ->
  exists pf, enc_elg_new S X sec pub setup aux rnd = Ret pf /\
    enc_elg_verify S X pf pub setup aux = Ret true.
Proof. exact enc_elg_margin. Qed.
Print Assumptions C41_enc_elg_complete.


Example C41_enc_elg_case : exists pf,
  enc_elg_new toy_S (toyX 3 true 0) ee_sec ee_pub toy_rp tt ee_rnd = Ret pf /\
  enc_elg_verify toy_S (toyX 3 true 0) pf ee_pub toy_rp tt = Ret true.
Proof.
  apply (C41_enc_elg_complete toy_S toyC unit toy_S_ok (zq_curve_ok 7) (toyX 3 true 0) ee_sec ee_pub toy_rp tt ee_rnd 1234).
  all: first [exact ee_rnd_ok | toy_case].
Qed.

Theorem C41_aff_g_complete : forall S C A, good_params S -> curve_ok (sp_q S) C ->
  forall (X : xof A (pt C)) sec (pub : aff_g_public C) setup aux rnd x y,
  xof_ok (sp_q S) X -> secret_of S (sp_l S) (as_x sec) x -> secret_of S (sp_lp S) (as_y sec) y ->
  let N0 := ap_pk0 pub in
  let N1 := ap_pk1 pub in
  modulus_ok S N0 -> modulus_ok S N1 -> unit_ok N0 (as_rho sec) -> unit_ok N1 (as_rho_y sec) ->
  ct_pk (ap_cap_c pub) = N0 -> ct_pk (ap_cap_d pub) = N0 -> ct_pk (ap_cap_y pub) = N1 ->
  unit_ok N0 (ct_val (ap_cap_c pub)) ->
  affine_cipher N0 (ct_val (ap_cap_c pub)) x (- y) (as_rho sec) (ct_val (ap_cap_d pub)) ->
  paillier_cipher N1 y (as_rho_y sec) (ct_val (ap_cap_y pub)) ->
  ap_cap_x pub = pmul C x (gen C) ->
  setup_ok S setup -> aff_g_rand_ok S N0 N1 (rp_n setup) rnd ->
  2 ^ (sp_l S + sp_kappa S - 1) <= ar_alpha rnd < 2 ^ (sp_l S + sp_eps S) - 2 ^ (sp_l S + sp_kappa S - 1) ->
  2 ^ (sp_lp S + sp_kappa S - 1) <= ar_beta rnd < 2 ^ (sp_lp S + sp_eps S) - 2 ^ (sp_lp S + sp_kappa S - 1) ->
  exists pf, aff_g_new S X sec pub setup aux rnd = Ret pf /\ aff_g_verify S X pf pub setup aux = Ret true.
Proof. exact aff_g_margin. Qed.
Print Assumptions C41_aff_g_complete.


Example C41_aff_g_case : exists pf,
  aff_g_new toy_S (toyX 3 true 0) ag_sec ag_pub toy_rp tt ag_rnd = Ret pf /\
  aff_g_verify toy_S (toyX 3 true 0) pf ag_pub toy_rp tt = Ret true.
Proof.
  apply (C41_aff_g_complete toy_S toyC unit toy_S_ok (zq_curve_ok 7) (toyX 3 true 0) ag_sec ag_pub toy_rp tt ag_rnd
    (-1500) (2 ^ 60 + 12345)).
  all: first [exact ag_rnd_ok | toy_case].
Qed.

Theorem C41_fac_complete : forall S C A, good_params S ->
  forall (X : xof A (pt C)) sk0 setup aux rnd p q',
  xof_ok (sp_q S) X -> 0 < p < 2 ^ prime_bits (sp_pail S) -> 0 < q' < 2 ^ prime_bits (sp_pail S) ->
  modulus_ok S (p * q') ->
  pr_p (sk_primes sk0) = p -> pr_q (sk_primes sk0) = q' -> sk_pk sk0 = p * q' ->
  setup_ok S setup -> fac_rand_ok S (p * q') (rp_n setup) rnd ->
  2 * modulus_bits (sp_pail S) + sp_l S + sp_eps S + 1 < sp_xw S ->
  p * 2 ^ (sp_l S - 1) <= fr_alpha rnd < 2 ^ (prime_bits (sp_pail S) - 2) * 2 ^ (sp_l S + sp_eps S) - p * 2 ^ (sp_l S - 1) ->
  q' * 2 ^ (sp_l S - 1) <= fr_beta rnd < 2 ^ (prime_bits (sp_pail S) - 2) * 2 ^ (sp_l S + sp_eps S) - q' * 2 ^ (sp_l S - 1) ->
  exists pf, fac_new S X sk0 setup aux rnd = Ret pf /\ fac_verify S X pf (p * q') setup aux = Ret true.
Proof. exact fac_margin. Qed.
Print Assumptions C41_fac_complete.


Example C41_fac_case : exists sk0 pf,
  skey_new (sp_pail toy_S) toy_p0 toy_q0 = Ret sk0 /\
  fac_new toy_S (toyX 1 true 1048580) sk0 toy_rp tt (FacRand (2 ^ 108) (2 ^ 107) 12345 54321 (2 ^ 200) 777 888) = Ret pf /\
  fac_verify toy_S (toyX 1 true 1048580) pf toy_N0 toy_rp tt = Ret true.
Proof. exact C36_honest_case. Qed.

(** Completeness is not perfect: with the extreme mask an honest prover is rejected. *)
Theorem C41_perfect_completeness_refuted : exists S C (X : xof unit (pt C)) sec (pub : enc_elg_public C) setup rnd pf x,
  good_params S /\ curve_ok (sp_q S) C /\ xof_ok (sp_q S) X /\ secret_of S (sp_l S) (es_x sec) x /\
  modulus_ok S (ep_pk0 pub) /\ unit_ok (ep_pk0 pub) (es_rho sec) /\ ct_pk (ep_cap_c pub) = ep_pk0 pub /\
  paillier_cipher (ep_pk0 pub) x (es_rho sec) (ct_val (ep_cap_c pub)) /\
  ep_cap_b pub = pmul C (es_b sec) (gen C) /\
  ep_cap_x pub = padd C (pmul C (es_b sec) (ep_cap_a pub)) (pmul C x (gen C)) /\
  setup_ok S setup /\ enc_elg_rand_ok S (ep_pk0 pub) (rp_n setup) rnd /\
  enc_elg_new S X sec pub setup tt rnd = Ret pf /\ enc_elg_verify S X pf pub setup tt = Ret false.
Proof. exact honest_rejected. Qed.
Print Assumptions C41_perfect_completeness_refuted.
