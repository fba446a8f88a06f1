(** * Property C69: proofs reveal nothing (elog and ring-Pedersen parameters;
    the Schnorr proof is in PropsHideSch.v).

    The proofs the verifier accepts are exactly those the honest prover
    outputs, each for exactly one choice of its nonces.  The nonces are drawn
    uniformly (src/zk/elog.rs:54-55, src/zk/prm.rs:28-35), so the proof the
    prover sends is uniform among the accepted ones: whatever it shows could
    have been read off the statement alone. *)
From Coq Require Import ZArith Znumtheory List Bool Lia.
From Verif Require Import Base SignedModel SignedSpec PaillierModel PaillierSpec RsaFacts PaillierProofs PaillierLemmas PropsPaillier
  ZkBase ZkModel ZkSpec ZkFacts PrmProofs ElogModel ElogProofs ZkToy ZkTranscripts ZkLemmas PropsZk1 HideProofs.
Import ListNotations.
Open Scope Z_scope.

Theorem C69_elog : forall q C A, 1 < q -> curve_ok q C ->
  forall (X : xof A (pt C)) y lambda xp h aux (pf : elog_proof C),
  let pub := ElogPublic (pmul C lambda (gen C))
    (padd C (pmul C y (gen C)) (pmul C lambda xp)) xp (pmul C y h) h in
  0 <= el_z pf < q -> 0 <= el_u pf < q ->
  (elog_verify C A X pf pub aux = true <->
   exists! nonces, (0 <= fst nonces < q /\ 0 <= snd nonces < q) /\
     elog_new q C A X (ElogSecret y lambda) pub aux (fst nonces) (snd nonces) = pf).
Proof. exact elog_hides. Qed.
Print Assumptions C69_elog.

(** The statement of C33's case, whose secrets are [y = 3] and [lambda = 5].  A
    proof made without them: choose the answers [4] and [1] and the challenge
    [6] the hash will give, and solve for the commitments.  The honest prover
    outputs it when its nonces are [2] and [4]. *)
Example C69_elog_case :
  let pub := @ElogPublic toyC (zq_mk 7 5) (zq_mk 7 23) (zq_mk 7 4) (zq_mk 7 6) (zq_mk 7 2) in
  let made := @ElogProof toyC 6 (zq_mk 7 (4 - 6 * 5)) (zq_mk 7 (1 + 4 * 4 - 6 * 23)) (zq_mk 7 (1 * 2 - 6 * 6)) 4 1 in
  1 < 7 /\ curve_ok 7 toyC /\
  elp_l pub = pmul toyC 5 (gen toyC) /\ elp_m pub = padd toyC (pmul toyC 3 (gen toyC)) (pmul toyC 5 (elp_x pub)) /\
  elp_y pub = pmul toyC 3 (elp_h pub) /\
  elog_verify toyC unit (toyX 6 true 0) made pub tt = true /\
  elog_new 7 toyC unit (toyX 6 true 0) (ElogSecret 3 5) pub tt 2 4 = made.
Proof.
  cbv zeta. repeat (apply conj); [toy_case..|].
  unfold elog_new. cbn [els_y els_lambda elp_l elp_m elp_x elp_y elp_h].
  f_equal; toy_case.
Qed.

Theorem C69_prm : forall S C A, p_self_consistent (sp_pail S) = true ->
  forall (X : xof A (pt C)) p q lam_draw sec t qr_draws setup aux pf,
  prime p -> prime q -> p <> q -> Z.odd p = true -> Z.odd q = true ->
  p < 2 ^ prime_bits (sp_pail S) -> q < 2 ^ prime_bits (sp_pail S) ->
  0 <= lam_draw < (p - 1) * (q - 1) / 4 ->
  rp_secret_new (sp_pail S) p q lam_draw = Ret sec ->
  random_quadratic_residue (p * q) qr_draws = Some t ->
  rp_with_secret sec t = Ret setup ->
  length (prm_commitment pf) = sp_secbits S -> length (prm_challenge pf) = sp_secbits S ->
  length (prm_elems pf) = sp_secbits S ->
  Forall (fun a => 0 <= a < p * q) (prm_commitment pf) ->
  Forall (fun z => 0 <= z < (p - 1) * (q - 1)) (prm_elems pf) ->
  (prm_verify S X pf setup aux = Ret true <->
   exists! draws, (length draws = sp_secbits S /\ Forall (fun d => 0 <= d < (p - 1) * (q - 1)) draws) /\
     prm_new S X sec setup aux draws = Ret pf).
Proof. exact (fun S C A H => prm_hides S C A (params_okP _ H)). Qed.
Print Assumptions C69_prm.

(** The setup of C34's case, whose secret is [lambda = 8].  A proof made without
    it: the answers are [1], [20], [33] and [59], and each commitment is
    [25 ^ answer / 16] modulo 77 ([1/16 = 53]).  The honest prover outputs it
    when its nonces are [53], [12], [25] and [51]. *)
Example C69_prm_case :
  let made := PrmProof (map (fun z => (25 ^ z * 53) mod 77) [1; 20; 33; 59]) [true; true; true; true] [1; 20; 33; 59] in
  p_self_consistent (sp_pail S4) = true /\ prime 7 /\ prime 11 /\ (16 * 53) mod 77 = 1 /\
  exists sec setup, rp_secret_new P4 7 11 8 = Ret sec /\
    random_quadratic_residue 77 [11; 5] = Some 25 /\ rp_with_secret sec 25 = Ret setup /\ rp_s setup = 16 /\
    Forall (fun a => 0 <= a < 77) (prm_commitment made) /\ Forall (fun z => 0 <= z < 60) (prm_elems made) /\
    prm_verify S4 (toyX 1 true 0) made setup tt = Ret true /\
    prm_new S4 (toyX 1 true 0) sec setup tt [53; 12; 25; 51] = Ret made.
Proof.
  cbv zeta. do 3 (split; [toy_case|]). split; [reflexivity|].
  do 2 eexists. split; [vm_compute; reflexivity|]. split; [vm_compute; reflexivity|]. split; [vm_compute; reflexivity|].
  split; [reflexivity|]. split; [repeat constructor; vm_compute; congruence|].
  split; [repeat constructor; vm_compute; congruence|]. split; vm_compute; reflexivity.
Qed.
