(** * Properties C33-C36: the dlog, ring-Pedersen, Paillier-Blum and
    no-small-factor proofs. *)
From Coq Require Import ZArith Znumtheory List Bool Lia.
From Verif Require Import Base SignedModel SignedSpec PaillierModel PaillierSpec RsaFacts PaillierProofs PaillierLemmas PropsPaillier
  ZkBase ZkModel ZkSpec ZkFacts PrmProofs ModProofs FacProofs ElogModel ElogProofs ZkToy ZkTranscripts ZkLemmas.
Import ListNotations.
Open Scope Z_scope.

(** ** C33: El-Gamal dlog proof *)

Theorem C33_honest : forall q C A, 1 < q -> curve_ok q C ->
  forall (X : xof A (pt C)) y lambda xp h aux alpha m,
  let pub := @ElogPublic C (pmul C lambda (gen C)) (padd C (pmul C y (gen C)) (pmul C lambda xp)) xp (pmul C y h) h in
  elog_verify C A X (elog_new q C A X (ElogSecret y lambda) pub aux alpha m) pub aux = true.
Proof. exact elog_run. Qed.
Print Assumptions C33_honest.

(** Order 7, [y = 3], [lambda = 5], [X = 4], [h = 2], challenge 6. *)
Example C33_honest_case :
  let pub := @ElogPublic toyC (zq_mk 7 5) (zq_mk 7 23) (zq_mk 7 4) (zq_mk 7 6) (zq_mk 7 2) in
  let pf := elog_new 7 toyC unit (toyX 6 true 0) (ElogSecret 3 5) pub tt 1 2 in
  1 < 7 /\ curve_ok 7 toyC /\ elp_m pub <> p0 toyC /\
  el_e pf = 6 /\ el_z pf = 3 /\ el_u pf = 6 /\
  elog_verify toyC unit (toyX 6 true 0) pf pub tt = true /\
  elog_verify toyC unit (toyX 6 true 0) (@ElogProof toyC (el_e pf) (el_a pf) (el_n pf) (el_b pf) (el_z pf) 5) pub tt = false.
Proof.
  cbv zeta. split; [lia|]. split; [apply zq_curve_ok|].
  split; [intros E; apply (f_equal (@proj1_sig _ _)) in E; revert E; vm_compute; congruence|].
  repeat split; vm_compute; reflexivity.
Qed.

Theorem C33_acceptance : forall q C A, curve_ok q C ->
  forall (X : xof A (pt C)) (pf : elog_proof C) (pub : elog_public C) aux,
  elog_verify C A X pf pub aux = true <->
  el_e pf = x_scalar X Telog
    [IP (el_a pf); IP (el_n pf); IP (el_b pf);
     IP (elp_l pub); IP (elp_m pub); IP (elp_x pub); IP (elp_y pub); IP (elp_h pub); IA aux] /\
  pmul C (el_z pf) (gen C) = padd C (el_a pf) (pmul C (el_e pf) (elp_l pub)) /\
  padd C (pmul C (el_u pf) (gen C)) (pmul C (el_z pf) (elp_x pub)) =
    padd C (el_n pf) (pmul C (el_e pf) (elp_m pub)) /\
  pmul C (el_u pf) (elp_h pub) = padd C (el_b pf) (pmul C (el_e pf) (elp_y pub)).
Proof. exact elog_accept. Qed.
Print Assumptions C33_acceptance.

Theorem C33_extraction : forall q C A, 1 < q -> curve_ok q C ->
  forall (X1 X2 : xof A (pt C)) (pf1 pf2 : elog_proof C) (pub : elog_public C) aux1 aux2,
  prime q -> xof_ok q X1 -> xof_ok q X2 ->
  el_a pf1 = el_a pf2 -> el_n pf1 = el_n pf2 -> el_b pf1 = el_b pf2 -> el_e pf1 <> el_e pf2 ->
  elog_verify C A X1 pf1 pub aux1 = true -> elog_verify C A X2 pf2 pub aux2 = true ->
  exists i, (i * (el_e pf1 - el_e pf2)) mod q = 1 mod q /\
    let lambda := i * (el_z pf1 - el_z pf2) in
    let y := i * (el_u pf1 - el_u pf2) in
    elp_l pub = pmul C lambda (gen C) /\
    elp_m pub = padd C (pmul C y (gen C)) (pmul C lambda (elp_x pub)) /\
    elp_y pub = pmul C y (elp_h pub).
Proof. exact elog_extract. Qed.
Print Assumptions C33_extraction.

(** Two transcripts with challenges 6 and 1; the inverse of 5 is 3. *)
Example C33_extraction_case :
  let pub := @ElogPublic toyC (zq_mk 7 5) (zq_mk 7 23) (zq_mk 7 4) (zq_mk 7 6) (zq_mk 7 2) in
  let pf1 := elog_new 7 toyC unit (toyX 6 true 0) (ElogSecret 3 5) pub tt 1 2 in
  let pf2 := elog_new 7 toyC unit (toyX 1 true 0) (ElogSecret 3 5) pub tt 1 2 in
  prime 7 /\ xof_ok 7 (toyX 6 true 0) /\ xof_ok 7 (toyX 1 true 0) /\
  el_a pf1 = el_a pf2 /\ el_n pf1 = el_n pf2 /\ el_b pf1 = el_b pf2 /\ el_e pf1 <> el_e pf2 /\
  elog_verify toyC unit (toyX 6 true 0) pf1 pub tt = true /\ elog_verify toyC unit (toyX 1 true 0) pf2 pub tt = true /\
  (3 * (el_z pf1 - el_z pf2)) mod 7 = 5 /\ (3 * (el_u pf1 - el_u pf2)) mod 7 = 3.
Proof. cbv zeta. repeat (apply conj); toy_case. Qed.

(** ** C34: ring-Pedersen parameter proof *)

Theorem C34_honest : forall S C A, p_self_consistent (sp_pail S) = true ->
  forall (X : xof A (pt C)) p q lam_draw sec t qr_draws setup aux draws,
  prime p -> prime q -> p <> q -> Z.odd p = true -> Z.odd q = true ->
  p < 2 ^ prime_bits (sp_pail S) -> q < 2 ^ prime_bits (sp_pail S) ->
  0 <= lam_draw < (p - 1) * (q - 1) / 4 ->
  rp_secret_new (sp_pail S) p q lam_draw = Ret sec ->
  random_quadratic_residue (p * q) qr_draws = Some t ->
  rp_with_secret sec t = Ret setup ->
  length draws = sp_secbits S -> Forall (fun d => 0 <= d < (p - 1) * (q - 1)) draws ->
  exists pf, prm_new S X sec setup aux draws = Ret pf /\ prm_verify S X pf setup aux = Ret true /\
    length (prm_commitment pf) = sp_secbits S.
Proof. exact (fun S C A H => prm_run S C A (params_okP _ H)). Qed.
Print Assumptions C34_honest.

Definition S4 : sparams := SParams P4 16 7 3 1 0 0 4 3 21 87 24.

(** [p = 7], [q = 11], [lambda = 8], [t = 5^2 mod 77 = 25], four repetitions. *)
Example C34_honest_case :
  p_self_consistent (sp_pail S4) = true /\ prime 7 /\ prime 11 /\
  exists sec setup pf, rp_secret_new P4 7 11 8 = Ret sec /\
    random_quadratic_residue 77 [11; 5] = Some 25 /\ rp_with_secret sec 25 = Ret setup /\ rp_s setup = 16 /\
    prm_new S4 (toyX 1 true 0) sec setup tt [3; 0; 59; 17] = Ret pf /\
    prm_elems pf = [11; 8; 7; 25] /\ prm_verify S4 (toyX 1 true 0) pf setup tt = Ret true.
Proof. decide_case. Qed.

Theorem C34_acceptance : forall S C A (X : xof A (pt C)) pf setup aux,
  0 < rp_n setup -> Forall (fun z => 0 <= z) (prm_elems pf) ->
  prm_verify S X pf setup aux = Ret true <->
  prm_challenge pf =
    x_bits X Tprm [IL (map IZ (prm_commitment pf)); IL [IZ (rp_n setup); IZ (rp_t setup); IZ (rp_s setup)]; IA aux]
      (sp_secbits S) /\
  forall i e z a, nth_error (prm_challenge pf) i = Some e -> nth_error (prm_elems pf) i = Some z ->
    nth_error (prm_commitment pf) i = Some a ->
    (rp_t setup ^ z) mod rp_n setup = (if e then a * rp_s setup else a) mod rp_n setup.
Proof. exact prm_accepts. Qed.
Print Assumptions C34_acceptance.

Theorem C34_extraction : forall S C A (X1 X2 : xof A (pt C)) pf1 pf2 setup aux,
  1 < rp_n setup -> Z.gcd (rp_t setup) (rp_n setup) = 1 -> 0 <= rp_s setup < rp_n setup ->
  Forall (fun z => 0 <= z) (prm_elems pf1) -> Forall (fun z => 0 <= z) (prm_elems pf2) ->
  prm_commitment pf1 = prm_commitment pf2 ->
  length (prm_commitment pf1) = sp_secbits S ->
  length (prm_challenge pf1) = sp_secbits S -> length (prm_challenge pf2) = sp_secbits S ->
  length (prm_elems pf1) = sp_secbits S -> length (prm_elems pf2) = sp_secbits S ->
  prm_challenge pf1 <> prm_challenge pf2 ->
  prm_verify S X1 pf1 setup aux = Ret true -> prm_verify S X2 pf2 setup aux = Ret true ->
  exists z, unit_power (rp_n setup) (rp_t setup) z (rp_s setup).
Proof. exact prm_extracts. Qed.
Print Assumptions C34_extraction.

(** Modulo 77 with [t = 25], [s = 16 = 25^8]: the answers differ by 8. *)
Example C34_extraction_case :
  let setup := RP 77 25 16 in
  let com := [(25 ^ 3) mod 77; (25 ^ 2) mod 77; (25 ^ 40) mod 77; 1] in
  let pf1 := PrmProof com [true; true; true; true] [11; 10; 48; 8] in
  let pf2 := PrmProof com [false; false; false; false] [3; 2; 40; 0] in
  Z.gcd 25 77 = 1 /\ length com = sp_secbits S4 /\ prm_challenge pf1 <> prm_challenge pf2 /\
  prm_verify S4 (toyX 1 true 0) pf1 setup tt = Ret true /\
  prm_verify S4 (toyX 1 false 0) pf2 setup tt = Ret true /\ unit_power 77 25 8 16.
Proof. cbv zeta. repeat (apply conj); toy_case. Qed.

(** Verification never looks at the number of answers: with no answers at all
    every parameter set passes. *)
Theorem C34_empty_accepted : forall S C A (X : xof A (pt C)) com setup aux,
  exists pf, prm_elems pf = [] /\ prm_commitment pf = com /\ prm_verify S X pf setup aux = Ret true.
Proof. exact prm_empty_accepted. Qed.
Print Assumptions C34_empty_accepted.

(** Hence acceptance does not imply that [s] is in the group generated by [t]. *)
Theorem C34_soundness_refuted : exists S (C : curve) (X : xof unit (pt C)) pf setup,
  xof_ok (sp_q S) X /\ Z.gcd (rp_t setup) (rp_n setup) = 1 /\ Z.gcd (rp_s setup) (rp_n setup) = 1 /\
  prm_verify S X pf setup tt = Ret true /\ ~ exists z, unit_power (rp_n setup) (rp_t setup) z (rp_s setup).
Proof. exact (ex_intro _ S4 (prm_unsound S4 eq_refl)). Qed.
Print Assumptions C34_soundness_refuted.

(** ** C35: Paillier-Blum modulus proof *)

Theorem C35_honest : forall S C A (X : xof A (pt C)) p q sk draws y b aux,
  xof_ok (sp_q S) X -> p_self_consistent (sp_pail S) = true ->
  prime p -> prime q -> p mod 4 = 3 -> q mod 4 = 3 ->
  p < 2 ^ prime_bits (sp_pail S) -> q < 2 ^ prime_bits (sp_pail S) ->
  skey_new (sp_pail S) p q = Ret sk ->
  random_quadratic_residue (p * q) draws = Some y ->
  exists pf, mod_new S X sk aux (nonsquare_residue sk y b) = Ret pf /\
    length (mod_elems pf) = sp_secbits S /\ length (mod_challenge pf) = sp_secbits S /\
    mod_verify S X pf (p * q) aux =
      Ret (negb (x_is_prime X Tmod_rng [IZ (mod_commitment pf); IZ (p * q); IA aux] (p * q))).
Proof. exact mod_honest. Qed.
Print Assumptions C35_honest.

(** [N = 77]; every challenge is 5, a non-square: [a], [b] flags are used. *)
Example C35_honest_case :
  xof_ok 7 (toyX 1 true 5) /\ p_self_consistent (sp_pail S4) = true /\ prime 7 /\ prime 11 /\
  exists sk pf, skey_new P4 7 11 = Ret sk /\ random_quadratic_residue 77 [22; 3] = Some 9 /\
    mod_new S4 (toyX 1 true 5) sk tt (nonsquare_residue sk 9 true) = Ret pf /\
    mod_challenge pf = [5; 5; 5; 5] /\ mod_verify S4 (toyX 1 true 5) pf 77 tt = Ret true.
Proof. split; [apply const_xof_ok; lia|]. decide_case. Qed.

Theorem C35_acceptance : forall S C A, p_self_consistent (sp_pail S) = true ->
  forall (X : xof A (pt C)) pf N aux, 1 < N < 2 ^ modulus_bits (sp_pail S) ->
  exists r, mod_verify S X pf N aux = Ret r /\
    (r = true <->
     mod_challenge pf = x_residues X Tmod [IZ N; IZ (mod_commitment pf); IA aux] N (sp_secbits S) /\
     x_is_prime X Tmod_rng [IZ (mod_commitment pf); IZ N; IA aux] N = false /\
     Z.gcd (mod_commitment pf) N = 1 /\
     forall i el y, nth_error (mod_elems pf) i = Some el -> nth_error (mod_challenge pf) i = Some y ->
       Z.gcd y N = 1 /\ (me_z el ^ N) mod N = y mod N /\
       (me_x el ^ 4) mod N =
         ((if me_a el then -1 else 1) * (if me_b el then mod_commitment pf else 1) * y) mod N).
Proof. exact (fun S C A H => mod_accept S C A (params_okP _ H)). Qed.
Print Assumptions C35_acceptance.

(** Modulo 77 with commitment 9 and challenge 25: 16 is the 77-th root, 17 is not. *)
Example C35_acceptance_case :
  let pf z := ModProof 9 [25; 25; 25; 25] [ModElem 4 false false z; ModElem 4 false false z] in
  1 < 77 < 2 ^ modulus_bits (sp_pail S4) /\
  (4 ^ 4) mod 77 = 25 /\ (16 ^ 77) mod 77 = 25 /\ (17 ^ 77) mod 77 <> 25 /\
  mod_verify S4 (toyX 1 true 25) (pf 17) 77 tt = Ret false /\
  mod_verify S4 (toyX 1 true 25) (pf 16) 77 tt = Ret true.
Proof. cbv zeta. decide_case. Qed.

(** The number of elements is never looked at. *)
Theorem C35_empty_accepted : forall S C A, p_self_consistent (sp_pail S) = true ->
  forall (X : xof A (pt C)) N com aux, 1 < N < 2 ^ modulus_bits (sp_pail S) -> Z.gcd com N = 1 ->
  x_is_prime X Tmod_rng [IZ com; IZ N; IA aux] N = false ->
  exists pf, mod_elems pf = [] /\ mod_verify S X pf N aux = Ret true.
Proof. exact mod_empty_accepted. Qed.
Print Assumptions C35_empty_accepted.

(** [45 = 3^2 * 5] is not a product of two primes congruent to 3 modulo 4. *)
Example C35_empty_case : 1 < 45 < 2 ^ modulus_bits (sp_pail S4) /\ Z.gcd 2 45 = 1 /\
  x_is_prime (toyX 1 true 2) Tmod_rng [IZ 2; IZ 45; IA tt] 45 = false /\
  mod_verify S4 (toyX 1 true 2) (ModProof 2 [2; 2; 2; 2] []) 45 tt = Ret true.
Proof. decide_case. Qed.

(** ** C36: no small factor *)

Theorem C36_honest : forall S C A, good_params S ->
  forall (X : xof A (pt C)) sk0 setup aux rnd p q,
  xof_ok (sp_q S) X ->
  0 < p < 2 ^ prime_bits (sp_pail S) -> 0 < q < 2 ^ prime_bits (sp_pail S) -> modulus_ok S (p * q) ->
  pr_p (sk_primes sk0) = p -> pr_q (sk_primes sk0) = q -> sk_pk sk0 = p * q ->
  setup_ok S setup -> fac_rand_ok S (p * q) (rp_n setup) rnd ->
  sp_l S + sp_eps S + bits (p * q * rp_n setup) + 1 < sp_xw S ->
  exists pf r e, fac_new S X sk0 setup aux rnd = Ret pf /\
    fac_verify S X pf (p * q) setup aux = Ret r /\
    e = sval (uint_w (sp_pail S)) (fac_e pf) /\ pm_interval (sp_l S) e /\
    (r = true <->
      pm_interval (sp_l S + sp_eps S + prime_bits (sp_pail S) - 2)
        (mask_scaled (sp_l S + sp_eps S) (2 ^ (prime_bits (sp_pail S) - 2)) (fr_alpha rnd) + p * e) /\
      pm_interval (sp_l S + sp_eps S + prime_bits (sp_pail S) - 2)
        (mask_scaled (sp_l S + sp_eps S) (2 ^ (prime_bits (sp_pail S) - 2)) (fr_beta rnd) + q * e)).
Proof. exact (fun S C A H => fac_run S C A (good_ok S H)). Qed.
Print Assumptions C36_honest.

(** The two 66-bit toy primes; masks in the middle of their range. *)
Example C36_honest_case : exists sk0 pf,
  skey_new (sp_pail toy_S) toy_p0 toy_q0 = Ret sk0 /\
  fac_new toy_S (toyX 1 true 1048580) sk0 toy_rp tt (FacRand (2 ^ 108) (2 ^ 107) 12345 54321 (2 ^ 200) 777 888) = Ret pf /\
  fac_verify toy_S (toyX 1 true 1048580) pf toy_N0 toy_rp tt = Ret true.
Proof.
  destruct (keygen_succeeds (sp_pail toy_S) toy_p0 toy_q0) as (sk0 & Hsk); [reflexivity|exact toy_keygen0|].
  exists sk0.
  pose proof (skey_new_inv (sp_pail toy_S) toy_p0 toy_q0 sk0 (params_okP (sp_pail toy_S) eq_refl)
    toy_p0_prime toy_q0_prime eq_refl eq_refl Hsk) as K.
  pose proof (ko_primes _ _ _ _ K) as E1. pose proof (ko_pk _ _ _ _ K) as E2. clear K.
  destruct (fac_margin toy_S toyC unit toy_S_ok (toyX 1 true 1048580) sk0 toy_rp tt
    (FacRand (2 ^ 108) (2 ^ 107) 12345 54321 (2 ^ 200) 777 888) toy_p0 toy_q0) as (pf & F1 & F2).
  5: rewrite E1; reflexivity.
  5: rewrite E1; reflexivity.
  5: exact E2.
  10: exists pf; auto.
  6: split.
  all: clear; toy_case.
Qed.

Theorem C36_acceptance : forall S C A, good_params S ->
  forall (X : xof A (pt C)) pf N0 setup aux,
  xof_ok (sp_q S) X -> modulus_ok S N0 -> setup_ok S setup ->
  let w := uint_w (sp_pail S) in let ww := wide_w (sp_pail S) in
  wf ww (fac_z1 pf) -> wf ww (fac_z2 pf) -> wf ww (fac_w1 pf) -> wf ww (fac_w2 pf) -> wf (sp_xw S) (fac_v pf) ->
  let N := rp_n setup in let s := rp_s setup in let t := rp_t setup in
  let e := sval w (fac_e pf) in
  let z1 := sval ww (fac_z1 pf) in
  let z2 := sval ww (fac_z2 pf) in
  fac_verify S X pf N0 setup aux = Ret true <->
    pub_from_xof_range w (sp_l S)
      (x_uint X Tfac [IZ (fac_p pf); IZ (fac_q pf); IZ (fac_a pf); IZ (fac_b pf); IZ (fac_t pf); IZ N0;
                      IL [IZ N; IZ t; IZ s]; IA aux] (sp_l S)) = Ret (fac_e pf) /\
    pm_interval (sp_l S + sp_eps S + prime_bits (sp_pail S) - 2) z1 /\
    pm_interval (sp_l S + sp_eps S + prime_bits (sp_pail S) - 2) z2 /\
    (exists pe, unit_power N (fac_p pf) e pe /\
       rp_opens N s t z1 (sval ww (fac_w1 pf)) ((fac_a pf * pe) mod N)) /\
    (exists qe, unit_power N (fac_q pf) e qe /\
       rp_opens N s t z2 (sval ww (fac_w2 pf)) ((fac_b pf * qe) mod N)) /\
    (exists qz tv re, unit_power N (fac_q pf) z1 qz /\ unit_power N t (sval (sp_xw S) (fac_v pf)) tv /\
       unit_power N s (N0 * e) re /\ (qz * tv) mod N = (fac_t pf * re) mod N).
Proof. exact (fun S C A H => fac_accept S C A (good_ok S H)). Qed.
Print Assumptions C36_acceptance.

(** Challenge 5 for the toy primes. *)
Example C36_acceptance_case : fac_verify toy_S (toyX 1 true 1048580) fc_pf1 toy_N0 toy_rp tt = Ret true.
Proof.
  apply (C36_acceptance toy_S toyC unit toy_S_ok); try toy_case.
  repeat (apply conj); try toy_case.
  - eexists; split; [toy_case|toy_case].
  - eexists; split; [toy_case|toy_case].
  - do 3 eexists. do 3 (split; [toy_case|]). toy_case.
Qed.

Theorem C36_extraction : forall S C A, good_params S ->
  forall (X1 X2 : xof A (pt C)) pf1 pf2 N0 setup aux1 aux2,
  let w := uint_w (sp_pail S) in let ww := wide_w (sp_pail S) in
  xof_ok (sp_q S) X1 -> xof_ok (sp_q S) X2 -> modulus_ok S N0 -> setup_ok S setup ->
  (forall pf, pf = pf1 \/ pf = pf2 ->
    wf ww (fac_z1 pf) /\ wf ww (fac_z2 pf) /\ wf ww (fac_w1 pf) /\ wf ww (fac_w2 pf) /\ wf (sp_xw S) (fac_v pf)) ->
  Z.gcd (fac_p pf1) (rp_n setup) = 1 -> Z.gcd (fac_q pf1) (rp_n setup) = 1 ->
  Z.gcd (fac_a pf1) (rp_n setup) = 1 -> Z.gcd (fac_b pf1) (rp_n setup) = 1 -> Z.gcd (fac_t pf1) (rp_n setup) = 1 ->
  fac_p pf2 = fac_p pf1 -> fac_q pf2 = fac_q pf1 -> fac_a pf2 = fac_a pf1 -> fac_b pf2 = fac_b pf1 ->
  fac_t pf2 = fac_t pf1 ->
  fac_verify S X1 pf1 N0 setup aux1 = Ret true ->
  fac_verify S X2 pf2 N0 setup aux2 = Ret true ->
  let N := rp_n setup in let s := rp_s setup in let t := rp_t setup in
  let de := sval w (fac_e pf1) - sval w (fac_e pf2) in
  exists dz1 dz2 dw1 dw2 dv,
    Z.abs dz1 < 2 ^ (sp_l S + sp_eps S + prime_bits (sp_pail S) - 2) /\
    Z.abs dz2 < 2 ^ (sp_l S + sp_eps S + prime_bits (sp_pail S) - 2) /\
    Z.abs de < 2 ^ sp_l S /\
    (exists c, unit_power N (fac_p pf1) de c /\ rp_opens N s t dz1 dw1 c) /\
    (exists c, unit_power N (fac_q pf1) de c /\ rp_opens N s t dz2 dw2 c) /\
    (exists c, unit_power N (fac_q pf1) dz1 c /\ rp_opens N s t (N0 * de) (- dv) c) /\
    rp_opens N s t (N0 * de * de - dz1 * dz2) (- (dv * de + dw2 * dz1)) 1.
Proof. exact (fun S C A H => fac_extract S C A (good_ok S H)). Qed.
Print Assumptions C36_extraction.

(** Challenges 5 and [-5] with the same commitments. *)
Example C36_extraction_case :
  fac_verify toy_S (toyX 1 true 1048570) fc_pf2 toy_N0 toy_rp tt = Ret true /\
  fac_p fc_pf2 = fac_p fc_pf1 /\ fac_q fc_pf2 = fac_q fc_pf1 /\ fac_a fc_pf2 = fac_a fc_pf1 /\
  fac_b fc_pf2 = fac_b fc_pf1 /\ fac_t fc_pf2 = fac_t fc_pf1 /\
  Z.gcd (fac_p fc_pf1) toy_N1 = 1 /\ Z.gcd (fac_q fc_pf1) toy_N1 = 1 /\ Z.gcd (fac_a fc_pf1) toy_N1 = 1 /\
  Z.gcd (fac_b fc_pf1) toy_N1 = 1 /\ Z.gcd (fac_t fc_pf1) toy_N1 = 1 /\
  wf 512 (fac_z1 fc_pf1) /\ wf 512 (fac_v fc_pf2) /\
  sval 256 (fac_e fc_pf1) - sval 256 (fac_e fc_pf2) = 10 /\
  sval 512 (fac_z1 fc_pf1) - sval 512 (fac_z1 fc_pf2) = toy_p0 * 10.
Proof.
  split.
  { apply (C36_acceptance toy_S toyC unit toy_S_ok); try toy_case.
    repeat (apply conj); try toy_case.
    - eexists; split; [toy_case|toy_case].
    - eexists; split; [toy_case|toy_case].
    - do 3 eexists. do 3 (split; [toy_case|]). toy_case. }
  repeat (apply conj); toy_case.
Qed.
