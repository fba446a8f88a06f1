(** * Specification vocabulary for the zero-knowledge proofs, independent of
    the prover and verifier models. *)
From Coq Require Import ZArith Znumtheory.
From Verif Require Import Base SignedModel SignedSpec PaillierModel PaillierSpec ZkBase ZkModel.
Open Scope Z_scope.

(** [c] is a Paillier ciphertext of [m] under [N] (with some invertible
    randomizer). *)
Definition encrypts (N c m : Z) : Prop := exists rho, Z.gcd rho N = 1 /\ paillier_cipher N m rho c.

(** The integers a range sampler returns for a draw: uniform draws in [0, 2^e)
    and [0, scale * 2^e) are shifted to the paper's symmetric intervals. *)
Definition mask (e draw : Z) : Z := draw - (2 ^ (e - 1) - 1).
Definition mask_scaled (e scale draw : Z) : Z := draw - (scale * 2 ^ (e - 1) - 1).
(** [d] is the textbook result of multiplying the ciphertext [c] by [x] and
    adding an encryption of [m] with randomizer [rho]. *)
Definition affine_cipher (N c x m rho d : Z) : Prop :=
  exists cx em, unit_power (N * N) c x cx /\ paillier_cipher N m rho em /\ d = (cx * em) mod (N * N).
(** An invertible residue modulo [N^2]: what a well-formed ciphertext is. *)
Definition cipher_ok (N c : Z) : Prop := 0 <= c < N * N /\ Z.gcd c N = 1.

(** A Paillier modulus of the declared size. *)
Definition modulus_ok (S : sparams) (N : Z) : Prop := 1 < N < 2 ^ modulus_bits (sp_pail S).

(** Ring-Pedersen parameters with invertible bases and a modulus of the declared size. *)
Definition setup_ok (S : sparams) (rp : rpparams) : Prop :=
  1 < rp_n rp < 2 ^ modulus_bits (sp_pail S) /\ 0 <= rp_s rp /\ 0 <= rp_t rp /\
  Z.gcd (rp_s rp) (rp_n rp) = 1 /\ Z.gcd (rp_t rp) (rp_n rp) = 1.

(** Parameters the crate accepts at compile time. *)
Definition good_params (S : sparams) : Prop := sp_compiles S = true /\ sp_self_consistent S = true.

(** A secret signed integer of value [v], declared and actually within the
    paper's interval of exponent [e]. *)
Definition secret_of (S : sparams) (e : Z) (x : signed) (v : Z) : Prop :=
  wf (uint_w (sp_pail S)) x /\ sval (uint_w (sp_pail S)) x = v /\ bound x <= e /\ pm_interval e v.

(** A Paillier randomizer. *)
Definition unit_ok (N r : Z) : Prop := 0 <= r /\ Z.gcd r N = 1.

(** A challenge bit as a number. *)
Definition b2z (b : bool) : Z := if b then 1 else 0.

(** What one accepted element says about the challenge [y]. *)
Definition mod_elem_spec (N com : Z) (el : mod_elem) (y : Z) : Prop :=
  Z.gcd y N = 1 /\ (me_z el ^ N) mod N = y mod N /\
  (me_x el ^ 4) mod N =
    ((if me_a el then -1 else 1) * (if me_b el then com else 1) * y) mod N.

(** The verifier's equation for one repetition. *)
Definition prm_eq (setup : rpparams) (e : bool) (z a : Z) : Prop :=
  (rp_t setup ^ z) mod rp_n setup = (a * rp_s setup ^ b2z e) mod rp_n setup.

Section Spec.
Variable S : sparams.
Notation P := (sp_pail S).
Notation w := (uint_w (sp_pail S)).
Notation ww := (wide_w (sp_pail S)).

(** What the prover's random number generator calls return, for each proof. *)
Record enc_elg_rand_ok (N hat_n : Z) (rnd : enc_elg_rand) : Prop := {
  er_alpha_ok : 0 <= er_alpha rnd < 2 ^ (sp_l S + sp_eps S);
  er_mu_ok : 0 <= er_mu rnd < hat_n * 2 ^ sp_l S;
  er_gamma_ok : 0 <= er_gamma rnd < hat_n * 2 ^ (sp_l S + sp_eps S);
  er_r_ok : unit_ok N (er_r rnd) }.

Record aff_g_rand_ok (N0 N1 hat_n : Z) (rnd : aff_g_rand) : Prop := {
  ar_alpha_ok : 0 <= ar_alpha rnd < 2 ^ (sp_l S + sp_eps S);
  ar_beta_ok : 0 <= ar_beta rnd < 2 ^ (sp_lp S + sp_eps S);
  ar_r_ok : unit_ok N0 (ar_r rnd);
  ar_ry_ok : unit_ok N1 (ar_ry rnd);
  ar_gamma_ok : 0 <= ar_gamma rnd < hat_n * 2 ^ (sp_l S + sp_eps S);
  ar_m_ok : 0 <= ar_m rnd < hat_n * 2 ^ sp_l S;
  ar_delta_ok : 0 <= ar_delta rnd < hat_n * 2 ^ (sp_l S + sp_eps S);
  ar_mu_ok : 0 <= ar_mu rnd < hat_n * 2 ^ sp_l S }.

Record aff_gs_rand_ok (N0 N1 : Z) (rnd : aff_gs_rand) : Prop := {
  sr_alpha_ok : 0 <= sr_alpha rnd < 2 ^ (sp_l S + sp_eps S);
  sr_beta_ok : 0 <= sr_beta rnd < 2 ^ (sp_lp S + sp_eps S);
  sr_r_ok : unit_ok N0 (sr_r rnd);
  sr_s_ok : unit_ok N1 (sr_s rnd) }.

(** The responses of one repetition stay in the verifier's intervals. *)
Definition aff_gs_in_range (x y : Z) (rb : aff_gs_rand * bool) : Prop :=
  pm_interval (sp_l S + sp_eps S) (mask (sp_l S + sp_eps S) (sr_alpha (fst rb)) + x * b2z (snd rb)) /\
  pm_interval (sp_lp S + sp_eps S) (mask (sp_lp S + sp_eps S) (sr_beta (fst rb)) - y * b2z (snd rb)).

Definition aff_gs_elem_wf (el : aff_gs_elem) : Prop :=
  wf w (sl_z el) /\ wf w (sl_zp el) /\ 0 <= sl_w el /\ 0 <= sl_lambda el.

(** The textbook content of one accepted repetition. *)
Definition aff_gs_elem_ok {C : curve} (pub : aff_g_public C) (t : bool * aff_gs_com C * aff_gs_elem) : Prop :=
  let '(b, com, el) := t in
  let N0 := ap_pk0 pub in
  let N1 := ap_pk1 pub in
  let z := sval w (sl_z el) in
  let z' := sval w (sl_zp el) in
  pm_interval (sp_l S + sp_eps S) z /\ pm_interval (sp_lp S + sp_eps S) z' /\
  (exists cz, unit_power (N0 * N0) (ct_val (ap_cap_c pub)) z cz /\
    exists ez, paillier_cipher N0 z' (sl_w el) ez /\
      (cz * ez) mod (N0 * N0) = (sc_a com * ct_val (ap_cap_d pub) ^ b2z b) mod (N0 * N0)) /\
  pmul C z (gen C) = padd C (sc_r com) (pmul C (b2z b) (ap_cap_x pub)) /\
  (exists yi, unit_power (N1 * N1) (ct_val (ap_cap_y pub)) (- b2z b) yi /\
    paillier_cipher N1 z' (sl_lambda el) ((sc_b com * yi) mod (N1 * N1))).

(** The exponent of the interval claimed for [y]: one affine mask per party. *)
Definition dec_y_exp (n : Z) : Z := sp_lp S + sp_eps S + 1 + Z.log2_up n.

Record dec_rand_ok (N n : Z) (rnd : dec_rand) : Prop := {
  dr_alpha_ok : 0 <= dr_alpha rnd < 2 ^ (sp_l S + sp_eps S);
  dr_beta_ok : 0 <= dr_beta rnd < 2 ^ (dec_y_exp n + sp_eps S);
  dr_r_ok : unit_ok N (dr_r rnd) }.

(** The responses of one repetition stay in the verifier's intervals. *)
Definition dec_in_range (n x y : Z) (rb : dec_rand * bool) : Prop :=
  pm_interval (sp_l S + sp_eps S) (mask (sp_l S + sp_eps S) (dr_alpha (fst rb)) + x * b2z (snd rb)) /\
  pm_interval (dec_y_exp n + sp_eps S) (mask (dec_y_exp n + sp_eps S) (dr_beta (fst rb)) + y * b2z (snd rb)).

Definition dec_elem_wf (el : dec_elem) : Prop := wf w (de_z el) /\ wf ww (de_w el) /\ 0 <= de_nu el.

(** The textbook content of one accepted repetition. *)
Definition dec_elem_ok {C : curve} (pub : dec_public C) (t : bool * dec_com C * dec_elem) : Prop :=
  let '(b, com, el) := t in
  let N := dp_pk0 pub in
  let z := sval w (de_z el) in
  let v := sval ww (de_w el) in
  (exists kz, unit_power (N * N) (ct_val (dp_cap_k pub)) (- z) kz /\
    exists ez, paillier_cipher N v (de_nu el) ez /\
      (kz * ez) mod (N * N) = (dc_a com * ct_val (dp_cap_d pub) ^ b2z b) mod (N * N)) /\
  pmul C z (gen C) = padd C (dc_c com) (pmul C (b2z b) (dp_cap_x pub)) /\
  pmul C v (dp_cap_g pub) = padd C (dc_b com) (pmul C (b2z b) (dp_cap_s pub)) /\
  pm_interval (sp_l S + sp_eps S) z /\ pm_interval (dec_y_exp (dp_num_parties pub) + sp_eps S) v.

Record fac_rand_ok (N0 hat_n : Z) (rnd : fac_rand) : Prop := {
  fr_alpha_ok : 0 <= fr_alpha rnd < 2 ^ (prime_bits P - 2) * 2 ^ (sp_l S + sp_eps S);
  fr_beta_ok : 0 <= fr_beta rnd < 2 ^ (prime_bits P - 2) * 2 ^ (sp_l S + sp_eps S);
  fr_mu_ok : 0 <= fr_mu rnd < hat_n * 2 ^ sp_l S;
  fr_nu_ok : 0 <= fr_nu rnd < hat_n * 2 ^ sp_l S;
  fr_r_ok : 0 <= fr_r rnd < N0 * hat_n * 2 ^ (sp_l S + sp_eps S);
  fr_x_ok : 0 <= fr_x rnd < hat_n * 2 ^ (sp_l S + sp_eps S);
  fr_y_ok : 0 <= fr_y rnd < hat_n * 2 ^ (sp_l S + sp_eps S) }.

(** The first response mask of the proof. *)
Definition fac_mask (draw : Z) : Z := mask_scaled (sp_l S + sp_eps S) (2 ^ (prime_bits P - 2)) draw.

End Spec.
