(** * Property C63: the challenge of every proof binds what the proof is about.

    A proof accepted for two different statements, setups or contexts exhibits a
    collision of the hash it takes its challenge from: the two given transcripts
    differ and have the same value.  [X] is any hash function, [A] any type of
    contexts.  The Schnorr proof is in PropsBinding.v. *)
From Coq Require Import ZArith List Bool Lia.
From Verif Require Import Base SignedModel PaillierModel PaillierSpec RsaFacts PaillierProofs PaillierLemmas PropsPaillier
  ZkBase ZkModel ZkSpec ZkFacts PrmProofs ModProofs FacProofs ElogModel ElogProofs ZkToy ZkTranscripts ZkLemmas PropsZk1 BindSpec BindZk.
Import ListNotations.
Open Scope Z_scope.

(** A hash that ignores its input, with two contexts: the premises can hold. *)
Notation toyB := (@const_xof bool (pt toyC)).

(** Discrete-log proof: statement [(L, M, X, Y, h)] and context. *)
Theorem C63_elog (C : curve) (A : Type) (X : xof A (pt C)) pf pub pub' aux aux' :
  elog_verify C A X pf pub aux = true -> elog_verify C A X pf pub' aux' = true -> (pub, aux) <> (pub', aux') ->
  collision (x_scalar X Telog)
    [IP (el_a pf); IP (el_n pf); IP (el_b pf);
     IP (elp_l pub); IP (elp_m pub); IP (elp_x pub); IP (elp_y pub); IP (elp_h pub); IA aux]
    [IP (el_a pf); IP (el_n pf); IP (el_b pf);
     IP (elp_l pub'); IP (elp_m pub'); IP (elp_x pub'); IP (elp_y pub'); IP (elp_h pub'); IA aux'].
Proof. exact (elog_binding C A X pf pub pub' aux aux'). Qed.
Print Assumptions C63_elog.

Example C63_elog_case :
  let pub := @ElogPublic toyC (zq_mk 7 5) (zq_mk 7 23) (zq_mk 7 4) (zq_mk 7 6) (zq_mk 7 2) in
  let pf := elog_new 7 toyC bool (toyB 6 true 0) (ElogSecret 3 5) pub true 1 2 in
  elog_verify toyC bool (toyB 6 true 0) pf pub true = true /\ elog_verify toyC bool (toyB 6 true 0) pf pub false = true.
Proof. vm_compute; split; reflexivity. Qed.

(** Ring-Pedersen proof: the parameters and the context. *)
Theorem C63_prm (S : sparams) (C : curve) (A : Type) (X : xof A (pt C)) pf setup setup' aux aux' :
  prm_verify S X pf setup aux = Ret true -> prm_verify S X pf setup' aux' = Ret true -> (setup, aux) <> (setup', aux') ->
  collision (fun t => x_bits X Tprm t (sp_secbits S))
    [IL (map IZ (prm_commitment pf)); setup_item setup; IA aux]
    [IL (map IZ (prm_commitment pf)); setup_item setup'; IA aux'].
Proof. exact (prm_binding S C A X pf setup setup' aux aux'). Qed.
Print Assumptions C63_prm.

Example C63_prm_case :
  exists sec setup pf, rp_secret_new P4 7 11 8 = Ret sec /\ rp_with_secret sec 25 = Ret setup /\
    prm_new S4 (toyB 1 true 0) sec setup true [3; 0; 59; 17] = Ret pf /\
    prm_verify S4 (toyB 1 true 0) pf setup true = Ret true /\ prm_verify S4 (toyB 1 true 0) pf setup false = Ret true.
Proof. decide_case. Qed.

(** Paillier-Blum proof: the modulus and the context. *)
Theorem C63_mod (S : sparams) (C : curve) (A : Type) (X : xof A (pt C)) pf N N' aux aux' :
  mod_verify S X pf N aux = Ret true -> mod_verify S X pf N' aux' = Ret true -> (N, aux) <> (N', aux') ->
  collision (fun tN => x_residues X Tmod (fst tN) (snd tN) (sp_secbits S))
    ([IZ N; IZ (mod_commitment pf); IA aux], N) ([IZ N'; IZ (mod_commitment pf); IA aux'], N').
Proof. exact (mod_binding S C A X pf N N' aux aux'). Qed.
Print Assumptions C63_mod.

Example C63_mod_case :
  exists sk pf, skey_new P4 7 11 = Ret sk /\ mod_new S4 (toyB 1 true 5) sk true (nonsquare_residue sk 9 true) = Ret pf /\
    mod_verify S4 (toyB 1 true 5) pf 77 true = Ret true /\ mod_verify S4 (toyB 1 true 5) pf 77 false = Ret true.
Proof. decide_case. Qed.

(** No-small-factor proof: the modulus, the verifier's setup and the context. *)
Theorem C63_fac (S : sparams) (C : curve) (A : Type) (X : xof A (pt C)) pf N0 N0' setup setup' aux aux' : good_params S -> xof_ok (sp_q S) X ->
  fac_verify S X pf N0 setup aux = Ret true -> fac_verify S X pf N0' setup' aux' = Ret true ->
  (N0, setup, aux) <> (N0', setup', aux') ->
  collision (fun t => x_uint X Tfac t (sp_l S))
    [IZ (fac_p pf); IZ (fac_q pf); IZ (fac_a pf); IZ (fac_b pf); IZ (fac_t pf); IZ N0; setup_item setup; IA aux]
    [IZ (fac_p pf); IZ (fac_q pf); IZ (fac_a pf); IZ (fac_b pf); IZ (fac_t pf); IZ N0'; setup_item setup'; IA aux'].
Proof. exact (fac_binding S C A X pf N0 N0' setup setup' aux aux'). Qed.
Print Assumptions C63_fac.

Example C63_fac_case :
  good_params toy_S /\ xof_ok 7 (toyB 1 true 1048580) /\
  fac_verify toy_S (toyB 1 true 1048580) fc_pf1 toy_N0 toy_rp true = Ret true /\
  fac_verify toy_S (toyB 1 true 1048580) fc_pf1 toy_N0 toy_rp false = Ret true.
Proof. split; [split; vm_compute; reflexivity|]. split; [apply const_xof_ok; lia|]. vm_compute; split; reflexivity. Qed.

(** Encryption with El-Gamal commitment: everything, the verifier's setup included. *)
Theorem C63_enc_elg (S : sparams) (C : curve) (A : Type) (X : xof A (pt C)) pf pub pub' setup setup' aux aux' :
  enc_elg_verify S X pf pub setup aux = Ret true -> enc_elg_verify S X pf pub' setup' aux' = Ret true ->
  (pub, setup, aux) <> (pub', setup', aux') ->
  collision (x_scalar X Tenc_elg)
    [IZ (ee_s pf); IZ (ee_d pf); IP (ee_y pf); IP (ee_z pf); IZ (ee_t pf); IZ (ep_pk0 pub); IZ (ct_val (ep_cap_c pub));
     IP (ep_cap_a pub); IP (ep_cap_b pub); IP (ep_cap_x pub); setup_item setup; IA aux]
    [IZ (ee_s pf); IZ (ee_d pf); IP (ee_y pf); IP (ee_z pf); IZ (ee_t pf); IZ (ep_pk0 pub'); IZ (ct_val (ep_cap_c pub'));
     IP (ep_cap_a pub'); IP (ep_cap_b pub'); IP (ep_cap_x pub'); setup_item setup'; IA aux'].
Proof. exact (enc_elg_binding S C A X pf pub pub' setup setup' aux aux'). Qed.
Print Assumptions C63_enc_elg.

Example C63_enc_elg_case :
  enc_elg_verify toy_S (toyB 1 true 0) ee_pf1 ee_pub toy_rp true = Ret true /\
  enc_elg_verify toy_S (toyB 1 true 0) ee_pf1 ee_pub toy_rp false = Ret true.
Proof. vm_compute; split; reflexivity. Qed.

(** Affine operation: everything, the verifier's setup included. *)
Theorem C63_aff_g (S : sparams) (C : curve) (A : Type) (X : xof A (pt C)) pf pub pub' setup setup' aux aux' :
  aff_g_verify S X pf pub setup aux = Ret true -> aff_g_verify S X pf pub' setup' aux' = Ret true ->
  (pub, setup, aux) <> (pub', setup', aux') ->
  collision (x_scalar X Taff_g)
    [IZ (ag_a pf); IP (ag_bx pf); IZ (ag_by pf); IZ (ag_ce pf); IZ (ag_f pf); IZ (ag_s pf); IZ (ag_t pf);
     IZ (ap_pk0 pub); IZ (ap_pk1 pub); IZ (ct_val (ap_cap_c pub)); IZ (ct_val (ap_cap_d pub)); IZ (ct_val (ap_cap_y pub));
     IP (ap_cap_x pub); setup_item setup; IA aux]
    [IZ (ag_a pf); IP (ag_bx pf); IZ (ag_by pf); IZ (ag_ce pf); IZ (ag_f pf); IZ (ag_s pf); IZ (ag_t pf);
     IZ (ap_pk0 pub'); IZ (ap_pk1 pub'); IZ (ct_val (ap_cap_c pub')); IZ (ct_val (ap_cap_d pub')); IZ (ct_val (ap_cap_y pub'));
     IP (ap_cap_x pub'); setup_item setup'; IA aux'].
Proof. exact (aff_g_binding S C A X pf pub pub' setup setup' aux aux'). Qed.
Print Assumptions C63_aff_g.

Example C63_aff_g_case :
  aff_g_verify toy_S (toyB 1 true 0) ag_pf1 ag_pub toy_rp true = Ret true /\
  aff_g_verify toy_S (toyB 1 true 0) ag_pf1 ag_pub toy_rp false = Ret true.
Proof. vm_compute; split; reflexivity. Qed.

(** Affine operation, without setup. *)
Theorem C63_aff_g_star (S : sparams) (C : curve) (A : Type) (X : xof A (pt C)) pf pub pub' aux aux' :
  aff_gs_verify S X pf pub aux = Ret true -> aff_gs_verify S X pf pub' aux' = Ret true ->
  (pub, aux) <> (pub', aux') ->
  collision (fun t => x_bits X Taff_g_star t (Z.to_nat (sp_kappa S)))
    [IL (map (fun c => IL [IZ (sc_a c); IP (sc_r c); IZ (sc_b c)]) (sg_coms pf)); IZ (ap_pk0 pub); IZ (ap_pk1 pub);
     IZ (ct_val (ap_cap_c pub)); IZ (ct_val (ap_cap_d pub)); IZ (ct_val (ap_cap_y pub)); IP (ap_cap_x pub); IA aux]
    [IL (map (fun c => IL [IZ (sc_a c); IP (sc_r c); IZ (sc_b c)]) (sg_coms pf)); IZ (ap_pk0 pub'); IZ (ap_pk1 pub');
     IZ (ct_val (ap_cap_c pub')); IZ (ct_val (ap_cap_d pub')); IZ (ct_val (ap_cap_y pub')); IP (ap_cap_x pub'); IA aux'].
Proof. exact (aff_gs_binding S C A X pf pub pub' aux aux'). Qed.
Print Assumptions C63_aff_g_star.

Example C63_aff_g_star_case :
  aff_gs_verify toy_S (toyB 1 true 0) sg_pf1 ag_pub true = Ret true /\
  aff_gs_verify toy_S (toyB 1 true 0) sg_pf1 ag_pub false = Ret true.
Proof. vm_compute; split; reflexivity. Qed.

(** Decryption: key, ciphertexts, points, setup and context.  The number of
    parties and the keys the two ciphertexts are held under are not hashed. *)
Theorem C63_dec (S : sparams) (C : curve) (A : Type) (X : xof A (pt C)) pf pub pub' setup setup' aux aux' :
  dec_verify S X pf pub setup aux = Ret true -> dec_verify S X pf pub' setup' aux' = Ret true ->
  (dp_pk0 pub, ct_val (dp_cap_k pub), dp_cap_x pub, ct_val (dp_cap_d pub), dp_cap_s pub, dp_cap_g pub, setup, aux) <>
  (dp_pk0 pub', ct_val (dp_cap_k pub'), dp_cap_x pub', ct_val (dp_cap_d pub'), dp_cap_s pub', dp_cap_g pub', setup', aux') ->
  collision (fun t => x_bits X Tdec t (Z.to_nat (sp_kappa S)))
    [IL (map (fun c => IL [IZ (dc_a c); IP (dc_b c); IP (dc_c c)]) (dg_coms pf)); IZ (dp_pk0 pub); IZ (ct_val (dp_cap_k pub));
     IP (dp_cap_x pub); IZ (ct_val (dp_cap_d pub)); IP (dp_cap_s pub); IP (dp_cap_g pub); setup_item setup; IA aux]
    [IL (map (fun c => IL [IZ (dc_a c); IP (dc_b c); IP (dc_c c)]) (dg_coms pf)); IZ (dp_pk0 pub'); IZ (ct_val (dp_cap_k pub'));
     IP (dp_cap_x pub'); IZ (ct_val (dp_cap_d pub')); IP (dp_cap_s pub'); IP (dp_cap_g pub'); setup_item setup'; IA aux'].
Proof. exact (dec_binding S C A X pf pub pub' setup setup' aux aux'). Qed.
Print Assumptions C63_dec.

Example C63_dec_case :
  dec_verify toy_S (toyB 1 true 0) dg_pf1 dg_pub toy_rp true = Ret true /\
  dec_verify toy_S (toyB 1 true 0) dg_pf1 dg_pub toy_rp false = Ret true.
Proof. vm_compute; split; reflexivity. Qed.

