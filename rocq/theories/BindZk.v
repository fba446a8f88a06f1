(** * One proof, two contexts: lemmas for property C63 (integer layer). *)
From Coq Require Import ZArith List Lia Bool.
From Verif Require Import Base BaseFacts EncodingModel SignedModel SignedProofs PaillierModel ZkBase ZkModel ZkSpec ZkFacts ElogModel ZkLemmas BindSpec.
Import ListNotations.
Open Scope Z_scope.

Lemma check_true b k : check b k = Ret true -> b = true.
Proof. destruct b; [reflexivity|discriminate]. Qed.

Lemma oassert_true b (k : unit -> outcome bool) : Base.obind (oassert b) k = Ret true -> b = true /\ k tt = Ret true.
Proof. destruct b; cbn; [auto|discriminate]. Qed.

Lemma setup_item_inj {A T} s s' : @setup_item A T s = setup_item s' -> s = s'.
Proof. destruct s, s'. unfold setup_item. cbn. congruence. Qed.

Lemma ciphertext_eq c c' : ct_pk c = ct_pk c' -> ct_val c = ct_val c' -> c = c'.
Proof. destruct c, c'. cbn. congruence. Qed.

Section Bind.
Variables (S : sparams) (C : curve) (A : Type) (X : xof A (pt C)).

Lemma elog_binding pf pub pub' aux aux' :
  elog_verify C A X pf pub aux = true -> elog_verify C A X pf pub' aux' = true -> (pub, aux) <> (pub', aux') ->
  collision (x_scalar X Telog)
    [IP (el_a pf); IP (el_n pf); IP (el_b pf);
     IP (elp_l pub); IP (elp_m pub); IP (elp_x pub); IP (elp_y pub); IP (elp_h pub); IA aux]
    [IP (el_a pf); IP (el_n pf); IP (el_b pf);
     IP (elp_l pub'); IP (elp_m pub'); IP (elp_x pub'); IP (elp_y pub'); IP (elp_h pub'); IA aux'].
Proof.
  unfold elog_verify, elog_challenge. intros H H' D. split.
  - intros E. apply D. destruct pub, pub'. cbn in E. congruence.
  - destruct (x_scalar X Telog [IP (el_a pf); IP (el_n pf); IP (el_b pf);
     IP (elp_l pub); IP (elp_m pub); IP (elp_x pub); IP (elp_y pub); IP (elp_h pub); IA aux] =? el_e pf) eqn:E; [|discriminate H].
    destruct (x_scalar X Telog [IP (el_a pf); IP (el_n pf); IP (el_b pf);
     IP (elp_l pub'); IP (elp_m pub'); IP (elp_x pub'); IP (elp_y pub'); IP (elp_h pub'); IA aux'] =? el_e pf) eqn:E'; [|discriminate H'].
    apply Z.eqb_eq in E, E'. congruence.
Qed.

Lemma prm_binding pf setup setup' aux aux' :
  prm_verify S X pf setup aux = Ret true -> prm_verify S X pf setup' aux' = Ret true -> (setup, aux) <> (setup', aux') ->
  collision (fun t => x_bits X Tprm t (sp_secbits S))
    [IL (map IZ (prm_commitment pf)); setup_item setup; IA aux]
    [IL (map IZ (prm_commitment pf)); setup_item setup'; IA aux'].
Proof.
  unfold prm_verify, prm_challenge_of. cbv zeta. intros H H' D.
  apply check_true in H, H'. apply bits_eqb_eq in H, H'. split; [|congruence].
  intros E. apply D. destruct setup, setup'. unfold setup_item in E. cbn in *. congruence.
Qed.

Lemma mod_binding pf N N' aux aux' :
  mod_verify S X pf N aux = Ret true -> mod_verify S X pf N' aux' = Ret true -> (N, aux) <> (N', aux') ->
  collision (fun tN => x_residues X Tmod (fst tN) (snd tN) (sp_secbits S))
    ([IZ N; IZ (mod_commitment pf); IA aux], N) ([IZ N'; IZ (mod_commitment pf); IA aux'], N').
Proof.
  unfold mod_verify, mod_challenge_of. cbv zeta. intros H H' D.
  apply check_true in H, H'. apply zs_eqb_eq in H, H'. split; [|cbn; congruence].
  intros E. apply D. congruence.
Qed.

Lemma xof_range_inj w e h h' x : 0 < e < w -> 0 <= h < 2 ^ e -> 0 <= h' < 2 ^ e ->
  pub_from_xof_range w e h = Ret x -> pub_from_xof_range w e h' = Ret x -> h = h'.
Proof.
  intros He Hh Hh' E E'.
  destruct (xof_range_spec w e h He Hh) as (y & Y & _ & _ & V).
  destruct (xof_range_spec w e h' He Hh') as (y' & Y' & _ & _ & V').
  rewrite E in Y. rewrite E' in Y'. injection Y as <-. injection Y' as <-. lia.
Qed.

Lemma fac_binding pf N0 N0' setup setup' aux aux' : good_params S -> xof_ok (sp_q S) X ->
  fac_verify S X pf N0 setup aux = Ret true -> fac_verify S X pf N0' setup' aux' = Ret true ->
  (N0, setup, aux) <> (N0', setup', aux') ->
  collision (fun t => x_uint X Tfac t (sp_l S))
    [IZ (fac_p pf); IZ (fac_q pf); IZ (fac_a pf); IZ (fac_b pf); IZ (fac_t pf); IZ N0; setup_item setup; IA aux]
    [IZ (fac_p pf); IZ (fac_q pf); IZ (fac_a pf); IZ (fac_b pf); IZ (fac_t pf); IZ N0'; setup_item setup'; IA aux'].
Proof.
  intros G XO. unfold fac_verify, fac_challenge. intros H H' D. split.
  - intros E. apply D. destruct setup, setup'. unfold setup_item in E. cbn in *. congruence.
  - match type of H with Base.obind ?a _ = _ => destruct a as [e|] eqn:E; [|discriminate H] end.
    match type of H' with Base.obind ?a _ = _ => destruct a as [e'|] eqn:E'; [|discriminate H'] end.
    cbn [Base.obind] in H, H'. apply check_true in H, H'. apply s_eqb_eq in H, H'. subst.
    pose proof (good_ok S G) as [Hp _ Hw _ _ _ Hk Hl He Hlp Hm _]. destruct Hp.
    eapply xof_range_inj; [| | |exact E|exact E']; try (apply (xo_uint _ _ XO); lia); lia.
Qed.

Lemma enc_elg_binding pf pub pub' setup setup' aux aux' :
  enc_elg_verify S X pf pub setup aux = Ret true -> enc_elg_verify S X pf pub' setup' aux' = Ret true ->
  (pub, setup, aux) <> (pub', setup', aux') ->
  collision (x_scalar X Tenc_elg)
    [IZ (ee_s pf); IZ (ee_d pf); IP (ee_y pf); IP (ee_z pf); IZ (ee_t pf); IZ (ep_pk0 pub); IZ (ct_val (ep_cap_c pub));
     IP (ep_cap_a pub); IP (ep_cap_b pub); IP (ep_cap_x pub); setup_item setup; IA aux]
    [IZ (ee_s pf); IZ (ee_d pf); IP (ee_y pf); IP (ee_z pf); IZ (ee_t pf); IZ (ep_pk0 pub'); IZ (ct_val (ep_cap_c pub'));
     IP (ep_cap_a pub'); IP (ep_cap_b pub'); IP (ep_cap_x pub'); setup_item setup'; IA aux'].
Proof.
  unfold enc_elg_verify, enc_elg_challenge. cbv zeta. intros H H' D.
  apply oassert_true in H as [K H], H' as [K' H']. apply Z.eqb_eq in K, K'.
  apply check_true in H, H'. apply Z.eqb_eq in H, H'. split; [|congruence].
  intros E. apply D.
  destruct pub as [? [] ? ? ?], pub' as [? [] ? ? ?], setup, setup'. unfold setup_item in E. cbn in *. congruence.
Qed.

Lemma aff_g_binding pf pub pub' setup setup' aux aux' :
  aff_g_verify S X pf pub setup aux = Ret true -> aff_g_verify S X pf pub' setup' aux' = Ret true ->
  (pub, setup, aux) <> (pub', setup', aux') ->
  collision (x_scalar X Taff_g)
    [IZ (ag_a pf); IP (ag_bx pf); IZ (ag_by pf); IZ (ag_ce pf); IZ (ag_f pf); IZ (ag_s pf); IZ (ag_t pf);
     IZ (ap_pk0 pub); IZ (ap_pk1 pub); IZ (ct_val (ap_cap_c pub)); IZ (ct_val (ap_cap_d pub)); IZ (ct_val (ap_cap_y pub));
     IP (ap_cap_x pub); setup_item setup; IA aux]
    [IZ (ag_a pf); IP (ag_bx pf); IZ (ag_by pf); IZ (ag_ce pf); IZ (ag_f pf); IZ (ag_s pf); IZ (ag_t pf);
     IZ (ap_pk0 pub'); IZ (ap_pk1 pub'); IZ (ct_val (ap_cap_c pub')); IZ (ct_val (ap_cap_d pub')); IZ (ct_val (ap_cap_y pub'));
     IP (ap_cap_x pub'); setup_item setup'; IA aux'].
Proof.
  unfold aff_g_verify, aff_g_challenge. cbv zeta. intros H H' D.
  apply oassert_true in H as [K1 H], H' as [K1' H'].
  apply oassert_true in H as [K2 H], H' as [K2' H'].
  apply oassert_true in H as [K3 H], H' as [K3' H']. apply Z.eqb_eq in K1, K2, K3, K1', K2', K3'.
  apply check_true in H, H'. apply Z.eqb_eq in H, H'. split; [|congruence].
  intros E. apply D.
  destruct pub as [? ? [] [] [] ?], pub' as [? ? [] [] [] ?], setup, setup'. unfold setup_item in E. cbn in *. congruence.
Qed.

Lemma aff_gs_binding pf pub pub' aux aux' :
  aff_gs_verify S X pf pub aux = Ret true -> aff_gs_verify S X pf pub' aux' = Ret true ->
  (pub, aux) <> (pub', aux') ->
  collision (fun t => x_bits X Taff_g_star t (Z.to_nat (sp_kappa S)))
    [IL (map (fun c => IL [IZ (sc_a c); IP (sc_r c); IZ (sc_b c)]) (sg_coms pf)); IZ (ap_pk0 pub); IZ (ap_pk1 pub);
     IZ (ct_val (ap_cap_c pub)); IZ (ct_val (ap_cap_d pub)); IZ (ct_val (ap_cap_y pub)); IP (ap_cap_x pub); IA aux]
    [IL (map (fun c => IL [IZ (sc_a c); IP (sc_r c); IZ (sc_b c)]) (sg_coms pf)); IZ (ap_pk0 pub'); IZ (ap_pk1 pub');
     IZ (ct_val (ap_cap_c pub')); IZ (ct_val (ap_cap_d pub')); IZ (ct_val (ap_cap_y pub')); IP (ap_cap_x pub'); IA aux'].
Proof.
  unfold aff_gs_verify, aff_gs_challenge. cbv zeta. intros H H' D.
  apply oassert_true in H as [K1 H], H' as [K1' H'].
  apply oassert_true in H as [K2 H], H' as [K2' H'].
  apply oassert_true in H as [K3 H], H' as [K3' H']. apply Z.eqb_eq in K1, K2, K3, K1', K2', K3'.
  apply check_true in H, H'. apply bits_eqb_eq in H, H'. split.
  - intros E. apply D.
    destruct pub as [? ? [] [] [] ?], pub' as [? ? [] [] [] ?]. cbn in *. congruence.
  - etransitivity; [exact H|symmetry; exact H'].
Qed.

Lemma dec_binding pf pub pub' setup setup' aux aux' :
  dec_verify S X pf pub setup aux = Ret true -> dec_verify S X pf pub' setup' aux' = Ret true ->
  (dp_pk0 pub, ct_val (dp_cap_k pub), dp_cap_x pub, ct_val (dp_cap_d pub), dp_cap_s pub, dp_cap_g pub, setup, aux) <>
  (dp_pk0 pub', ct_val (dp_cap_k pub'), dp_cap_x pub', ct_val (dp_cap_d pub'), dp_cap_s pub', dp_cap_g pub', setup', aux') ->
  collision (fun t => x_bits X Tdec t (Z.to_nat (sp_kappa S)))
    [IL (map (fun c => IL [IZ (dc_a c); IP (dc_b c); IP (dc_c c)]) (dg_coms pf)); IZ (dp_pk0 pub); IZ (ct_val (dp_cap_k pub));
     IP (dp_cap_x pub); IZ (ct_val (dp_cap_d pub)); IP (dp_cap_s pub); IP (dp_cap_g pub); setup_item setup; IA aux]
    [IL (map (fun c => IL [IZ (dc_a c); IP (dc_b c); IP (dc_c c)]) (dg_coms pf)); IZ (dp_pk0 pub'); IZ (ct_val (dp_cap_k pub'));
     IP (dp_cap_x pub'); IZ (ct_val (dp_cap_d pub')); IP (dp_cap_s pub'); IP (dp_cap_g pub'); setup_item setup'; IA aux'].
Proof.
  unfold dec_verify, dec_challenge. cbv zeta. intros H H' D.
  apply check_true in H, H'. apply bits_eqb_eq in H, H'. split.
  - intros E. apply D. destruct setup, setup'. unfold setup_item in E. cbn in *. congruence.
  - etransitivity; [exact H|symmetry; exact H'].
Qed.

End Bind.
