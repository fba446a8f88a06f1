(** * Property C75: a masked product hides the sender's factor.

    In round 2 of signing a signer sends each peer an encryption, under the
    peer's key, of the product of the peer's [k] and the signer's gamma or key
    share, minus a mask.  The peer holds the decryption key and knows [k].  Take
    any ciphertext whose decryption is in the inner interval of HideMtaSpec.v,
    which depends on the parameters only: the signer sends it for exactly one
    mask and randomizer, whatever their factor is. *)
From mathcomp Require Import eqtype ssrnat.
From Coq Require Import ZArith Znumtheory List Bool Lia.
From Verif Require Import Base SignedModel SignedSpec PaillierModel PaillierSpec ZkBase ZkModel ZkSpec ZkFacts ZkToy ZkTranscripts HideSpec.
From Verif Require Import ProtoBase AuxGenModel SigningModel MtaSpec MtaProofs PropsMta HideMtaSpec HideMta.
Open Scope Z_scope.

Theorem C75_sent_once : forall S C (I HO : eqType), good_params S -> curve_ok (sp_q S) C ->
  forall (X : xof (list (hitem HO I (pt C))) (pt C)) sk N0 N1 rp aux x xv cap_x k rho_k ck r aff,
  xof_ok (sp_q S) X -> key_of S sk N0 -> modulus_ok S N1 -> setup_ok S rp ->
  secret_of S (sp_l S) x xv -> cap_x = pmul C xv (gen C) ->
  pm_interval (sp_l S + sp_eps S) k -> unit_ok N0 rho_k -> paillier_cipher N0 k rho_k ck ->
  other_draws S N0 N1 (rp_n rp) r aff ->
  forall d a, 0 <= d < N0 * N0 -> Z.gcd d N0 = 1 ->
  decrypt (sp_pail S) sk (Ct N0 d) = Ret a -> share_inner S (sval (uint_w (sp_pail S)) a) ->
  exists! bs, mask_draw S N0 bs /\ exists m,
    sg_mta S X N1 N0 rp aux x cap_x (Ct N0 ck) (MtaRand (fst bs) r (snd bs) aff) = Ret m /\ mt_d m = Ct N0 d.
Proof. exact product_once. Qed.
Print Assumptions C75_sent_once.

(** Unless the mask is drawn next to the ends, what is sent is such a
    ciphertext. *)
Theorem C75_mostly_inner : forall S C (I HO : eqType), good_params S -> curve_ok (sp_q S) C ->
  forall (X : xof (list (hitem HO I (pt C))) (pt C)) sk N0 N1 rp aux x xv cap_x k rho_k ck r aff,
  xof_ok (sp_q S) X -> key_of S sk N0 -> modulus_ok S N1 -> setup_ok S rp ->
  secret_of S (sp_l S) x xv -> cap_x = pmul C xv (gen C) ->
  pm_interval (sp_l S + sp_eps S) k -> unit_ok N0 rho_k -> paillier_cipher N0 k rho_k ck ->
  other_draws S N0 N1 (rp_n rp) r aff ->
  forall bs, mask_draw S N0 bs -> mask_margin S (fst bs) -> exists m a,
  sg_mta S X N1 N0 rp aux x cap_x (Ct N0 ck) (MtaRand (fst bs) r (snd bs) aff) = Ret m /\
  ct_pk (mt_d m) = N0 /\ 0 <= ct_val (mt_d m) < N0 * N0 /\ Z.gcd (ct_val (mt_d m)) N0 = 1 /\
  decrypt (sp_pail S) sk (mt_d m) = Ret a /\ share_inner S (sval (uint_w (sp_pail S)) a).
Proof. exact product_inside. Qed.
Print Assumptions C75_mostly_inner.

(** The draws next to the ends: at most one in [2^(l-1)]. *)
Theorem C75_margin : forall S, good_params S ->
  exists lo hi, (forall draw, mask_margin S draw <-> lo <= draw < hi) /\
  0 <= lo <= hi /\ hi <= 2 ^ sp_lp S /\ 2 ^ (sp_l S - 1) * (2 ^ sp_lp S - (hi - lo)) <= 2 ^ sp_lp S.
Proof. exact margin_count. Qed.
Print Assumptions C75_margin.

(** So a peer cannot tell two factors apart: to each way of arriving at a
    ciphertext with one factor belongs exactly one with the other. *)
Theorem C75_two_factors : forall S C (I HO : eqType), good_params S -> curve_ok (sp_q S) C ->
  forall (X : xof (list (hitem HO I (pt C))) (pt C)) sk N0 N1 rp aux x xv cap_x x' xv' cap_x' k rho_k ck r aff r' aff' bs,
  xof_ok (sp_q S) X -> key_of S sk N0 -> modulus_ok S N1 -> setup_ok S rp ->
  secret_of S (sp_l S) x xv -> cap_x = pmul C xv (gen C) ->
  secret_of S (sp_l S) x' xv' -> cap_x' = pmul C xv' (gen C) ->
  pm_interval (sp_l S + sp_eps S) k -> unit_ok N0 rho_k -> paillier_cipher N0 k rho_k ck ->
  other_draws S N0 N1 (rp_n rp) r aff -> other_draws S N0 N1 (rp_n rp) r' aff' ->
  mask_draw S N0 bs -> mask_margin S (fst bs) ->
  exists m, sg_mta S X N1 N0 rp aux x cap_x (Ct N0 ck) (MtaRand (fst bs) r (snd bs) aff) = Ret m /\
  exists! bs', mask_draw S N0 bs' /\ exists m',
    sg_mta S X N1 N0 rp aux x' cap_x' (Ct N0 ck) (MtaRand (fst bs') r' (snd bs') aff') = Ret m' /\ mt_d m' = mt_d m.
Proof. exact product_two_factors. Qed.
Print Assumptions C75_two_factors.

(** The values of C53's case: [k = 987654], the factors 777777 and 54321, and a
    mask inside the margin. *)
Lemma hm_other : other_draws toy_S toy_N0 toy_N1 (rp_n toy_rp) (mr_r mta_case_rnd) (mr_aff mta_case_rnd).
Proof.
  assert (H : aff_g_rand_ok toy_S toy_N0 toy_N1 (rp_n toy_rp) (mr_aff mta_case_rnd)) by (split; toy_case).
  split; [toy_case|exact H|unfold safe_draw; toy_case|unfold safe_draw; toy_case].
Qed.
Lemma hm_draw : mask_draw toy_S toy_N0 (mr_beta mta_case_rnd, mr_s mta_case_rnd) /\ mask_margin toy_S (mr_beta mta_case_rnd).
Proof. split; [split; [toy_case|split; toy_case]|unfold mask_margin, margin; toy_case]. Qed.
Notation hmX := (@const_xof (list (hitem nat_eqType nat_eqType (pt toyC))) (pt toyC) 1 true 0).
Example C75_case : exists m,
  sg_mta toy_S hmX toy_N1 toy_N0 toy_rp nil (mkS 20 777777) (pmul toyC 777777 (gen toyC))
    (Ct toy_N0 mta_case_c) mta_case_rnd = Ret m /\
  exists! bs', mask_draw toy_S toy_N0 bs' /\ exists m',
    sg_mta toy_S hmX toy_N1 toy_N0 toy_rp nil (mkS 20 54321) (pmul toyC 54321 (gen toyC))
      (Ct toy_N0 mta_case_c) (MtaRand (fst bs') (mr_r mta_case_rnd) (snd bs') (mr_aff mta_case_rnd)) = Ret m' /\
    mt_d m' = mt_d m.
Proof.
  assert (H : exists sk, key_of toy_S sk toy_N0)
    by (eexists; exists toy_p0, toy_q0; split; [exact toy_keygen0|split; vm_compute; reflexivity]).
  destruct H as [sk K].
  apply (C75_two_factors toy_S toyC nat_eqType nat_eqType toy_S_ok (zq_curve_ok 7) hmX sk toy_N0 toy_N1 toy_rp nil
    (mkS 20 777777) 777777 _ (mkS 20 54321) 54321 _ 987654 5 mta_case_c (mr_r mta_case_rnd) (mr_aff mta_case_rnd)
    (mr_r mta_case_rnd) (mr_aff mta_case_rnd) (mr_beta mta_case_rnd, mr_s mta_case_rnd)).
  all: first [exact K | exact hm_other | exact (proj1 hm_draw) | exact (proj2 hm_draw) | reflexivity
    | apply const_xof_ok; toy_case | toy_case].
Qed.

(** What is sent for the first factor is an inner ciphertext, and for the second
    factor it is sent exactly once. *)
Example C75_sent_once_case : exists sk d a, key_of toy_S sk toy_N0 /\ 0 <= d < toy_N0 * toy_N0 /\
  decrypt (sp_pail toy_S) sk (Ct toy_N0 d) = Ret a /\ share_inner toy_S (sval (uint_w (sp_pail toy_S)) a) /\
  exists! bs, mask_draw toy_S toy_N0 bs /\ exists m,
    sg_mta toy_S hmX toy_N1 toy_N0 toy_rp nil (mkS 20 54321) (pmul toyC 54321 (gen toyC))
      (Ct toy_N0 mta_case_c) (MtaRand (fst bs) (mr_r mta_case_rnd) (snd bs) (mr_aff mta_case_rnd)) = Ret m /\ mt_d m = Ct toy_N0 d.
Proof.
  assert (H : exists sk, key_of toy_S sk toy_N0)
    by (eexists; exists toy_p0, toy_q0; split; [exact toy_keygen0|split; vm_compute; reflexivity]).
  destruct H as [sk K].
  destruct (C75_mostly_inner toy_S toyC nat_eqType nat_eqType toy_S_ok (zq_curve_ok 7) hmX sk toy_N0 toy_N1 toy_rp nil
    (mkS 20 777777) 777777 (pmul toyC 777777 (gen toyC)) 987654 5 mta_case_c (mr_r mta_case_rnd) (mr_aff mta_case_rnd))
    with (bs := (mr_beta mta_case_rnd, mr_s mta_case_rnd)) as (m & a & _ & Ep & Hd & Hg & Ea & Hi).
  1-12: first [exact K | exact hm_other | exact (proj1 hm_draw) | exact (proj2 hm_draw) | reflexivity
    | apply const_xof_ok; toy_case | toy_case].
  exists sk, (ct_val (mt_d m)), a. destruct (mt_d m) as [pd d]. cbn [ct_pk ct_val] in *. subst pd.
  split; [exact K|]. split; [exact Hd|]. split; [exact Ea|]. split; [exact Hi|].
  apply (C75_sent_once toy_S toyC nat_eqType nat_eqType toy_S_ok (zq_curve_ok 7) hmX sk toy_N0 toy_N1 toy_rp nil
    (mkS 20 54321) 54321 (pmul toyC 54321 (gen toyC)) 987654 5 mta_case_c (mr_r mta_case_rnd) (mr_aff mta_case_rnd)) with (a := a).
  all: first [exact K | exact hm_other | exact Hd | exact Hg | exact Ea | exact Hi | reflexivity
    | apply const_xof_ok; toy_case | toy_case].
Qed.

(** Some draws are excluded, most are not. *)
Example C75_margin_case : mask_margin toy_S (2 ^ 80) /\ ~ mask_margin toy_S (2 ^ 20) /\
  ~ mask_margin toy_S (2 ^ sp_lp toy_S - 1).
Proof.
  unfold mask_margin, margin. split; [toy_case|]. split; intros [H1 H2].
  - apply H1. toy_case.
  - revert H2. toy_case.
Qed.
