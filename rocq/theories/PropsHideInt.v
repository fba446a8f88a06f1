(** * Property C70: the setup-less proofs of the error rounds reveal nothing.

    The proofs about decryption and affine operations that the error rounds of
    signing publish ([src/zk/dec.rs], [src/zk/aff_g_star.rs]) contain integers: a
    mask plus a secret.  For a true statement, the accepted proofs with all
    answers in the inner interval of HideSpec.v (which depends on the parameters,
    not on the secrets) are exactly those the honest prover outputs, each for
    exactly one list of draws.  And unless one of its draws is among the
    [2^(k+1) + 1] out of [2^(k+epsilon)] next to the ends, the honest prover's
    answers are inner. *)
From Coq Require Import ZArith Znumtheory List Bool Lia.
From Verif Require Import Base SignedModel SignedSpec PaillierModel PaillierSpec RsaFacts PaillierProofs PaillierLemmas PropsPaillier
  ZkBase ZkModel ZkSpec ZkFacts ZkToy ZkTranscripts ZkLemmas PropsZk2 HideSpec HideInt.
Import ListNotations.
Open Scope Z_scope.

Theorem C70_dec : forall S C A, good_params S -> curve_ok (sp_q S) C ->
  forall (X : xof A (pt C)) sec (pub : dec_public C) setup aux x y pf,
  xof_ok (sp_q S) X -> secret_of S (sp_l S) (ds_x sec) x ->
  let N := dp_pk0 pub in
  let n := dp_num_parties pub in
  2 <= n < 2 ^ 64 -> wf (uint_w (sp_pail S)) (ds_y sec) -> sval (uint_w (sp_pail S)) (ds_y sec) = y -> pm_interval (dec_y_exp S n) y ->
  modulus_ok S N -> unit_ok N (ds_rho sec) ->
  ct_pk (dp_cap_k pub) = N -> ct_pk (dp_cap_d pub) = N -> unit_ok N (ct_val (dp_cap_k pub)) ->
  affine_cipher N (ct_val (dp_cap_k pub)) (- x) y (ds_rho sec) (ct_val (dp_cap_d pub)) ->
  dp_cap_x pub = pmul C x (gen C) -> dp_cap_s pub = pmul C y (dp_cap_g pub) ->
  Forall (dec_inner S N n (bound (ds_x sec)) (bound (ds_y sec))) (combine (combine (dg_e pf) (dg_coms pf)) (dg_elems pf)) ->
  length (dg_e pf) = Z.to_nat (sp_kappa S) -> length (dg_coms pf) = Z.to_nat (sp_kappa S) ->
  length (dg_elems pf) = Z.to_nat (sp_kappa S) ->
  (dec_verify S X pf pub setup aux = Ret true <->
   exists! rnds, (length rnds = Z.to_nat (sp_kappa S) /\ Forall (dec_draw S N n) rnds) /\
     dec_new S X sec pub setup aux rnds = Ret pf).
Proof. exact (fun S C A HG => dec_hides S C A (good_ok S HG)). Qed.
Print Assumptions C70_dec.

Theorem C70_dec_inner : forall S C A, good_params S -> curve_ok (sp_q S) C ->
  forall (X : xof A (pt C)) sec (pub : dec_public C) setup aux rnds x y,
  xof_ok (sp_q S) X -> secret_of S (sp_l S) (ds_x sec) x ->
  let N := dp_pk0 pub in
  let n := dp_num_parties pub in
  2 <= n < 2 ^ 64 -> wf (uint_w (sp_pail S)) (ds_y sec) -> sval (uint_w (sp_pail S)) (ds_y sec) = y -> pm_interval (dec_y_exp S n) y ->
  modulus_ok S N -> unit_ok N (ds_rho sec) ->
  ct_pk (dp_cap_k pub) = N -> ct_pk (dp_cap_d pub) = N -> unit_ok N (ct_val (dp_cap_k pub)) ->
  affine_cipher N (ct_val (dp_cap_k pub)) (- x) y (ds_rho sec) (ct_val (dp_cap_d pub)) ->
  dp_cap_x pub = pmul C x (gen C) -> dp_cap_s pub = pmul C y (dp_cap_g pub) ->
  length rnds = Z.to_nat (sp_kappa S) -> Forall (dec_draw S N n) rnds -> Forall (dec_margin S n) rnds ->
  exists pf, dec_new S X sec pub setup aux rnds = Ret pf /\ dec_verify S X pf pub setup aux = Ret true /\
    Forall (dec_inner S N n (bound (ds_x sec)) (bound (ds_y sec))) (combine (combine (dg_e pf) (dg_coms pf)) (dg_elems pf)) /\
    length (dg_e pf) = Z.to_nat (sp_kappa S) /\ length (dg_coms pf) = Z.to_nat (sp_kappa S) /\
    length (dg_elems pf) = Z.to_nat (sp_kappa S).
Proof. exact (fun S C A HG => dec_inner_honest S C A (good_ok S HG)). Qed.
Print Assumptions C70_dec_inner.

(** Three parties, [x = 900], [y = -2^80], all challenge bits set, draws up to
    the margin. *)
Definition hd_rnds : list dec_rand := [DecRand (2 ^ 44) (2 ^ 137) 1; DecRand (2 ^ 21) (2 ^ 137) 1; DecRand (2 ^ 44) (2 ^ 136) 1].
Lemma hd_rnds_ok : Forall (dec_draw toy_S toy_N0 3) hd_rnds /\ Forall (dec_margin toy_S 3) hd_rnds.
Proof.
  unfold hd_rnds. split; repeat (apply Forall_cons; [|]); try apply Forall_nil.
  1-3: split; [split; toy_case|toy_case].
  all: unfold dec_margin, margin; toy_case.
Qed.
Example C70_dec_case : exists pf,
  dec_new toy_S (toyX 1 true 0) dg_sec dg_pub toy_rp tt hd_rnds = Ret pf /\
  dec_verify toy_S (toyX 1 true 0) pf dg_pub toy_rp tt = Ret true /\
  exists! rnds, (length rnds = 3%nat /\ Forall (dec_draw toy_S toy_N0 3) rnds) /\
    dec_new toy_S (toyX 1 true 0) dg_sec dg_pub toy_rp tt rnds = Ret pf.
Proof.
  destruct (C70_dec_inner toy_S toyC unit toy_S_ok (zq_curve_ok 7) (toyX 1 true 0) dg_sec dg_pub toy_rp tt hd_rnds
    900 (- 2 ^ 80)) as (pf & E & V & I & L1 & L2 & L3).
  all: first [exact (proj1 hd_rnds_ok) | exact (proj2 hd_rnds_ok) | idtac].
  all: lazymatch goal with |- ex _ => idtac | |- _ => toy_case end.
  exists pf. split; [exact E|]. split; [exact V|].
  apply (C70_dec toy_S toyC unit toy_S_ok (zq_curve_ok 7) (toyX 1 true 0) dg_sec dg_pub toy_rp tt 900 (- 2 ^ 80) pf).
  all: first [exact I | exact L1 | exact L2 | exact L3 | exact V | toy_case].
Qed.

Theorem C70_aff_gs : forall S C A, good_params S -> curve_ok (sp_q S) C ->
  forall (X : xof A (pt C)) sec (pub : aff_g_public C) aux x y pf,
  xof_ok (sp_q S) X -> secret_of S (sp_l S) (ss_x sec) x -> secret_of S (sp_lp S) (ss_y sec) y ->
  let N0 := ap_pk0 pub in
  let N1 := ap_pk1 pub in
  modulus_ok S N0 -> modulus_ok S N1 -> unit_ok N0 (ss_rho sec) -> unit_ok N1 (ss_mu sec) ->
  ct_pk (ap_cap_c pub) = N0 -> ct_pk (ap_cap_d pub) = N0 -> ct_pk (ap_cap_y pub) = N1 ->
  unit_ok N0 (ct_val (ap_cap_c pub)) ->
  affine_cipher N0 (ct_val (ap_cap_c pub)) x (- y) (ss_rho sec) (ct_val (ap_cap_d pub)) ->
  paillier_cipher N1 y (ss_mu sec) (ct_val (ap_cap_y pub)) ->
  ap_cap_x pub = pmul C x (gen C) ->
  Forall (aff_gs_inner S N0 N1 (bound (ss_x sec)) (bound (ss_y sec))) (combine (combine (sg_e pf) (sg_coms pf)) (sg_elems pf)) ->
  length (sg_e pf) = Z.to_nat (sp_kappa S) -> length (sg_coms pf) = Z.to_nat (sp_kappa S) ->
  length (sg_elems pf) = Z.to_nat (sp_kappa S) ->
  (aff_gs_verify S X pf pub aux = Ret true <->
   exists! rnds, (length rnds = Z.to_nat (sp_kappa S) /\ Forall (aff_gs_draw S N0 N1) rnds) /\
     aff_gs_new S X sec pub aux rnds = Ret pf).
Proof. exact (fun S C A HG => aff_gs_hides S C A (good_ok S HG)). Qed.
Print Assumptions C70_aff_gs.

Theorem C70_aff_gs_inner : forall S C A, good_params S -> curve_ok (sp_q S) C ->
  forall (X : xof A (pt C)) sec (pub : aff_g_public C) aux rnds x y,
  xof_ok (sp_q S) X -> secret_of S (sp_l S) (ss_x sec) x -> secret_of S (sp_lp S) (ss_y sec) y ->
  let N0 := ap_pk0 pub in
  let N1 := ap_pk1 pub in
  modulus_ok S N0 -> modulus_ok S N1 -> unit_ok N0 (ss_rho sec) -> unit_ok N1 (ss_mu sec) ->
  ct_pk (ap_cap_c pub) = N0 -> ct_pk (ap_cap_d pub) = N0 -> ct_pk (ap_cap_y pub) = N1 ->
  unit_ok N0 (ct_val (ap_cap_c pub)) ->
  affine_cipher N0 (ct_val (ap_cap_c pub)) x (- y) (ss_rho sec) (ct_val (ap_cap_d pub)) ->
  paillier_cipher N1 y (ss_mu sec) (ct_val (ap_cap_y pub)) ->
  ap_cap_x pub = pmul C x (gen C) ->
  length rnds = Z.to_nat (sp_kappa S) -> Forall (aff_gs_draw S N0 N1) rnds -> Forall (aff_gs_margin S) rnds ->
  exists pf, aff_gs_new S X sec pub aux rnds = Ret pf /\ aff_gs_verify S X pf pub aux = Ret true /\
    Forall (aff_gs_inner S N0 N1 (bound (ss_x sec)) (bound (ss_y sec))) (combine (combine (sg_e pf) (sg_coms pf)) (sg_elems pf)) /\
    length (sg_e pf) = Z.to_nat (sp_kappa S) /\ length (sg_coms pf) = Z.to_nat (sp_kappa S) /\
    length (sg_elems pf) = Z.to_nat (sp_kappa S).
Proof. exact (fun S C A HG => aff_gs_inner_honest S C A (good_ok S HG)). Qed.
Print Assumptions C70_aff_gs_inner.

(** The draws of C39's case are far from the ends. *)
Lemma hs_rnds_ok : Forall (aff_gs_draw toy_S toy_N0 toy_N1) sg_rnds /\ Forall (aff_gs_margin toy_S) sg_rnds.
Proof.
  unfold sg_rnds. split; repeat (apply Forall_cons; [|]); try apply Forall_nil.
  1-3: split; [split; toy_case|split; toy_case].
  all: unfold aff_gs_margin, margin; toy_case.
Qed.
Example C70_aff_gs_case : exists pf,
  aff_gs_new toy_S (toyX 1 true 0) sg_sec ag_pub tt sg_rnds = Ret pf /\
  aff_gs_verify toy_S (toyX 1 true 0) pf ag_pub tt = Ret true /\
  exists! rnds, (length rnds = 3%nat /\ Forall (aff_gs_draw toy_S toy_N0 toy_N1) rnds) /\
    aff_gs_new toy_S (toyX 1 true 0) sg_sec ag_pub tt rnds = Ret pf.
Proof.
  destruct (C70_aff_gs_inner toy_S toyC unit toy_S_ok (zq_curve_ok 7) (toyX 1 true 0) sg_sec ag_pub tt sg_rnds
    (-1500) (2 ^ 60 + 12345)) as (pf & E & V & I & L1 & L2 & L3).
  all: first [exact (proj1 hs_rnds_ok) | exact (proj2 hs_rnds_ok) | idtac].
  all: lazymatch goal with |- ex _ => idtac | |- _ => toy_case end.
  exists pf. split; [exact E|]. split; [exact V|].
  apply (C70_aff_gs toy_S toyC unit toy_S_ok (zq_curve_ok 7) (toyX 1 true 0) sg_sec ag_pub tt (-1500) (2 ^ 60 + 12345) pf).
  all: first [exact I | exact L1 | exact L2 | exact L3 | exact V | toy_case].
Qed.
