(** * An honest prover that is rejected (C41). *)
From Coq Require Import ZArith Znumtheory List Bool Lia.
From Verif Require Import Base SignedModel SignedSpec PaillierModel PaillierSpec ZkBase ZkModel ZkSpec ZkToy ZkTranscripts ZkLemmas.
Import ListNotations.
Open Scope Z_scope.

(** The largest positive response: [x = 1234], challenge 3, the largest mask. *)
Lemma honest_rejected : exists S C (X : xof unit (pt C)) sec (pub : enc_elg_public C) setup rnd pf x,
  good_params S /\ curve_ok (sp_q S) C /\ xof_ok (sp_q S) X /\ secret_of S (sp_l S) (es_x sec) x /\
  modulus_ok S (ep_pk0 pub) /\ unit_ok (ep_pk0 pub) (es_rho sec) /\ ct_pk (ep_cap_c pub) = ep_pk0 pub /\
  paillier_cipher (ep_pk0 pub) x (es_rho sec) (ct_val (ep_cap_c pub)) /\
  ep_cap_b pub = pmul C (es_b sec) (gen C) /\
  ep_cap_x pub = padd C (pmul C (es_b sec) (ep_cap_a pub)) (pmul C x (gen C)) /\
  setup_ok S setup /\ enc_elg_rand_ok S (ep_pk0 pub) (rp_n setup) rnd /\
  enc_elg_new S X sec pub setup tt rnd = Ret pf /\ enc_elg_verify S X pf pub setup tt = Ret false.
Proof.
  set (sec := EncElgSecret (mkS 21 1234) 1 3).
  set (rnd := EncElgRand (2 ^ 45 - 1) 5 1 2 7).
  assert (Hr : enc_elg_rand_ok toy_S toy_N0 toy_N1 rnd) by (split; toy_case).
  assert (H : exists pf r, enc_elg_new toy_S (toyX 3 true 0) sec ee_pub toy_rp tt rnd = Ret pf /\
    enc_elg_verify toy_S (toyX 3 true 0) pf ee_pub toy_rp tt = Ret r /\ 0 <= ee_e pf < 7 /\
    (r = true <-> pm_interval (sp_l toy_S + sp_eps toy_S) (mask (sp_l toy_S + sp_eps toy_S) (er_alpha rnd) + 1234 * ee_e pf))).
  { apply (enc_elg_honest toy_S toyC unit toy_S_ok (zq_curve_ok 7)).
    all: lazymatch goal with |- enc_elg_rand_ok _ _ _ _ => exact Hr | |- _ => subst sec rnd; clear; toy_case end. }
  destruct H as (pf & r & E1 & E2 & He & Hiff).
  assert (E3 : ee_e pf = 3 \/ r = false).
  { destruct r; auto. left. unfold enc_elg_verify in E2.
    change (ct_pk (ep_cap_c ee_pub) =? ep_pk0 ee_pub) with true in E2.
    cbn [oassert obind] in E2. unfold enc_elg_challenge in E2.
    change (x_scalar (toyX 3 true 0) Tenc_elg _) with 3 in E2.
    destruct (Z.eqb_spec 3 (ee_e pf)); auto; discriminate. }
  assert (Er : r = false).
  { destruct E3 as [E3|]; auto. destruct r; auto. exfalso.
    destruct Hiff as [Hiff _]. specialize (Hiff eq_refl). rewrite E3 in Hiff.
    revert Hiff. subst rnd. clear. unfold pm_interval. vm_compute. intros [_ H]. now apply H. }
  subst r.
  exists toy_S, toyC, (toyX 3 true 0), sec, ee_pub, toy_rp, rnd, pf, 1234.
  split; [exact toy_S_ok|]. split; [toy_case|]. split; [toy_case|].
  do 8 (split; [subst sec rnd; clear; toy_case|]). split; [exact Hr|]. split; assumption.
Qed.
