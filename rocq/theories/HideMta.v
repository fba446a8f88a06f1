(** * Masked products hide the sender's factor: proofs for property C75. *)
From mathcomp Require Import eqtype.
From Coq Require Import ZArith Znumtheory List Bool Lia.
From Verif Require Import Base BaseFacts SignedModel SignedSpec SignedProofs ModArith PaillierModel PaillierSpec
  PaillierProofs RnsProofs RpProofs PaillierLemmas ZkBase ZkModel ZkSpec ZkFacts ZkExtract ElogModel AffGProofs ZkLemmas
  HideSpec HideInt.
From Verif Require Import AlgBase ProtoBase AuxGenModel SigningModel MtaSpec MtaProofs HideMtaSpec.
Open Scope Z_scope.

Section Hide.
Variables (S : sparams) (C : curve) (I HO : eqType).
Notation item := (hitem HO I (pt C)).
Notation P := (sp_pail S).
Notation w := (uint_w (sp_pail S)).
Notation q := (sp_q S).
Hypothesis HG : good_params S.
Hypothesis HC : curve_ok (sp_q S) C.
Let HS : sp_ok S.
Proof. exact (good_ok S HG). Qed.

Lemma product_bound k x : pm_interval (sp_l S + sp_eps S) k -> pm_interval (sp_l S) x ->
  Z.abs (k * x) <= 2 ^ (product_width S - 1).
Proof.
  intros Hk Hx. unfold pm_interval in *.
  assert (E : 2 ^ (product_width S - 1) = 2 ^ (sp_l S + sp_eps S - 1) * 2 ^ (sp_l S - 1)).
  { unfold product_width. rewrite <- Z.pow_add_r by (destruct HS; lia). f_equal. lia. }
  rewrite E, Z.abs_mul. apply Z.mul_le_mono_nonneg; lia.
Qed.

Lemma width_ok : 0 < product_width S <= sp_lp S.
Proof. unfold product_width. destruct HS; lia. Qed.

Section Run.
Variables (X : xof (list item) (pt C)) (sk : skey) (N0 N1 : Z) (rp : rpparams) (aux : list item).
Variables (x : signed) (xv : Z) (cap_x : pt C) (k rho_k ck r : Z) (aff : aff_g_rand).
Hypotheses (HX : xof_ok q X) (HK : key_of S sk N0) (HN1 : modulus_ok S N1) (Hrp : setup_ok S rp).
Hypotheses (Hx : secret_of S (sp_l S) x xv) (Hcx : cap_x = pmul C xv (gen C)).
Hypotheses (Hk : pm_interval (sp_l S + sp_eps S) k) (Hrk : unit_ok N0 rho_k) (Hck : paillier_cipher N0 k rho_k ck).
Hypothesis HR : other_draws S N0 N1 (rp_n rp) r aff.

Let HN0 : modulus_ok S N0.
Proof. apply (key_pk S HG sk N0 HK). Qed.

Lemma product_value bs : mask_draw S N0 bs -> exists m,
  sg_mta S X N1 N0 rp aux x cap_x (Ct N0 ck) (MtaRand (fst bs) r (snd bs) aff) = Ret m /\
  mt_d m = Ct N0 (encv N0 (k * xv - mask (sp_lp S) (fst bs)) ((zpow N0 rho_k xv * snd bs) mod N0)).
Proof.
  intros [Hb [Hs Hsg]]. destruct HR as [R1 R2 R3 R4].
  assert (Hr : mta_rand_ok S N0 N1 (rp_n rp) (MtaRand (fst bs) r (snd bs) aff)).
  { constructor; cbn [mr_beta mr_r mr_s mr_aff]; auto. split; [lia|exact Hsg]. }
  destruct (mta_run S C I HO HG HC X N0 N1 rp aux x xv cap_x k rho_k ck _ HX HN0 HN1 Hrp Hx Hcx Hrk Hck Hr)
    as (m & E & _ & _ & _ & Ed & _ & _ & _ & _ & _ & AC & _).
  exists m. split; [exact E|]. cbn [mr_beta mr_s] in AC.
  assert (Hu : unit_ok N0 ck) by (eapply (cipher_gcd N0); [apply HN0|apply Hrk|exact Hck]).
  rewrite (cipher_affv N0 ck xv _ _ _ (proj1 HN0) (proj2 Hu) Ed AC). f_equal.
  apply encv_textbook in Hck; [|apply HN0]. rewrite Hck. unfold affv.
  rewrite encv_zpow, encv_mul by (try apply HN0; apply Hrk). reflexivity.
Qed.

Lemma randomizer_unit s : unit_in N0 s -> unit_in N0 ((zpow N0 rho_k xv * s) mod N0).
Proof. apply masked_unit; [apply HN0|apply Hrk]. Qed.

Lemma product_small bs : mask_draw S N0 bs -> - N0 < 2 * (k * xv - mask (sp_lp S) (fst bs)) < N0.
Proof.
  intros [Hb _]. destruct HK as (p & t & HKp & _ & ->). apply (no_wrap S HG p t k); auto.
  - apply (pm_mono (sp_l S)); [destruct HS; lia|apply Hx].
  - apply (pm_mono (sp_lp S)); [destruct HS; lia|]. apply mask_interval; [destruct HS; lia|exact Hb].
Qed.

(** What the receiver gets out of the ciphertext. *)
Lemma product_opened m t : unit_in N0 t -> - N0 < 2 * m < N0 ->
  exists a, decrypt P sk (Ct N0 (encv N0 m t)) = Ret a /\ sval w a = m /\
    derive_randomizer P sk (Ct N0 (encv N0 m t)) = Ret t.
Proof.
  intros [Ht Hg] Hm. destruct HK as (p & u & HKp & Hsk & E).
  destruct (key_bounds S HG p u HKp) as (Bp & Br & _).
  pose proof (good_par S HG) as HP.
  pose proof (skey_new_inv P p u sk HP (proj1 HKp) (proj1 (proj2 HKp)) Bp Br Hsk) as HKK.
  rewrite E in *. destruct (decrypt_encv P p u sk HP HKK m t Hg) as (a & Ea & _ & Hc).
  exists a. split; [exact Ea|]. split; [now apply (centred_small P p u sk HP HKK)|].
  now apply (derive_encv P p u sk HP HKK).
Qed.

Lemma product_once d a : 0 <= d < N0 * N0 -> Z.gcd d N0 = 1 ->
  decrypt P sk (Ct N0 d) = Ret a -> share_inner S (sval w a) ->
  exists! bs, mask_draw S N0 bs /\ exists m,
    sg_mta S X N1 N0 rp aux x cap_x (Ct N0 ck) (MtaRand (fst bs) r (snd bs) aff) = Ret m /\ mt_d m = Ct N0 d.
Proof.
  intros Hd Hg Ea Hi.
  assert (Hrec : exists t, unit_in N0 t /\ d = encv N0 (sval w a) t).
  { destruct HK as (p & u & HKp & Hsk & E).
    destruct (key_bounds S HG p u HKp) as (Bp & Br & _).
    pose proof (good_par S HG) as HP.
    pose proof (skey_new_inv P p u sk HP (proj1 HKp) (proj1 (proj2 HKp)) Bp Br Hsk) as HKK.
    rewrite E in *. destruct (cipher_recovered P p u sk HP HKK d Hd Hg) as (m & t & Dm & _ & _ & Ht & Hgt & Ed).
    rewrite Ea in Dm. injection Dm as <-. exists t. split; [split; auto|exact Ed]. }
  destruct Hrec as (t & Ht & Ed).
  pose proof (product_bound k xv Hk (proj2 (proj2 (proj2 Hx)))) as HB. pose proof width_ok as HW.
  unfold share_inner, inner in Hi.
  assert (E2 : 2 ^ sp_lp S = 2 * 2 ^ (sp_lp S - 1)) by (rewrite <- Z.pow_succ_r by lia; f_equal; lia).
  exists (k * xv - sval w a + (2 ^ (sp_lp S - 1) - 1), (zpow N0 rho_k (- xv) * t) mod N0). split.
  - assert (Hbs : mask_draw S N0 (k * xv - sval w a + (2 ^ (sp_lp S - 1) - 1), (zpow N0 rho_k (- xv) * t) mod N0)).
    { split; cbn [fst snd]; [lia|]. apply masked_unit; [apply HN0|apply Hrk|exact Ht]. }
    split; [exact Hbs|]. destruct (product_value _ Hbs) as (m & Em & Dm). exists m. split; [exact Em|].
    rewrite Dm, Ed. cbn [fst snd]. rewrite masked_inv; [|apply HN0|apply Hrk|apply Ht].
    unfold mask. do 2 f_equal. lia.
  - intros [b s] (Hbs & m & Em & Dm). destruct (product_value _ Hbs) as (m' & Em' & Dm').
    rewrite Em in Em'. injection Em' as <-. rewrite Dm in Dm'. injection Dm' as Ed'.
    destruct (product_opened _ _ (randomizer_unit s (proj2 Hbs)) (product_small _ Hbs)) as (a' & Ea' & Va & Ra).
    cbn [fst snd] in *. rewrite <- Ed' in Ea', Ra. rewrite Ea in Ea'. injection Ea' as <-.
    assert (Et : t = (zpow N0 rho_k xv * s) mod N0).
    { assert (Hsm : - N0 < 2 * sval w a < N0) by (rewrite Va; exact (product_small (b, s) Hbs)).
      destruct (product_opened _ _ Ht Hsm) as (a2 & _ & _ & R2). rewrite <- Ed, Ra in R2. now injection R2. }
    f_equal.
    + rewrite Va. unfold mask. lia.
    + rewrite Et. rewrite <- (Z.opp_involutive xv) at 2. apply masked_inv; [apply HN0|apply Hrk|apply Hbs].
Qed.

Lemma product_inside bs : mask_draw S N0 bs -> mask_margin S (fst bs) -> exists m a,
  sg_mta S X N1 N0 rp aux x cap_x (Ct N0 ck) (MtaRand (fst bs) r (snd bs) aff) = Ret m /\
  ct_pk (mt_d m) = N0 /\ 0 <= ct_val (mt_d m) < N0 * N0 /\ Z.gcd (ct_val (mt_d m)) N0 = 1 /\
  decrypt P sk (mt_d m) = Ret a /\ share_inner S (sval w a).
Proof.
  intros Hbs Hm. destruct (product_value _ Hbs) as (m & Em & Dm).
  pose proof (randomizer_unit _ (proj2 Hbs)) as Hu.
  destruct (product_opened _ _ Hu (product_small _ Hbs)) as (a & Ea & Va & _).
  exists m, a. split; [exact Em|]. rewrite Dm. cbn [ct_pk ct_val]. split; [reflexivity|].
  split; [apply encv_range; destruct HN0; lia|]. split; [apply encv_gcd; [apply HN0|apply Hu]|].
  split; [exact Ea|]. rewrite Va.
  pose proof (product_bound k xv Hk (proj2 (proj2 (proj2 Hx)))) as HB. pose proof width_ok as HW.
  unfold share_inner, mask_margin, inner, margin, mask in *.
  assert (2 ^ sp_lp S = 2 * 2 ^ (sp_lp S - 1)) by (rewrite <- Z.pow_succ_r by lia; f_equal; lia).
  assert (2 ^ product_width S = 2 * 2 ^ (product_width S - 1)) by (rewrite <- Z.pow_succ_r by lia; f_equal; lia).
  lia.
Qed.
End Run.

(** Two factors: the draws for one and those for the other that give the same
    ciphertext belong together one to one. *)
Lemma product_two_factors (X : xof (list item) (pt C)) sk N0 N1 rp aux x xv cap_x x' xv' cap_x' k rho_k ck r aff r' aff' bs :
  xof_ok q X -> key_of S sk N0 -> modulus_ok S N1 -> setup_ok S rp ->
  secret_of S (sp_l S) x xv -> cap_x = pmul C xv (gen C) ->
  secret_of S (sp_l S) x' xv' -> cap_x' = pmul C xv' (gen C) ->
  pm_interval (sp_l S + sp_eps S) k -> unit_ok N0 rho_k -> paillier_cipher N0 k rho_k ck ->
  other_draws S N0 N1 (rp_n rp) r aff -> other_draws S N0 N1 (rp_n rp) r' aff' ->
  mask_draw S N0 bs -> mask_margin S (fst bs) ->
  exists m, sg_mta S X N1 N0 rp aux x cap_x (Ct N0 ck) (MtaRand (fst bs) r (snd bs) aff) = Ret m /\
  exists! bs', mask_draw S N0 bs' /\ exists m',
    sg_mta S X N1 N0 rp aux x' cap_x' (Ct N0 ck) (MtaRand (fst bs') r' (snd bs') aff') = Ret m' /\ mt_d m' = mt_d m.
Proof.
  intros HX HK HN1 Hrp Hx Hcx Hx' Hcx' Hk Hrk Hck HR HR' Hbs Hm.
  destruct (product_inside X sk N0 N1 rp aux x xv cap_x k rho_k ck r aff HX HK HN1 Hrp Hx Hcx Hk Hrk Hck HR bs Hbs Hm)
    as (m & a & Em & Ep & Hd & Hg & Ea & Hi).
  exists m. split; [exact Em|]. destruct (mt_d m) as [pd vd]. cbn [ct_pk ct_val] in *. subst pd.
  exact (product_once X sk N0 N1 rp aux x' xv' cap_x' k rho_k ck r' aff' HX HK HN1 Hrp Hx' Hcx' Hk Hrk Hck HR' vd a Hd Hg Ea Hi).
Qed.

Lemma margin_count : exists lo hi, (forall draw, mask_margin S draw <-> lo <= draw < hi) /\
  0 <= lo <= hi /\ hi <= 2 ^ sp_lp S /\ 2 ^ (sp_l S - 1) * (2 ^ sp_lp S - (hi - lo)) <= 2 ^ sp_lp S.
Proof.
  exists (2 ^ product_width S), (2 ^ sp_lp S - 2 ^ product_width S - 1). split; [reflexivity|].
  pose proof width_ok. assert (0 < 2 ^ product_width S) by (apply Z.pow_pos_nonneg; lia).
  assert (Hl : 2 <= 2 ^ (sp_l S - 1)) by (change 2 with (2 ^ 1) at 1; apply Z.pow_le_mono_r; destruct HS; lia).
  assert (E : 2 ^ (sp_l S - 1) * (4 * 2 ^ product_width S) <= 2 ^ sp_lp S).
  { change 4 with (2 ^ 2). rewrite <- !Z.pow_add_r by (destruct HS; lia). apply Z.pow_le_mono_r; [lia|].
    unfold product_width. destruct HS; lia. }
  set (a := 2 ^ product_width S) in *. set (b := 2 ^ (sp_l S - 1)) in *. set (c := 2 ^ sp_lp S) in *.
  replace (c - (c - a - 1 - a)) with (2 * a + 1) by lia. clear - E Hl H0. split; [nia|]. split; nia.
Qed.
End Hide.
