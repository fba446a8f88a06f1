(** * Model of src/protocols/interactive_signing.rs and src/curve/ecdsa.rs.
    Definitions only.

    Scalars are integers in [0, q) (a received scalar is in that range: decoding
    rejects others, curve/arithmetic.rs), points are those of an arbitrary curve
    [C].  Maps are entry lists in key order ([BTreeMap]); a map inside a message
    is the decoded [SerializableMap].  The six maps a round keeps per peer with
    the same keys ([betas], [rs], [ss], [cap_ds], [cap_fs], [psis]) are one map
    of records. *)
From Coq Require Import ZArith.
From Verif Require Import Base EncodingModel SignedModel ConversionModel PaillierModel ZkBase ZkModel ElogModel.
From mathcomp Require Import all_ssreflect.
From Verif Require Import AlgBase ProtoBase AuxGenModel.
Set Implicit Arguments.
Unset Strict Implicit.
Unset Printing Implicit Defensive.

(** [iter.map(f).collect()] for a computation that may fail with any of the
    outcomes of [receive_message]. *)
Fixpoint mapV {E A B : Type} (f : A -> recv E B) (l : seq A) : recv E (seq B) :=
  if l is a :: l' then b <!- f a ;; bs <!- mapV f l' ;; Accept (b :: bs) else Accept [::].
(** The same inside evidence verification. *)
Fixpoint mapE {A B : Type} (f : A -> evid B) (l : seq A) : evid (seq B) :=
  if l is a :: l' then b <%- f a ;; bs <%- mapE f l' ;; EvOk (b :: bs) else EvOk [::].

(** [for item in iter { result = result + item }] on ciphertexts
    (protocol_shortcuts.rs:139-166). *)
Fixpoint ct_sum (acc : ciphertext) (l : seq ciphertext) : outcome ciphertext :=
  if l is c :: l' then Base.obind (homomorphic_add acc c) (fun r => ct_sum r l') else Ret acc.
(** protocol_shortcuts.rs:139-166 [sum_non_empty], [sum_non_empty_ref]: the
    empty sum is an error, here [None]. *)
Definition sum_non_empty (l : seq ciphertext) : option (outcome ciphertext) :=
  if l is c :: l' then Some (ct_sum c l') else None.

Section Signing.
Variables (S : sparams) (C : curve) (I : eqType) (le : rel I) (HO : eqType).
Notation item := (hitem HO I (pt C)).
Notation P := (sp_pail S).
Notation q := (sp_q S).
Notation w := (uint_w (sp_pail S)).
(** The hash as in [AuxGenModel].  [xcoord] is [Point::x_coordinate]
    (curve/arithmetic.rs:250-255), the x coordinate reduced modulo the order;
    [lift_x id r] the point a recovery id and an r value stand for (the ecdsa
    crate).  [positional]: whether the wire format identifies the fields of a
    structure by position only, so that the structures of rounds 5 and 6 decode
    as one another. *)
Variables (H : dst -> seq item -> HO) (X : xof (seq item) (pt C)) (scheme : seq item).
Variables (xcoord : pt C -> Z) (lift_x : nat -> Z -> option (pt C)) (positional : bool).

(** curve/arithmetic.rs:474-517: [iter.sum()] for points and scalars. *)
Definition sum_pts (l : seq (pt C)) : pt C := foldl (padd C) (p0 C) l.
Definition sum_scs (l : seq Z) : Z := foldl (fun a b => (a + b) mod q)%Z 0%Z l.

(** conversion.rs:145-157 at these parameters *)
Definition secret_signed_of (s : Z) : outcome signed :=
  secret_signed_from_scalar q (sp_num_bits S) (sp_slen S) (sp_L S) s.
(** curve/arithmetic.rs [from_reduced_bytes]: big-endian, reduced. *)
Definition scalar_of_bytes (b : seq Z) : Z := (be_value b mod q)%Z.

(** ** Signature assembly (curve/ecdsa.rs:31-48) *)

(** The backend's [verify_prehash]: the textbook check. *)
Definition ecdsa_verify (vk : pt C) (m r s : Z) : bool :=
  if inv_mod q s is Some si then
    let R := padd C (pmul C (m * si mod q)%Z (gen C)) (pmul C (r * si mod q)%Z vk) in
    (xcoord R =? r)%Z
  else false.
(** [Signature::normalize_s]: [is_high] means above [(q - 1) / 2]. *)
Definition normalize_s (s : Z) : Z := if ((q - 1) / 2 <? s)%Z then (q - s)%Z else s.
(** [VerifyingKey::recover_from_prehash]: the key for which [(r, s)] with nonce
    point [lift_x id r] is a signature; checked by verification. *)
Definition recover (id : nat) (m r s : Z) : option (pt C) :=
  if lift_x id r is Some R then
    if inv_mod q r is Some ri then
      let vk := padd C (popp C (pmul C (ri * m mod q)%Z (gen C))) (pmul C (ri * s mod q)%Z R) in
      if ~~ peqb C vk (p0 C) && ecdsa_verify vk m r s then Some vk else None
    else None
  else None.
Record signature := Signature { sig_r : Z; sig_s : Z; sig_id : nat }.
(** [RecoveryId::trial_recovery_from_prehash]: the first of the four ids that
    recovers the key. *)
Definition trial_recovery (vk : pt C) (m r s : Z) : option nat :=
  ohead [seq id <- iota 0 4 | if recover id m r s is Some v then peqb C v vk else false].
(** ecdsa.rs:31-48 [RecoverableSignature::from_scalars]; [from_scalars] of the
    backend refuses zero components, [from_affine] the point at infinity. *)
Definition from_scalars (r s : Z) (vk : pt C) (m : Z) : option signature :=
  if (r =? 0)%Z || (s =? 0)%Z then None else
  let s' := normalize_s s in
  if peqb C vk (p0 C) then None else
  if trial_recovery vk m r s' is Some id then Some (Signature r s' id) else None.

(** ** Inputs *)

(** entities/full.rs:22-33 [KeyShare], and 251-253: the verifying key is the
    sum of the public shares. *)
Record zshare := ZShare { zs_owner : I; zs_secret : Z; zs_public : seq (I * pt C) }.
Definition zs_vkey (k : zshare) : pt C := sum_pts (avals (zs_public k)).

(** interactive_signing.rs:206-239 [InteractiveSigningAssociatedData] *)
Record sg_assoc := SgAssoc {
  sa_shares : seq (I * pt C);
  sa_aux : seq (I * (Z * rpparams));
  sa_message : seq Z }.

(** interactive_signing.rs:241-261 [Epid::new]; maps are hashed as lists of
    entries, the two entities as serialized structures. *)
Definition sg_epid (randomness : seq Z) (a : sg_assoc) : HO :=
  H DEpid (scheme ++ [:: HBytes randomness;
    HSeq [seq HSeq [:: HId p.1; HPt p.2] | p <- sa_shares a];
    HSeq [seq HSeq [:: HId p.1; HNum p.2.1; h_rp C I HO p.2.2] | p <- sa_aux a]]).

(** interactive_signing.rs:917-959 [InteractiveSigning], [new] *)
Record sg_entry := SgEntry { se_share : zshare; se_aux : aux_info I; se_message : seq Z }.
Definition sg_new (message : seq Z) (k : zshare) (a : aux_info I) : result sg_entry :=
  if zs_owner k != ai_owner a then LocalErr else
  if akeys (zs_public k) != akeys (ai_public a) then LocalErr else
  Ok (SgEntry k a message).

(** entities/full.rs:353-374 [into_precomputed] on the public part; the secret
    key is held precomputed already. *)
Definition aux_precompute (l : seq (I * (Z * rpparams))) : outcome (seq (I * (Z * rpparams))) :=
  ZkModel.omap (fun p => Base.obind (public_key_new p.2.1) (fun n =>
    Base.obind (rp_pre p.2.2) (fun r => Ret (p.1, (n, r))))) l.

(** interactive_signing.rs:1051-1070 [Context] *)
Record sg_ctx := SgCtx {
  sx_msg : Z;
  sx_epid : HO;
  sx_id : I;
  sx_others : seq I;
  sx_all : seq I;
  sx_share : zshare;
  sx_sk : skey;
  sx_aux : seq (I * (Z * rpparams));
  sx_k : Z; sx_gamma : Z; sx_a : Z; sx_b : Z;
  sx_rho : Z; sx_nu : Z }.
Notation sx_pk c := (sk_pk (sx_sk c)).
(** The context of every proof: [(&epid, id)]. *)
Definition sg_aux (c : sg_ctx) (id : I) : seq item := [:: HOut (sx_epid c); HId id].

(** interactive_signing.rs:1096-1106 [Round1EchoBroadcast] *)
Record r1eb := R1EB {
  e1_k : Z; e1_g : Z; e1_y : pt C; e1_a1 : pt C; e1_a2 : pt C; e1_b1 : pt C; e1_b2 : pt C }.
(** interactive_signing.rs:1115-1123 [Round1Payload] *)
Record r1pl := R1Pl {
  l1_k : ciphertext; l1_y : pt C; l1_a1 : pt C; l1_a2 : pt C; l1_b1 : pt C; l1_b2 : pt C }.

(** The draws of [make_round]. *)
Record sg_rand1 := SgRand1 {
  g1_k : Z; g1_gamma : Z; g1_nu : Z; g1_rho : Z; g1_y : Z; g1_a : Z; g1_b : Z }.
(** interactive_signing.rs:968-1048 *)
Definition sg_start (randomness : seq Z) (id : I) (e : sg_entry) (r : sg_rand1) : result (sg_ctx * r1eb) :=
  let ks := se_share e in
  let ai := se_aux e in
  if (id != zs_owner ks) || (id != ai_owner ai) then LocalErr else
  let all := akeys (zs_public ks) in
  let epid := sg_epid randomness (SgAssoc (zs_public ks) (ai_public ai) (se_message e)) in
  aux <?- of_o (aux_precompute (ai_public ai)) ;;
  let pk := sk_pk (ai_sk ai) in
  gs <?- of_o (secret_signed_of (g1_gamma r)) ;;
  cap_g <?- of_o (enc P pk gs (g1_nu r)) ;;
  ks' <?- of_o (secret_signed_of (g1_k r)) ;;
  cap_k <?- of_o (enc P pk ks' (g1_rho r)) ;;
  let cap_y := pmul C (g1_y r) (gen C) in
  Ok (SgCtx (scalar_of_bytes (se_message e)) epid id (without all id) all ks (ai_sk ai) aux
        (g1_k r) (g1_gamma r) (g1_a r) (g1_b r) (g1_rho r) (g1_nu r),
      R1EB (ct_val cap_k) (ct_val cap_g) cap_y
        (pmul C (g1_a r) (gen C)) (padd C (pmul C (g1_a r) cap_y) (pmul C (g1_k r) (gen C)))
        (pmul C (g1_b r) (gen C)) (padd C (pmul C (g1_b r) cap_y) (pmul C (g1_gamma r) (gen C)))).

(** interactive_signing.rs:160-195 *)
Inductive sg_error :=
| R1EncElg0Failed | R1EncElg1Failed
| R2WrongIdsD | R2WrongIdsF | R2WrongIdsPsi
| R2AffGPsiFailed (failed_for : I) | R2AffGHatPsiFailed (failed_for : I) | R2ElogFailed
| R3ElogFailed
| R4InvalidSignatureShare
| R5DecFailed | R5WrongIdsPsi | R5AffGStarFailed (failed_for : I)
| R6DecFailed | R6WrongIdsPsi | R6AffGStarFailed (failed_for : I).

(** ** Messages *)

(** interactive_signing.rs:1470-1478 and 1480-1486 *)
Record r2nb := R2NB {
  n2_ds : seq (I * Z); n2_hat_ds : seq (I * Z); n2_elog : elog_proof C;
  n2_psis : seq (I * aff_g_proof C); n2_hat_psis : seq (I * aff_g_proof C) }.
Record r2eb := R2EB { e2_gamma : pt C; e2_fs : seq (I * Z); e2_hat_fs : seq (I * Z) }.
(** interactive_signing.rs:1830-1836 *)
Record r3nb := R3NB { n3_delta : pt C; n3_psi : elog_proof C; n3_s : pt C }.
(** interactive_signing.rs:2096-2101 and 2314-2319 *)
Record r56eb := R56EB { e5_dec : dec_proof C; e5_psis : seq (I * aff_gs_proof C) }.

Inductive sg_wire :=
| S1EB (e : r1eb) | S1DM (psi0 psi1 : enc_elg_proof C)
| S2NB (n : r2nb) | S2EB (e : r2eb)
| S3EB (delta : Z) | S3NB (n : r3nb)
| S4NB (sigma : Z)
| S5EB (e : r56eb) | S6EB (e : r56eb)
| SJunk.
Notation msg := (message sg_wire).
Definition as_1eb (x : sg_wire) : option r1eb := if x is S1EB e then Some e else None.
Definition as_1dm (x : sg_wire) : option (enc_elg_proof C * enc_elg_proof C) :=
  if x is S1DM a b then Some (a, b) else None.
Definition as_2nb (x : sg_wire) : option r2nb := if x is S2NB e then Some e else None.
Definition as_2eb (x : sg_wire) : option r2eb := if x is S2EB e then Some e else None.
Definition as_3eb (x : sg_wire) : option Z := if x is S3EB e then Some e else None.
Definition as_3nb (x : sg_wire) : option r3nb := if x is S3NB e then Some e else None.
Definition as_4nb (x : sg_wire) : option Z := if x is S4NB e then Some e else None.
Definition as_5eb (x : sg_wire) : option r56eb :=
  match x with S5EB e => Some e | S6EB e => if positional then Some e else None | _ => None end.
Definition as_6eb (x : sg_wire) : option r56eb :=
  match x with S6EB e => Some e | S5EB e => if positional then Some e else None | _ => None end.

(** ** Round 1 *)

(** What the two proofs of round 1 are about. *)
Definition elg0_public (pk : Z) (e : r1eb) : enc_elg_public C :=
  EncElgPublic pk (ct_to_precomputed pk (e1_k e)) (e1_y e) (e1_a1 e) (e1_a2 e).
Definition elg1_public (pk : Z) (e : r1eb) : enc_elg_public C :=
  EncElgPublic pk (ct_to_precomputed pk (e1_g e)) (e1_y e) (e1_b1 e) (e1_b2 e).

(** interactive_signing.rs:1136-1205 (echo broadcast and, per destination, the
    direct message); [rnd] are the draws of the two proofs. *)
Definition sg_send1 (c : sg_ctx) (e : r1eb) (dest : I) (rnd : enc_elg_rand * enc_elg_rand) : recv sg_error msg :=
  let pk := sx_pk c in
  a <!- safe_get (sx_aux c) dest ;;
  k <!- lift_o (secret_signed_of (sx_k c)) ;;
  psi0 <!- lift_o (enc_elg_new S X (EncElgSecret k (sx_rho c) (sx_a c)) (elg0_public pk e) a.2 (sg_aux c (sx_id c)) rnd.1) ;;
  g <!- lift_o (secret_signed_of (sx_gamma c)) ;;
  psi1 <!- lift_o (enc_elg_new S X (EncElgSecret g (sx_nu c) (sx_b c)) (elg1_public pk e) a.2 (sg_aux c (sx_id c)) rnd.2) ;;
  Accept (Msg (Some (S1DM psi0 psi1)) (Some (S1EB e)) None).

Definition r1_payload (pk : Z) (e : r1eb) : r1pl :=
  R1Pl (ct_to_precomputed pk (e1_k e)) (e1_y e) (e1_a1 e) (e1_a2 e) (e1_b1 e) (e1_b2 e).
(** interactive_signing.rs:1207-1263 *)
Definition sg_recv1 (c : sg_ctx) (from : I) (m : msg) : recv sg_error r1pl :=
  _ <!- assert_none BadNormal (m_normal m) ;;
  dm <!- deser BadDirect as_1dm (m_direct m) ;;
  eb <!- deser BadEcho as_1eb (m_echo m) ;;
  mine <!- safe_get (sx_aux c) (sx_id c) ;;
  theirs <!- safe_get (sx_aux c) from ;;
  let pk := theirs.1 in
  ok <!- lift_o (enc_elg_verify S X dm.1 (elg0_public pk eb) mine.2 (sg_aux c from)) ;;
  _ <!- require ok R1EncElg0Failed ;;
  ok' <!- lift_o (enc_elg_verify S X dm.2 (elg1_public pk eb) mine.2 (sg_aux c from)) ;;
  _ <!- require ok' R1EncElg1Failed ;;
  Accept (r1_payload pk eb).

(** The draws for one masked product and its proof. *)
Record mta_rand := MtaRand { mr_beta : Z; mr_r : Z; mr_s : Z; mr_aff : aff_g_rand }.
Record mta := Mta { mt_beta : signed; mt_r : Z; mt_s : Z; mt_d : ciphertext; mt_f : ciphertext; mt_psi : aff_g_proof C }.
(** interactive_signing.rs:1361-1388 and, with the key share in place of gamma,
    1392-1417: the masked product of [x] with the value encrypted in [cap_k]. *)
Definition sg_mta (pk target : Z) (rp : rpparams) (aux : seq item) (x : signed) (cap_x : pt C)
    (cap_k : ciphertext) (rnd : mta_rand) : outcome mta :=
  Base.obind (sec_random_range w (sp_lp S) (mr_beta rnd)) (fun beta =>
  Base.obind (enc P pk beta (mr_r rnd)) (fun f =>
  Base.obind (homomorphic_mul_sec w cap_k x) (fun kx =>
  Base.obind (enc P target (sec_neg w beta) (mr_s rnd)) (fun nb =>
  Base.obind (homomorphic_add kx nb) (fun d =>
  Base.obind (aff_g_new S X (AffGSecret x beta (mr_s rnd) (mr_r rnd)) (AffGPublic target pk cap_k d f cap_x)
                rp aux (mr_aff rnd)) (fun psi =>
  Ret (Mta beta (mr_r rnd) (mr_s rnd) d f psi))))))).

(** interactive_signing.rs:1449-1468 [Round2] *)
Record sg_round2 := SgRound2 {
  s2_ctx : sg_ctx;
  s2_mta : seq (I * mta);
  s2_hat : seq (I * mta);
  s2_r1 : seq (I * r1pl);
  s2_cap_k : ciphertext;
  s2_gamma : pt C;
  s2_elog : elog_proof C }.
(** The draws of [Round1::finalize]. *)
Record sg_rand2 := SgRand2 { g2_alpha : Z; g2_m : Z; g2_mta : I -> mta_rand; g2_hat : I -> mta_rand }.
(** interactive_signing.rs:1265-1446 *)
Definition sg_finalize1 (c : sg_ctx) (e : r1eb) (rnd : sg_rand2) (payloads : seq (I * r1pl)) : recv sg_error sg_round2 :=
  let pk := sx_pk c in
  let r1 := binsert le payloads (sx_id c) (r1_payload pk e) in
  let cap_gamma := pmul C (sx_gamma c) (gen C) in
  let aux := sg_aux c (sx_id c) in
  let elog := elog_new q C _ X (ElogSecret (sx_gamma c) (sx_b c))
                (ElogPublic (e1_b1 e) (e1_b2 e) (e1_y e) cap_gamma (gen C)) aux (g2_alpha rnd) (g2_m rnd) in
  gamma <!- lift_o (secret_signed_of (sx_gamma c)) ;;
  x <!- lift_o (secret_signed_of (zs_secret (sx_share c))) ;;
  cap_x <!- safe_get (zs_public (sx_share c)) (sx_id c) ;;
  ms <!- mapV (fun id =>
      a <!- safe_get (sx_aux c) id ;;
      pl <!- safe_get r1 id ;;
      t <!- lift_o (sg_mta pk a.1 a.2 aux gamma cap_gamma (l1_k pl) (g2_mta rnd id)) ;;
      h <!- lift_o (sg_mta pk a.1 a.2 aux x cap_x (l1_k pl) (g2_hat rnd id)) ;;
      Accept (id, (t, h))) (sx_others c) ;;
  Accept (SgRound2 c [seq (p.1, p.2.1) | p <- ms] [seq (p.1, p.2.2) | p <- ms] r1
            (ct_to_precomputed pk (e1_k e)) cap_gamma elog).

(** ** Round 2 *)

(** interactive_signing.rs:1509-1539 *)
Definition sg_send2 (s : sg_round2) : msg :=
  Msg None
    (Some (S2EB (R2EB (s2_gamma s) [seq (p.1, ct_val (mt_f p.2)) | p <- s2_mta s]
                                   [seq (p.1, ct_val (mt_f p.2)) | p <- s2_hat s])))
    (Some (S2NB (R2NB [seq (p.1, ct_val (mt_d p.2)) | p <- s2_mta s] [seq (p.1, ct_val (mt_d p.2)) | p <- s2_hat s]
                      (s2_elog s)
                      [seq (p.1, mt_psi p.2) | p <- s2_mta s] [seq (p.1, mt_psi p.2) | p <- s2_hat s]))).

(** interactive_signing.rs:1488-1496 [Round2Payload]; the [D] and [F] maps have
    the same keys. *)
Record r2pl := R2Pl {
  l2_gamma : pt C; l2_alpha : Z; l2_hat_alpha : Z;
  l2_df : seq (I * (ciphertext * ciphertext)); l2_hat_df : seq (I * (ciphertext * ciphertext)) }.

(** interactive_signing.rs:1574-1602 and 1604-1640: the loop over one family of
    proofs; [get_x] is the point the proofs are about. *)
Definition sg_check_psis (s : sg_round2) (from : I) (from_pk : Z) (ds fs : seq (I * Z)) (get_x : recv sg_error (pt C))
    (err : I -> sg_error) (psis : seq (I * aff_g_proof C)) : recv sg_error (seq (I * (ciphertext * ciphertext))) :=
  let c := s2_ctx s in
  mapV (fun p =>
    a <!- safe_get (sx_aux c) p.1 ;;
    pl <!- safe_get (s2_r1 s) p.1 ;;
    d <!- safe_get ds p.1 ;;
    f <!- safe_get fs p.1 ;;
    cap_x <!- get_x ;;
    let cap_d := ct_to_precomputed a.1 d in
    let cap_f := ct_to_precomputed from_pk f in
    ok <!- lift_o (aff_g_verify S X p.2 (AffGPublic a.1 from_pk (l1_k pl) cap_d cap_f cap_x) a.2 (sg_aux c from)) ;;
    _ <!- require ok (err p.1) ;;
    Accept (p.1, (cap_d, cap_f))) psis.

(** interactive_signing.rs:1541-1674 *)
Definition sg_recv2 (s : sg_round2) (from : I) (m : msg) : recv sg_error r2pl :=
  let c := s2_ctx s in
  eb <!- deser BadEcho as_2eb (m_echo m) ;;
  nb <!- deser BadNormal as_2nb (m_normal m) ;;
  _ <!- assert_none BadDirect (m_direct m) ;;
  theirs <!- safe_get (sx_aux c) from ;;
  let from_pk := theirs.1 in
  let expected := without (sx_all c) from in
  _ <!- require (akeys (n2_ds nb) == expected) R2WrongIdsD ;;
  _ <!- require (akeys (e2_fs eb) == expected) R2WrongIdsF ;;
  _ <!- require (akeys (n2_psis nb) == expected) R2WrongIdsPsi ;;
  sender <!- safe_get (s2_r1 s) from ;;
  df <!- sg_check_psis s from from_pk (n2_ds nb) (e2_fs eb) (Accept (e2_gamma eb)) R2AffGPsiFailed (n2_psis nb) ;;
  hat_df <!- sg_check_psis s from from_pk (n2_hat_ds nb) (e2_hat_fs eb) (safe_get (zs_public (sx_share c)) from)
               R2AffGHatPsiFailed (n2_hat_psis nb) ;;
  _ <!- require (elog_verify C _ X (n2_elog nb)
          (ElogPublic (l1_b1 sender) (l1_b2 sender) (l1_y sender) (e2_gamma eb) (gen C)) (sg_aux c from)) R2ElogFailed ;;
  mine <!- safe_get df (sx_id c) ;;
  alpha <!- lift_o (decrypt P (sx_sk c) mine.1) ;;
  hat_mine <!- safe_get hat_df (sx_id c) ;;
  hat_alpha <!- lift_o (decrypt P (sx_sk c) hat_mine.1) ;;
  al <!- lift_o (scalar_of_secret S alpha) ;;
  hal <!- lift_o (scalar_of_secret S hat_alpha) ;;
  Accept (R2Pl (e2_gamma eb) al hal df hat_df).

(** interactive_signing.rs:1802-1822 [Round3].  The matrices are keyed by
    (created for, created by). *)
Record sg_round3 := SgRound3 {
  s3_ctx : sg_ctx;
  s3_cap_k : ciphertext;
  s3_gamma : pt C;
  s3_chi : Z;
  s3_r1 : seq (I * r1pl);
  s3_gammas : seq (I * pt C);
  s3_df : seq ((I * I) * (ciphertext * ciphertext));
  s3_hat_df : seq ((I * I) * (ciphertext * ciphertext));
  s3_delta : Z;
  s3_nb : r3nb;
  s3_mta : seq (I * mta);
  s3_hat : seq (I * mta) }.
(** interactive_signing.rs:1731-1775: the keys of own entries and those of the
    payloads are distinct, so insertion is concatenation. *)
Definition df_matrix (my : I) (own : seq (I * mta)) (pls : seq (I * seq (I * (ciphertext * ciphertext))))
    : seq ((I * I) * (ciphertext * ciphertext)) :=
  [seq ((p.1, my), (mt_d p.2, mt_f p.2)) | p <- own]
  ++ flatten [seq [seq ((e.1, p.1), e.2) | e <- p.2] | p <- pls].
(** interactive_signing.rs:1676-1799; [alpha], [m] are the draws of the
    proof. *)
Definition sg_finalize2 (s : sg_round2) (rnd : Z * Z) (payloads : seq (I * r2pl)) : recv sg_error sg_round3 :=
  let c := s2_ctx s in
  let my := sx_id c in
  let gammas := binsert le [seq (p.1, l2_gamma p.2) | p <- payloads] my (s2_gamma s) in
  let gamma := sum_pts (avals gammas) in
  let cap_delta := pmul C (sx_k c) gamma in
  betas <!- lift_o (ZkModel.omap (fun p => scalar_of_secret S (mt_beta p.2)) (s2_mta s)) ;;
  let delta := ((sx_gamma c * sx_k c + sum_scs [seq l2_alpha p.2 | p <- payloads] + sum_scs betas) mod q)%Z in
  hat_betas <!- lift_o (ZkModel.omap (fun p => scalar_of_secret S (mt_beta p.2)) (s2_hat s)) ;;
  let chi := ((zs_secret (sx_share c) * sx_k c + sum_scs [seq l2_hat_alpha p.2 | p <- payloads] + sum_scs hat_betas) mod q)%Z in
  let cap_s := pmul C chi gamma in
  own <!- safe_get (s2_r1 s) my ;;
  let psi := elog_new q C _ X (ElogSecret (sx_k c) (sx_a c))
               (ElogPublic (l1_a1 own) (l1_a2 own) (l1_y own) cap_delta gamma) (sg_aux c my) rnd.1 rnd.2 in
  Accept (SgRound3 c (s2_cap_k s) gamma chi (s2_r1 s) gammas
            (df_matrix my (s2_mta s) [seq (p.1, l2_df p.2) | p <- payloads])
            (df_matrix my (s2_hat s) [seq (p.1, l2_hat_df p.2) | p <- payloads])
            delta (R3NB cap_delta psi cap_s) (s2_mta s) (s2_hat s)).

(** ** Round 3 *)

(** interactive_signing.rs:1855-1869 *)
Definition sg_send3 (s : sg_round3) : msg := Msg None (Some (S3EB (s3_delta s))) (Some (S3NB (s3_nb s))).

(** interactive_signing.rs:1838-1842 [Round3Payload] *)
Record r3pl := R3Pl { l3_delta : Z; l3_cap_delta : pt C; l3_cap_s : pt C }.
(** interactive_signing.rs:1871-1904 *)
Definition sg_recv3 (s : sg_round3) (from : I) (m : msg) : recv sg_error r3pl :=
  let c := s3_ctx s in
  _ <!- assert_none BadDirect (m_direct m) ;;
  delta <!- deser BadEcho as_3eb (m_echo m) ;;
  nb <!- deser BadNormal as_3nb (m_normal m) ;;
  pl <!- safe_get (s3_r1 s) from ;;
  _ <!- require (elog_verify C _ X (n3_psi nb)
          (ElogPublic (l1_a1 pl) (l1_a2 pl) (l1_y pl) (n3_delta nb) (s3_gamma s)) (sg_aux c from)) R3ElogFailed ;;
  Accept (R3Pl delta (n3_delta nb) (n3_s nb)).

(** interactive_signing.rs:1993-1998 [Round4] with 55-65 [PresigningData] *)
Record sg_round4 := SgRound4 {
  s4_ctx : sg_ctx;
  s4_gamma : pt C;
  s4_deltas : seq (I * pt C);
  s4_ss : seq (I * pt C);
  s4_sigma : Z }.
(** interactive_signing.rs:2083-2094 [Round5], 2301-2312 [Round6]; [s5_pub]:
    the points the ciphertext products are about (Gamma_j, resp. X_j), [s5_res]
    those of the results (delta_j G, resp. S_j), [s5_base] the base of the
    results. *)
Record sg_round56 := SgRound56 {
  s5_ctx : sg_ctx;
  s5_base : pt C;
  s5_mta : seq (I * mta);
  s5_pub : seq (I * pt C);
  s5_res : seq (I * pt C);
  s5_ks : seq (I * ciphertext);
  s5_df : seq ((I * I) * (ciphertext * ciphertext)) }.
Inductive sg_next := ToRound4 (s : sg_round4) | ToRound5 (s : sg_round56) | ToRound6 (s : sg_round56).

(** interactive_signing.rs:1906-1990 *)
Definition sg_finalize3 (s : sg_round3) (payloads : seq (I * r3pl)) : recv sg_error sg_next :=
  let c := s3_ctx s in
  let my := sx_id c in
  let pls := binsert le payloads my (R3Pl (s3_delta s) (n3_delta (s3_nb s)) (n3_s (s3_nb s))) in
  let delta := sum_scs [seq l3_delta p.2 | p <- pls] in
  let cap_delta := sum_pts [seq l3_cap_delta p.2 | p <- pls] in
  let cap_s := sum_pts [seq l3_cap_s p.2 | p <- pls] in
  let cap_x := zs_vkey (sx_share c) in
  let cap_ks := binsert le [seq (p.1, l1_k p.2) | p <- s3_r1 s] my (s3_cap_k s) in
  if ~~ peqb C (pmul C delta (gen C)) cap_delta then
    Accept (ToRound5 (SgRound56 c (gen C) (s3_mta s) (s3_gammas s)
      [seq (p.1, pmul C (l3_delta p.2) (gen C)) | p <- pls] cap_ks (s3_df s)))
  else if ~~ peqb C cap_s (pmul C delta cap_x) then
    Accept (ToRound6 (SgRound56 c (s3_gamma s) (s3_hat s) (zs_public (sx_share c))
      [seq (p.1, l3_cap_s p.2) | p <- pls] cap_ks (s3_hat_df s)))
  else
  if inv_mod q delta is Some di then
    let tk := ((sx_k c * di) mod q)%Z in
    let tchi := ((s3_chi s * di) mod q)%Z in
    let nonce := xcoord (s3_gamma s) in
    Accept (ToRound4 (SgRound4 c (s3_gamma s)
      [seq (p.1, pmul C di (l3_cap_delta p.2)) | p <- pls] [seq (p.1, pmul C di (l3_cap_s p.2)) | p <- pls]
      ((tk * sx_msg c + tchi * nonce) mod q)%Z))
  else RLocal.

(** ** Round 4 *)

(** interactive_signing.rs:2021-2027 *)
Definition sg_send4 (s : sg_round4) : msg := Msg None None (Some (S4NB (s4_sigma s))).
(** The check of a signature share (interactive_signing.rs:2041-2051). *)
Definition sg_share_ok (gamma tilde_delta tilde_s : pt C) (m sigma : Z) : bool :=
  peqb C (pmul C sigma gamma) (padd C (pmul C m tilde_delta) (pmul C (xcoord gamma) tilde_s)).
(** interactive_signing.rs:2029-2056 *)
Definition sg_recv4 (s : sg_round4) (from : I) (m : msg) : recv sg_error Z :=
  let c := s4_ctx s in
  _ <!- assert_none BadEcho (m_echo m) ;;
  _ <!- assert_none BadDirect (m_direct m) ;;
  sigma <!- deser BadNormal as_4nb (m_normal m) ;;
  td <!- safe_get (s4_deltas s) from ;;
  ts <!- safe_get (s4_ss s) from ;;
  _ <!- require (sg_share_ok (s4_gamma s) td ts (sx_msg c) sigma) R4InvalidSignatureShare ;;
  Accept sigma.
(** interactive_signing.rs:2058-2080 *)
Definition sg_finalize4 (s : sg_round4) (payloads : seq (I * Z)) : recv sg_error signature :=
  let c := s4_ctx s in
  let sigma := ((sum_scs (avals payloads) + s4_sigma s) mod q)%Z in
  if from_scalars (xcoord (s4_gamma s)) sigma (zs_vkey (sx_share c)) (sx_msg c) is Some sig
  then Accept sig else RLocal.

(** ** Rounds 5 and 6: the error rounds *)

(** interactive_signing.rs:2130-2140, 2230-2240 (and the same with hats): the
    sum of what the others made for [id] and the masks of what [id] made. *)
Definition sg_cap_d (s : sg_round56) (id : I) (ids : seq I) : recv sg_error ciphertext :=
  ds <!- mapV (fun j => e <!- safe_get (s5_df s) (id, j) ;; Accept e.1) ids ;;
  d <!- (if sum_non_empty ds is Some o then lift_o o else RLocal) ;;
  fs <!- mapV (fun j => e <!- safe_get (s5_df s) (j, id) ;; Accept e.2) ids ;;
  f <!- (if sum_non_empty fs is Some o then lift_o o else RLocal) ;;
  lift_o (homomorphic_add d f).

(** interactive_signing.rs:2120-2210 and 2338-2453: the own message; [x] is
    gamma, resp. the key share.  Round 6 takes [cap_x] from the public shares and
    round 5 recomputes it; both re-read it for the proofs per peer.  [recheck]:
    round 6 asserts its own proofs. *)
Definition sg_send56 (recheck : bool) (s : sg_round56) (x : Z) (cap_x : pt C) (rnd : seq dec_rand)
    (rnds : I -> seq aff_gs_rand) : recv sg_error r56eb :=
  let c := s5_ctx s in
  let my := sx_id c in
  let pk := sx_pk c in
  mine <!- safe_get (sx_aux c) my ;;
  cap_d <!- sg_cap_d s my (sx_others c) ;;
  cap_k <!- safe_get (s5_ks s) my ;;
  xs <!- lift_o (secret_signed_of x) ;;
  kx <!- lift_o (homomorphic_mul_sec w cap_k xs) ;;
  full <!- lift_o (homomorphic_add kx cap_d) ;;
  rho <!- lift_o (derive_randomizer P (sx_sk c) full) ;;
  y <!- lift_o (decrypt P (sx_sk c) full) ;;
  let n := Z.of_nat (size (sx_all c)) in
  cl <!- lift_o (ceil_log2_parties n) ;;
  yo <!- lift_o (sec_ensure_range w y (sp_lp S + sp_eps S + 1 + cl)%Z) ;;
  y' <!- (if yo is Some v then Accept v else RLocal) ;;
  res <!- safe_get (s5_res s) my ;;
  psi <!- lift_o (dec_new S X (DecSecret xs y' rho) (DecPublic pk cap_k cap_x cap_d res (s5_base s) n)
                   mine.2 (sg_aux c my) rnd) ;;
  psis <!- mapV (fun id =>
    b <!- safe_get (s5_mta s) id ;;
    a <!- safe_get (sx_aux c) id ;;
    k <!- safe_get (s5_ks s) id ;;
    df <!- safe_get (s5_df s) (id, my) ;;
    p <!- safe_get (s5_pub s) my ;;
    let pub := AffGPublic a.1 pk k df.1 df.2 p in
    pf <!- lift_o (aff_gs_new S X (AffGStarSecret xs (mt_beta b) (mt_s b) (mt_r b)) pub (sg_aux c my) (rnds id)) ;;
    ok <!- lift_o (aff_gs_verify S X pf pub (sg_aux c my)) ;;
    _ <!- lift_o (oassert (~~ recheck || ok)) ;;
    Accept (id, pf)) (sx_others c) ;;
  Accept (R56EB psi psis).
Definition sg_send5 (s : sg_round56) (rnd : seq dec_rand) (rnds : I -> seq aff_gs_rand) : recv sg_error msg :=
  let c := s5_ctx s in
  e <!- sg_send56 false s (sx_gamma c) (pmul C (sx_gamma c) (gen C)) rnd rnds ;;
  Accept (Msg None (Some (S5EB e)) None).
Definition sg_send6 (s : sg_round56) (rnd : seq dec_rand) (rnds : I -> seq aff_gs_rand) : recv sg_error msg :=
  let c := s5_ctx s in
  cap_x <!- safe_get (s5_pub s) (sx_id c) ;;
  e <!- sg_send56 true s (zs_secret (sx_share c)) cap_x rnd rnds ;;
  Accept (Msg None (Some (S6EB e)) None).

(** interactive_signing.rs:2212-2287 and 2455-2532 *)
Definition sg_recv56 (as_eb : sg_wire -> option r56eb) (e_dec e_ids : sg_error) (e_aff : I -> sg_error)
    (s : sg_round56) (from : I) (m : msg) : recv sg_error unit :=
  let c := s5_ctx s in
  _ <!- assert_none BadNormal (m_normal m) ;;
  _ <!- assert_none BadDirect (m_direct m) ;;
  eb <!- deser BadEcho as_eb (m_echo m) ;;
  theirs <!- safe_get (sx_aux c) from ;;
  let ids := without (sx_all c) from in
  cap_d <!- sg_cap_d s from ids ;;
  cap_k <!- safe_get (s5_ks s) from ;;
  cap_x <!- safe_get (s5_pub s) from ;;
  res <!- safe_get (s5_res s) from ;;
  ok <!- lift_o (dec_verify S X (e5_dec eb)
          (DecPublic theirs.1 cap_k cap_x cap_d res (s5_base s) (Z.of_nat (size (sx_all c)))) theirs.2 (sg_aux c from)) ;;
  _ <!- require ok e_dec ;;
  _ <!- require (akeys (e5_psis eb) == ids) e_ids ;;
  _ <!- mapV (fun p =>
    if p.1 == sx_id c then Accept tt else
    a <!- safe_get (sx_aux c) p.1 ;;
    k <!- safe_get (s5_ks s) p.1 ;;
    df <!- safe_get (s5_df s) (p.1, from) ;;
    cap_x <!- safe_get (s5_pub s) from ;;
    ok <!- lift_o (aff_gs_verify S X p.2 (AffGPublic a.1 theirs.1 k df.1 df.2 cap_x) (sg_aux c from)) ;;
    require ok (e_aff p.1)) (e5_psis eb) ;;
  Accept tt.
Definition sg_recv5 := sg_recv56 as_5eb R5DecFailed R5WrongIdsPsi R5AffGStarFailed.
Definition sg_recv6 := sg_recv56 as_6eb R6DecFailed R6WrongIdsPsi R6AffGStarFailed.

(** ** One party's run against arbitrary messages *)
Definition sg_until2 (c : sg_ctx) (e : r1eb) (r2 : sg_rand2) (m1 : I -> msg) (o1 : seq I) : recv sg_error sg_round2 :=
  p1 <!- round_payloads le (fun i => sg_recv1 c i (m1 i)) o1 ;;
  sg_finalize1 c e r2 p1.
Definition sg_until3 (c : sg_ctx) (e : r1eb) (r2 : sg_rand2) (r3 : Z * Z) (m1 m2 : I -> msg) (o1 o2 : seq I)
    : recv sg_error sg_round3 :=
  s <!- sg_until2 c e r2 m1 o1 ;;
  p2 <!- round_payloads le (fun i => sg_recv2 s i (m2 i)) o2 ;;
  sg_finalize2 s r3 p2.
Definition sg_until4 (c : sg_ctx) (e : r1eb) (r2 : sg_rand2) (r3 : Z * Z) (m1 m2 m3 : I -> msg) (o1 o2 o3 : seq I)
    : recv sg_error sg_next :=
  s <!- sg_until3 c e r2 r3 m1 m2 o1 o2 ;;
  p3 <!- round_payloads le (fun i => sg_recv3 s i (m3 i)) o3 ;;
  sg_finalize3 s p3.
(** [Round5::finalize] and [Round6::finalize] (2289-2298, 2534-2543) always
    return a [LocalError]; [m4] are the messages of the last round, whichever it
    is. *)
Definition sg_run (c : sg_ctx) (e : r1eb) (r2 : sg_rand2) (r3 : Z * Z) (m1 m2 m3 m4 : I -> msg) (o1 o2 o3 o4 : seq I)
    : recv sg_error signature :=
  n <!- sg_until4 c e r2 r3 m1 m2 m3 o1 o2 o3 ;;
  match n with
  | ToRound4 s =>
      p4 <!- round_payloads le (fun i => sg_recv4 s i (m4 i)) o4 ;;
      sg_finalize4 s p4
  | ToRound5 s => _ <!- round_payloads le (fun i => sg_recv5 s i (m4 i)) o4 ;; RLocal
  | ToRound6 s => _ <!- round_payloads le (fun i => sg_recv6 s i (m4 i)) o4 ;; RLocal
  end.

(** ** Evidence *)

(** interactive_signing.rs:266-351 *)
Definition sg_required (e : sg_error) : required :=
  match e with
  | R1EncElg0Failed | R1EncElg1Failed => Required (Parts true true false) [::] [::]
  | R2WrongIdsD => Required (Parts false false true) [::] [::]
  | R2WrongIdsF => Required (Parts false true false) [::] [::]
  | R2WrongIdsPsi => Required (Parts false false true) [::] [::]
  | R2AffGPsiFailed _ => Required (Parts false true true) [::] [:: 1]
  | R2AffGHatPsiFailed _ => Required (Parts false true true) [::] [:: 1]
  | R2ElogFailed => Required (Parts false true true) [:: (1, Parts false true false)] [::]
  | R3ElogFailed => Required (Parts false false true) [:: (1, Parts false true false); (2, Parts false true false)] [::]
  | R4InvalidSignatureShare =>
      Required (Parts false false true) [:: (2, Parts false true false); (3, Parts false true true)] [:: 2; 3]
  | R5DecFailed | R6DecFailed =>
      Required (Parts false true false)
        [:: (1, Parts false true false); (2, Parts false true true); (3, Parts false false true)] [:: 2]
  | R5WrongIdsPsi | R6WrongIdsPsi => Required (Parts false true false) [::] [::]
  | R5AffGStarFailed _ => Required (Parts false true false) [:: (2, Parts false true true)] [:: 1; 2]
  | R6AffGStarFailed _ => Required (Parts false true false) [::] [:: 1; 2]
  end%N.

Notation evd := (evidence I sg_wire).
(** [public_aux.paillier_pk.into_precomputed()], [rp_params.to_precomputed()] *)
Definition ev_pk (a : sg_assoc) (id : I) : evid Z := x <%- try_get (sa_aux a) id ;; ev_o (public_key_new x.1).
Definition ev_rp (a : sg_assoc) (id : I) : evid rpparams := x <%- try_get (sa_aux a) id ;; ev_o (rp_pre x.2).
(** [previous_messages.get_round(r)?.<part>.deserialize()?] and
    [combined_echos.get_round(r)?.deserialize_all()?] *)
Definition ev_prev_echo {T} (as_t : sg_wire -> option T) (ev : evd) (r : nat) : evid T :=
  m <%- try_get (ev_previous ev) r ;; ev_deser as_t (m_echo m).
Definition ev_prev_normal {T} (as_t : sg_wire -> option T) (ev : evd) (r : nat) : evid T :=
  m <%- try_get (ev_previous ev) r ;; ev_deser as_t (m_normal m).
Definition ev_echo_all {T} (as_t : sg_wire -> option T) (ev : evd) (r : nat) : evid (seq (I * T)) :=
  es <%- try_get (ev_echos ev) r ;; ev_all as_t es.
Definition ev_echo_of {T} (as_t : sg_wire -> option T) (ev : evd) (r : nat) (id : I) : evid T :=
  es <%- try_get (ev_echos ev) r ;; x <%- try_get es id ;; ev_deser as_t (Some x).
(** [sum_non_empty(..)?] inside evidence verification *)
Definition ev_sum (l : seq ciphertext) : evid ciphertext :=
  if sum_non_empty l is Some o then ev_o o else EvInvalid.

(** interactive_signing.rs:446-484 and 485-531: the affine proof for
    [failed_for].  [safe_get] inside gives a [LocalError], which like
    [InvalidEvidence] does not confirm the error; both are [EvInvalid]. *)
Definition ev_aff_g (epid : HO) (a : sg_assoc) (guilty failed_for : I) (ev : evd) (get_x : r2eb -> evid (pt C))
    (get_d : r2nb -> seq (I * Z)) (get_f : r2eb -> seq (I * Z)) (get_psi : r2nb -> seq (I * aff_g_proof C)) : evid unit :=
  e1 <%- ev_echo_of as_1eb ev 1 failed_for ;;
  e2 <%- ev_deser as_2eb (m_echo (ev_message ev)) ;;
  n2 <%- ev_deser as_2nb (m_normal (ev_message ev)) ;;
  cap_x <%- get_x e2 ;;
  rp <%- ev_rp a failed_for ;;
  for_pk <%- ev_pk a failed_for ;;
  from_pk <%- ev_pk a guilty ;;
  d <%- try_get (get_d n2) failed_for ;;
  f <%- try_get (get_f e2) failed_for ;;
  psi <%- try_get (get_psi n2) failed_for ;;
  ok <%- ev_o (aff_g_verify S X psi
    (AffGPublic for_pk from_pk (ct_to_precomputed for_pk (e1_k e1)) (ct_to_precomputed for_pk d)
       (ct_to_precomputed from_pk f) cap_x) rp [:: HOut epid; HId guilty]) ;;
  verify_that (~~ ok).

(** interactive_signing.rs:615-689 and 763-841: the decryption proof.  Both
    decode the message as [Round5EchoBroadcast]. *)
Definition ev_dec (epid : HO) (a : sg_assoc) (guilty : I) (ev : evd)
    (get_d : r2nb -> seq (I * Z)) (get_f : r2eb -> seq (I * Z)) (get_x : r2eb -> evid (pt C))
    (get_s : r3nb -> pt C) (get_base : r2eb -> seq (I * r2eb) -> pt C) : evid unit :=
  e1 <%- ev_prev_echo as_1eb ev 1 ;;
  e2s <%- ev_echo_all as_2eb ev 2 ;;
  n2 <%- ev_prev_normal as_2nb ev 2 ;;
  e2 <%- ev_prev_echo as_2eb ev 2 ;;
  n3 <%- ev_prev_normal as_3nb ev 3 ;;
  e5 <%- ev_deser as_5eb (m_echo (ev_message ev)) ;;
  pk <%- ev_pk a guilty ;;
  rp <%- ev_rp a guilty ;;
  let ids := without (akeys (sa_aux a)) guilty in
  ds <%- mapE (fun id => d <%- try_get (get_d n2) id ;; EvOk (ct_to_precomputed pk d)) ids ;;
  d <%- ev_sum ds ;;
  fs <%- mapE (fun id => e <%- try_get e2s id ;; f <%- try_get (get_f e) guilty ;; EvOk (ct_to_precomputed pk f)) ids ;;
  f <%- ev_sum fs ;;
  cap_d <%- ev_o (homomorphic_add d f) ;;
  cap_x <%- get_x e2 ;;
  ok <%- ev_o (dec_verify S X (e5_dec e5)
    (DecPublic pk (ct_to_precomputed pk (e1_k e1)) cap_x cap_d (get_s n3) (get_base e2 e2s)
       (Z.of_nat (size (sa_aux a)))) rp [:: HOut epid; HId guilty]) ;;
  verify_that (~~ ok).

(** interactive_signing.rs:703-762 and 855-912: the affine proof of an error
    round. *)
Definition ev_aff_gs (as_eb : sg_wire -> option r56eb) (epid : HO) (a : sg_assoc) (guilty failed_for : I) (ev : evd)
    (get_d : r2nb -> seq (I * Z)) (get_f : r2eb -> seq (I * Z)) (get_x : evid (pt C)) : evid unit :=
  e1s <%- ev_echo_all as_1eb ev 1 ;;
  e2s <%- ev_echo_all as_2eb ev 2 ;;
  n2 <%- ev_prev_normal as_2nb ev 2 ;;
  e5 <%- ev_deser as_eb (m_echo (ev_message ev)) ;;
  for_pk <%- ev_pk a failed_for ;;
  guilty_pk <%- ev_pk a guilty ;;
  cap_x <%- get_x ;;
  d <%- try_get (get_d n2) failed_for ;;
  e1 <%- try_get e1s failed_for ;;
  e2 <%- try_get e2s failed_for ;;
  f <%- try_get (get_f e2) guilty ;;
  psi <%- try_get (e5_psis e5) failed_for ;;
  ok <%- ev_o (aff_gs_verify S X psi
    (AffGPublic guilty_pk for_pk (ct_to_precomputed for_pk d) (ct_to_precomputed for_pk (e1_k e1))
       (ct_to_precomputed guilty_pk f) cap_x) [:: HOut epid; HId guilty]) ;;
  verify_that (~~ ok).

(** The ids a map of the guilty party must have. *)
Definition ev_ids (a : sg_assoc) (guilty : I) : seq I := without (akeys (sa_aux a)) guilty.

(** interactive_signing.rs:353-914 *)
Definition sg_evidence (randomness : seq Z) (a : sg_assoc) (guilty : I) (e : sg_error) (ev : evd) : evid unit :=
  let epid := sg_epid randomness a in
  let aux := [:: HOut epid; HId guilty] in
  let m := ev_message ev in
  match e with
  | R1EncElg0Failed =>
      dm <%- ev_deser as_1dm (m_direct m) ;;
      eb <%- ev_deser as_1eb (m_echo m) ;;
      pk <%- ev_pk a guilty ;;
      rp <%- ev_rp a guilty ;;
      ok <%- ev_o (enc_elg_verify S X dm.1 (elg0_public pk eb) rp aux) ;;
      verify_that (~~ ok)
  | R1EncElg1Failed =>
      dm <%- ev_deser as_1dm (m_direct m) ;;
      eb <%- ev_deser as_1eb (m_echo m) ;;
      pk <%- ev_pk a guilty ;;
      rp <%- ev_rp a guilty ;;
      ok <%- ev_o (enc_elg_verify S X dm.2 (elg1_public pk eb) rp aux) ;;
      verify_that (~~ ok)
  | R2WrongIdsD =>
      nb <%- ev_deser as_2nb (m_normal m) ;; verify_that (akeys (n2_ds nb) != ev_ids a guilty)
  | R2WrongIdsF =>
      eb <%- ev_deser as_2eb (m_echo m) ;; verify_that (akeys (e2_fs eb) != ev_ids a guilty)
  | R2WrongIdsPsi =>
      nb <%- ev_deser as_2nb (m_normal m) ;; verify_that (akeys (n2_psis nb) != ev_ids a guilty)
  | R2AffGPsiFailed failed_for =>
      ev_aff_g epid a guilty failed_for ev (fun e2 => EvOk (e2_gamma e2)) n2_ds e2_fs n2_psis
  | R2AffGHatPsiFailed failed_for =>
      ev_aff_g epid a guilty failed_for ev (fun _ => try_get (sa_shares a) failed_for) n2_hat_ds e2_hat_fs n2_hat_psis
  | R2ElogFailed =>
      e1 <%- ev_prev_echo as_1eb ev 1 ;;
      n2 <%- ev_deser as_2nb (m_normal m) ;;
      e2 <%- ev_deser as_2eb (m_echo m) ;;
      verify_that (~~ elog_verify C _ X (n2_elog n2) (ElogPublic (e1_b1 e1) (e1_b2 e1) (e1_y e1) (e2_gamma e2) (gen C)) aux)
  | R3ElogFailed =>
      e1 <%- ev_prev_echo as_1eb ev 1 ;;
      e2 <%- ev_prev_echo as_2eb ev 2 ;;
      n3 <%- ev_deser as_3nb (m_normal m) ;;
      verify_that (~~ elog_verify C _ X (n3_psi n3) (ElogPublic (e1_a1 e1) (e1_a2 e1) (e1_y e1) (n3_delta n3) (e2_gamma e2)) aux)
  | R4InvalidSignatureShare =>
      e2s <%- ev_echo_all as_2eb ev 2 ;;
      e2 <%- ev_prev_echo as_2eb ev 2 ;;
      n3 <%- ev_prev_normal as_3nb ev 3 ;;
      e3s <%- ev_echo_all as_3eb ev 3 ;;
      e3 <%- ev_prev_echo as_3eb ev 3 ;;
      sigma <%- ev_deser as_4nb (m_normal m) ;;
      let gamma := padd C (e2_gamma e2) (sum_pts [seq e2_gamma p.2 | p <- e2s]) in
      let delta := ((e3 + sum_scs (avals e3s)) mod q)%Z in
      di <%- (if inv_mod q delta is Some di then EvOk di else EvInvalid) ;;
      verify_that (~~ sg_share_ok gamma (pmul C di (n3_delta n3)) (pmul C di (n3_s n3))
                        (scalar_of_bytes (sa_message a)) sigma)
  | R5DecFailed =>
      ev_dec epid a guilty ev n2_ds e2_fs (fun e2 => EvOk (e2_gamma e2)) n3_delta (fun _ _ => gen C)
  | R6DecFailed =>
      ev_dec epid a guilty ev n2_hat_ds e2_hat_fs (fun _ => try_get (sa_shares a) guilty) n3_s
        (fun e2 e2s => padd C (e2_gamma e2) (sum_pts [seq e2_gamma p.2 | p <- e2s]))
  | R5WrongIdsPsi =>
      e5 <%- ev_deser as_5eb (m_normal m) ;; verify_that (akeys (e5_psis e5) != ev_ids a guilty)
  | R6WrongIdsPsi =>
      e6 <%- ev_deser as_6eb (m_normal m) ;; verify_that (akeys (e5_psis e6) != ev_ids a guilty)
  | R5AffGStarFailed failed_for =>
      ev_aff_gs as_5eb epid a guilty failed_for ev n2_ds e2_fs (e2 <%- ev_prev_echo as_2eb ev 2 ;; EvOk (e2_gamma e2))
  | R6AffGStarFailed failed_for =>
      ev_aff_gs as_6eb epid a guilty failed_for ev n2_hat_ds e2_hat_fs (try_get (sa_shares a) failed_for)
  end.

(** ** Malformed parts (interactive_signing.rs:72-123) *)
Definition sg_direct_invalid (round : nat) (p : option sg_wire) : evid unit :=
  match round with
  | 1 => verify_is_not as_1dm p
  | 2 | 3 | 4 | 5 | 6 => verify_is_some p
  | _ => EvInvalid
  end%N.
Definition sg_echo_invalid (round : nat) (p : option sg_wire) : evid unit :=
  match round with
  | 1 => verify_is_not as_1eb p
  | 2 => verify_is_not as_2eb p
  | 3 => verify_is_not as_3eb p
  | 4 => verify_is_some p
  | 5 => verify_is_not as_5eb p
  | 6 => verify_is_not as_6eb p
  | _ => EvInvalid
  end%N.
Definition sg_normal_invalid (round : nat) (p : option sg_wire) : evid unit :=
  match round with
  | 1 | 5 | 6 => verify_is_some p
  | 2 => verify_is_not as_2nb p
  | 3 => verify_is_not as_3nb p
  | 4 => verify_is_not as_4nb p
  | _ => EvInvalid
  end%N.

End Signing.

Arguments S1EB {C I}. Arguments S1DM {C I}. Arguments S2NB {C I}. Arguments S2EB {C I}. Arguments S3EB {C I}.
Arguments S3NB {C I}. Arguments S4NB {C I}. Arguments S5EB {C I}. Arguments S6EB {C I}. Arguments SJunk {C I}.
Arguments R1EncElg0Failed {I}. Arguments R1EncElg1Failed {I}. Arguments R2WrongIdsD {I}. Arguments R2WrongIdsF {I}.
Arguments R2WrongIdsPsi {I}. Arguments R2AffGPsiFailed {I}. Arguments R2AffGHatPsiFailed {I}. Arguments R2ElogFailed {I}.
Arguments R3ElogFailed {I}. Arguments R4InvalidSignatureShare {I}. Arguments R5DecFailed {I}. Arguments R5WrongIdsPsi {I}.
Arguments R5AffGStarFailed {I}. Arguments R6DecFailed {I}. Arguments R6WrongIdsPsi {I}. Arguments R6AffGStarFailed {I}.
