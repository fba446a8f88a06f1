(** * Property C62: parties that finish agree.

    Two parties of one session each receive arbitrary messages in arbitrary
    orders and both finish.  They share only what the echo mechanism of the session
    layer guarantees ([heard]): the echo parts of one round.  Everything sent in
    normal and direct parts may differ between them.  Where agreement rests on the
    hash commitments of round 1, [no_collision] says of the two openings in front
    of the two parties, and of nothing else, that they do not collide. *)
From Coq Require Import ZArith Znumtheory Lia.
From Verif Require Import Base EncodingModel SignedModel PaillierModel ZkBase ZkModel ZkToy.
From mathcomp Require Import all_ssreflect all_algebra.
From Verif Require Import AlgBase ThresholdModel SchModel ProtoBase ProtoSpec KeyInitModel AuxGenModel AuxGenSpec AuxGenToy
  KeyRefreshModel KeyRefreshSpec KeyRefreshToy ReshareModel SigningModel SigningSpec AgreeSpec AgreeProofs AgreeProofs2 AgreeToy
  SigningToy SigningWitness PropsShare PropsKeyInit PropsReshare PropsSigning.
Set Implicit Arguments.
Unset Strict Implicit.
Unset Printing Implicit Defensive.
Import GRing.Theory.
Local Open Scope ring_scope.

(** ** Key generation: the same public shares and verifying key. *)
Theorem C62_key_init (F : fieldType) (V : lmodType F) (g : V) (I : eqType) (le : rel I) (HO : eqType)
    (H : dst -> seq (hitem HO I V) -> HO) (X : xof (seq (hitem HO I V)) V) (scheme : seq (hitem HO I V)) ids sr
    id x tau rho u c m1 m2 m3 o1 o2 o3 k
    id' x' tau' rho' u' c' m1' m2' m3' o1' o2' o3' k' e :
  let sid := sid_new H scheme sr ids in
  uniq ids ->
  ki_start g H scheme ids sr id x tau rho u = Ok c -> ki_start g H scheme ids sr id' x' tau' rho' u' = Ok c' ->
  perm_eq o1 (without ids id) -> perm_eq o2 (without ids id) -> perm_eq o3 (without ids id) ->
  perm_eq o1' (without ids id') -> perm_eq o2' (without ids id') -> perm_eq o3' (without ids id') ->
  ki_run g le H X c m1 m2 m3 o1 o2 o3 = Accept k -> ki_run g le H X c' m1' m2' m3' o1' o2' o3' = Accept k' ->
  heard ids id (ki_send1 H c) m1 e -> heard ids id' (ki_send1 H c') m1' e ->
  no_collision (H DKeyInit) ids (ki_seen sid id c m2) (ki_seen sid id' c' m2') ->
  {in ids, forall l, aget (ks_public k) l = aget (ks_public k') l} /\ ks_vkey_point k = ks_vkey_point k'.
Proof. move=> sid hu; exact: ki_agree. Qed.
Print Assumptions C62_key_init.

(** Parties 0 and 2 of the toy session finish and hear the same commitments;
    party 1 gives them the same data, though in another order. *)
Example C62_key_init_case :
  let m1 j := ki_send1 H7 (ctx7 sec7 j) in let m2 j := ki_send2 (ctx7 sec7 j) in
  [/\ all (fun i => accepted (run7 sec7 i) (fun k => ks_vkey_point k == 6%:R *: g7)) [:: 0; 2]%N,
      heard trio 0%N (m1 0%N) m1 (fun l => m_echo (m1 l)), heard trio 2%N (m1 2%N) m1 (fun l => m_echo (m1 l)) &
      no_collision (H7 DKeyInit) trio (ki_seen (sid_new H7 [::] [::] trio) 0%N (ctx7 sec7 0%N) m2)
        (ki_seen (sid_new H7 [::] [::] trio) 2%N (ctx7 sec7 2%N) m2)].
Proof. exact: ki_agree_case. Qed.

(** The commitments are needed: with a hash that always collides, party 2 gives
    parties 0 and 1 different points under the same round 1 echoes, and they finish
    with different verifying keys. *)
Theorem C62_without_binding_refuted :
  exists (F : fieldType) (V : lmodType F) (g : V) (I : eqType) (le : rel I) (HO : eqType)
    (H : dst -> seq (hitem HO I V) -> HO) (X : xof (seq (hitem HO I V)) V) ids
    id x tau rho u c m1 m2 m3 o1 o2 o3 k id' x' tau' rho' u' c' m1' m2' m3' o1' o2' o3' k' e,
  [/\ uniq ids, ki_start g H [::] ids [::] id x tau rho u = Ok c & ki_start g H [::] ids [::] id' x' tau' rho' u' = Ok c'] /\
  [/\ perm_eq o1 (without ids id), perm_eq o2 (without ids id), perm_eq o3 (without ids id) & ki_run g le H X c m1 m2 m3 o1 o2 o3 = Accept k] /\
  [/\ perm_eq o1' (without ids id'), perm_eq o2' (without ids id'), perm_eq o3' (without ids id') & ki_run g le H X c' m1' m2' m3' o1' o2' o3' = Accept k'] /\
  [/\ heard ids id (ki_send1 H c) m1 e, heard ids id' (ki_send1 H c') m1' e & ks_vkey_point k <> ks_vkey_point k'].
Proof. exact: ki_no_binding. Qed.
Print Assumptions C62_without_binding_refuted.

(** ** Auxiliary data: the same Paillier and ring-Pedersen parameters. *)
Theorem C62_aux_gen (S : sparams) (C : curve) (I : eqType) (le : rel I) (HO : eqType)
    (H : dst -> seq (hitem HO I (pt C)) -> HO) (X : xof (seq (hitem HO I (pt C))) (pt C)) (scheme : seq (hitem HO I (pt C))) ids sr
    id r c d com m1 m2 m3 o1 o2 o3 a
    id' r' c' d' com' m1' m2' m3' o1' o2' o3' a' e :
  let sid := sid_new H scheme sr ids in
  uniq ids -> Z.le 3 (modulus_bits (sp_pail S)) ->
  ag_start S H X scheme ids sr id r = Ok (c, d) -> ag_start S H X scheme ids sr id' r' = Ok (c', d') ->
  perm_eq o1 (without ids id) -> perm_eq o2 (without ids id) -> perm_eq o3 (without ids id) ->
  perm_eq o1' (without ids id') -> perm_eq o2' (without ids id') -> perm_eq o3' (without ids id') ->
  ag_run S le H X c d com m1 m2 m3 o1 o2 o3 = Accept a -> ag_run S le H X c' d' com' m1' m2' m3' o1' o2' o3' = Accept a' ->
  heard ids id (ag_send1 H c d) m1 e -> heard ids id' (ag_send1 H c' d') m1' e ->
  no_collision (H DKeyInit) ids (ag_seen sid id d m2) (ag_seen sid id' d' m2') ->
  {in ids, forall l, aget (ai_public a) l = aget (ai_public a') l}.
Proof. move=> sid hu hb; exact: ag_agree. Qed.
Print Assumptions C62_aux_gen.

(** Parties 0 and 1 of the toy session. *)
Example C62_aux_gen_case :
  let m1 j := match j with 0 => sent1_0 | 1 => a_sent1_1 | _ => sent1_2 end%N in
  let m2 j := match j with 0 => sent2_0 | 1 => a_sent2_1 | _ => sent2_2 end%N in
  [/\ ag_start SA HA XA [::] idsA [::] 0%N (randA 0) = Ok a_start0, ag_start SA HA XA [::] idsA [::] 1%N (randA 1) = Ok start1,
      isacc (ag_run SA leq HA XA a_start0.1 a_start0.2 a_com0 m1 m2 a_in3_0 (without idsA 0%N) (without idsA 0%N) (rev (without idsA 0%N))) &
      isacc (ag_run SA leq HA XA start1.1 start1.2 com1 m1 m2 in3 (without idsA 1%N) (rev (without idsA 1%N)) (without idsA 1%N))] /\
  [/\ heard idsA 0%N (ag_send1 HA a_start0.1 a_start0.2) m1 (fun l => m_echo (m1 l)),
      heard idsA 1%N (ag_send1 HA start1.1 start1.2) m1 (fun l => m_echo (m1 l)) &
      no_collision (HA DKeyInit) idsA (ag_seen (sid_new HA [::] [::] idsA) 0%N a_start0.2 m2)
        (ag_seen (sid_new HA [::] [::] idsA) 1%N start1.2 m2)].
Proof. exact: ag_agree_case. Qed.

(** ** Refresh: the same changes of the public shares and the same auxiliary
    data. *)
Theorem C62_key_refresh (S : sparams) (F : fieldType) (V : lmodType F) (g : V) (I : eqType) (le : rel I) (HO : eqType)
    (H : dst -> seq (hitem HO I V) -> HO) (X : xof (seq (hitem HO I V)) V) (Hs : dst -> seq (hitem HO I V) -> F)
    (scheme : seq (hitem HO I V)) ids sr
    id r y tau split c d com m1 m2 m3 o1 o2 o3 kc a
    id' r' y' tau' split' c' d' com' m1' m2' m3' o1' o2' o3' kc' a' e :
  let sid := sid_new H scheme sr ids in
  uniq ids -> Z.le 3 (modulus_bits (sp_pail S)) -> total_order le -> sorted le ids ->
  kr_start S g H X scheme ids sr id r y tau split = Ok (c, d) ->
  kr_start S g H X scheme ids sr id' r' y' tau' split' = Ok (c', d') ->
  perm_eq o1 (without ids id) -> perm_eq o2 (without ids id) -> perm_eq o3 (without ids id) ->
  perm_eq o1' (without ids id') -> perm_eq o2' (without ids id') -> perm_eq o3' (without ids id') ->
  kr_run S g le H X Hs c d com m1 m2 m3 o1 o2 o3 = Accept (kc, a) ->
  kr_run S g le H X Hs c' d' com' m1' m2' m3' o1' o2' o3' = Accept (kc', a') ->
  heard ids id (kr_send1 g H c d) m1 e -> heard ids id' (kr_send1 g H c' d') m1' e ->
  no_collision (H DKeyInit) ids (kr_seen le sid id d m2) (kr_seen le sid id' d' m2') ->
  kc_public kc = kc_public kc' /\ {in ids, forall l, aget (ai_public a) l = aget (ai_public a') l}.
Proof. move=> sid hu hb ho hs; exact: kr_agree. Qed.
Print Assumptions C62_key_refresh.

(** Parties 0 and 1 of the toy session. *)
Example C62_key_refresh_case :
  [/\ kr_start SA g7 HR XR [::] idsA [::] 0%N (randA 0) (yR 0) (tauR 0) (splitR 0) = Ok r_start0,
      kr_start SA g7 HR XR [::] idsA [::] 1%N (randA 1) (yR 1) (tauR 1) (splitR 1) = Ok r_start1,
      isacc (kr_run SA g7 leq HR XR HsR r_start0.1 r_start0.2 r_com0 r_all1 r_all2 r_in3_0
        (without idsA 0%N) (without idsA 0%N) (rev (without idsA 0%N))) &
      isacc (kr_run SA g7 leq HR XR HsR r_start1.1 r_start1.2 r_com1 r_all1 r_all2 r_in3
        (without idsA 1%N) (rev (without idsA 1%N)) (without idsA 1%N))] /\
  [/\ heard idsA 0%N (kr_send1 g7 HR r_start0.1 r_start0.2) r_all1 (fun l => m_echo (r_all1 l)),
      heard idsA 1%N (kr_send1 g7 HR r_start1.1 r_start1.2) r_all1 (fun l => m_echo (r_all1 l)) &
      no_collision (HR DKeyInit) idsA (kr_seen leq (sid_new HR [::] [::] idsA) 0%N r_start0.2 r_all2)
        (kr_seen leq (sid_new HR [::] [::] idsA) 1%N r_start1.2 r_all2)].
Proof. exact: kr_agree_case. Qed.

(** ** Resharing: the same threshold, share ids and public shares.  The
    polynomials are echo-broadcast themselves, so no commitment is involved. *)
Theorem C62_resharing (F : fieldType) (V : lmodType F) (g : V) (I : eqType) (le : rel I)
    (old old' : option (tshare V I)) n n' news tnew id id' draws draws' s s' d d' own own' m m' ord ord' k k' e :
  total_order le -> uniq news -> nh_old_holders n = nh_old_holders n' ->
  sorted le (nh_old_holders n) -> uniq (nh_old_holders n) ->
  rs_start g old (Some n) news tnew id draws = Ok s -> rs_start g old' (Some n') news tnew id' draws' = Ok s' ->
  (old <> None -> id \in nh_old_holders n) -> (old' <> None -> id' \in nh_old_holders n') ->
  perm_eq ord (r1_expecting s) -> perm_eq ord' (r1_expecting s') ->
  rs_run g le s m ord = Accept k -> rs_run g le s' m' ord' = Accept k' ->
  rs_send s d = Ok own -> rs_send s' d' = Ok own' ->
  heard (nh_old_holders n) id own m e -> heard (nh_old_holders n') id' own' m' e ->
  exists share share', [/\ k = Some share, k' = Some share', ts_threshold share = ts_threshold share',
    ts_share_ids share = ts_share_ids share' & ts_public share = ts_public share'].
Proof. exact: rs_agree. Qed.
Print Assumptions C62_resharing.

(** New holders 2, who also is an old one, and 3. *)
Example C62_resharing_case :
  let own i := if rs_send (in7 i) 1%N is Ok m then m else nomsg7 in
  let e l := m_echo (msg7 l 1%N) in
  [/\ done7 (res7 2) (fun s => ts_threshold s == 2%N), done7 (res7 3) (fun s => ts_threshold s == 2%N),
      is_ok7 (rs_send (in7 2) 1%N) & is_ok7 (rs_send (in7 3) 1%N)] /\
  (heard olds7 2%N (own 2%N) (fun j => msg7 j 2%N) e /\ heard olds7 3%N (own 3%N) (fun j => msg7 j 3%N) e).
Proof. exact: rs_agree_case. Qed.

(** ** Signing: the same signature.  Only the round 2 echoes are used, and the
    public shares and message the two parties were started with; session ids,
    auxiliary data and everything else sent may differ. *)
Theorem C62_signing (S : sparams) (C : curve) (I : eqType) (le : rel I) (HO : eqType)
    (H : dst -> seq (hitem HO I (pt C)) -> HO) (X : xof (seq (hitem HO I (pt C))) (pt C)) (scheme : seq (hitem HO I (pt C)))
    (xcoord : pt C -> Z) (lift_x : nat -> Z -> option (pt C)) positional
    rnd id entry ra c eb r2 r3 m1 m2 m3 m4 o1 o2 o3 o4 s2 sig
    rnd' id' entry' ra' c' eb' r2' r3' m1' m2' m3' m4' o1' o2' o3' o4' s2' sig' e :
  curve_ok (sp_q S) C -> Znumtheory.prime (sp_q S) -> xcoord_ok (sp_q S) xcoord ->
  let ids := akeys (zs_public (se_share entry)) in
  uniq ids -> id \in ids -> id' \in ids ->
  zs_public (se_share entry) = zs_public (se_share entry') -> se_message entry = se_message entry' ->
  sg_start S H scheme rnd id entry ra = Ok (c, eb) -> sg_start S H scheme rnd' id' entry' ra' = Ok (c', eb') ->
  perm_eq o2 (without ids id) -> perm_eq o3 (without ids id) -> perm_eq o4 (without ids id) ->
  perm_eq o2' (without ids id') -> perm_eq o3' (without ids id') -> perm_eq o4' (without ids id') ->
  sg_run S le X xcoord lift_x positional c eb r2 r3 m1 m2 m3 m4 o1 o2 o3 o4 = Accept sig ->
  sg_run S le X xcoord lift_x positional c' eb' r2' r3' m1' m2' m3' m4' o1' o2' o3' o4' = Accept sig' ->
  sg_until2 S le X c eb r2 m1 o1 = Accept s2 -> sg_until2 S le X c' eb' r2' m1' o1' = Accept s2' ->
  heard ids id (sg_send2 s2) m2 e -> heard ids id' (sg_send2 s2') m2' e ->
  sig = sig'.
Proof. move=> HC Pq HX; exact: sg_agree. Qed.
Print Assumptions C62_signing.

(** Parties 0 and 1 of the toy session. *)
Example C62_signing_case :
  [/\ runS 0 sent4S = Accept (Signature 2 2 1), runS 1 sent4S = Accept (Signature 2 2 1),
      until2S 0 = Accept (s2_of 0) & until2S 1 = Accept (s2_of 1)] /\
  [/\ zs_public (se_share (entryS 0)) = zs_public (se_share (entryS 1)),
      heard idsS 0%N (sg_send2 (s2_of 0)) sent2S (fun l => m_echo (sent2S l)) &
      heard idsS 1%N (sg_send2 (s2_of 1)) sent2S (fun l => m_echo (sent2S l))].
Proof. exact: sg_agree_case. Qed.
