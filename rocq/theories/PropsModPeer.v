(** * Property C81: the peers' Paillier moduli after AuxGen and KeyRefresh. *)
From Coq Require Import ZArith Znumtheory.
From Verif Require Import Base PaillierModel ZkBase ZkModel ZkToy ModSoundSpec.
From mathcomp Require Import all_ssreflect all_algebra.
From Verif Require Import AlgBase ProtoBase ProtoSpec AuxGenModel AuxGenToy KeyRefreshModel KeyRefreshSpec KeyRefreshToy
  ModPeerSpec ModPeerProofs ModPeerToy.
Set Implicit Arguments.
Unset Strict Implicit.
Unset Printing Implicit Defensive.

(** A party finished AuxGen, whatever the others sent.  If the modulus proof of
    peer [j] has as many repetitions as it should, the modulus recorded for [j] is
    vouched for. *)
Theorem C81_aux_gen (S : sparams) (C : curve) (I : eqType) (le : rel I) (HO : eqType)
    (H : dst -> seq (hitem HO I (pt C)) -> HO) (X : xof (seq (hitem HO I (pt C))) (pt C)) (scheme : seq (hitem HO I (pt C)))
    ids sr id r c d com m1 m2 m3 o1 o2 o3 a j N rp pf :
  p_self_consistent (sp_pail S) = true -> xof_ok (sp_q S) X -> Z.le 4 (modulus_bits (sp_pail S)) ->
  ag_start S H X scheme ids sr id r = Ok (c, d) -> uniq ids ->
  perm_eq o1 (without ids id) -> perm_eq o2 (without ids id) -> perm_eq o3 (without ids id) ->
  ag_run S le H X c d com m1 m2 m3 o1 o2 o3 = Accept a ->
  j \in without ids id -> aget (ai_public a) j = Some (N, rp) ->
  m_normal (m3 j) = Some (A3NB pf) -> length (mod_elems pf) = sp_secbits S ->
  recognised X N ->
  exists aux, vouches S X N (mod_commitment pf) aux.
Proof. exact: ag_peer. Qed.
Print Assumptions C81_aux_gen.

(** The same for KeyRefresh. *)
Theorem C81_key_refresh (S : sparams) (F : fieldType) (V : lmodType F) (g : V) (I : eqType) (le : rel I) (HO : eqType)
    (H : dst -> seq (hitem HO I V) -> HO) (X : xof (seq (hitem HO I V)) V) (Hs : dst -> seq (hitem HO I V) -> F)
    (scheme : seq (hitem HO I V))
    ids sr id r y tau split c d com m1 m2 m3 o1 o2 o3 kc a j N rp pf :
  p_self_consistent (sp_pail S) = true -> xof_ok (sp_q S) X -> Z.le 4 (modulus_bits (sp_pail S)) ->
  total_order le -> sorted le ids -> uniq ids ->
  kr_start S g H X scheme ids sr id r y tau split = Ok (c, d) ->
  perm_eq o1 (without ids id) -> perm_eq o2 (without ids id) -> perm_eq o3 (without ids id) ->
  kr_run S g le H X Hs c d com m1 m2 m3 o1 o2 o3 = Accept (kc, a) ->
  j \in without ids id -> aget (ai_public a) j = Some (N, rp) ->
  m_normal (m3 j) = Some (K3NB pf) -> length (mod_elems pf) = sp_secbits S ->
  recognised X N ->
  exists aux, vouches (C := curveV g) S X N (mod_commitment pf) aux.
Proof. exact: kr_peer. Qed.
Print Assumptions C81_key_refresh.

(** But nobody looks at the number of repetitions (finding 12): a peer gets
    through AuxGen with a modulus that is not of the required form. *)
Theorem C81_modulus_refuted :
  exists (S : sparams) (C : curve) (I HO : eqType) (le : rel I) (H : dst -> seq (hitem HO I (pt C)) -> HO)
    (X : xof (seq (hitem HO I (pt C))) (pt C)) scheme ids sr id r c d com m1 m2 m3 o1 o2 o3 a j N rp,
  [/\ p_self_consistent (sp_pail S) = true, xof_ok (sp_q S) X, Z.le 4 (modulus_bits (sp_pail S)) & uniq ids] /\
  [/\ ag_start S H X scheme ids sr id r = Ok (c, d), perm_eq o1 (without ids id), perm_eq o2 (without ids id) &
      perm_eq o3 (without ids id)] /\
  [/\ ag_run S le H X c d com m1 m2 m3 o1 o2 o3 = Accept a, j \in without ids id, aget (ai_public a) j = Some (N, rp),
      Z.odd N = true /\ Z.lt 1 N /\ Z.lt N (Z.pow 2 (modulus_bits (sp_pail S))) & ~ Znumtheory.prime N /\ ~ blum_modulus N].
Proof. exact: bad_peer. Qed.
Print Assumptions C81_modulus_refuted.

(** In the honest toy runs the proofs have full length, and the moduli are 437
    and 589. *)
Example C81_case :
  [/\ p_self_consistent (sp_pail SA) = true, xof_ok (sp_q SA) XA & Z.le 4 (modulus_bits (sp_pail SA))] /\
  [/\ ag_start SA HA XA [::] idsA [::] 1%N (randA 1) = Ok start1, full_proof sent3_0, full_proof sent3_2 &
      let run := ag_run SA leq HA XA start1.1 start1.2 com1 in1 in2 in3 (without idsA 1%N) (rev (without idsA 1%N)) (without idsA 1%N) in
      listed run 0%N = Some (Zpos 437) /\ listed run 2%N = Some (Zpos 589)] /\
  [/\ recognised XA (Zpos 437), recognised XA (Zpos 589) & full_proof_R r_sent3_0].
Proof. exact: peer_case. Qed.
