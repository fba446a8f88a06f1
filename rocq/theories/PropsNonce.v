(** * Property C79: the nonce of a signature is fixed by round 1 and the own draw. *)
From Coq Require Import ZArith Znumtheory.
From Verif Require Import Base PaillierModel ZkBase ZkModel ZkToy.
From mathcomp Require Import all_ssreflect.
From Verif Require Import AlgBase ProtoBase ProtoSpec AuxGenModel AuxGenToy CommitSpec SigningModel SigningToy NonceSpec NonceProofs NonceToy.
Set Implicit Arguments.
Unset Strict Implicit.
Unset Printing Implicit Defensive.

(** Two runs that got as far as round 3, of the same or of different parties, in
    the same or in different sessions.  If a peer [l] sent the same echo broadcast
    in round 1, it could only reveal one part of the nonce in round 2. *)
Theorem C79_part (S : sparams) (C : curve) (I : eqType) (le : rel I) (HO : eqType)
    (X : xof (seq (hitem HO I (pt C))) (pt C))
    c e r2 r3 m1 m2 o1 o2 s c' e' r2' r3' m1' m2' o1' o2' s' l P P' :
  curve_ok (sp_q S) C -> Znumtheory.prime (sp_q S) -> gen C <> p0 C -> xof_ok (sp_q S) X ->
  sg_until3 S le X c e r2 r3 m1 m2 o1 o2 = Accept s -> sg_until3 S le X c' e' r2' r3' m1' m2' o1' o2' = Accept s' ->
  l \in o1 -> l \in o2 -> l != sx_id c -> l \in o1' -> l \in o2' -> l != sx_id c' ->
  m_echo (m1 l) = m_echo (m1' l) ->
  not_a_guess (sp_q S) (m1 l) (m2 l) -> not_a_guess (sp_q S) (m1' l) (m2' l) ->
  nonce_part (m2 l) P -> nonce_part (m2' l) P' -> P = P'.
Proof. move=> HC Pq HG HX; exact: peer_fixed. Qed.
Print Assumptions C79_part.

(** One party signs in two worlds.  What it draws, the messages it signs, its key
    and auxiliary data, and everything the peers send apart from the echo
    broadcasts of round 1, may differ. *)
Theorem C79_nonce (S : sparams) (C : curve) (I : eqType) (le : rel I) (HO : eqType)
    (H : dst -> seq (hitem HO I (pt C)) -> HO) (X : xof (seq (hitem HO I (pt C))) (pt C)) (scheme : seq (hitem HO I (pt C)))
    (xcoord : pt C -> Z) (lift_x : nat -> Z -> option (pt C)) positional
    rnd rnd' id entry entry' ra ra' c c' eb eb' r2 r2' r3 r3' m1 m2 m3 m4 m1' m2' m3' m4'
    o1 o2 o3 o4 o1' o2' o3' o4' sig sig' :
  curve_ok (sp_q S) C -> Znumtheory.prime (sp_q S) -> gen C <> p0 C -> xof_ok (sp_q S) X ->
  let ids := akeys (zs_public (se_share entry)) in
  let others := without ids id in
  uniq ids -> id \in ids -> akeys (zs_public (se_share entry')) = ids ->
  sg_start S H scheme rnd id entry ra = Ok (c, eb) -> sg_start S H scheme rnd' id entry' ra' = Ok (c', eb') ->
  perm_eq o1 others -> perm_eq o2 others -> perm_eq o1' others -> perm_eq o2' others ->
  sg_run S le X xcoord lift_x positional c eb r2 r3 m1 m2 m3 m4 o1 o2 o3 o4 = Accept sig ->
  sg_run S le X xcoord lift_x positional c' eb' r2' r3' m1' m2' m3' m4' o1' o2' o3' o4' = Accept sig' ->
  same_echoes ids id m1 m1' ->
  {in others, forall l, not_a_guess (sp_q S) (m1 l) (m2 l) /\ not_a_guess (sp_q S) (m1' l) (m2' l)} ->
  exists P, sig_r sig = xcoord (padd C P (pmul C (g1_gamma ra) (gen C))) /\
            sig_r sig' = xcoord (padd C P (pmul C (g1_gamma ra') (gen C))).
Proof. move=> HC Pq HG HX; exact: nonce_chosen. Qed.
Print Assumptions C79_nonce.

(** Party 0 of the toy session draws 2 in one world and 3 in the other. *)
Example C79_nonce_case :
  [/\ runS 0 sent4S = Accept (Signature 2 2 1), runN 0 = Accept (Signature 1 1 1),
      g1_gamma (rnd1S 0) = Zpos 2 & g1_gamma (rnd1N 0) = Zpos 3] /\
  [/\ gen curve7 <> p0 curve7, same_echoes idsS 0%N (m1S 0) (m1N 0),
      {in othersS 0, forall l, not_a_guess (Zpos 7) (m1S 0 l) (sent2S l) /\ not_a_guess (Zpos 7) (m1N 0 l) (sent2N l)},
      xcoordS (padd curve7 (pt7 (Zpos 3)) (pmul curve7 (Zpos 2) (gen curve7))) = Zpos 2 &
      xcoordS (padd curve7 (pt7 (Zpos 3)) (pmul curve7 (Zpos 3) (gen curve7))) = Zpos 1].
Proof. exact: nonce_case. Qed.
