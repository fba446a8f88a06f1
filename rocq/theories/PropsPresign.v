(** * Property C80: what a presignature that passes round 3 is made of. *)
From Coq Require Import ZArith Znumtheory.
From Verif Require Import Base PaillierModel ZkBase ZkModel ZkToy.
From mathcomp Require Import all_ssreflect.
From Verif Require Import AlgBase ProtoBase ProtoSpec AuxGenModel AuxGenToy SigningModel SigningSpec SigningToy SigningWitness
  SigningBranchSpec SigningBranchToy NonceSpec PresignSpec PresignProofs PresignToy.
Set Implicit Arguments.
Unset Strict Implicit.
Unset Printing Implicit Defensive.

(** One party that got through round 3, whatever the peers sent.  [k] and [g] are
    its own draws and what the peers pledged in round 1.  The combined nonce is the
    sum of the [g]; the error round for delta is entered exactly if the deltas do
    not add up to the product of the sums; and if the party goes on to sign, the S
    add up to this product times the verifying key. *)
Theorem C80_presignature (S : sparams) (C : curve) (I : eqType) (le : rel I) (HO : eqType)
    (H : dst -> seq (hitem HO I (pt C)) -> HO) (X : xof (seq (hitem HO I (pt C))) (pt C)) (scheme : seq (hitem HO I (pt C)))
    (xcoord : pt C -> Z) rnd id entry ra c eb r2 r3 m1 m2 m3 o1 o2 o3 s3 n all delta cap_delta cap_s :
  curve_ok (sp_q S) C -> Znumtheory.prime (sp_q S) -> gen C <> p0 C -> xof_ok (sp_q S) X ->
  let ids := akeys (zs_public (se_share entry)) in
  let others := without ids id in
  uniq ids -> id \in ids -> sg_start S H scheme rnd id entry ra = Ok (c, eb) ->
  perm_eq o1 others -> perm_eq o2 others -> perm_eq o3 others ->
  sg_until3 S le X c eb r2 r3 m1 m2 o1 o2 = Accept s3 ->
  sg_until4 S le X xcoord c eb r2 r3 m1 m2 m3 o1 o2 o3 = Accept n ->
  said ids id (sg_send3 s3) m3 all ->
  {in ids, forall l, carries (all l) (delta l) (cap_delta l) (cap_s l)} ->
  {in others, forall l, not_a_guess (sp_q S) (m1 l) (m2 l) /\ not_a_guess3 (sp_q S) (m1 l) (s3_gamma s3) (m3 l)} ->
  exists k g : I -> Z, let kg := Z.mul (over ids k) (over ids g) in
   [/\ k id = g1_k ra /\ g id = g1_gamma ra,
       {in others, forall l, pledges (m1 l) (k l) (g l)},
       s3_gamma s3 = pmul C (over ids g) (gen C),
       round_of n <> 5%N <-> Z.modulo (over ids delta) (sp_q S) = Z.modulo kg (sp_q S) &
       round_of n = 4%N -> total [seq cap_s l | l <- ids] = pmul C kg (total (avals (zs_public (se_share entry))))].
Proof. move=> HC Pq HG HX; exact: presign. Qed.
Print Assumptions C80_presignature.

(** An echo broadcast of round 1 pledges at most one pair of values. *)
Theorem C80_pledge_binds (S : sparams) (C : curve) (I : eqType) (w w' : message (sg_wire C I)) k g k' g' :
  curve_ok (sp_q S) C -> Znumtheory.prime (sp_q S) -> gen C <> p0 C ->
  m_echo w = m_echo w' -> pledges w k g -> pledges w' k' g' ->
  Z.modulo k (sp_q S) = Z.modulo k' (sp_q S) /\ Z.modulo g (sp_q S) = Z.modulo g' (sp_q S).
Proof. move=> HC Pq HG; exact: pledge_binds. Qed.
Print Assumptions C80_pledge_binds.

(** Party 0 of the toy session, with the messages of round 3 and with another
    delta from party 2. *)
Example C80_case :
  [/\ until3S 0 = Accept (s3_of 0), nextS sent3S 0 = Some 4%N, nextS other_delta 0 = Some 5%N & said idsS 0%N (sg_send3 (s3_of 0)) sent3S sent3S] /\
  [/\ {in othersS 0, forall l, not_a_guess (Zpos 7) (m1S 0 l) (sent2S l) /\ not_a_guess3 (Zpos 7) (m1S 0 l) (s3_gamma (s3_of 0)) (sent3S l)},
      {in othersS 0, forall l, not_a_guess3 (Zpos 7) (m1S 0 l) (s3_gamma (s3_of 0)) (other_delta l)},
      [seq g1_k (rnd1S l) | l <- idsS] = [:: 1; 3; 5]%Z /\ [seq g1_gamma (rnd1S l) | l <- idsS] = [:: 2; 6; 4]%Z,
      [seq m_echo (sent3S l) | l <- idsS] = [seq Some (@S3EB curve7 nat_eqType d) | d <- [:: 2; 1; 0]%Z] /\
      [seq m_echo (other_delta l) | l <- idsS] = [seq Some (@S3EB curve7 nat_eqType d) | d <- [:: 2; 1; 1]%Z] &
      ((2 + 1 + 0) mod 7 = ((1 + 3 + 5) * (2 + 6 + 4)) mod 7 /\ (2 + 1 + 1) mod 7 <> ((1 + 3 + 5) * (2 + 6 + 4)) mod 7)%Z].
Proof. exact: presign_case. Qed.

(** What party 1 pledges to party 0: 3 and 6. *)
Example C80_pledge_case : pledges (m1S 0 1) (Zpos 3) (Zpos 6) /\ pledges (m1S 0 1) (Zpos 10) (Zpos 13).
Proof. exact: pledge_case. Qed.
