(** * Properties C46 and C47: key refresh (KeyRefresh).

    [S] is any set of scheme parameters, [F] any field, [V] any vector space over
    it with the element [g] (the curve group and its generator), [I] any type of
    party ids ordered by [le], [HO] the type of hash outputs, [H], [X] and [Hs]
    any hash functions, [scheme] whatever identifies the scheme parameters. *)
From Coq Require Import ZArith.
From Verif Require Import Base EncodingModel SignedModel PaillierModel ZkBase ZkModel ZkSpec ZkToy.
From mathcomp Require Import all_ssreflect all_algebra.
From Verif Require Import AlgBase ThresholdModel ThresholdSpec ThresholdProofs SchModel ProtoBase ProtoSpec AuxGenModel AuxGenSpec AuxGenToy
  AuxHonestSpec AuxHonestToy KeyRefreshModel KeyRefreshSpec KeyRefreshProofs KeyRefreshHonest KeyRefreshToy KeyRefreshWitness
  PropsShare.
Set Implicit Arguments.
Unset Strict Implicit.
Unset Printing Implicit Defensive.
Import GRing.Theory.
Local Open Scope ring_scope.

Definition acceptedR {E T} (r : recv E T) (p : T -> bool) : bool := if r is Accept t then p t else false.

(** A participant's start with honestly drawn keys does not fail. *)
Theorem C46_start_succeeds (S : sparams) (F : fieldType) (V : lmodType F) (g : V) (I : eqType) (HO : eqType)
    (H : dst -> seq (hitem HO I V) -> HO) (X : xof (seq (hitem HO I V)) V) (scheme : seq (hitem HO I V))
    ids sr id r com y tau split :
  good_params S -> id \in ids -> honest_keys S r com ->
  exists c d, kr_start S g H X scheme ids sr id r y tau split = Ok (c, d).
Proof. move=> HG; exact: kr_start_succeeds. Qed.
Print Assumptions C46_start_succeeds.

(** Everybody follows the protocol: all finish, whatever the order of delivery,
    with the same public share changes, which belong to the secret ones and
    cancel, and with the same table of auxiliary data. *)
Theorem C46_honest_run (S : sparams) (F : fieldType) (V : lmodType F) (g : V) (I : eqType) (le : rel I) (HO : eqType)
    (H : dst -> seq (hitem HO I V) -> HO) (X : xof (seq (hitem HO I V)) V) (Hs : dst -> seq (hitem HO I V) -> F)
    (scheme : seq (hitem HO I V))
    (ids : seq I) sr (r : I -> ag_rand) (com : I -> Z) (y tau : I -> I -> F) (split : I -> nat -> F) (rnd : I -> I -> fac_rand)
    (n : nat) (c : I -> kr_ctx F I HO) (d : I -> kr_public V I) (o1 o2 o3 : I -> seq I) :
  good_params S -> xof_ok (sp_q S) (X : xof (seq (hitem HO I V)) (pt (curveV g))) -> @detects_composites _ V X ->
  Z.lt (Z.add (Z.add (Z.add (Z.mul 2 (modulus_bits (sp_pail S))) (sp_l S)) (sp_eps S)) 1) (sp_xw S) ->
  total_order le -> sorted le ids -> uniq ids ->
  {in ids, forall i, honest_keys S (r i) (com i)} ->
  {in ids &, forall i j, i != j -> honest_masks S (r i) (Z.mul (ar_rp_p (r j)) (ar_rp_q (r j))) (rnd i j)} ->
  {in ids, forall i, size (ar_rid (r i)) = n} ->
  {in ids, forall i, kr_start S g H X scheme ids sr i (r i) (y i) (tau i) (split i) = Ok (c i, d i)} ->
  {in ids, forall i, [/\ perm_eq (o1 i) (without ids i), perm_eq (o2 i) (without ids i) & perm_eq (o3 i) (without ids i)]} ->
  let m1 j := kr_send1 g H (c j) (d j) in let m2 j := kr_send2 HO (d j) in
  exists rid_c : seq bool, combined [seq ar_rid (r i) | i <- ids] rid_c /\
  exists s m3 kc a,
  [/\ {in ids, forall i, kr_until3 S g le H X (c i) (d i) (com i) m1 m2 (o1 i) (o2 i) = Accept (s i) /\ k3_rid (s i) = rid_c},
      {in ids &, forall i j, j != i -> kr_send3 S g X Hs (s j) (rnd j i) i = Accept (m3 i j)},
      {in ids, forall i, kr_run S g le H X Hs (c i) (d i) (com i) m1 m2 (m3 i) (o1 i) (o2 i) (o3 i) = Accept (kc i, a i)},
      \sum_(i <- ids) kc_secret (kc i) = 0 &
      {in ids, forall i, [/\ kc_owner (kc i) = i, kc_public (kc i) = [seq (j, kc_secret (kc j) *: g) | j <- ids],
         ai_owner (a i) = i, ai_sk (a i) = kx_sk (c i) &
         ai_public (a i) = [seq (j, (Z.mul (ar_p (r j)) (ar_q (r j)), kp_rp (d j))) | j <- ids]]}].
Proof. exact: honest_run. Qed.
Print Assumptions C46_honest_run.

(** The hypotheses can be met: two parties, 120-bit primes. *)
Example C46_honest_case : let X : xof (seq itemR) V7 := const_xof 5 true 0 in
  [/\ good_params wide_params, xof_ok (sp_q wide_params) (X : xof (seq itemR) (pt (curveV g7))), @detects_composites _ V7 X &
      Z.lt (Z.add (Z.add (Z.add (Z.mul 2 (modulus_bits (sp_pail wide_params))) (sp_l wide_params)) (sp_eps wide_params)) 1) (sp_xw wide_params)] /\
  exists com c d,
  [/\ {in [:: 0; 1]%N, forall i, honest_keys wide_params (randW i) (com i)},
      {in [:: 0; 1]%N &, forall i j, i != j ->
        honest_masks wide_params (randW i) (Z.mul (ar_rp_p (randW j)) (ar_rp_q (randW j))) maskW},
      {in [:: 0; 1]%N, forall i, size (ar_rid (randW i)) = 2%N} &
      {in [:: 0; 1]%N, forall i, kr_start wide_params g7 HR X [::] [:: 0; 1]%N [::] i (randW i) (yR i) (tauR i) (splitR i) = Ok (c i, d i)}].
Proof. exact: honest_case. Qed.

(** Applied to the shares the parties hold, such changes keep the key: everybody
    has a new secret share matching the common new public shares, and the
    verifying key is the old one. *)
Theorem C46_honest_update (S : sparams) (F : fieldType) (V : lmodType F) (g : V) (I : eqType) (le : rel I) (HO : eqType)
    (H : dst -> seq (hitem HO I V) -> HO) (X : xof (seq (hitem HO I V)) V) (Hs : dst -> seq (hitem HO I V) -> F)
    (scheme : seq (hitem HO I V))
    (ids : seq I) sr (r : I -> ag_rand) (com : I -> Z) (y tau : I -> I -> F) (split : I -> nat -> F) (rnd : I -> I -> fac_rand)
    (n : nat) (c : I -> kr_ctx F I HO) (d : I -> kr_public V I) (o1 o2 o3 : I -> seq I) x (ks : I -> kshare V I) :
  good_params S -> xof_ok (sp_q S) (X : xof (seq (hitem HO I V)) (pt (curveV g))) -> @detects_composites _ V X ->
  Z.lt (Z.add (Z.add (Z.add (Z.mul 2 (modulus_bits (sp_pail S))) (sp_l S)) (sp_eps S)) 1) (sp_xw S) ->
  total_order le -> sorted le ids -> uniq ids ->
  {in ids, forall i, honest_keys S (r i) (com i)} ->
  {in ids &, forall i j, i != j -> honest_masks S (r i) (Z.mul (ar_rp_p (r j)) (ar_rp_q (r j))) (rnd i j)} ->
  {in ids, forall i, size (ar_rid (r i)) = n} ->
  {in ids, forall i, kr_start S g H X scheme ids sr i (r i) (y i) (tau i) (split i) = Ok (c i, d i)} ->
  {in ids, forall i, [/\ perm_eq (o1 i) (without ids i), perm_eq (o2 i) (without ids i) & perm_eq (o3 i) (without ids i)]} ->
  additive_sharing g ids x ks ->
  let m1 j := kr_send1 g H (c j) (d j) in let m2 j := kr_send2 HO (d j) in
  exists s m3 kc a ks',
  [/\ {in ids, forall i, kr_until3 S g le H X (c i) (d i) (com i) m1 m2 (o1 i) (o2 i) = Accept (s i)},
      {in ids &, forall i j, j != i -> kr_send3 S g X Hs (s j) (rnd j i) i = Accept (m3 i j)},
      {in ids, forall i, kr_run S g le H X Hs (c i) (d i) (com i) m1 m2 (m3 i) (o1 i) (o2 i) (o3 i) = Accept (kc i, a i)},
      {in ids, forall i, ks_update (ks i) (kc i) = Ok (ks' i)} &
      additive_sharing g ids x ks' /\
      {in ids, forall i, ks_secret (ks' i) = ks_secret (ks i) + kc_secret (kc i) /\
                         ks_verifying_key (ks' i) = ks_verifying_key (ks i)}].
Proof. exact: honest_update. Qed.
Print Assumptions C46_honest_update.

(** Party 1's run in the small example: the secret change is 5 and the public
    changes 4, 1 and 2 cancel (the generator is 3). *)
Example C46_update_case :
  acceptedR (kr_run SA g7 leq HR XR HsR r_start1.1 r_start1.2 r_com1 r_in1 r_in2 r_in3
      (without idsA 1%N) (rev (without idsA 1%N)) (without idsA 1%N))
    (fun ka => [&& kc_secret ka.1 == 5%:R, map snd (kc_public ka.1) == [:: 4%:R; 1; 2%:R] :> seq F7 & akeys (ai_public ka.2) == idsA]).
Proof. by evaluates true. Qed.

(** A party that finishes, whatever the others sent: its changes cover exactly
    the participants and cancel, its secret change is the one belonging to its
    public change, and every peer's data is what that peer committed to, complete,
    cancelling, with large moduli and with all proofs verified. *)
Theorem C46_finished_party (S : sparams) (F : fieldType) (V : lmodType F) (g : V) (I : eqType) (le : rel I) (HO : eqType)
    (H : dst -> seq (hitem HO I V) -> HO) (X : xof (seq (hitem HO I V)) V) (Hs : dst -> seq (hitem HO I V) -> F)
    (scheme : seq (hitem HO I V))
    ids sr id r y tau split c d com m1 m2 m3 o1 o2 o3 kc a :
  Z.le 3 (modulus_bits (sp_pail S)) -> total_order le -> sorted le ids -> uniq ids ->
  kr_start S g H X scheme ids sr id r y tau split = Ok (c, d) ->
  perm_eq o1 (without ids id) -> perm_eq o2 (without ids id) -> perm_eq o3 (without ids id) ->
  kr_run S g le H X Hs c d com m1 m2 m3 o1 o2 o3 = Accept (kc, a) ->
  let sid := sid_new H scheme sr ids in
  [/\ kc_owner kc = id, akeys (kc_public kc) = ids, aget (kc_public kc) id = Some (kc_secret kc *: g) &
      \sum_(p <- kc_public kc) p.2 = 0] /\
  [/\ ai_owner a = id, ai_sk a = kx_sk c, akeys (ai_public a) = ids &
      aget (ai_public a) id = Some (sk_pk (kx_sk c), kx_rp c)] /\
  exists D fac cc hats psi' rid_c,
    combined (ar_rid r :: [seq kp_rid (D j) | j <- without ids id]) rid_c /\
    {in ids, forall k, aget (kc_public kc) k = Some (change d k + \sum_(j <- without ids id) change (D j) k)} /\
    {in without ids id, forall j,
      [/\ m1 j = Msg None (Some (K1EB (kr_committed H sid j (D j)))) None, reveals le (m2 j) (D j),
          m3 j = Msg (Some (K3DM (fac j) (cc j))) (Some (K3EB (hats j))) (Some (K3NB (psi' j))),
          aget (ai_public a) j = Some (kp_pk (D j), kp_rp (D j)) & proper S g X ids sid j (D j)] /\
      let aux := [:: HOut sid; HId j; HBits rid_c] in
      [/\ exists cap_y, aget (kp_ys (D j)) id = Some cap_y /\
            (cc j - Hs DRefresh3 [:: HOut sid; HBits rid_c; HId j; HPt (y j *: cap_y)]) *: g = change (D j) id,
          @mod_verify S (curveV g) _ X (psi' j) (kp_pk (D j)) aux = Ret true,
          @fac_verify S (curveV g) _ X (fac j) (kp_pk (D j)) (kx_rp c) aux = Ret true &
          {in ids, forall k, exists pf cap_a,
            [/\ aget (dmap le (hats j)) k = Some pf, aget (kp_as (D j)) k = Some cap_a &
                sch_verify g X pf cap_a (change (D j) k) aux]}]}.
Proof. exact: kr_finished. Qed.
Print Assumptions C46_finished_party.

Example C46_finished_case :
  [/\ kr_start SA g7 HR XR [::] idsA [::] 1%N (randA 1) (yR 1) (tauR 1) (splitR 1) = Ok r_start1, uniq idsA, sorted leq idsA,
      perm_eq (rev (without idsA 1%N)) (without idsA 1%N) &
      acceptedR (kr_run SA g7 leq HR XR HsR r_start1.1 r_start1.2 r_com1 r_in1 r_in2 r_in3
          (without idsA 1%N) (rev (without idsA 1%N)) (without idsA 1%N))
        (fun ka => [&& kc_owner ka.1 == 1%N, akeys (kc_public ka.1) == idsA & ai_owner ka.2 == 1%N])].
Proof. by split; [evaluates (Ok r_start1)|evaluates true|evaluates true|evaluates true|evaluates true]. Qed.

(** Its own share with this change applied is consistent with the new public
    share, and the verifying key has not moved, whatever the others sent. *)
Theorem C46_finished_keeps_key (S : sparams) (F : fieldType) (V : lmodType F) (g : V) (I : eqType) (le : rel I) (HO : eqType)
    (H : dst -> seq (hitem HO I V) -> HO) (X : xof (seq (hitem HO I V)) V) (Hs : dst -> seq (hitem HO I V) -> F)
    (scheme : seq (hitem HO I V))
    ids sr id r y tau split c d com m1 m2 m3 o1 o2 o3 kc a (k : kshare V I) :
  Z.le 3 (modulus_bits (sp_pail S)) -> total_order le -> sorted le ids -> uniq ids ->
  kr_start S g H X scheme ids sr id r y tau split = Ok (c, d) ->
  perm_eq o1 (without ids id) -> perm_eq o2 (without ids id) -> perm_eq o3 (without ids id) ->
  kr_run S g le H X Hs c d com m1 m2 m3 o1 o2 o3 = Accept (kc, a) ->
  perm_eq (akeys (ks_public k)) ids -> ks_owner k = id -> aget (ks_public k) id = Some (ks_secret k *: g) ->
  exists k', ks_update k kc = Ok k' /\
  [/\ ks_owner k' = id, aget (ks_public k') id = Some (ks_secret k' *: g),
      akeys (ks_public k') = akeys (ks_public k) & ks_vkey_point k' = ks_vkey_point k].
Proof. exact: finished_keeps_key. Qed.
Print Assumptions C46_finished_keeps_key.

Example C46_keeps_case : let k : kshare V7 nat_eqType := KShare 1%N 3%:R [:: (0%N, 2%:R *: g7); (1%N, 3%:R *: g7); (2%N, 4%:R *: g7)] in
  [/\ perm_eq (akeys (ks_public k)) idsA, aget (ks_public k) 1%N == Some (ks_secret k *: g7) &
      acceptedR (kr_run SA g7 leq HR XR HsR r_start1.1 r_start1.2 r_com1 r_in1 r_in2 r_in3
          (without idsA 1%N) (rev (without idsA 1%N)) (without idsA 1%N))
        (fun ka => if ks_update k ka.1 is Ok k' then (ks_vkey_point k' == ks_vkey_point k) && (ks_secret k' != ks_secret k) else false)].
Proof. by split; evaluates true. Qed.

(** Round 2: the receiver panics on the sender's data, or it ends with exactly
    the first of its checks that a third party, given the evidence, also finds
    failed, and accepts when there is none. *)
Theorem C47_round2_evidence (S : sparams) (F : fieldType) (V : lmodType F) (g : V) (I : eqType) (le : rel I) (HO : eqType)
    (H : dst -> seq (hitem HO I V) -> HO) (X : xof (seq (hitem HO I V)) V) (Hs : dst -> seq (hitem HO I V) -> F)
    (scheme : seq (hitem HO I V))
    ids sr id r y tau split c d cap_vs guilty v e n rpw ys rid xs cas pk psi u hist (echos : nat -> seq (I * kr_wire V I HO)) :
  kr_start S g H X scheme ids sr id r y tau split = Ok (c, d) -> uniq ids ->
  @kr_recv1 F V I HO (hist 1%N) = Accept v -> aget cap_vs guilty = Some v ->
  as_k2eb le e = Some (rpw, ys, rid) -> as_k2nb le n = Some (xs, cas, pk, psi, u) ->
  let m := Msg None (Some e) (Some n) in
  let judge e := kr_evidence S g le H X Hs scheme ids sr guilty e (assemble (kr_required e) m hist echos) in
  kr_recv2 S g le H X c cap_vs guilty m = RPanic \/
  kr_recv2 S g le H X c cap_vs guilty m =
    if first_confirmed judge (kr_checks2 F I) is Some e then Reject (Proto e)
    else Accept (KrPayload xs cas ys pk (reduced rpw) rid).
Proof. exact: kr_round2_evidence. Qed.
Print Assumptions C47_round2_evidence.

Definition rejectsR {T} (r : recv (kr_error F7 nat_eqType) T) (p : kr_error F7 nat_eqType -> bool) : bool :=
  if r is Reject (Proto e) then p e else false.
(** Party 0's message is accepted; it is rejected when the nonce is not the one
    committed to, and when the committed changes do not cancel. *)
Definition r_bad0 : kr_public V7 nat_eqType :=
  let d := r_start0.2 in
  KrPublic [seq (p.1, if p.1 == 1%N then p.2 + g7 else p.2) | p <- kp_xs d] (kp_ys d) (kp_as d) (kp_pk d) (kp_rp d) (kp_psi d) (kp_rid d) (kp_u d).
Example C47_round2_case :
  [/\ acceptedR (@kr_recv1 F7 V7 nat_eqType nat_eqType (r_hist0 1)) (fun v => v == kr_hash g7 HR r_start0.2 (kx_sid r_start1.1) 0%N),
      acceptedR (kr_recv2 SA g7 leq HR XR r_start1.1 [:: (0%N, kr_hash g7 HR r_start0.2 (kx_sid r_start1.1) 0%N)] 0%N r_sent2_0)
        (fun p => kl_pk p =? 437)%Z,
      rejectsR (kr_recv2 SA g7 leq HR XR r_start1.1 [:: (0%N, kr_hash g7 HR r_start0.2 (kx_sid r_start1.1) 0%N)] 0%N
          (kr_send2 nat_eqType r_bad0)) (fun e => if e is KrHashMismatch then true else false) &
      rejectsR (kr_recv2 SA g7 leq HR XR r_start1.1 [:: (0%N, kr_hash g7 HR r_bad0 (kx_sid r_start1.1) 0%N)] 0%N
          (kr_send2 nat_eqType r_bad0)) (fun e => if e is KrNonZeroSum then true else false)].
Proof. by split; evaluates true. Qed.

(** Round 3, with evidence naming the receiver itself as the reporter and
    publishing the scalar it used with the sender. *)
Theorem C47_round3_evidence (S : sparams) (F : fieldType) (V : lmodType F) (g : V) (I : eqType) (le : rel I) (HO : eqType)
    (H : dst -> seq (hitem HO I V) -> HO) (X : xof (seq (hitem HO I V)) V) (Hs : dst -> seq (hitem HO I V) -> F)
    (scheme : seq (hitem HO I V))
    ids sr id r y tau split c d com m1 m2 o1 o2 s guilty fac cc hats psi' hist echos draws :
  total_order le -> sorted le ids -> uniq ids ->
  kr_start S g H X scheme ids sr id r y tau split = Ok (c, d) ->
  random_quadratic_residue (ar_rp_p r * ar_rp_q r) draws = Some (ar_t r) -> Z.lt 0 (Z.mul (ar_rp_p r) (ar_rp_q r)) ->
  perm_eq o1 (without ids id) -> perm_eq o2 (without ids id) ->
  kr_until3 S g le H X c d com m1 m2 o1 o2 = Accept s ->
  guilty \in without ids id -> hist 2%N = m2 guilty ->
  perm_eq (akeys (echos 2%N)) (without ids guilty) ->
  {in without ids guilty, forall j, aget (echos 2%N) j = m_echo (if j == id then kr_send2 HO d else m2 j)} ->
  let m := Msg (Some (K3DM fac cc)) (Some (K3EB hats)) (Some (K3NB psi')) in
  let judge e := kr_evidence S g le H X Hs scheme ids sr guilty e (assemble (kr_required e) m hist echos) in
  kr_recv3 S g le X Hs s guilty m = RPanic \/
  if first_confirmed judge (kr_checks3 id (y guilty) ids) is Some e then kr_recv3 S g le X Hs s guilty m = Reject (Proto e)
  else exists x, kr_recv3 S g le X Hs s guilty m = Accept x.
Proof. exact: kr_round3_evidence. Qed.
Print Assumptions C47_round3_evidence.

(** Party 0's honest message, the same with a wrong masked change, and with a
    Schnorr proof missing. *)
Definition r_tamper (f : F7 -> F7) (h : seq (nat * sch_proof F7) -> seq (nat * sch_proof F7)) : message (kr_wire V7 nat_eqType nat_eqType) :=
  if r_sent3_0 is Msg (Some (K3DM psi cc)) (Some (K3EB hats)) n then Msg (Some (K3DM psi (f cc))) (Some (K3EB (h hats))) n
  else Msg None None None.
Example C47_round3_case :
  [/\ kr_start SA g7 HR XR [::] idsA [::] 1%N (randA 1) (yR 1) (tauR 1) (splitR 1) = Ok r_start1,
      random_quadratic_residue (Z.mul 23 31) [:: Zpos 5] = Some (Zpos 25),
      kr_until3 SA g7 leq HR XR r_start1.1 r_start1.2 r_com1 r_in1 r_in2 (without idsA 1%N) (rev (without idsA 1%N)) = Accept r_state1 &
      perm_eq (akeys (r_echos0 2)) (without idsA 0%N)] /\
  [/\ all (fun j => isSome (aget (r_echos0 2) j)) (without idsA 0%N),
      acceptedR (kr_recv3 SA g7 leq XR HsR r_state1 0%N r_sent3_0) (fun x => x == r_got0),
      rejectsR (kr_recv3 SA g7 leq XR HsR r_state1 0%N (r_tamper (fun c => c + 1) id))
        (fun e => if e is KrShareMismatch i y then (i == 1%N) && (y == yR 1 0) else false) &
      rejectsR (kr_recv3 SA g7 leq XR HsR r_state1 0%N (r_tamper id behead)) (fun e => if e is KrWrongIdsHatPsi then true else false)].
Proof.
split; split; [evaluates (Ok r_start1)|evaluates (Some (Zpos 25))|evaluates (@Accept (kr_error F7 nat_eqType) _ r_state1)|..]; evaluates true.
Qed.

(** The reporter named in the evidence is not bound to the message.  Party 0
    follows the protocol and party 1 accepts its round 3 message; the same message
    presented as "reported by party 2" is confirmed as a bad factor proof, and,
    when party 2 gives away its scalar, as a bad share change. *)
Theorem C47_honest_sender_framed_refuted :
  exists (S : sparams) (F : fieldType) (V : lmodType F) (g : V) (HO : eqType) (H : dst -> seq (hitem HO nat V) -> HO)
    (X : xof (seq (hitem HO nat V)) V) (Hs : dst -> seq (hitem HO nat V) -> F) (ids : seq nat)
    c0 d0 com0 s0 c1 d1 com1 s1 r0 r1 y tau split rnd m1 m2 m3 x hist echos,
  [/\ kr_start S g H X [::] ids [::] 0%N r0 (y 0%N) (tau 0%N) (split 0%N) = Ok (c0, d0),
      kr_start S g H X [::] ids [::] 1%N r1 (y 1%N) (tau 1%N) (split 1%N) = Ok (c1, d1) &
      m1 0%N = kr_send1 g H c0 d0 /\ m2 0%N = kr_send2 HO d0 /\ m1 1%N = kr_send1 g H c1 d1 /\ m2 1%N = kr_send2 HO d1] /\
  [/\ kr_until3 S g leq H X c0 d0 com0 m1 m2 (without ids 0%N) (without ids 0%N) = Accept s0,
      kr_until3 S g leq H X c1 d1 com1 m1 m2 (without ids 1%N) (without ids 1%N) = Accept s1,
      kr_send3 S g X Hs s0 rnd 1%N = Accept m3 & kr_recv3 S g leq X Hs s1 0%N m3 = Accept x] /\
  [/\ forall r, hist r = if r == 1%N then m1 0%N else if r == 2%N then m2 0%N else m3,
      {in without ids 0%N, forall j, aget (echos 2%N) j = m_echo (m2 j)}, akeys (echos 2%N) = without ids 0%N &
      let judge e := kr_evidence S g leq H X Hs [::] ids [::] 0%N e (assemble (kr_required e) m3 hist echos) in
      confirmed_ev (judge (KrFacFailed 2%N)) /\ confirmed_ev (judge (KrShareMismatch 2%N (y 2%N 0%N)))].
Proof. exact: refresh_framed. Qed.
Print Assumptions C47_honest_sender_framed_refuted.
