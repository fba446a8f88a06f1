(** * Property C45: auxiliary data generation (AuxGen).

    [S] is any set of scheme parameters, [C] any curve, [I] any type of party
    ids ordered by [le], [HO] the type of hash outputs, [H] and [X] any hash
    functions, [scheme] whatever identifies the scheme parameters. *)
From Coq Require Import ZArith.
From Verif Require Import Base EncodingModel SignedModel PaillierModel ZkBase ZkModel ZkToy.
From mathcomp Require Import all_ssreflect.
From Verif Require Import AlgBase ProtoBase ProtoSpec AuxGenModel AuxGenSpec AuxGenProofs AuxGenWitness AuxGenToy.
Set Implicit Arguments.
Unset Strict Implicit.
Unset Printing Implicit Defensive.

Definition acceptedA {E T} (r : recv E T) (p : T -> bool) : bool := if r is Accept t then p t else false.

(** A party that finishes, whatever the others sent: it holds its own keys and
    exactly one entry per participant; each peer's data is what the peer
    committed to in round 1, has moduli of at least the declared size less two
    bits, and all three of the peer's proofs were verified, the last two under a
    session value to which everybody contributed. *)
Theorem C45_finished_party (S : sparams) (C : curve) (I : eqType) (le : rel I) (HO : eqType)
    (H : dst -> seq (hitem HO I (pt C)) -> HO) (X : xof (seq (hitem HO I (pt C))) (pt C)) (scheme : seq (hitem HO I (pt C)))
    ids sr id r c d com m1 m2 m3 o1 o2 o3 a :
  (3 <= modulus_bits (sp_pail S))%Z ->
  ag_start S H X scheme ids sr id r = Ok (c, d) -> uniq ids ->
  perm_eq o1 (without ids id) -> perm_eq o2 (without ids id) -> perm_eq o3 (without ids id) ->
  ag_run S le H X c d com m1 m2 m3 o1 o2 o3 = Accept a ->
  let sid := sid_new H scheme sr ids in
  [/\ ai_owner a = id, ai_sk a = ax_sk c, perm_eq (akeys (ai_public a)) ids &
      aget (ai_public a) id = Some (sk_pk (ax_sk c), ax_rp c)] /\
  exists pk rpw psi rid u rid_c psi' psi'',
    let rp j := reduced (rpw j) in
    combined (ar_rid r :: [seq rid j | j <- without ids id]) rid_c /\
    {in without ids id, forall j,
      [/\ aget (ai_public a) j = Some (pk j, rp j),
          m2 j = Msg None (Some (A2EB (rid j) (rpw j))) (Some (A2NB (pk j) (psi j) (u j))),
          m1 j = Msg None (Some (A1EB (H DKeyInit
            [:: HOut sid; HId j; HNum (pk j); HSeq [:: HNum (rp_n (rp j)); HNum (rp_t (rp j)); HNum (rp_s (rp j))];
                HSeq [:: HSeq [seq HNum z | z <- prm_commitment (psi j)]; HBits (prm_challenge (psi j));
                         HSeq [seq HNum z | z <- prm_elems (psi j)]]; HBits (rid j); HBits (u j)]))) None,
          m3 j = Msg (Some (A3DM (psi'' j))) None (Some (A3NB (psi' j))) &
          [/\ at_least_bits (modulus_bits (sp_pail S) - 2) (pk j),
              at_least_bits (modulus_bits (sp_pail S) - 2) (rp_n (rp j)),
              prm_verify S X (psi j) (rp j) [:: HOut sid; HId j] = Ret true,
              mod_verify S X (psi' j) (pk j) [:: HOut sid; HId j; HBits rid_c] = Ret true &
              fac_verify S X (psi'' j) (pk j) (ax_rp c) [:: HOut sid; HId j; HBits rid_c] = Ret true]]}.
Proof. exact: ag_finished. Qed.
Print Assumptions C45_finished_party.

(** Party 1 of three finishes with the other two's moduli 437 and 589. *)
Example C45_finished_case :
  [/\ ag_start SA HA XA [::] idsA [::] 1%N (randA 1) = Ok start1, uniq idsA,
      perm_eq (rev (without idsA 1%N)) (without idsA 1%N) &
      acceptedA (ag_run SA leq HA XA start1.1 start1.2 com1 in1 in2 in3 (without idsA 1%N) (rev (without idsA 1%N)) (without idsA 1%N))
        (fun a => (ai_owner a == 1%N) && (akeys (ai_public a) == idsA)
          && all (fun N => has (fun e => N =? e.2.1)%Z (ai_public a)) [:: 437; 209; 589]%Z)].
Proof. by split; vm_compute. Qed.

(** Round 2: the receiver panics on the sender's data, or it ends with exactly
    the first of its checks that a third party, given the evidence, also finds
    failed, and accepts when there is none. *)
Theorem C45_round2_evidence (S : sparams) (C : curve) (I : eqType) (HO : eqType)
    (H : dst -> seq (hitem HO I (pt C)) -> HO) (X : xof (seq (hitem HO I (pt C))) (pt C)) (scheme : seq (hitem HO I (pt C)))
    ids sr id r c d cap_vs guilty v rid rpw pk psi u hist (echos : nat -> seq (I * ag_wire HO)) :
  ag_start S H X scheme ids sr id r = Ok (c, d) -> @ag_recv1 I HO (hist 1%N) = Accept v -> aget cap_vs guilty = Some v ->
  let m := Msg None (Some (A2EB rid rpw)) (Some (A2NB pk psi u)) in
  let judge e := ag_evidence S H X scheme ids sr guilty e (assemble (ag_required e) m hist echos) in
  ag_recv2 S H X c cap_vs guilty m = RPanic \/
  ag_recv2 S H X c cap_vs guilty m =
    if first_confirmed judge ag_checks2 is Some e then Reject (Proto e)
    else Accept (AgPayload pk (reduced rpw) rid).
Proof. exact: ag_round2_evidence. Qed.
Print Assumptions C45_round2_evidence.

(** Party 0 reveals another nonce than it committed to, or a modulus of seven
    bits (where eight are the least), having committed to it. *)
Definition small0 : ag_public := AgPublic 77 (RP 341 4 16) (PrmProof [:: 16; 1] [:: true; true] [:: 14; 107])%Z [:: true; false] [:: true].
Example C45_round2_case :
  [/\ acceptedA (@ag_recv1 nat_eqType nat_eqType (hist0 1)) (fun v => v == 13)%N,
      ag_recv2 SA HA XA start1.1 [:: (0, 13)]%N 0%N sent2_0 = Accept (AgPayload 437 (RP 341 4 16) [:: true; false]),
      ag_recv2 SA HA XA start1.1 [:: (0, 13)]%N 0%N
        (Msg None (m_echo sent2_0) (Some (A2NB 437 (PrmProof [:: 16; 1] [:: true; true] [:: 14; 107])%Z [:: false])))
        = Reject (Proto AgHashMismatch) &
      ag_recv2 SA HA XA start1.1 [:: (0%N, ag_hash HA small0 54%N 0%N)] 0%N (ag_send2 nat_eqType small0)
        = Reject (Proto AgPaillierTooSmall)].
Proof. by split; vm_compute. Qed.

(** Round 3, with evidence naming the receiver itself as the reporter. *)
Theorem C45_round3_evidence (S : sparams) (C : curve) (I : eqType) (le : rel I) (HO : eqType)
    (H : dst -> seq (hitem HO I (pt C)) -> HO) (X : xof (seq (hitem HO I (pt C))) (pt C)) (scheme : seq (hitem HO I (pt C)))
    ids sr id r c d com m1 m2 o1 o2 s guilty psi' psi hist echos draws :
  ag_start S H X scheme ids sr id r = Ok (c, d) -> uniq ids ->
  random_quadratic_residue (ar_rp_p r * ar_rp_q r) draws = Some (ar_t r) -> (0 < ar_rp_p r * ar_rp_q r)%Z ->
  perm_eq o1 (without ids id) -> perm_eq o2 (without ids id) ->
  ag_until3 S le H X c d com m1 m2 o1 o2 = Accept s ->
  guilty \in without ids id -> hist 2%N = m2 guilty ->
  perm_eq (akeys (echos 2%N)) (without ids guilty) ->
  {in without ids guilty, forall j, aget (echos 2%N) j = m_echo (if j == id then ag_send2 HO d else m2 j)} ->
  let m := Msg (Some (A3DM psi)) None (Some (A3NB psi')) in
  let judge e := ag_evidence S H X scheme ids sr guilty e (assemble (ag_required e) m hist echos) in
  ag_recv3 S X s guilty m = RPanic \/
  ag_recv3 S X s guilty m =
    if first_confirmed judge (ag_checks3 id) is Some e then Reject (Proto e) else Accept tt.
Proof. exact: ag_round3_evidence. Qed.
Print Assumptions C45_round3_evidence.

(** Party 0's honest message, the same with another party's modulus proof, and
    with the factor proof it made for party 2. *)
Example C45_round3_case :
  [/\ ag_start SA HA XA [::] idsA [::] 1%N (randA 1) = Ok start1,
      random_quadratic_residue (23 * 31) [:: 5%Z] = Some 25%Z,
      acceptedA (ag_until3 SA leq HA XA start1.1 start1.2 com1 in1 in2 (without idsA 1%N) (rev (without idsA 1%N)))
        (fun s => a3_rid s == a3_rid state1) &
      perm_eq (akeys (echos0 2)) (without idsA 0%N)] /\
  [/\ hist0 2 = in2 0, all (fun j => isSome (aget (echos0 2) j)) (without idsA 0%N),
      ag_recv3 SA XA state1 0%N sent3_0 = Accept tt &
      ag_recv3 SA XA state1 0%N (Msg (m_direct sent3_0) None (m_normal sent3_2)) = Reject (Proto AgModFailed)].
Proof. by split; split; vm_compute. Qed.

(** The reporter named in the evidence is not bound to the message: whoever the
    factor proof was made for, the judge checks it against the parameters of the
    party named. *)
Theorem C45_judge_trusts_named_reporter (S : sparams) (C : curve) (I : eqType) (HO : eqType)
    (H : dst -> seq (hitem HO I (pt C)) -> HO) (X : xof (seq (hitem HO I (pt C))) (pt C)) (scheme : seq (hitem HO I (pt C)))
    ids sr guilty reporter psi nb echo hist (echos : nat -> seq (I * ag_wire HO))
    (rid : I -> seq bool) (rpw : I -> rpparams) pk psi2 u rid_c :
  hist 2%N = Msg None (Some (A2EB (rid guilty) (rpw guilty))) (Some (A2NB pk psi2 u)) ->
  Z.odd pk -> Z.odd (rp_n (rpw reporter)) ->
  uniq (akeys (echos 2%N)) -> {in akeys (echos 2%N), forall j, aget (echos 2%N) j = Some (A2EB (rid j) (rpw j))} ->
  reporter \in akeys (echos 2%N) -> combined (rid guilty :: [seq rid j | j <- akeys (echos 2%N)]) rid_c ->
  let e := AgFacFailed reporter in
  confirmed_ev (ag_evidence S H X scheme ids sr guilty e
      (assemble (ag_required e) (Msg (Some (A3DM psi)) echo nb) hist echos)) <->
  fac_verify S X psi pk (reduced (rpw reporter)) [:: HOut (sid_new H scheme sr ids); HId guilty; HBits rid_c] = Ret false.
Proof. exact: fac_evidence_named. Qed.
Print Assumptions C45_judge_trusts_named_reporter.

Example C45_named_case :
  [/\ isSome (m_echo (hist0 2)), Z.odd 437, Z.odd 253, uniq (akeys (echos0 2)) & 2%N \in akeys (echos0 2)].
Proof. by split; vm_compute. Qed.

(** So an honest party can be blamed.  Party 0 follows the protocol; party 1
    receives its round 3 message and accepts it; the same message presented by
    party 1 as evidence "reported by party 2" is confirmed. *)
Theorem C45_honest_sender_framed_refuted :
  exists (S : sparams) (C : curve) (HO : eqType) (H : dst -> seq (hitem HO nat (pt C)) -> HO)
    (X : xof (seq (hitem HO nat (pt C))) (pt C)) (ids : seq nat) c0 d0 com0 s0 c1 d1 com1 s1 r0 r1 rnd m1 m2 m3 hist echos,
  [/\ ag_start S H X [::] ids [::] 0%N r0 = Ok (c0, d0), ag_start S H X [::] ids [::] 1%N r1 = Ok (c1, d1) &
      m1 0%N = ag_send1 H c0 d0 /\ m2 0%N = ag_send2 HO d0 /\ m1 1%N = ag_send1 H c1 d1 /\ m2 1%N = ag_send2 HO d1] /\
  [/\ ag_until3 S leq H X c0 d0 com0 m1 m2 (without ids 0%N) (without ids 0%N) = Accept s0,
      ag_until3 S leq H X c1 d1 com1 m1 m2 (without ids 1%N) (without ids 1%N) = Accept s1,
      ag_send3 S X s0 rnd 1%N = Accept m3 & ag_recv3 S X s1 0%N m3 = Accept tt] /\
  [/\ forall r, hist r = if r == 1%N then m1 0%N else if r == 2%N then m2 0%N else m3,
      {in without ids 0%N, forall j, aget (echos 2%N) j = m_echo (m2 j)}, akeys (echos 2%N) = without ids 0%N &
      confirmed_ev (ag_evidence S H X [::] ids [::] 0%N (AgFacFailed 2%N)
        (assemble (ag_required (AgFacFailed 2%N)) m3 hist echos))].
Proof. exact: honest_framed. Qed.
Print Assumptions C45_honest_sender_framed_refuted.
