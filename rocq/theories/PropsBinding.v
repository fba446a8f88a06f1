(** * Property C60: sessions are bound by their identifiers; and the Schnorr part
    of property C63.

    [H] is any hash function, [scheme] whatever identifies the scheme parameters. *)
From Coq Require Import ZArith.
From Verif Require Import Base PaillierModel ZkBase ZkModel ElogModel ZkToy.
From mathcomp Require Import all_ssreflect all_algebra.
From Verif Require Import AlgBase ShamirModel ProtoBase AuxGenModel KeyInitModel KeyRefreshModel SchModel SchProofs PropsShare PropsSch SigningModel AuxGenToy SigningToy SigningWitness
  BindSpec BindProofs.
Set Implicit Arguments.
Unset Strict Implicit.
Unset Printing Implicit Defensive.
Import GRing.Theory.
Local Open Scope ring_scope.

(** Two sessions of key generation, auxiliary generation or refresh with the same
    identifier have the same scheme, randomness and parties, or these two inputs
    collide. *)
Theorem C60_sid_binds (HO I V : Type) (H : dst -> seq (hitem HO I V) -> HO) (scheme scheme' : seq (hitem HO I V)) rnd rnd' ids ids' :
  (scheme, rnd, ids) <> (scheme', rnd', ids') ->
  sid_new H scheme rnd ids = sid_new H scheme' rnd' ids' ->
  collision (H DSid) (scheme ++ [:: HBytes rnd; HSeq [seq HId i | i <- ids]])
                     (scheme' ++ [:: HBytes rnd'; HSeq [seq HId i | i <- ids']]).
Proof. exact: sid_binding. Qed.
Print Assumptions C60_sid_binds.

(** The toy hash reduces bytes modulo 97. *)
Example C60_sid_case : sid_new HS [::] [:: Z0; Zpos 5] idsS = sid_new HS [::] [:: Zpos 97; Zpos 5] idsS.
Proof. by vm_compute. Qed.

(** A signing session's also binds the public shares and the auxiliary data. *)
Theorem C60_epid_binds (C : curve) (I HO : eqType) (H : dst -> seq (hitem HO I (pt C)) -> HO) (scheme scheme' : seq (hitem HO I (pt C)))
    rnd rnd' (a a' : sg_assoc C I) :
  (scheme, rnd, sa_shares a, sa_aux a) <> (scheme', rnd', sa_shares a', sa_aux a') ->
  sg_epid H scheme rnd a = sg_epid H scheme' rnd' a' ->
  collision (H DEpid)
    (scheme ++ [:: HBytes rnd; HSeq [seq HSeq [:: HId p.1; HPt p.2] | p <- sa_shares a];
       HSeq [seq HSeq [:: HId p.1; HNum p.2.1; HSeq [:: HNum (rp_n p.2.2); HNum (rp_t p.2.2); HNum (rp_s p.2.2)]] | p <- sa_aux a]])
    (scheme' ++ [:: HBytes rnd'; HSeq [seq HSeq [:: HId p.1; HPt p.2] | p <- sa_shares a'];
       HSeq [seq HSeq [:: HId p.1; HNum p.2.1; HSeq [:: HNum (rp_n p.2.2); HNum (rp_t p.2.2); HNum (rp_s p.2.2)]] | p <- sa_aux a']]).
Proof. exact: epid_binding. Qed.
Print Assumptions C60_epid_binds.

Example C60_epid_case :
  let a := SgAssoc (zs_public (shareS 0)) auxS [:: Zpos 1] in
  sg_epid HS [::] [:: Z0; Zpos 5] a = sg_epid HS [::] [:: Zpos 97; Zpos 5] a.
Proof. by vm_compute. Qed.

(** The contexts under which parties prove things differ between provers and
    between sessions (then C63 applies). *)
Theorem C60_contexts_differ (C : curve) (I HO : eqType) (c c' : sg_ctx C I HO) (i i' : I) :
  (sx_epid c, i) <> (sx_epid c', i') -> sg_aux c i <> sg_aux c' i'.
Proof. by move=> D [E1 E2]; apply: D; rewrite E1 E2. Qed.
Print Assumptions C60_contexts_differ.

Theorem C60_keygen_contexts_differ (HO I : eqType) (F : fieldType) (V : lmodType F) (sid sid' : HO) (i i' : I) (rho rho' : seq bool) :
  (sid, i, rho) <> (sid', i', rho') ->
  ki_aux V sid i rho <> ki_aux V sid' i' rho' /\ kr_aux V sid i rho <> kr_aux V sid' i' rho'.
Proof. by move=> D; split=> -[E1 E2 E3]; apply: D; rewrite E1 E2 E3. Qed.
Print Assumptions C60_keygen_contexts_differ.

(** The message to be signed is not bound: with any other message a party has the
    same session, sends the same messages in rounds 1 to 3 and takes the same
    decisions on what it receives; after round 3 it differs in the signature
    share only. *)
Theorem C60_message_not_bound (S : sparams) (C : curve) (I : eqType) (le : rel I) (HO : eqType)
    (H : dst -> seq (hitem HO I (pt C)) -> HO) (X : xof (seq (hitem HO I (pt C))) (pt C)) (scheme : seq (hitem HO I (pt C)))
    (xcoord : pt C -> Z) rnd id (e e' : sg_entry C I) r c eb :
  se_share e = se_share e' -> se_aux e = se_aux e' ->
  sg_start S H scheme rnd id e r = Ok (c, eb) ->
  exists c', sg_start S H scheme rnd id e' r = Ok (c', eb) /\ sx_epid c' = sx_epid c /\
    (forall dest r1, sg_send1 S X c' eb dest r1 = sg_send1 S X c eb dest r1) /\
    (forall r2 m1 o1, same_upto (fun s => sg_send2 s) (sg_until2 S le X c eb r2 m1 o1) (sg_until2 S le X c' eb r2 m1 o1)) /\
    (forall r2 r3 m1 m2 o1 o2,
       same_upto (fun s => sg_send3 s) (sg_until3 S le X c eb r2 r3 m1 m2 o1 o2) (sg_until3 S le X c' eb r2 r3 m1 m2 o1 o2)) /\
    (forall r2 r3 m1 m2 m3 o1 o2 o3,
       same_upto next_view (sg_until4 S le X xcoord c eb r2 r3 m1 m2 m3 o1 o2 o3)
         (sg_until4 S le X xcoord c' eb r2 r3 m1 m2 m3 o1 o2 o3)).
Proof. exact: message_not_bound. Qed.
Print Assumptions C60_message_not_bound.

(** Party 0 of the toy session, with another message: same second-round message. *)
Example C60_message_case :
  let e := entryS 0 in let e' := SgEntry (se_share e) (se_aux e) [:: Zpos 1; Zpos 2] in
  (if startS 0 is Ok (c, _) then
     if sg_start SA HS [::] [:: Zpos 9; Zpos 9] 0%N e' (rnd1S 0) is Ok (c', eb') then
       if sg_until2 SA leq XS c' eb' (rnd2S 0) (m1S 0) (othersS 0) is Accept s then Some (sx_msg c, sx_msg c', sg_send2 s) else None
     else None else None) = Some (Zpos 2, Zpos 6, m20).
Proof. match goal with |- ?G => exact (erefl (Some (Zpos 2, Zpos 6, m20)) <: G) end. Qed.

(** A Schnorr proof binds commitment, statement and context. *)
Theorem C63_sch (F : fieldType) (V : lmodType F) (g : V) (A : Type) (X : xof A V) (pf : sch_proof F) (com com' P P' : V) (aux aux' : A) :
  sch_verify g X pf com P aux -> sch_verify g X pf com' P' aux' -> (com, P, aux) <> (com', P', aux') ->
  collision (fun t => zf (x_scalar X Tsch t) : F) [:: IA aux; IP P; IP com] [:: IA aux'; IP P'; IP com'].
Proof. exact: sch_binding. Qed.
Print Assumptions C63_sch.

Example C63_sch_case :
  sch_verify g7 (X7 (Zpos 5)) (SchProof (5%:R : F7) 1%:R) (6%:R : F7) (5%:R : F7) 1%N /\
  sch_verify g7 (X7 (Zpos 5)) (SchProof (5%:R : F7) 1%:R) (6%:R : F7) (5%:R : F7) 2%N.
Proof. by vm_compute. Qed.
