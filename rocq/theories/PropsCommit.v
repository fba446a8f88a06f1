(** * Property C76: nobody chooses their contribution after seeing the others'.

    One party takes part in the same session in two worlds.  Its own secrets and
    draws may differ, and so may everything the peers send in rounds 2 and 3 and
    the order in which it arrives; only the round 1 echoes of the peers are the
    same ([same_echoes]).  [no_collision] says of the two openings in front of the
    party, and of nothing else, that they do not collide.  Then what the peers
    contribute is the same in both worlds: it was fixed by round 1.

    The commitment names the party that makes it, so nobody can repeat the
    commitment of somebody else either. *)
From Coq Require Import ZArith Znumtheory Lia.
From Verif Require Import Base EncodingModel SignedModel PaillierModel ZkBase ZkModel ZkToy.
From mathcomp Require Import all_ssreflect all_algebra.
From Verif Require Import AlgBase ThresholdModel SchModel ProtoBase ProtoSpec KeyInitModel AuxGenModel AuxGenSpec AuxGenToy
  KeyRefreshModel KeyRefreshSpec KeyRefreshToy KeyRefreshProofs AgreeSpec BindSpec CommitSpec CommitProofs CommitToy PropsShare PropsKeyInit.
Set Implicit Arguments.
Unset Strict Implicit.
Unset Printing Implicit Defensive.
Import GRing.Theory.
Local Open Scope ring_scope.

(** ** Key generation: the peers' whole round 2 messages and public shares are
    fixed, so the key is a fixed point plus the party's own share, and different
    secrets of the party give different keys. *)
Theorem C76_key_init (F : fieldType) (V : lmodType F) (g : V) (I : eqType) (le : rel I) (HO : eqType)
    (H : dst -> seq (hitem HO I V) -> HO) (X : xof (seq (hitem HO I V)) V) (scheme : seq (hitem HO I V)) ids sr
    id x tau rho u c m1 m2 m3 o1 o2 o3 k x' tau' rho' u' c' m1' m2' m3' o1' o2' o3' k' :
  let sid := sid_new H scheme sr ids in
  uniq ids ->
  ki_start g H scheme ids sr id x tau rho u = Ok c -> ki_start g H scheme ids sr id x' tau' rho' u' = Ok c' ->
  perm_eq o1 (without ids id) -> perm_eq o2 (without ids id) -> perm_eq o3 (without ids id) ->
  perm_eq o1' (without ids id) -> perm_eq o2' (without ids id) -> perm_eq o3' (without ids id) ->
  ki_run g le H X c m1 m2 m3 o1 o2 o3 = Accept k -> ki_run g le H X c' m1' m2' m3' o1' o2' o3' = Accept k' ->
  same_echoes ids id m1 m1' ->
  no_collision (H DKeyInit) (without ids id) (fun l => ki_opens sid l (m2 l)) (fun l => ki_opens sid l (m2' l)) ->
  [/\ {in without ids id, forall l, m2 l = m2' l},
      {in without ids id, forall l, aget (ks_public k) l = aget (ks_public k') l},
      ks_vkey_point k - x *: g = ks_vkey_point k' - x' *: g &
      g != 0 -> ks_vkey_point k = ks_vkey_point k' -> x = x'].
Proof. move=> sid hu; exact: ki_fixed. Qed.
Print Assumptions C76_key_init.

(** Party 1 with secret 2 gets the key 6, with secret 4 the key 1; parties 0 and 2
    send the same commitments. *)
Example C76_key_init_case :
  let m1 s j := ki_send1 H7 (ctx7 s j) in let m2 s j := ki_send2 (ctx7 s j) in
  [/\ accepted (run7 sec7 1%N) (fun k => ks_vkey_point k == 6%:R *: g7),
      accepted (run7 sec7b 1%N) (fun k => ks_vkey_point k == 1%:R *: g7),
      same_echoes trio 1%N (m1 sec7) (m1 sec7b) &
      no_collision (H7 DKeyInit) (without trio 1%N) (fun l => ki_opens (sid_new H7 [::] [::] trio) l (m2 sec7 l))
        (fun l => ki_opens (sid_new H7 [::] [::] trio) l (m2 sec7b l))].
Proof. exact: ki_fixed_case. Qed.

(** ** Key generation: the commitments of two parties differ. *)
Theorem C76_key_init_no_copy (F : fieldType) (V : lmodType F) (g : V) (I : eqType) (le : rel I) (HO : eqType)
    (H : dst -> seq (hitem HO I V) -> HO) (X : xof (seq (hitem HO I V)) V) (scheme : seq (hitem HO I V)) ids sr
    id x tau rho u c m1 m2 m3 o1 o2 o3 k l l' :
  let sid := sid_new H scheme sr ids in
  uniq ids ->
  ki_start g H scheme ids sr id x tau rho u = Ok c ->
  perm_eq o1 (without ids id) -> perm_eq o2 (without ids id) -> perm_eq o3 (without ids id) ->
  ki_run g le H X c m1 m2 m3 o1 o2 o3 = Accept k ->
  l \in ids -> l' \in ids -> l != l' -> ~ cross_collision (H DKeyInit) (ki_seen sid id c m2) l l' ->
  echoes id (ki_send1 H c) m1 l <> echoes id (ki_send1 H c) m1 l'.
Proof. move=> sid hu; exact: ki_no_copy. Qed.
Print Assumptions C76_key_init_no_copy.

(** The three parties of the toy session. *)
Example C76_key_init_no_copy_case :
  let m2 j := ki_send2 (ctx7 sec7 j) in
  accepted (run7 sec7 1%N) (fun k => ks_vkey_point k == 6%:R *: g7) /\
  {in trio &, forall l l', l != l' -> ~ cross_collision (H7 DKeyInit) (ki_seen (sid_new H7 [::] [::] trio) 1%N (ctx7 sec7 1%N) m2) l l'}.
Proof. exact: ki_no_copy_case. Qed.

(** ** Auxiliary data: the peers' parameters and everything else they reveal in
    round 2 are fixed. *)
Theorem C76_aux_gen (S : sparams) (C : curve) (I : eqType) (le : rel I) (HO : eqType)
    (H : dst -> seq (hitem HO I (pt C)) -> HO) (X : xof (seq (hitem HO I (pt C))) (pt C)) (scheme : seq (hitem HO I (pt C))) ids sr
    id r c d com m1 m2 m3 o1 o2 o3 a r' c' d' com' m1' m2' m3' o1' o2' o3' a' :
  let sid := sid_new H scheme sr ids in
  uniq ids -> Z.le 3 (modulus_bits (sp_pail S)) ->
  ag_start S H X scheme ids sr id r = Ok (c, d) -> ag_start S H X scheme ids sr id r' = Ok (c', d') ->
  perm_eq o1 (without ids id) -> perm_eq o2 (without ids id) -> perm_eq o3 (without ids id) ->
  perm_eq o1' (without ids id) -> perm_eq o2' (without ids id) -> perm_eq o3' (without ids id) ->
  ag_run S le H X c d com m1 m2 m3 o1 o2 o3 = Accept a -> ag_run S le H X c' d' com' m1' m2' m3' o1' o2' o3' = Accept a' ->
  same_echoes ids id m1 m1' ->
  no_collision (H DKeyInit) (without ids id) (fun l => ag_opens sid l (m2 l)) (fun l => ag_opens sid l (m2' l)) ->
  {in without ids id, forall l,
    aget (ai_public a) l = aget (ai_public a') l /\
    exists pk rp psi rid u, ag_opens sid l (m2 l) (ag_transcript C sid l pk rp psi rid u) /\
      ag_opens sid l (m2' l) (ag_transcript C sid l pk rp psi rid u)}.
Proof. move=> sid hu hb; exact: ag_fixed. Qed.
Print Assumptions C76_aux_gen.

(** Party 1 draws another [rid] and receives in another order. *)
Example C76_aux_gen_case :
  [/\ ag_start SA HA XA [::] idsA [::] 1%N (randA 1) = Ok start1, ag_start SA HA XA [::] idsA [::] 1%N randB = Ok b_start1,
      isacc (ag_run SA leq HA XA start1.1 start1.2 com1 in1 in2 in3 (without idsA 1%N) (rev (without idsA 1%N)) (without idsA 1%N)) &
      isacc (ag_run SA leq HA XA b_start1.1 b_start1.2 com1 in1 in2 in3 (rev (without idsA 1%N)) (without idsA 1%N) (without idsA 1%N))] /\
  [/\ ap_rid start1.2 <> ap_rid b_start1.2, same_echoes idsA 1%N in1 in1 &
      no_collision (HA DKeyInit) (without idsA 1%N) (fun l => ag_opens (sid_new HA [::] [::] idsA) l (in2 l))
        (fun l => ag_opens (sid_new HA [::] [::] idsA) l (in2 l))].
Proof. exact: ag_fixed_case. Qed.

Theorem C76_aux_gen_no_copy (S : sparams) (C : curve) (I : eqType) (le : rel I) (HO : eqType)
    (H : dst -> seq (hitem HO I (pt C)) -> HO) (X : xof (seq (hitem HO I (pt C))) (pt C)) (scheme : seq (hitem HO I (pt C))) ids sr
    id r c d com m1 m2 m3 o1 o2 o3 a l l' :
  let sid := sid_new H scheme sr ids in
  uniq ids -> Z.le 3 (modulus_bits (sp_pail S)) ->
  ag_start S H X scheme ids sr id r = Ok (c, d) ->
  perm_eq o1 (without ids id) -> perm_eq o2 (without ids id) -> perm_eq o3 (without ids id) ->
  ag_run S le H X c d com m1 m2 m3 o1 o2 o3 = Accept a ->
  l \in ids -> l' \in ids -> l != l' -> ~ cross_collision (H DKeyInit) (ag_seen sid id d m2) l l' ->
  echoes id (ag_send1 H c d) m1 l <> echoes id (ag_send1 H c d) m1 l'.
Proof. move=> sid hu hb; exact: ag_no_copy. Qed.
Print Assumptions C76_aux_gen_no_copy.

(** Parties 0 and 1 in front of party 1. *)
Example C76_aux_gen_no_copy_case :
  isacc (ag_run SA leq HA XA start1.1 start1.2 com1 in1 in2 in3 (without idsA 1%N) (rev (without idsA 1%N)) (without idsA 1%N)) /\
  ~ cross_collision (HA DKeyInit) (ag_seen (sid_new HA [::] [::] idsA) 1%N start1.2 in2) 0%N 1%N.
Proof. exact: ag_no_copy_case. Qed.

(** ** Refresh: the peers' changes and auxiliary data are fixed, so the change of
    every public share is a fixed point plus the party's own part. *)
Theorem C76_key_refresh (S : sparams) (F : fieldType) (V : lmodType F) (g : V) (I : eqType) (le : rel I) (HO : eqType)
    (H : dst -> seq (hitem HO I V) -> HO) (X : xof (seq (hitem HO I V)) V) (Hs : dst -> seq (hitem HO I V) -> F)
    (scheme : seq (hitem HO I V)) ids sr
    id r y tau split c d com m1 m2 m3 o1 o2 o3 kc a r' y' tau' split' c' d' com' m1' m2' m3' o1' o2' o3' kc' a' :
  let sid := sid_new H scheme sr ids in
  uniq ids -> Z.le 3 (modulus_bits (sp_pail S)) -> total_order le -> sorted le ids ->
  kr_start S g H X scheme ids sr id r y tau split = Ok (c, d) ->
  kr_start S g H X scheme ids sr id r' y' tau' split' = Ok (c', d') ->
  perm_eq o1 (without ids id) -> perm_eq o2 (without ids id) -> perm_eq o3 (without ids id) ->
  perm_eq o1' (without ids id) -> perm_eq o2' (without ids id) -> perm_eq o3' (without ids id) ->
  kr_run S g le H X Hs c d com m1 m2 m3 o1 o2 o3 = Accept (kc, a) ->
  kr_run S g le H X Hs c' d' com' m1' m2' m3' o1' o2' o3' = Accept (kc', a') ->
  same_echoes ids id m1 m1' ->
  no_collision (H DKeyInit) (without ids id) (fun l => kr_opens le sid l (m2 l)) (fun l => kr_opens le sid l (m2' l)) ->
  exists D,
  [/\ {in without ids id, forall l, reveals le (m2 l) (D l) /\ reveals le (m2' l) (D l)},
      {in without ids id, forall l, aget (ai_public a) l = aget (ai_public a') l} &
      {in ids, forall k,
        aget (kc_public kc) k = Some (change d k + \sum_(l <- without ids id) change (D l) k) /\
        aget (kc_public kc') k = Some (change d' k + \sum_(l <- without ids id) change (D l) k)}].
Proof. move=> sid hu hb ho hs; exact: kr_fixed. Qed.
Print Assumptions C76_key_refresh.

(** Party 1 splits zero in another way. *)
Example C76_key_refresh_case :
  [/\ kr_start SA g7 HR XR [::] idsA [::] 1%N (randA 1) (yR 1) (tauR 1) (splitR 1) = Ok r_start1,
      kr_start SA g7 HR XR [::] idsA [::] 1%N (randA 1) (yR 1) (tauR 1) splitB = Ok rb_start1,
      isacc (kr_run SA g7 leq HR XR HsR r_start1.1 r_start1.2 r_com1 r_in1 r_in2 r_in3
        (without idsA 1%N) (rev (without idsA 1%N)) (without idsA 1%N)) &
      isacc (kr_run SA g7 leq HR XR HsR rb_start1.1 rb_start1.2 r_com1 r_in1 r_in2 r_in3
        (rev (without idsA 1%N)) (without idsA 1%N) (without idsA 1%N))] /\
  [/\ aget (kp_xs r_start1.2) 0%N != aget (kp_xs rb_start1.2) 0%N, same_echoes idsA 1%N r_in1 r_in1 &
      no_collision (HR DKeyInit) (without idsA 1%N) (fun l => kr_opens leq (sid_new HR [::] [::] idsA) l (r_in2 l))
        (fun l => kr_opens leq (sid_new HR [::] [::] idsA) l (r_in2 l))].
Proof. exact: kr_fixed_case. Qed.

Theorem C76_key_refresh_no_copy (S : sparams) (F : fieldType) (V : lmodType F) (g : V) (I : eqType) (le : rel I) (HO : eqType)
    (H : dst -> seq (hitem HO I V) -> HO) (X : xof (seq (hitem HO I V)) V) (Hs : dst -> seq (hitem HO I V) -> F)
    (scheme : seq (hitem HO I V)) ids sr
    id r y tau split c d com m1 m2 m3 o1 o2 o3 kc a l l' :
  let sid := sid_new H scheme sr ids in
  uniq ids -> Z.le 3 (modulus_bits (sp_pail S)) -> total_order le -> sorted le ids ->
  kr_start S g H X scheme ids sr id r y tau split = Ok (c, d) ->
  perm_eq o1 (without ids id) -> perm_eq o2 (without ids id) -> perm_eq o3 (without ids id) ->
  kr_run S g le H X Hs c d com m1 m2 m3 o1 o2 o3 = Accept (kc, a) ->
  l \in ids -> l' \in ids -> l != l' -> ~ cross_collision (H DKeyInit) (kr_seen le sid id d m2) l l' ->
  echoes id (kr_send1 g H c d) m1 l <> echoes id (kr_send1 g H c d) m1 l'.
Proof. move=> sid hu hb ho hs; exact: kr_no_copy. Qed.
Print Assumptions C76_key_refresh_no_copy.

(** Parties 0 and 1 in front of party 1. *)
Example C76_key_refresh_no_copy_case :
  isacc (kr_run SA g7 leq HR XR HsR r_start1.1 r_start1.2 r_com1 r_in1 r_in2 r_in3
    (without idsA 1%N) (rev (without idsA 1%N)) (without idsA 1%N)) /\
  ~ cross_collision (HR DKeyInit) (kr_seen leq (sid_new HR [::] [::] idsA) 1%N r_start1.2 r_in2) 0%N 1%N.
Proof. exact: kr_no_copy_case. Qed.
