(** * What a finished AuxGen or KeyRefresh says about a peer's modulus (C81). *)
From Coq Require Import ZArith Znumtheory Lia.
From Verif Require Import Base BaseFacts SignedModel PaillierModel ZkBase ZkModel PropsZk1 ModSoundSpec ModSoundLemmas PropsModSound.
From mathcomp Require Import all_ssreflect all_algebra.
From Verif Require Import AlgBase ProtoBase ProtoSpec ProtoFacts AuxGenModel AuxGenSpec AuxGenProofs KeyRefreshModel KeyRefreshSpec KeyRefreshProofs
  PropsAuxGen PropsKeyRefresh ModPeerSpec.
Set Implicit Arguments.
Unset Strict Implicit.
Unset Printing Implicit Defensive.

Lemma accepted_vouches (S : sparams) (C : curve) (A : Type) (X : xof A (pt C)) pf N aux :
  p_self_consistent (sp_pail S) = true -> xof_ok (sp_q S) X -> Z.lt 1 N -> Z.lt N (Z.pow 2 (modulus_bits (sp_pail S))) -> Z.odd N = true ->
  recognised X N -> length (mod_elems pf) = sp_secbits S -> mod_verify S X pf N aux = Ret true -> vouches S X N (mod_commitment pf) aux.
Proof.
move=> hs hx h1 h2 ho hr hl hv.
have [r [E [E' _]]] := C35_acceptance S C A hs X pf N aux (conj h1 h2).
have er : r = true by move: E; rewrite hv => -[].
have [_ [hp _]] := E' er.
have np : ~ Znumtheory.prime N by move=> /hr h; rewrite h in hp.
split=> // nb.
split; last exact: (C78_value_vectors S C A N _ aux hs (conj h1 h2) ho np nb).
by exists X, pf.
Qed.

(** The verifier panics on a modulus above the declared size. *)
Lemma accepted_size (S : sparams) (C : curve) (A : Type) (X : xof A (pt C)) pf N aux :
  Z.le 0 N -> Z.le 0 (modulus_bits (sp_pail S)) -> mod_verify S X pf N aux = Ret true -> Z.lt N (Z.pow 2 (modulus_bits (sp_pail S))).
Proof.
move=> h0 hb; rewrite /mod_verify /check; case: (zs_eqb _ _) => //=; case: (x_is_prime _ _ _ _) => //=.
case: (Z.eqb _ _) => //=; rewrite /modulus_signed /pub_new_positive /pub_new_from_abs.
case: (Z.leb _ _) => //=; case E: (Z.ltb _ _) => //= _.
by apply/(bits_le N _ h0 hb)/Z.ltb_ge.
Qed.

Lemma large_enough k N : Z.le 4 k -> at_least_bits (Z.sub k 2) N -> Z.lt 1 N.
Proof.
rewrite /at_least_bits => hk h; have : Z.le (Z.pow 2 1) (Z.pow 2 (Z.sub (Z.sub k 2) 1)) by apply: Z.pow_le_mono_r; lia.
by rewrite -[Z.pow 2 1]/(Zpos 2); lia.
Qed.

Lemma ag_peer (S : sparams) (C : curve) (I : eqType) (le : rel I) (HO : eqType)
    (H : dst -> seq (hitem HO I (pt C)) -> HO) (X : xof (seq (hitem HO I (pt C))) (pt C)) (scheme : seq (hitem HO I (pt C)))
    ids sr id r c d com m1 m2 m3 o1 o2 o3 a j N rp pf :
  p_self_consistent (sp_pail S) = true -> xof_ok (sp_q S) X -> Z.le 4 (modulus_bits (sp_pail S)) ->
  ag_start S H X scheme ids sr id r = Ok (c, d) -> uniq ids ->
  perm_eq o1 (without ids id) -> perm_eq o2 (without ids id) -> perm_eq o3 (without ids id) ->
  ag_run S le H X c d com m1 m2 m3 o1 o2 o3 = Accept a ->
  j \in without ids id -> aget (ai_public a) j = Some (N, rp) ->
  m_normal (m3 j) = Some (A3NB pf) -> length (mod_elems pf) = sp_secbits S ->
  recognised X N ->
  exists aux, vouches S X N (mod_commitment pf) aux.
Proof.
move=> hs hx h4 st hu p1 p2 p3 run hj ha hm hl hr; have h3 : Z.le 3 (modulus_bits (sp_pail S)) by lia.
have [_ [pk [rpw [psi [rid [u [rid_c [psi' [psi'' [_ h]]]]]]]]]] := C45_finished_party h3 st hu p1 p2 p3 run.
have [e1 e2 _ e4 [hb _ _ hv _]] := h j hj.
have eN : N = pk j by move: e1; rewrite ha => -[].
have ep : pf = psi' j by move: hm; rewrite e4 => -[].
exists [:: HOut (sid_new H scheme sr ids); HId j; HBits rid_c].
have n1 : Z.lt 1 N by rewrite eN; apply: large_enough h4 hb.
have ho : Z.odd N = true.
  have [s S1 _] := vbind_inv run; have [pk' [rpw' [psi2 [rid' [u' [_ K _ _ _]]]]]] := AuxGenProofs.until3_ok S1.
  have [e2' _ [o _] _] := K j (etrans (perm_mem p2 j) hj).
  by rewrite eN; move: e2; rewrite e2' => -[_ _ <- _ _].
have n0 : Z.le 0 (pk j) by rewrite -eN; lia.
have b0 : Z.le 0 (modulus_bits (sp_pail S)) by lia.
have n2 : Z.lt N (Z.pow 2 (modulus_bits (sp_pail S))) by rewrite eN; exact: (accepted_size n0 b0 hv).
by apply: (accepted_vouches (C := C)) => //; rewrite ep eN.
Qed.

Lemma kr_peer (S : sparams) (F : fieldType) (V : lmodType F) (g : V) (I : eqType) (le : rel I) (HO : eqType)
    (H : dst -> seq (hitem HO I V) -> HO) (X : xof (seq (hitem HO I V)) V) (Hs : dst -> seq (hitem HO I V) -> F)
    (scheme : seq (hitem HO I V))
    ids sr id r y tau split c d com m1 m2 m3 o1 o2 o3 kc a j N rp pf :
  p_self_consistent (sp_pail S) = true -> xof_ok (sp_q S) X -> Z.le 4 (modulus_bits (sp_pail S)) ->
  total_order le -> sorted le ids -> uniq ids ->
  kr_start S g H X scheme ids sr id r y tau split = Ok (c, d) ->
  perm_eq o1 (without ids id) -> perm_eq o2 (without ids id) -> perm_eq o3 (without ids id) ->
  kr_run S g le H X Hs c d com m1 m2 m3 o1 o2 o3 = Accept (kc, a) ->
  j \in without ids id -> aget (ai_public a) j = Some (N, rp) ->
  m_normal (m3 j) = Some (K3NB pf) -> length (mod_elems pf) = sp_secbits S ->
  recognised X N ->
  exists aux, vouches (C := curveV g) S X N (mod_commitment pf) aux.
Proof.
move=> hs hx h4 hle hso hu st p1 p2 p3 run hj ha hm hl hr; have h3 : Z.le 3 (modulus_bits (sp_pail S)) by lia.
have [_ [_ [D [fac [cc [hats [psi' [rid_c [_ [_ h]]]]]]]]]] := C46_finished_party h3 hle hso hu st p1 p2 p3 run.
have [[_ e2 e4 e1 [_ _ _ _ [hb _ _]]] [_ hv _ _]] := h j hj.
have eN : N = kp_pk (D j) by move: e1; rewrite ha => -[].
have ep : pf = psi' j by move: hm; rewrite e4 => -[].
exists [:: HOut (sid_new H scheme sr ids); HId j; HBits rid_c].
have n1 : Z.lt 1 N by rewrite eN; apply: large_enough h4 hb.
have ho : Z.odd N = true.
  have [s S1 _] := vbind_inv run; have [_ K _ _] := KeyRefreshProofs.until3_ok S1.
  have [_ _ [o _] _] := K j (etrans (perm_mem p2 j) hj).
  by rewrite eN (dataE e2).
have n0 : Z.le 0 (kp_pk (D j)) by rewrite -eN; lia.
have b0 : Z.le 0 (modulus_bits (sp_pail S)) by lia.
have n2 : Z.lt N (Z.pow 2 (modulus_bits (sp_pail S))) by rewrite eN; exact: (accepted_size n0 b0 hv).
by apply: (accepted_vouches (C := curveV g)) => //; rewrite ep eN.
Qed.
