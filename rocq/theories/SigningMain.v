(** * Signing: the statements of the property files put together. *)
From Coq Require Import ZArith Znumtheory Lia.
From Verif Require Import Base BaseFacts ModArith EncodingModel PaillierModel ZkBase ZkFacts ZkExtract ZkModel ElogModel.
From mathcomp Require Import all_ssreflect.
From Verif Require Import AlgBase AlgFacts ProtoBase ProtoSpec ProtoFacts AuxGenModel SigningModel SigningSpec SigningAlgebra
  SigningProofs SigningShares.
Set Implicit Arguments.
Unset Strict Implicit.
Unset Printing Implicit Defensive.

Section Main.
Variables (S : sparams) (C : curve) (I : eqType) (le : rel I) (HO : eqType).
Notation item := (hitem HO I (pt C)).
Notation q := (sp_q S).
Variables (H : dst -> seq item -> HO) (X : xof (seq item) (pt C)) (scheme : seq item).
Variables (xcoord : pt C -> Z) (lift_x : nat -> Z -> option (pt C)) (positional : bool).
Hypothesis HC : curve_ok q C.
Hypothesis Pq : Znumtheory.prime q.
Hypothesis Oq : Z.odd q = true.
Hypothesis HX : xcoord_ok q xcoord.
Hypothesis HL : lift_ok xcoord lift_x.

Lemma sum_total (l : seq (pt C)) : sum_pts l = total l.
Proof. by elim: l => [|x l IH] //; rewrite (sum_pts_cons HC) IH. Qed.

Lemma vkey_total (k : zshare C I) : zs_vkey k = total (avals (zs_public k)).
Proof. exact: sum_total. Qed.

Lemma valid_opp_iff vk m r s : ecdsa_valid q xcoord vk m r s <-> ecdsa_valid q xcoord vk m r (q - s).
Proof.
split; first exact: valid_opp.
by move/(valid_opp HC Pq HX); rewrite (_ : q - (q - s) = s)%Z; last lia.
Qed.

Lemma from_scalars_iff r s vk m : (0 <= r < q)%Z -> (0 <= s < q)%Z ->
  ((exists sig, from_scalars S xcoord lift_x r s vk m = Some sig) <-> vk <> p0 C /\ ecdsa_valid q xcoord vk m r s).
Proof.
move=> hr hs; split; last by case=> h1 h2; exact: (from_scalars_complete HC Pq Oq HX HL).
case=> sig E; split.
- by move=> h; move: E; rewrite (from_scalars_refuses _ _ HC) //; right; right.
- have [_ _ [<-|E2] hv _] := from_scalars_sound HC Pq Oq HL hr hs E; first by [].
  by apply/valid_opp_iff; rewrite -E2.
Qed.

Variables (randomness : seq Z) (id : I) (entry : sg_entry C I) (r1 : sg_rand1) (c : sg_ctx C I HO) (eb : r1eb C).
Notation ids := (akeys (zs_public (se_share entry))).
Notation vk := (total (avals (zs_public (se_share entry)))).
Notation m := (be_value (se_message entry) mod q)%Z.
Hypothesis Hu : uniq ids.
Hypothesis Hi : id \in ids.
Hypothesis Hs : sg_start S H scheme randomness id entry r1 = Ok (c, eb).

Let facts : [/\ party_ok c, sx_others c = without ids id, zs_vkey (sx_share c) = vk & sx_msg c = m].
Proof.
have hp := start_party Hu Hi Hs; have [h1 h2 h3 h4 h5] := start_inv Hs.
by split; rewrite ?h3 ?h2 ?h4 ?h5 ?vkey_total.
Qed.

Lemma signing_output_valid r2 r3 m1 m2 m3 m4 o1 o2 o3 o4 sig :
  perm_eq o3 (without ids id) -> perm_eq o4 (without ids id) ->
  sg_run S le X xcoord lift_x positional c eb r2 r3 m1 m2 m3 m4 o1 o2 o3 o4 = Accept sig ->
  [/\ ecdsa_valid q xcoord vk m (sig_r sig) (sig_s sig), (sig_s sig <= (q - 1) / 2)%Z &
      exists2 R, lift_x (sig_id sig) (sig_r sig) = Some R & nonce_point xcoord vk m (sig_r sig) (sig_s sig) R].
Proof. have [h1 h2 <- <-] := facts; rewrite -h2; move=> p3 p4; exact: run_valid. Qed.

Lemma signing_shares_suffice r2 r3 m1 m2 m3 m4 o1 o2 o3 o4 t :
  perm_eq o3 (without ids id) -> perm_eq o4 (without ids id) ->
  sg_until4 S le X xcoord c eb r2 r3 m1 m2 m3 o1 o2 o3 = Accept (ToRound4 t) ->
  (forall i, i \in without ids id -> exists z, sg_recv4 xcoord t i (m4 i) = Accept z) ->
  exists z, [/\ (0 <= z < q)%Z, nonce_point xcoord vk m (xcoord (s4_gamma t)) z (s4_gamma t) &
  let r := xcoord (s4_gamma t) in
  (r = 0%Z \/ z = 0%Z \/ vk = p0 C) /\
     sg_run S le X xcoord lift_x positional c eb r2 r3 m1 m2 m3 m4 o1 o2 o3 o4 = RLocal \/
  exists2 sig, sg_run S le X xcoord lift_x positional c eb r2 r3 m1 m2 m3 m4 o1 o2 o3 o4 = Accept sig &
    [/\ sig_r sig = r, sig_s sig = z \/ sig_s sig = (q - z)%Z & ecdsa_valid q xcoord vk m (sig_r sig) (sig_s sig)]].
Proof. have [h1 h2 <- <-] := facts; rewrite -h2; move=> p3 p4 U hz; exact: (run_cases _ _ _ _ _ _ h1 p3 p4 U hz). Qed.

End Main.
