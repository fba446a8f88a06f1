(** * Session identifiers and proof contexts: proofs for properties C60 and C63. *)
From Coq Require Import ZArith.
From Verif Require Import Base PaillierModel ZkBase ZkModel ElogModel.
From mathcomp Require Import all_ssreflect all_algebra.
From Verif Require Import AlgBase ProtoBase AuxGenModel SchModel SigningModel BindSpec.
Set Implicit Arguments.
Unset Strict Implicit.
Unset Printing Implicit Defensive.

Section Sch.
Variables (F : fieldType) (V : lmodType F) (g : V) (A : Type) (X : xof A V).

Lemma sch_binding (pf : sch_proof F) (com com' P P' : V) (aux aux' : A) :
  sch_verify g X pf com P aux -> sch_verify g X pf com' P' aux' -> (com, P, aux) <> (com', P', aux') ->
  collision (fun t => zf (x_scalar X Tsch t) : F) [:: IA aux; IP P; IP com] [:: IA aux'; IP P'; IP com'].
Proof.
move=> /andP [/eqP E _] /andP [/eqP E' _] D; split; first by case=> *; apply: D; congr (_, _, _).
by rewrite -/(sch_challenge_of X P com aux) E -E'.
Qed.
End Sch.

Section Hash.
Variables (HO I V : Type) (H : dst -> seq (hitem HO I V) -> HO).
Implicit Types (scheme : seq (hitem HO I V)).

Lemma eq_map_inj (T U : Type) (f : T -> U) : (forall x y, f x = f y -> x = y) -> forall s t, map f s = map f t -> s = t.
Proof. by move=> inj; elim=> [|x s IH] [|y t] //= [/inj -> /IH ->]. Qed.

Lemma cat_inj (T : Type) (s s' t t' : seq T) : size t = size t' -> s ++ t = s' ++ t' -> s = s' /\ t = t'.
Proof.
move=> e E; have es : size s = size s'.
  by have := f_equal size E; rewrite !size_cat e => /eqP; rewrite eqn_add2r => /eqP.
move: es E; elim: s s' {e} => [|x s IH] [|x' s'] //= [] /IH {}IH [-> /IH [-> ->]]; by [].
Qed.

Lemma sid_binding scheme scheme' rnd rnd' ids ids' : (scheme, rnd, ids) <> (scheme', rnd', ids') ->
  sid_new H scheme rnd ids = sid_new H scheme' rnd' ids' ->
  collision (H DSid) (scheme ++ [:: HBytes rnd; HSeq [seq HId i | i <- ids]])
                     (scheme' ++ [:: HBytes rnd'; HSeq [seq HId i | i <- ids']]).
Proof.
move=> D E; split=> // /cat_inj [] // E1 [E2 /eq_map_inj R].
by apply: D; rewrite E1 E2 R // => ? ? [].
Qed.
End Hash.

Section Epid.
Variables (S : sparams) (C : curve) (I : eqType) (le : rel I) (HO : eqType).
Notation item := (hitem HO I (pt C)).
Variables (H : dst -> seq item -> HO) (X : xof (seq item) (pt C)) (scheme : seq item).
Variables (xcoord : pt C -> Z).

Lemma epid_binding (scheme' : seq item) rnd rnd' (a a' : sg_assoc C I) :
  (scheme, rnd, sa_shares a, sa_aux a) <> (scheme', rnd', sa_shares a', sa_aux a') ->
  sg_epid H scheme rnd a = sg_epid H scheme' rnd' a' ->
  collision (H DEpid)
    (scheme ++ [:: HBytes rnd; HSeq [seq HSeq [:: HId p.1; HPt p.2] | p <- sa_shares a];
       HSeq [seq HSeq [:: HId p.1; HNum p.2.1; HSeq [:: HNum (rp_n p.2.2); HNum (rp_t p.2.2); HNum (rp_s p.2.2)]] | p <- sa_aux a]])
    (scheme' ++ [:: HBytes rnd'; HSeq [seq HSeq [:: HId p.1; HPt p.2] | p <- sa_shares a'];
       HSeq [seq HSeq [:: HId p.1; HNum p.2.1; HSeq [:: HNum (rp_n p.2.2); HNum (rp_t p.2.2); HNum (rp_s p.2.2)]] | p <- sa_aux a']]).
Proof.
move=> D E; split=> // /cat_inj [] // E1 [E2 /eq_map_inj R /eq_map_inj R'].
apply: D; rewrite E1 E2 R ?R' //; first by move=> [i [n [x y z]]] [i' [n' [x' y' z']]] /= [-> -> -> -> ->].
by move=> [i P] [i' P'] /= [-> ->].
Qed.

Definition with_msg (z : Z) (c : sg_ctx C I HO) : sg_ctx C I HO :=
  SgCtx z (sx_epid c) (sx_id c) (sx_others c) (sx_all c) (sx_share c) (sx_sk c) (sx_aux c)
    (sx_k c) (sx_gamma c) (sx_a c) (sx_b c) (sx_rho c) (sx_nu c).
Definition with_msg2 z (s : sg_round2 C I HO) : sg_round2 C I HO :=
  SgRound2 (with_msg z (s2_ctx s)) (s2_mta s) (s2_hat s) (s2_r1 s) (s2_cap_k s) (s2_gamma s) (s2_elog s).
Definition rmap {E T U} (f : T -> U) (x : recv E T) : recv E U :=
  match x with Accept a => Accept (f a) | Reject e => Reject e | RLocal => RLocal | RPanic => RPanic end.

Lemma until2_msg z c e r2 m1 o1 :
  sg_until2 S le X (with_msg z c) e r2 m1 o1 = rmap (with_msg2 z) (sg_until2 S le X c e r2 m1 o1).
Proof.
rewrite /sg_until2.
have -> : round_payloads le (fun i => sg_recv1 S X (with_msg z c) i (m1 i)) o1 = round_payloads le (fun i => sg_recv1 S X c i (m1 i)) o1 by [].
case: round_payloads => //= p1; rewrite /sg_finalize1 /=.
case: lift_o => //= g; case: lift_o => //= x; case: safe_get => //= cx.
by set f := mapV _ _; case: f.
Qed.

Definition with_msg3 z (s : sg_round3 C I HO) : sg_round3 C I HO :=
  SgRound3 (with_msg z (s3_ctx s)) (s3_cap_k s) (s3_gamma s) (s3_chi s) (s3_r1 s) (s3_gammas s) (s3_df s) (s3_hat_df s)
    (s3_delta s) (s3_nb s) (s3_mta s) (s3_hat s).

Lemma until3_msg z c e r2 r3 m1 m2 o1 o2 :
  sg_until3 S le X (with_msg z c) e r2 r3 m1 m2 o1 o2 = rmap (with_msg3 z) (sg_until3 S le X c e r2 r3 m1 m2 o1 o2).
Proof.
rewrite /sg_until3 until2_msg; case: (sg_until2 S le X c e r2 m1 o1) => //= s.
have -> : round_payloads le (fun i => sg_recv2 S X (with_msg2 z s) i (m2 i)) o2 = round_payloads le (fun i => sg_recv2 S X s i (m2 i)) o2 by [].
case: round_payloads => //= p2; rewrite /sg_finalize2 /=.
by case: lift_o => //= b; case: lift_o => //= hb; case: safe_get.
Qed.

Lemma same_rmap E T U (g : T -> T) (f : T -> U) (x : recv E T) : (forall a, f (g a) = f a) -> same_upto f x (rmap g x).
Proof. by move=> h; case: x => //= a; rewrite h. Qed.

Lemma same_refl E T U (f : T -> U) (x : recv E T) : same_upto f x x.
Proof. by case: x. Qed.

Lemma until4_msg z c e r2 r3 m1 m2 m3 o1 o2 o3 :
  same_upto next_view (sg_until4 S le X xcoord c e r2 r3 m1 m2 m3 o1 o2 o3)
    (sg_until4 S le X xcoord (with_msg z c) e r2 r3 m1 m2 m3 o1 o2 o3).
Proof.
rewrite /sg_until4 until3_msg; case: (sg_until3 S le X c e r2 r3 m1 m2 o1 o2) => //= s.
have -> : round_payloads le (fun i => sg_recv3 X (with_msg3 z s) i (m3 i)) o3 = round_payloads le (fun i => sg_recv3 X s i (m3 i)) o3 by [].
case: round_payloads => //= p3; rewrite /sg_finalize3 /=.
by case: ifP => //= _; case: ifP => //= _; case: inv_mod.
Qed.

Lemma start_msg rnd id (e e' : sg_entry C I) r c eb : se_share e = se_share e' -> se_aux e = se_aux e' ->
  sg_start S H scheme rnd id e r = Ok (c, eb) ->
  sg_start S H scheme rnd id e' r = Ok (with_msg (scalar_of_bytes S (se_message e')) c, eb).
Proof.
rewrite /sg_start => -> ->; case: ifP => // _.
have -> : sg_epid H scheme rnd (SgAssoc (zs_public (se_share e')) (ai_public (se_aux e')) (se_message e)) =
          sg_epid H scheme rnd (SgAssoc (zs_public (se_share e')) (ai_public (se_aux e')) (se_message e')) by [].
case: of_o => //= a; case: of_o => //= b; case: of_o => //= d; case: of_o => //= k; case: of_o => //= f.
by case=> <- <-.
Qed.

Theorem message_not_bound rnd id (e e' : sg_entry C I) r c eb : se_share e = se_share e' -> se_aux e = se_aux e' ->
  sg_start S H scheme rnd id e r = Ok (c, eb) ->
  exists c', sg_start S H scheme rnd id e' r = Ok (c', eb) /\ sx_epid c' = sx_epid c /\
    (forall dest r1, sg_send1 S X c' eb dest r1 = sg_send1 S X c eb dest r1) /\
    (forall r2 m1 o1, same_upto (fun s => sg_send2 s) (sg_until2 S le X c eb r2 m1 o1) (sg_until2 S le X c' eb r2 m1 o1)) /\
    (forall r2 r3 m1 m2 o1 o2,
       same_upto (fun s => sg_send3 s) (sg_until3 S le X c eb r2 r3 m1 m2 o1 o2) (sg_until3 S le X c' eb r2 r3 m1 m2 o1 o2)) /\
    (forall r2 r3 m1 m2 m3 o1 o2 o3,
       same_upto next_view (sg_until4 S le X xcoord c eb r2 r3 m1 m2 m3 o1 o2 o3)
         (sg_until4 S le X xcoord c' eb r2 r3 m1 m2 m3 o1 o2 o3)).
Proof.
move=> es ea /(start_msg es ea) st; exists (with_msg (scalar_of_bytes S (se_message e')) c); split=> //.
split=> //; split=> //; split=> [r2 m1 o1|]; first by rewrite until2_msg; apply: same_rmap.
split=> [r2 r3 m1 m2 o1 o2|]; first by rewrite until3_msg; apply: same_rmap.
move=> *; exact: until4_msg.
Qed.
End Epid.
