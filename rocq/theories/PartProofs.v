(** * Malformed parts: proofs (property C58). *)
From Coq Require Import ZArith.
From Verif Require Import Base EncodingModel SignedModel PaillierModel ZkBase ZkModel ElogModel.
From mathcomp Require Import all_ssreflect all_algebra.
From Verif Require Import AlgBase ProtoBase ProtoSpec ProtoFacts KeyInitModel AuxGenModel KeyRefreshModel SigningModel PartSpec.
Set Implicit Arguments.
Unset Strict Implicit.
Unset Printing Implicit Defensive.

Definition clean (E A : Type) (r : recv E A) : Prop :=
  r <> Reject BadDirect /\ r <> Reject BadEcho /\ r <> Reject BadNormal.

Lemma clean_accept E A (a : A) : clean (Accept a : recv E A). Proof. by []. Qed.
Lemma clean_bind E A B (r : recv E A) (k : A -> recv E B) : clean r -> (forall a, clean (k a)) -> clean (x <!- r ;; k x).
Proof.
case: r => [a|e||] //= h hk.
by case: e h => //= [[]|[_ []]|[_ [_ []]]].
Qed.
Lemma clean_safe E (K : eqType) A (l : seq (K * A)) k : clean (safe_get l k : recv E A).
Proof. by rewrite /safe_get; case: aget. Qed.
Lemma clean_require E b (e : E) : clean (require b e). Proof. by rewrite /require; case: b. Qed.
Lemma clean_lift_o E A (o : outcome A) : clean (lift_o o : recv E A). Proof. by case: o. Qed.
Lemma clean_local E A : clean (RLocal : recv E A). Proof. by []. Qed.
Lemma clean_proto E A (e : E) : clean (Reject (Proto e) : recv E A). Proof. by []. Qed.
Lemma clean_panic E A : clean (RPanic : recv E A). Proof. by []. Qed.
Lemma clean_mapV E A B (f : A -> recv E B) l : (forall a, clean (f a)) -> clean (mapV f l).
Proof.
move=> h; elim: l => [|a l IH] /=; first exact: clean_accept.
by apply: clean_bind => // b; apply: clean_bind => // bs; apply: clean_accept.
Qed.

Ltac tidy :=
  repeat first
    [ exact: clean_accept | exact: clean_safe | exact: clean_require | exact: clean_lift_o | exact: clean_local
    | exact: clean_proto | exact: clean_panic
    | (apply: clean_bind; [|move=> ?]) | (apply: clean_mapV => ?)
    | match goal with |- clean (match ?x with _ => _ end) => case: x => * end
    | match goal with |- clean (let _ := _ in _) => move=> * end ].

Section Rules.
Variables (E W A : Type) (receive : message W -> recv E A) (direct echo normal : option W -> evid unit) (m : message W).

Lemma rules_clean : clean (receive m) -> direct (m_direct m) = EvInvalid -> echo (m_echo m) = EvInvalid ->
  normal (m_normal m) = EvInvalid -> part_rules receive direct echo normal m.
Proof.
by case=> h1 [h2 h3] e1 e2 e3; split=> //; rewrite e1 e2 e3 //; case=> [|[]].
Qed.

Lemma rules_bad b : receive m = Reject b ->
  match b with BadDirect => direct (m_direct m) = EvOk tt | BadEcho => echo (m_echo m) = EvOk tt
             | BadNormal => normal (m_normal m) = EvOk tt | Proto _ => False end ->
  direct (m_direct m) <> EvPanic -> echo (m_echo m) <> EvPanic -> normal (m_normal m) <> EvPanic ->
  part_rules receive direct echo normal m.
Proof.
move=> hb h h1 h2 h3; split=> //; rewrite hb.
- by move=> [e]; rewrite e in h.
- by move=> [e]; rewrite e in h.
- by move=> [e]; rewrite e in h.
by case: b h hb => [_|_|_|? []] hb _; auto.
Qed.
End Rules.

Lemma is_not_total W T (as_t : W -> option T) p : verify_is_not as_t p <> EvPanic.
Proof. by rewrite /verify_is_not; case: obind. Qed.
Lemma is_some_total W (p : option W) : verify_is_some p <> EvPanic.
Proof. by case: p. Qed.

(** One check: the absence of a part, or its decoding. *)
Definition step E T (bad : reject E) (r : recv E T) (j : evid unit) : Prop :=
  (exists2 x, r = Accept x & j = EvInvalid) \/ (r = Reject bad /\ j = EvOk tt).
Lemma step_deser E W T bad (as_t : W -> option T) p : step (E := E) bad (deser bad as_t p) (verify_is_not as_t p).
Proof.
case: p => [w|]; last by right.
by rewrite /deser /verify_is_not /=; case: (as_t w) => [x|]; [left; exists x|right].
Qed.
Lemma step_none E W bad (p : option W) : step (E := E) bad (assert_none bad p) (verify_is_some p).
Proof. by case: p; [right|left; exists tt]. Qed.

Lemma three E A T1 T2 T3 b1 b2 b3 (r1 : recv E T1) (r2 : recv E T2) (r3 : recv E T3) j1 j2 j3 (k : T1 -> T2 -> T3 -> recv E A) :
  step b1 r1 j1 -> step b2 r2 j2 -> step b3 r3 j3 -> (forall a b c, clean (k a b c)) ->
  let r := (a <!- r1 ;; b <!- r2 ;; c <!- r3 ;; k a b c) in
  [\/ r = Reject b1 /\ j1 = EvOk tt, r = Reject b2 /\ j2 = EvOk tt, r = Reject b3 /\ j3 = EvOk tt |
      [/\ clean r, j1 = EvInvalid, j2 = EvInvalid & j3 = EvInvalid]].
Proof.
move=> s1 s2 s3 h r; rewrite /r.
case: s1 => [[a -> ->]|[-> ->]]; last by constructor 1.
case: s2 => [[b -> ->]|[-> ->]]; last by constructor 2.
by case: s3 => [[c -> ->]|[-> ->]]; [constructor 4; split=> //; apply: h|constructor 3].
Qed.
Lemma three_last E A T1 T2 b1 b2 b3 (r1 : recv E T1) (r2 : recv E T2) (r3 : recv E A) j1 j2 j3 :
  step b1 r1 j1 -> step b2 r2 j2 -> step b3 r3 j3 ->
  let r := (a <!- r1 ;; b <!- r2 ;; r3) in
  [\/ r = Reject b1 /\ j1 = EvOk tt, r = Reject b2 /\ j2 = EvOk tt, r = Reject b3 /\ j3 = EvOk tt |
      [/\ clean r, j1 = EvInvalid, j2 = EvInvalid & j3 = EvInvalid]].
Proof.
move=> s1 s2 s3 r; rewrite /r.
case: s1 => [[a -> ->]|[-> ->]]; last by constructor 1.
case: s2 => [[b -> ->]|[-> ->]]; last by constructor 2.
by case: s3 => [[c -> ->]|[-> ->]]; [constructor 4; split=> //; apply: clean_accept|constructor 3].
Qed.

Section Settle.
Variables (E W A : Type) (receive : message W -> recv E A) (direct echo normal : option W -> evid unit) (m : message W).
Definition pick (b : reject E) : evid unit :=
  match b with BadDirect => direct (m_direct m) | BadEcho => echo (m_echo m) | BadNormal => normal (m_normal m) | Proto _ => EvPanic end.
(** The three checks, in any order. *)
Lemma settle b1 b2 b3 :
  [\/ receive m = Reject b1 /\ pick b1 = EvOk tt, receive m = Reject b2 /\ pick b2 = EvOk tt, receive m = Reject b3 /\ pick b3 = EvOk tt |
      [/\ clean (receive m), pick b1 = EvInvalid, pick b2 = EvInvalid & pick b3 = EvInvalid]] ->
  (forall P : reject E -> Prop, P b1 -> P b2 -> P b3 -> P BadDirect /\ P BadEcho /\ P BadNormal) ->
  (forall b, pick b = EvPanic -> exists e, b = Proto e) ->
  part_rules receive direct echo normal m.
Proof.
move=> h hall hp.
have np b : b = BadDirect \/ b = BadEcho \/ b = BadNormal -> pick b <> EvPanic by move=> hb /hp [e eb]; rewrite eb in hb; case: hb => [|[]].
have nd : direct (m_direct m) <> EvPanic by apply: (np BadDirect); left.
have ne : echo (m_echo m) <> EvPanic by apply: (np BadEcho); right; left.
have nn : normal (m_normal m) <> EvPanic by apply: (np BadNormal); right; right.
have bad b : receive m = Reject b -> pick b = EvOk tt -> part_rules receive direct echo normal m.
  by move=> h1 h2; apply: (rules_bad h1) => //; case: b h1 h2.
case: h => [[h1 h2]|[h1 h2]|[h1 h2]|[h1 h2 h3 h4]]; try exact: bad h1 h2.
by have [e1 [e2 e3]] := hall (fun b => pick b = EvInvalid) h2 h3 h4; apply: rules_clean.
Qed.
End Settle.

Ltac checks := first [exact: step_deser|exact: step_none].
Ltac picks := case=> [| | |?]; first [by case/is_some_total|by case/is_not_total|by eexists; reflexivity].
Ltac last_check b1 b2 b3 :=
  apply: (@settle _ _ _ _ _ _ _ _ b1 b2 b3); [by apply: three_last; checks|by move=> P h1 h2 h3|picks].
Ltac then_clean b1 b2 b3 :=
  apply: (@settle _ _ _ _ _ _ _ _ b1 b2 b3); [apply: three; [checks|checks|checks|move=> ? ? ?; tidy]|by move=> P h1 h2 h3|picks].

Section KeyInitParts.
Variables (F : fieldType) (V : lmodType F) (g : V) (I : eqType) (HO : eqType).
Variables (H : dst -> seq (hitem HO I V) -> HO) (X : xof (seq (hitem HO I V)) V).
Notation rules r f m := (part_rules f (@ki_direct_invalid F V HO r) (@ki_echo_invalid F V HO r) (@ki_normal_invalid F V HO r) m).

Lemma ki_rules1 m : rules 1%N (@ki_recv1 F V HO) m.
Proof. last_check (@BadNormal ki_error) (@BadDirect ki_error) (@BadEcho ki_error). Qed.
Lemma ki_rules2 c cap_vs from m : rules 2%N (@ki_recv2 F V I HO H c cap_vs from) m.
Proof. then_clean (@BadDirect ki_error) (@BadNormal ki_error) (@BadEcho ki_error). Qed.
Lemma ki_rules3 s from m : rules 3%N (@ki_recv3 F V g I HO X s from) m.
Proof. then_clean (@BadEcho ki_error) (@BadDirect ki_error) (@BadNormal ki_error). Qed.
Lemma ki_rules_other r : r \notin [:: 1; 2; 3]%N ->
  no_parts (@ki_direct_invalid F V HO r) (@ki_echo_invalid F V HO r) (@ki_normal_invalid F V HO r).
Proof. by do 4 case: r => [//|r]. Qed.
End KeyInitParts.

Section AuxGenParts.
Variables (S : sparams) (C : curve) (I : eqType) (HO : eqType).
Variables (H : dst -> seq (hitem HO I (pt C)) -> HO) (X : xof (seq (hitem HO I (pt C))) (pt C)).
Notation rules r f m := (part_rules f (@ag_direct_invalid HO r) (@ag_echo_invalid HO r) (@ag_normal_invalid HO r) m).
Notation err := (ag_error I).
Lemma ag_rules1 m : rules 1%N (@ag_recv1 I HO) m.
Proof. last_check (@BadNormal err) (@BadDirect err) (@BadEcho err). Qed.
Lemma ag_rules2 c cap_vs from m : rules 2%N (@ag_recv2 S C I HO H X c cap_vs from) m.
Proof. then_clean (@BadDirect err) (@BadEcho err) (@BadNormal err). Qed.
Lemma ag_rules3 s from m : rules 3%N (@ag_recv3 S C I HO X s from) m.
Proof. then_clean (@BadEcho err) (@BadNormal err) (@BadDirect err). Qed.
Lemma ag_rules_other r : r \notin [:: 1; 2; 3]%N ->
  no_parts (@ag_direct_invalid HO r) (@ag_echo_invalid HO r) (@ag_normal_invalid HO r).
Proof. by do 4 case: r => [//|r]. Qed.
End AuxGenParts.

Section KeyRefreshParts.
Variables (S : sparams) (F : fieldType) (V : lmodType F) (g : V) (I : eqType) (le : rel I) (HO : eqType).
Variables (H : dst -> seq (hitem HO I V) -> HO) (X : xof (seq (hitem HO I V)) V) (Hs : dst -> seq (hitem HO I V) -> F).
Notation rules r f m := (part_rules f (@kr_direct_invalid F V I HO r) (@kr_echo_invalid F V I le HO r) (@kr_normal_invalid F V I le HO r) m).
Notation err := (kr_error F I).
Lemma kr_rules1 m : rules 1%N (@kr_recv1 F V I HO) m.
Proof. last_check (@BadNormal err) (@BadDirect err) (@BadEcho err). Qed.
Lemma kr_rules2 c cap_vs from m : rules 2%N (@kr_recv2 S F V g I le HO H X c cap_vs from) m.
Proof. then_clean (@BadDirect err) (@BadEcho err) (@BadNormal err). Qed.
Lemma kr_sch_clean (pl : kr_payload V I) aux l : clean (kr_check_sch g X pl aux l).
Proof. by elim: l => [|[id pf] l IH] /=; tidy. Qed.
Lemma kr_rules3 s from m : rules 3%N (@kr_recv3 S F V g I le HO X Hs s from) m.
Proof. then_clean (@BadEcho err) (@BadNormal err) (@BadDirect err); exact: kr_sch_clean. Qed.
Lemma kr_rules_other r : r \notin [:: 1; 2; 3]%N ->
  no_parts (@kr_direct_invalid F V I HO r) (@kr_echo_invalid F V I le HO r) (@kr_normal_invalid F V I le HO r).
Proof. by do 4 case: r => [//|r]. Qed.
End KeyRefreshParts.

Section SigningParts.
Variables (S : sparams) (C : curve) (I : eqType) (HO : eqType).
Variables (X : xof (seq (hitem HO I (pt C))) (pt C)) (xcoord : pt C -> Z) (positional : bool).
Notation rules r f m := (part_rules f (@sg_direct_invalid C I r) (@sg_echo_invalid C I positional r) (@sg_normal_invalid C I r) m).
Notation err := (sg_error I).
Lemma sg_rules1 c from m : rules 1%N (@sg_recv1 S C I HO X c from) m.
Proof. then_clean (@BadNormal err) (@BadDirect err) (@BadEcho err). Qed.
Lemma sg_rules2 s from m : rules 2%N (@sg_recv2 S C I HO X s from) m.
Proof. then_clean (@BadEcho err) (@BadNormal err) (@BadDirect err). Qed.
Lemma sg_rules3 s from m : rules 3%N (@sg_recv3 C I HO X s from) m.
Proof. then_clean (@BadDirect err) (@BadEcho err) (@BadNormal err). Qed.
Lemma sg_rules4 s from m : rules 4%N (@sg_recv4 C I HO xcoord s from) m.
Proof. then_clean (@BadEcho err) (@BadDirect err) (@BadNormal err). Qed.
Lemma sg_rules5 s from m : rules 5%N (@sg_recv5 S C I HO X positional s from) m.
Proof. then_clean (@BadNormal err) (@BadDirect err) (@BadEcho err). Qed.
Lemma sg_rules6 s from m : rules 6%N (@sg_recv6 S C I HO X positional s from) m.
Proof. then_clean (@BadNormal err) (@BadDirect err) (@BadEcho err). Qed.
Lemma sg_rules_other r : r \notin [:: 1; 2; 3; 4; 5; 6]%N ->
  no_parts (@sg_direct_invalid C I r) (@sg_echo_invalid C I positional r) (@sg_normal_invalid C I r).
Proof. by do 7 case: r => [//|r]. Qed.
End SigningParts.
