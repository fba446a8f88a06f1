(** * Vocabulary for contributions fixed by the commitments of round 1 (C76). *)
From Verif Require Import Base.
From mathcomp Require Import all_ssreflect.
From Verif Require Import ProtoBase ProtoSpec BindSpec.
Set Implicit Arguments.
Unset Strict Implicit.
Unset Printing Implicit Defensive.

(** The peers of [id] sent the same echo parts in two worlds. *)
Definition same_echoes {I : eqType} {W : Type} (ids : seq I) (id : I) (m m' : I -> message W) : Prop :=
  {in without ids id, forall l, m_echo (m l) = m_echo (m' l)}.

(** The echo parts party [id] knows when it took part with [own] and received [got]. *)
Definition echoes {I : eqType} {W : Type} (id : I) (own : message W) (got : I -> message W) (l : I) : option W :=
  m_echo (if l == id then own else got l).

(** Some transcript of [l] and some transcript of [l'] are a collision of [h]. *)
Definition cross_collision {I : eqType} {A HO : Type} (h : seq A -> HO) (T : I -> seq A -> Prop) (l l' : I) : Prop :=
  exists t t', [/\ T l t, T l' t' & collision h t t'].
