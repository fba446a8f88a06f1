(** * Shared definitions for the algebraic layer (mathcomp).

    A curve group is an arbitrary left module [V] over an arbitrary field [F]
    (src/curve/arithmetic.rs: [Scalar] is a field, [Point] is a group on which
    scalars act).  Party ids are an arbitrary [eqType]; a [BTreeSet<I>] is a
    duplicate-free list and a [BTreeMap<I, A>] an association list whose keys
    are duplicate-free.  The list order stands for the (common) key order in
    which Rust iterates; two sets are compared as sets. *)
From mathcomp Require Import all_ssreflect.
Set Implicit Arguments.
Unset Strict Implicit.
Unset Printing Implicit Defensive.

(** Outcome of a fallible call: a value, a [LocalError] (or any other [Err]),
    or a panic ([expect], [assert!], arithmetic underflow, [unimplemented!]). *)
Inductive result (A : Type) : Type := Ok (a : A) | LocalErr | Panicked.
Arguments LocalErr {A}.
Arguments Panicked {A}.

Definition rbind {A B : Type} (r : result A) (f : A -> result B) : result B :=
  match r with Ok a => f a | LocalErr => LocalErr | Panicked => Panicked end.
Notation "x <?- e ;; k" := (rbind e (fun x => k)) (at level 61, right associativity).

(** [Option::ok_or(LocalError)] *)
Definition ok_or {A : Type} (o : option A) : result A := if o is Some a then Ok a else LocalErr.
(** [Option::expect] *)
Definition expect {A : Type} (o : option A) : result A := if o is Some a then Ok a else Panicked.

(** [iter.map(f).collect::<Result<Vec<_>, _>>()]: the first error wins. *)
Fixpoint mapR {A B : Type} (f : A -> result B) (l : seq A) : result (seq B) :=
  if l is a :: l' then b <?- f a ;; bs <?- mapR f l' ;; Ok (b :: bs) else Ok [::].

Section Maps.
Variables (K : eqType) (A : Type).

(** [BTreeMap::get] *)
Fixpoint aget (m : seq (K * A)) (k : K) : option A :=
  if m is (k', a) :: m' then if k == k' then Some a else aget m' k else None.

(** [BTreeMap::keys] / [BTreeMap::values] *)
Definition akeys (m : seq (K * A)) : seq K := [seq p.1 | p <- m].
Definition avals (m : seq (K * A)) : seq A := [seq p.2 | p <- m].

(** [BTreeMap::insert]: the new value replaces an old one for the same key. *)
Fixpoint aset (m : seq (K * A)) (k : K) (a : A) : seq (K * A) :=
  if m is (k', a') :: m' then
    if k == k' then (k, a) :: m' else (k', a') :: aset m' k a
  else [:: (k, a)].

(** [iter.collect::<BTreeMap<_, _>>()] *)
Definition acollect (l : seq (K * A)) : seq (K * A) :=
  foldl (fun m p => aset m p.1 p.2) [::] l.

End Maps.
