(** * Restricting auxiliary data to a subset of the parties.  Definitions only. *)
From Coq Require Import ZArith.
From Verif Require Import Base PaillierModel ZkBase.
From mathcomp Require Import all_ssreflect.
From Verif Require Import AlgBase AuxGenModel.
Set Implicit Arguments.
Unset Strict Implicit.
Unset Printing Implicit Defensive.

Section Entry.
Variable I : eqType.

(** entities/full.rs:131-144 [PublicAuxInfos::subset]; a set is a list. *)
Definition public_aux_subset (infos : seq (I * (Z * rpparams))) (parties : seq I) : result (seq (I * (Z * rpparams))) :=
  let aux := [seq p <- infos | p.1 \in parties] in
  if size aux != size parties then LocalErr else Ok aux.

(** entities/full.rs:300-313 [AuxInfo::subset] *)
Definition aux_subset (a : aux_info I) (parties : seq I) : result (aux_info I) :=
  if ai_owner a \notin parties then LocalErr else
  p <?- public_aux_subset (ai_public a) parties ;;
  Ok (AuxInfo (ai_owner a) (ai_sk a) p).

End Entry.
