(** * Property C59: what the entry points accept.

    [I] is any type of party ids ordered by [le]; maps are lists of entries with
    distinct keys in increasing order, sets are lists without repetition. *)
From Coq Require Import ZArith.
From Verif Require Import Base PaillierModel ZkBase ZkModel ZkToy.
From mathcomp Require Import all_ssreflect.
From Verif Require Import AlgBase ProtoBase ProtoSpec AuxGenModel AuxGenToy SigningModel SigningToy EntryModel EntryProofs EntryWitness.
Set Implicit Arguments.
Unset Strict Implicit.
Unset Printing Implicit Defensive.

(** A signing session can be set up exactly when key share and auxiliary data
    have the same owner and cover the same parties. *)
Theorem C59_new_exact (C : curve) (I : eqType) (le : rel I) m (k : zshare C I) (a : aux_info I) : total_order le ->
  uniq (akeys (zs_public k)) -> uniq (akeys (ai_public a)) -> sorted le (akeys (zs_public k)) -> sorted le (akeys (ai_public a)) ->
  (zs_owner k = ai_owner a /\ akeys (zs_public k) =i akeys (ai_public a) -> sg_new m k a = Ok (SgEntry k a m)) /\
  (~ (zs_owner k = ai_owner a /\ akeys (zs_public k) =i akeys (ai_public a)) -> sg_new m k a = LocalErr).
Proof. exact: sg_new_exact. Qed.
Print Assumptions C59_new_exact.

(** It is refused for anybody but that owner, and aborts when some party's
    published modulus is even. *)
Theorem C59_start_refused (S : sparams) (C : curve) (I : eqType) (HO : eqType) (H : dst -> seq (hitem HO I (pt C)) -> HO)
    (scheme : seq (hitem HO I (pt C))) randomness id (e : sg_entry C I) r :
  sg_start S H scheme randomness id e r = LocalErr <-> id <> zs_owner (se_share e) \/ id <> ai_owner (se_aux e).
Proof. exact: sg_start_refuses. Qed.
Print Assumptions C59_start_refused.

Theorem C59_start_even_modulus_panics (S : sparams) (C : curve) (I : eqType) (HO : eqType) (H : dst -> seq (hitem HO I (pt C)) -> HO)
    (scheme : seq (hitem HO I (pt C))) randomness id (e : sg_entry C I) r :
  id = zs_owner (se_share e) -> id = ai_owner (se_aux e) ->
  has (fun p => Z.even p.2.1 || Z.even (rp_n p.2.2)) (ai_public (se_aux e)) ->
  sg_start S H scheme randomness id e r = Panicked.
Proof. exact: sg_start_even_panics. Qed.
Print Assumptions C59_start_even_modulus_panics.

(** Restricting auxiliary data succeeds exactly for sets of known parties that
    include the owner; the result has the entries of those parties. *)
Theorem C59_subset_exact (I : eqType) (a : aux_info I) parties : uniq (akeys (ai_public a)) -> uniq parties ->
  (ai_owner a \in parties /\ {subset parties <= akeys (ai_public a)} ->
     exists r, [/\ aux_subset a parties = Ok r, ai_owner r = ai_owner a, ai_sk r = ai_sk a,
       perm_eq (akeys (ai_public r)) parties & {in parties, forall i, aget (ai_public r) i = aget (ai_public a) i}]) /\
  (~ (ai_owner a \in parties /\ {subset parties <= akeys (ai_public a)}) -> aux_subset a parties = LocalErr).
Proof. exact: subset_exact. Qed.
Print Assumptions C59_subset_exact.

Theorem C59_public_subset_exact (I : eqType) (infos : seq (I * (Z * rpparams))) parties : uniq (akeys infos) -> uniq parties ->
  ({subset parties <= akeys infos} -> exists r, [/\ public_aux_subset infos parties = Ok r, perm_eq (akeys r) parties &
     {in parties, forall i, aget r i = aget infos i}]) /\
  (~ {subset parties <= akeys infos} -> public_aux_subset infos parties = LocalErr).
Proof. exact: public_subset_exact. Qed.
Print Assumptions C59_public_subset_exact.

(** With restricted auxiliary data, whoever starts signing is one of the
    selected parties and will talk to exactly the others. *)
Theorem C59_caller_is_party (S : sparams) (C : curve) (I : eqType) (HO : eqType) (H : dst -> seq (hitem HO I (pt C)) -> HO)
    (scheme : seq (hitem HO I (pt C))) m (k : zshare C I) a parties a' entry randomness id r c eb :
  aux_subset a parties = Ok a' -> uniq (akeys (ai_public a)) -> uniq parties -> sg_new m k a' = Ok entry ->
  sg_start S H scheme randomness id entry r = Ok (c, eb) ->
  [/\ id \in parties, sx_all c =i parties, sx_others c =i [pred j | (j != id) && (j \in parties)], sx_id c = id &
      {in parties, forall j, exists x, aget (ai_public a) j = Some x}].
Proof. exact: subset_caller. Qed.
Print Assumptions C59_caller_is_party.

(** Otherwise nobody checks that the caller is one of the parties: a key share
    and auxiliary data whose owner has no public entry are accepted. *)
Theorem C59_caller_is_party_refuted :
  exists (S : sparams) (C : curve) (HO : eqType) (H : dst -> seq (hitem HO nat_eqType (pt C)) -> HO)
    m (k : zshare C nat_eqType) a entry id r c eb,
  [/\ sg_new m k a = Ok entry, sg_start S H [::] [::] id entry r = Ok (c, eb) & id \notin sx_all c].
Proof. exact: outsider_starts. Qed.
Print Assumptions C59_caller_is_party_refuted.

(** Four parties with auxiliary data, of which 0 and 2 sign. *)
Example C59_case :
  let a := AuxInfo 2%N (sksS 2) ((5%N, (Zpos 35, RP 341 4 16)) :: auxS) in
  let k := ZShare 2%N 3 [:: (0%N, pt7 3); (2%N, pt7 3)] in
  [/\ total_order leq, uniq (akeys (ai_public a)), uniq [:: 0; 2]%N & sorted leq [:: 0; 2]%N] /\
  [/\ (if aux_subset a [:: 0; 2]%N is Ok b then akeys (ai_public b) == [:: 0; 2]%N else false),
      aux_subset a [:: 0; 5]%N = LocalErr, aux_subset a [:: 2; 9]%N = LocalErr &
      if aux_subset a [:: 0; 2]%N is Ok b then
        if sg_new [:: 1] k b is Ok e then
          if sg_start SA HS [::] [::] 2%N e (rnd1S 2) is Ok (c, _) then sx_others c == [:: 0%N] else false
        else false
      else false].
Proof. by split; [split=> //; exact: leq_order|split; vm_compute]. Qed.
