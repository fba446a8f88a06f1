(** * Witnesses about the entry points. *)
From Coq Require Import ZArith.
From Verif Require Import Base PaillierModel ZkBase ZkModel ZkToy.
From mathcomp Require Import all_ssreflect.
From Verif Require Import AlgBase ProtoBase ProtoSpec AuxGenModel AuxGenToy SigningModel SigningToy.
Set Implicit Arguments.
Unset Strict Implicit.
Unset Printing Implicit Defensive.

Lemma leq_order : total_order leq.
Proof. split; [exact: leq_total|exact: leq_trans|exact: anti_leq]. Qed.

Lemma outsider_starts :
  exists (S : sparams) (C : curve) (HO : eqType) (H : dst -> seq (hitem HO nat_eqType (pt C)) -> HO)
    m (k : zshare C nat_eqType) a entry id r c eb,
  [/\ sg_new m k a = Ok entry, sg_start S H [::] [::] id entry r = Ok (c, eb) & id \notin sx_all c].
Proof.
pose k : zshare curve7 nat_eqType := ZShare 7%N 3 [seq (j, pt7 (secretS j)) | j <- idsS].
pose a := AuxInfo 7%N (sksS 2) auxS.
have E : if sg_start SA HS [::] [::] 7%N (SgEntry k a [:: Zpos 1]) (rnd1S 2) is Ok (c, eb) then 7%N \notin sx_all c else false.
  by vm_compute.
move: E; case E: sg_start => [[c eb]||] // h.
by exists SA, curve7, nat_eqType, HS, [:: Zpos 1], k, a, (SgEntry k a [:: Zpos 1]), 7%N, (rnd1S 2), c, eb.
Qed.
