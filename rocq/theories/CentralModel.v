(** * Auxiliary data made in one place.  Definitions only. *)
From Coq Require Import ZArith.
From Verif Require Import Base PaillierModel ZkBase ZkModel.
From mathcomp Require Import all_ssreflect.
From Verif Require Import AlgBase ProtoBase AuxGenModel.
Set Implicit Arguments.
Unset Strict Implicit.
Unset Printing Implicit Defensive.

Section Central.
Variables (S : sparams) (I : eqType).
Notation P := (sp_pail S).

(** paillier/ring_pedersen.rs:93-96 [RPParams::random] *)
Definition rp_random (r : ag_rand) : result rpparams :=
  sec <?- of_o (rp_secret_new P (ar_rp_p r) (ar_rp_q r) (ar_lambda r)) ;;
  of_o (rp_with_secret sec (ar_t r)).

(** entities/full.rs:315-351 [AuxInfo::new_centralized].  [r id] are the draws
    made for [id] (only those for its moduli are used).  The code keeps the
    Paillier key as two primes until it is used; here it is expanded at once. *)
Definition aux_new_centralized (ids : seq I) (r : I -> ag_rand) : result (seq (I * aux_info I)) :=
  secret_aux <?- mapR (fun id => of_o (skey_new P (ar_p (r id)) (ar_q (r id)))) ids ;;
  public_aux <?- mapR (fun p : I * skey =>
    rp <?- rp_random (r p.1) ;; Ok (p.1, (sk_pk p.2, rp))) (zip ids secret_aux) ;;
  Ok [seq (p.1, AuxInfo p.1 p.2 (acollect public_aux)) | p <- zip ids secret_aux].

End Central.
