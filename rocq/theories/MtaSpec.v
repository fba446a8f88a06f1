(** * What honest draws of the signing protocol are (properties C50 and C53). *)
From mathcomp Require Import eqtype.
From Coq Require Import ZArith Znumtheory.
From Verif Require Import Base SignedModel SignedSpec PaillierModel PaillierSpec ZkBase ZkModel ZkSpec.
From Verif Require Import ProtoBase AuxGenModel SigningModel.
Open Scope Z_scope.

Section Draws.
Variable S : sparams.

(** A mask of a [2 ^ a] secret that no challenge can push out of the verifier's
    interval (C41). *)
Definition safe_draw (a draw : Z) : Prop :=
  2 ^ (a + sp_kappa S - 1) <= draw < 2 ^ (a + sp_eps S) - 2 ^ (a + sp_kappa S - 1).

(** The draws for a masked product with a value encrypted under [N0], the mask
    encrypted under [N1], proved to a verifier with ring-Pedersen modulus
    [hat_n]. *)
Record mta_rand_ok (N0 N1 hat_n : Z) (r : mta_rand) : Prop := {
  mo_beta : 0 <= mr_beta r < 2 ^ sp_lp S;
  mo_r : unit_ok N1 (mr_r r);
  mo_s : unit_ok N0 (mr_s r);
  mo_aff : aff_g_rand_ok S N0 N1 hat_n (mr_aff r);
  mo_alpha : safe_draw (sp_l S) (ar_alpha (mr_aff r));
  mo_abeta : safe_draw (sp_lp S) (ar_beta (mr_aff r)) }.

(** A Paillier key as generated: the primes have the declared size. *)
Definition key_of (sk : skey) (N : Z) : Prop :=
  exists p q, keygen_primes (prime_bits (sp_pail S)) p q /\ skey_new (sp_pail S) p q = Ret sk /\ N = p * q.


(** The draws of round 1 of a signer with Paillier modulus [N]. *)
Record round1_ok (N : Z) (r : sg_rand1) : Prop := {
  ro_k : 0 <= g1_k r < sp_q S;
  ro_gamma : 0 <= g1_gamma r < sp_q S;
  ro_rho : unit_ok N (g1_rho r);
  ro_nu : unit_ok N (g1_nu r) }.

(** Those of one proof of round 1 for a peer with ring-Pedersen modulus
    [hat_n]. *)
Definition elg_rand_ok (N hat_n : Z) (r : enc_elg_rand) : Prop :=
  enc_elg_rand_ok S N hat_n r /\ safe_draw (sp_l S) (er_alpha r).

End Draws.
