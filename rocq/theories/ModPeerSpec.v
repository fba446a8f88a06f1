(** * Vocabulary for the moduli of the peers after AuxGen and KeyRefresh (C81). *)
From Coq Require Import ZArith Znumtheory List.
From Verif Require Import Base ZkBase ZkModel ModSoundSpec.
Import ListNotations.
Open Scope Z_scope.

(** The probabilistic primality test of the verifier recognises [N] if it is prime. *)
Definition recognised {A T} (X : xof A T) (N : Z) : Prop := prime N -> forall l, x_is_prime X Tmod_rng l N = true.

(** The modulus [N] is not prime, and it is a Paillier-Blum modulus unless the
    hash, asked once with the commitment [w] and the session data [aux], returned
    one of the vectors of challenges that can be answered without it being one;
    these are at most two thirds to the power of the number of repetitions of all
    vectors of admissible challenges. *)
Definition vouches (S : sparams) {C : curve} {A : Type} (X : xof A (pt C)) (N w : Z) (aux : A) : Prop :=
  ~ prime N /\
  (~ blum_modulus N ->
   answered_vector S C A N w aux (x_residues X Tmod [IZ N; IZ w; IA aux] N (sp_secbits S)) /\
   forall chs, NoDup chs -> (forall ch, In ch chs -> answered_vector S C A N w aux ch) ->
     (3 ^ sp_secbits S * length chs <= (2 * length (coprimes_below N (2 ^ bits N))) ^ sp_secbits S)%nat).
