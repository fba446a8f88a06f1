(** * Vocabulary for the soundness of the Paillier-Blum proof (C78). *)
From Coq Require Import ZArith Znumtheory List.
From Verif Require Import Base ZkBase ZkModel.
Import ListNotations.
Open Scope Z_scope.

(** What the proof is about: two different primes, both 3 modulo 4, and a
    product coprime to its totient. *)
Definition blum_modulus (N : Z) : Prop :=
  exists p q, prime p /\ prime q /\ p <> q /\ p mod 4 = 3 /\ q mod 4 = 3 /\ N = p * q /\ Z.gcd N ((p - 1) * (q - 1)) = 1.

(** [y] has an [N]-th root, and a fourth root up to a sign and the factor [w]. *)
Definition answerable (N w y : Z) : Prop :=
  Z.gcd y N = 1 /\ (exists z, (z ^ N) mod N = y mod N) /\
  exists x (a b : bool), (x ^ 4) mod N = ((if a then -1 else 1) * (if b then w else 1) * y) mod N.

(** The numbers in [[0, M)] that are coprime to [N]. *)
Definition coprimes_below (N M : Z) : list Z :=
  filter (fun y => Z.gcd y N =? 1) (map Z.of_nat (seq 0 (Z.to_nat M))).

(** A vector of challenges that some proof of full length with commitment [w]
    answers when the hash returns it. *)
Definition answered_vector (S : sparams) (C : curve) (A : Type) (N w : Z) (aux : A) (ch : list Z) : Prop :=
  exists (X : xof A (pt C)) pf, xof_ok (sp_q S) X /\ mod_commitment pf = w /\ length (mod_elems pf) = sp_secbits S /\
    x_residues X Tmod [IZ N; IZ w; IA aux] N (sp_secbits S) = ch /\ mod_verify S X pf N aux = Ret true.
