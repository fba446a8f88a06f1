(** * A Paillier-Blum proof made from the modulus alone (specification for C74).

    Nothing here refers to the factors of [N] or to the prover's code.  The
    maker of the proof picks [omega] and [r] first and lets them determine the
    commitment and the challenges. *)
From Coq Require Import ZArith List Bool.
From Verif Require Import ZkModel PaillierSpec.
Open Scope Z_scope.

(** The two flags and the square [r] chosen for one repetition. *)
Record mod_draw := ModDraw { md_a : bool; md_b : bool; md_r : Z }.

(** The commitment: an [N]-th power. *)
Definition sim_com (N omega : Z) : Z := (omega ^ N) mod N.

(** One repetition (the answer layout of zk/mod_.rs:51-57); [omega'] is the
    inverse of [omega]. *)
Definition sim_elem (N omega' : Z) (d : mod_draw) : mod_elem :=
  ModElem ((md_r d ^ N) mod N) (md_a d) (md_b d)
    (((if md_a d then -1 else 1) * (if md_b d then omega' else 1) * md_r d ^ 4) mod N).

(** The challenge this repetition answers. *)
Definition sim_y (N omega' : Z) (d : mod_draw) : Z := (me_z (sim_elem N omega' d) ^ N) mod N.

(** [r] is a square and a unit: the maker squares a random unit. *)
Definition draw_ok (N : Z) (d : mod_draw) : Prop :=
  0 <= md_r d < N /\ Z.gcd (md_r d) N = 1 /\ square_mod N (md_r d).

(** A square modulo exactly one of the two primes.  For a unit modulo two
    primes that are 3 modulo 4 this is Jacobi symbol -1, which is computed
    without the primes. *)
Definition one_sided (p q x : Z) : Prop := square_mod p x <-> ~ square_mod q x.
