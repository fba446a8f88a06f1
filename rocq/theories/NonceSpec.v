(** * Vocabulary for the signing nonce fixed by round 1 (C79). *)
From Coq Require Import ZArith.
From Verif Require Import Base ZkBase ElogModel.
From mathcomp Require Import all_ssreflect.
From Verif Require Import ProtoBase SigningModel.
Set Implicit Arguments.
Unset Strict Implicit.
Unset Printing Implicit Defensive.

Section Vocabulary.
Variables (q : Z) (C : curve) (I : eqType).
Notation msg := (message (sg_wire C I)).

(** Challenge [e] of the dlog proof can be answered after the commitments [a],
    [n], [b], for the statement "[l] and [m] hold the logarithm of [y] to base
    [h] under the key [x]". *)
Definition answerable (l m x y h a n b : pt C) (e : Z) : Prop :=
  exists z u, [/\ pmul C z (gen C) = padd C a (pmul C e l),
    padd C (pmul C u (gen C)) (pmul C z x) = padd C n (pmul C e m) &
    pmul C u h = padd C b (pmul C e y)].

(** [w1], [w2]: the messages of one party in rounds 1 and 2.  The proof it sent
    along with its part of the nonce is not a guess: with the commitments in it,
    it could have answered some challenge other than the one it got. *)
Definition not_a_guess (w1 w2 : msg) : Prop :=
  exists e1 e2 n2, [/\ m_echo w1 = Some (S1EB e1), m_echo w2 = Some (S2EB e2), m_normal w2 = Some (S2NB n2) &
    let pf := n2_elog n2 in
    exists e, [/\ (0 <= e < q)%Z, e <> el_e pf &
      answerable (e1_b1 e1) (e1_b2 e1) (e1_y e1) (e2_gamma e2) (gen C) (el_a pf) (el_n pf) (el_b pf) e]].

(** [P] is the part of the nonce in the message [w2] of round 2. *)
Definition nonce_part (w2 : msg) (P : pt C) : Prop := exists2 e2, m_echo w2 = Some (S2EB e2) & P = e2_gamma e2.
End Vocabulary.
