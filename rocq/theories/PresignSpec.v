(** * Vocabulary for what a presignature that passes round 3 is made of (C80). *)
From Coq Require Import ZArith.
From Verif Require Import Base ZkBase ElogModel.
From mathcomp Require Import all_ssreflect.
From Verif Require Import ProtoBase SigningModel NonceSpec.
Set Implicit Arguments.
Unset Strict Implicit.
Unset Printing Implicit Defensive.

Section Vocabulary.
Variables (q : Z) (C : curve) (I : eqType).
Notation msg := (message (sg_wire C I)).

(** The message [w1] of round 1 pledges [k] (in A1, A2) and [g] (in B1, B2): they
    are El-Gamal commitments under the key in the same message. *)
Definition pledges (w1 : msg) (k g : Z) : Prop :=
  exists e1 a b, m_echo w1 = Some (S1EB e1) /\
  [/\ e1_a1 e1 = pmul C a (gen C), e1_a2 e1 = padd C (pmul C k (gen C)) (pmul C a (e1_y e1)),
      e1_b1 e1 = pmul C b (gen C) & e1_b2 e1 = padd C (pmul C g (gen C)) (pmul C b (e1_y e1))].

(** [w1], [w3]: the messages of one party in rounds 1 and 3, [R] the combined
    nonce.  The proof in round 3 is not a guess. *)
Definition not_a_guess3 (w1 : msg) (R : pt C) (w3 : msg) : Prop :=
  exists e1 n3, [/\ m_echo w1 = Some (S1EB e1), m_normal w3 = Some (S3NB n3) &
    let pf := n3_psi n3 in
    exists e, [/\ (0 <= e < q)%Z, e <> el_e pf &
      answerable (e1_a1 e1) (e1_a2 e1) (e1_y e1) (n3_delta n3) R (el_a pf) (el_n pf) (el_b pf) e]].

(** The sum of [f] over the parties [ids]. *)
Definition over (ids : seq I) (f : I -> Z) : Z := foldr Z.add 0%Z [seq f l | l <- ids].
End Vocabulary.
