(** * The dlog-with-El-Gamal-commitment proof: transcription of src/zk/elog.rs.
    Definitions only.  Scalars are integers in [0, q); their arithmetic is
    modulo the curve order. *)
From Coq Require Import ZArith List Bool.
From Verif Require Import Base ZkBase.
Import ListNotations.
Open Scope Z_scope.

Section Elog.
Variables (q : Z) (C : curve) (A : Type) (X : xof A (pt C)).

(** zk/elog.rs:16-19 ([ElogSecretInputs]). *)
Record elog_secret := ElogSecret { els_y : Z; els_lambda : Z }.

(** zk/elog.rs:21-33 ([ElogPublicInputs]). *)
Record elog_public := ElogPublic {
  elp_l : pt C; elp_m : pt C; elp_x : pt C; elp_y : pt C; elp_h : pt C }.

(** zk/elog.rs:36-45 ([ElogProof]). *)
Record elog_proof := ElogProof {
  el_e : Z; el_a : pt C; el_n : pt C; el_b : pt C; el_z : Z; el_u : Z }.

(** zk/elog.rs:61-76, 92-107: the transcript, the same in both directions. *)
Definition elog_challenge (a n b : pt C) (pub : elog_public) (aux : A) : Z :=
  x_scalar X Telog [IP a; IP n; IP b;
    IP (elp_l pub); IP (elp_m pub); IP (elp_x pub); IP (elp_y pub); IP (elp_h pub); IA aux].

(** zk/elog.rs:48-89; [alpha], [m]: the two [Scalar::random] results. *)
Definition elog_new (sec : elog_secret) (pub : elog_public) (aux : A) (alpha m : Z) : elog_proof :=
  let a := pmul C alpha (gen C) in
  let n := padd C (pmul C m (gen C)) (pmul C alpha (elp_x pub)) in
  let b := pmul C m (elp_h pub) in
  let e := elog_challenge a n b pub aux in
  ElogProof e a n b ((alpha + els_lambda sec * e) mod q) ((m + els_y sec * e) mod q).

(** zk/elog.rs:91-129. *)
Definition elog_verify (pf : elog_proof) (pub : elog_public) (aux : A) : bool :=
  let e := elog_challenge (el_a pf) (el_n pf) (el_b pf) pub aux in
  if negb (e =? el_e pf) then false else
  if negb (peqb C (pmul C (el_z pf) (gen C)) (padd C (el_a pf) (pmul C e (elp_l pub)))) then false else
  if negb (peqb C (padd C (pmul C (el_u pf) (gen C)) (pmul C (el_z pf) (elp_x pub)))
                  (padd C (el_n pf) (pmul C e (elp_m pub)))) then false else
  if negb (peqb C (pmul C (el_u pf) (elp_h pub)) (padd C (el_b pf) (pmul C e (elp_y pub)))) then false else
  true.

End Elog.
Arguments elp_l {C}. Arguments elp_m {C}. Arguments elp_x {C}. Arguments elp_y {C}. Arguments elp_h {C}.
Arguments ElogPublic {C}.
Arguments el_e {C}. Arguments el_a {C}. Arguments el_n {C}. Arguments el_b {C}.
Arguments el_z {C}. Arguments el_u {C}.
Arguments ElogProof {C}.
