(** * A dishonest prover for the decryption proof.  Definitions only.

    The prover of zk/dec.rs:92-181 refuses to start when its product [y] leaves
    the claimed interval.  Nothing obliges a dishonest signer to run that
    program: this one computes the same commitments and responses from the
    textbook formulas, with whatever integer [y] it likes. *)
From Coq Require Import ZArith List.
From Verif Require Import Base ModArith SignedModel SignedSpec PaillierModel PaillierProofs ZkBase ZkModel ZkSpec ZkFacts.
Import ListNotations.
Open Scope Z_scope.

(** One repetition's masks, chosen by the prover. *)
Record lie := Lie { li_a : Z; li_b : Z; li_r : Z }.

(** An integer in the wire form of uint/public_signed.rs:76-80: two's complement and a declared bound. *)
Definition wire_signed (w e v : Z) : signed := mkS e (v mod 2 ^ w).

Section Forge.
Variables (S : sparams) (C : curve) (A : Type).
Notation w := (uint_w (sp_pail S)).
Notation ww := (wide_w (sp_pail S)).

Definition forge_com (pub : dec_public C) (m : lie) : dec_com C :=
  DecCom (affv (dp_pk0 pub) (ct_val (dp_cap_k pub)) (- li_a m) (li_b m) (li_r m))
    (pmul C (li_b m) (dp_cap_g pub)) (pmul C (li_a m) (gen C)).
Definition forge_elem (pub : dec_public C) (x y rho : Z) (me : lie * bool) : dec_elem :=
  let '(m, e) := me in
  DecElem (wire_signed w (sp_l S + sp_eps S) (li_a m + x * b2z e))
    (wire_signed ww (dec_y_exp S (dp_num_parties pub) + sp_eps S) (li_b m + y * b2z e))
    ((li_r m * rho ^ b2z e) mod dp_pk0 pub).
Definition forge (X : xof A (pt C)) (pub : dec_public C) (setup : rpparams) (aux : A) (x y rho : Z) (ms : list lie)
    : dec_proof C :=
  let coms := map (forge_com pub) ms in
  let e := dec_challenge S X coms pub setup aux in
  DecProof e coms (map (forge_elem pub x y rho) (combine ms e)).

(** Masks leaving room for the secrets. *)
Record lie_ok (N n : Z) (m : lie) : Prop := {
  lo_a : Z.abs (li_a m) < 2 ^ (sp_l S + sp_eps S - 2);
  lo_b : Z.abs (li_b m) < 2 ^ (dec_y_exp S n + sp_eps S - 2);
  lo_r : unit_ok N (li_r m) }.
End Forge.
Arguments forge S {C A}. Arguments forge_com {C}. Arguments forge_elem S {C}.
