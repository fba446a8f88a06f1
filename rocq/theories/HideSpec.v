(** * What an answer looks like that says nothing about the secret (property C70).

    The answers of the setup-less proofs of the error rounds (src/zk/dec.rs,
    src/zk/aff_g_star.rs) are integers: a mask plus the secret.  An answer near
    the end of the masks' interval betrays the sign of the secret; the others,
    all but about one in [2^epsilon], say nothing.  The conditions below do not mention the
    secrets' values. *)
From Coq Require Import ZArith List Bool.
From Verif Require Import Base SignedModel SignedSpec PaillierModel ZkBase ZkModel ZkSpec.
Import ListNotations.
Open Scope Z_scope.

Section Hide.
Variable S : sparams.
Notation w := (uint_w (sp_pail S)).
Notation ww := (wide_w (sp_pail S)).

(** An answer far enough from the ends of the interval of masks ([2^m] wide) for
    any secret from an interval [2^k] wide. *)
Definition inner (m k v : Z) : Prop := Z.abs v < 2 ^ (m - 1) - 2 ^ (k - 1).

(** The draws ([0, 2^m)) that are far enough from the ends for any secret: all
    but [2^(k+1) + 1] of them. *)
Definition margin (m k draw : Z) : Prop := 2 ^ k <= draw < 2 ^ m - 2 ^ k - 1.

(** The declared bound of an answer: that of a mask, or of the sum of a mask and
    a secret of declared bound [b]. *)
Definition answer_bound (m b : Z) (e : bool) : Z := if e then Z.max m b + 1 else m.

(** A reduced unit: what the library draws as randomizer. *)
Definition unit_in (N r : Z) : Prop := 0 <= r < N /\ Z.gcd r N = 1.

Definition dec_draw (N n : Z) (rnd : dec_rand) : Prop := dec_rand_ok S N n rnd /\ dr_r rnd < N.

Definition dec_margin (n : Z) (rnd : dec_rand) : Prop :=
  margin (sp_l S + sp_eps S) (sp_l S) (dr_alpha rnd) /\ margin (dec_y_exp S n + sp_eps S) (dec_y_exp S n) (dr_beta rnd).

Record dec_inner {C : curve} (N n bx by_ : Z) (t : bool * dec_com C * dec_elem) : Prop := {
  di_com : 0 <= dc_a (snd (fst t)) < N * N;
  di_z : wf w (de_z (snd t));
  di_z_bound : bound (de_z (snd t)) = answer_bound (sp_l S + sp_eps S) bx (fst (fst t));
  di_z_inner : inner (sp_l S + sp_eps S) (sp_l S) (sval w (de_z (snd t)));
  di_w : wf ww (de_w (snd t));
  di_w_bound : bound (de_w (snd t)) = answer_bound (dec_y_exp S n + sp_eps S) by_ (fst (fst t));
  di_w_inner : inner (dec_y_exp S n + sp_eps S) (dec_y_exp S n) (sval ww (de_w (snd t)));
  di_nu : unit_in N (de_nu (snd t)) }.

Definition aff_gs_draw (N0 N1 : Z) (rnd : aff_gs_rand) : Prop :=
  aff_gs_rand_ok S N0 N1 rnd /\ sr_r rnd < N0 /\ sr_s rnd < N1.

Definition aff_gs_margin (rnd : aff_gs_rand) : Prop :=
  margin (sp_l S + sp_eps S) (sp_l S) (sr_alpha rnd) /\ margin (sp_lp S + sp_eps S) (sp_lp S) (sr_beta rnd).

Record aff_gs_inner {C : curve} (N0 N1 bx by_ : Z) (t : bool * aff_gs_com C * aff_gs_elem) : Prop := {
  si_a : 0 <= sc_a (snd (fst t)) < N0 * N0;
  si_b : 0 <= sc_b (snd (fst t)) < N1 * N1;
  si_z : wf w (sl_z (snd t));
  si_z_bound : bound (sl_z (snd t)) = answer_bound (sp_l S + sp_eps S) bx (fst (fst t));
  si_z_inner : inner (sp_l S + sp_eps S) (sp_l S) (sval w (sl_z (snd t)));
  si_zp : wf w (sl_zp (snd t));
  si_zp_bound : bound (sl_zp (snd t)) = answer_bound (sp_lp S + sp_eps S) by_ (fst (fst t));
  si_zp_inner : inner (sp_lp S + sp_eps S) (sp_lp S) (sval w (sl_zp (snd t)));
  si_w : unit_in N0 (sl_w (snd t));
  si_lambda : unit_in N1 (sl_lambda (snd t)) }.
End Hide.
