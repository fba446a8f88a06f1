(** * What an answer looks like that says nothing about the secret (property C73).

    The proofs relative to ring-Pedersen parameters (src/zk/enc_elg.rs,
    src/zk/aff_g.rs, src/zk/fac.rs) commit to the secret in the verifier's group and then answer
    with integers: a mask plus the challenge times the secret, where the masks for
    commitment randomizers are drawn from an interval scaled by the verifier's
    modulus.  As in HideSpec.v, an answer near the end of the masks' interval
    betrays the sign of the secret; the others say nothing.  The conditions below
    do not mention the secrets' values. *)
From Coq Require Import ZArith List Bool.
From Verif Require Import Base SignedModel SignedSpec PaillierModel ZkBase ZkModel ZkSpec HideSpec.
Open Scope Z_scope.

(** An answer far enough from the ends of the interval of masks ([scale * 2^m]
    wide), whatever the challenge below [q] and the secret from an interval
    [scale * 2^k] wide. *)
Definition inner_scaled (q scale m k v : Z) : Prop := Z.abs v < scale * (2 ^ (m - 1) - q * 2 ^ (k - 1)).

(** The draws ([0, scale * 2^m)) that are far enough from the ends: all but
    [2 * scale * q * 2^k + 1] of them. *)
Definition margin_scaled (q scale m k draw : Z) : Prop :=
  scale * q * 2 ^ k <= draw < scale * 2 ^ m - scale * q * 2 ^ k - 1.

(** The same for masks from [(-half, half]] and a product of challenge and secrets
    of absolute value at most [spread]. *)
Definition inner_by (half spread v : Z) : Prop := Z.abs v < half - spread.
Definition margin_by (half spread draw : Z) : Prop := 2 * spread <= draw < 2 * half - 2 * spread - 1.

(** [t] has order [o] modulo [n]. *)
Definition has_order (n t o : Z) : Prop :=
  0 < o /\ (t ^ o) mod n = 1 mod n /\ forall k, 0 < k < o -> (t ^ k) mod n <> 1 mod n.

Section Hide.
Variable S : sparams.
Notation w := (uint_w (sp_pail S)).
Notation ww := (wide_w (sp_pail S)).
Notation q := (sp_q S).

(** The declared bound of an answer: a sum of a mask of declared bound [m] and the
    product of a secret of declared bound [b] with the challenge. *)
Definition reply_bound (m b : Z) : Z := Z.max m (b + sp_kappa S) + 1.

Definition enc_elg_draw (N hat : Z) (rnd : enc_elg_rand) : Prop :=
  enc_elg_rand_ok S N hat rnd /\ er_r rnd < N /\ 0 <= er_beta rnd < q.

Definition enc_elg_margin (hat : Z) (rnd : enc_elg_rand) : Prop :=
  margin_scaled q 1 (sp_l S + sp_eps S) (sp_l S) (er_alpha rnd) /\
  margin_scaled q hat (sp_l S + sp_eps S) (sp_l S) (er_gamma rnd).

Record enc_elg_inner {C : curve} (N hat bx : Z) (pf : enc_elg_proof C) : Prop := {
  eei_d : 0 <= ee_d pf < N * N;
  eei_t : 0 <= ee_t pf < hat;
  eei_z1 : wf w (ee_z1 pf);
  eei_z1_bound : bound (ee_z1 pf) = reply_bound (sp_l S + sp_eps S) bx;
  eei_z1_inner : inner_scaled q 1 (sp_l S + sp_eps S) (sp_l S) (sval w (ee_z1 pf));
  eei_w : 0 <= ee_w pf < q;
  eei_z2 : unit_in N (ee_z2 pf);
  eei_z3 : wf ww (ee_z3 pf);
  eei_z3_bound : bound (ee_z3 pf) = reply_bound (sp_l S + sp_eps S + bits hat) (sp_l S + bits hat);
  eei_z3_inner : inner_scaled q hat (sp_l S + sp_eps S) (sp_l S) (sval ww (ee_z3 pf)) }.

Definition aff_g_draw (N0 N1 hat : Z) (rnd : aff_g_rand) : Prop :=
  aff_g_rand_ok S N0 N1 hat rnd /\ ar_r rnd < N0 /\ ar_ry rnd < N1.

Definition aff_g_margin (hat : Z) (rnd : aff_g_rand) : Prop :=
  margin_scaled q 1 (sp_l S + sp_eps S) (sp_l S) (ar_alpha rnd) /\
  margin_scaled q 1 (sp_lp S + sp_eps S) (sp_lp S) (ar_beta rnd) /\
  margin_scaled q hat (sp_l S + sp_eps S) (sp_l S) (ar_gamma rnd) /\
  margin_scaled q hat (sp_l S + sp_eps S) (sp_l S) (ar_delta rnd).

Record aff_g_inner {C : curve} (N0 N1 hat bx by_ : Z) (pf : aff_g_proof C) : Prop := {
  agi_a : 0 <= ag_a pf < N0 * N0;
  agi_by : 0 <= ag_by pf < N1 * N1;
  agi_ce : 0 <= ag_ce pf < hat;
  agi_f : 0 <= ag_f pf < hat;
  agi_z1 : wf w (ag_z1 pf);
  agi_z1_bound : bound (ag_z1 pf) = reply_bound (sp_l S + sp_eps S) bx;
  agi_z1_inner : inner_scaled q 1 (sp_l S + sp_eps S) (sp_l S) (sval w (ag_z1 pf));
  agi_z2 : wf w (ag_z2 pf);
  agi_z2_bound : bound (ag_z2 pf) = reply_bound (sp_lp S + sp_eps S) by_;
  agi_z2_inner : inner_scaled q 1 (sp_lp S + sp_eps S) (sp_lp S) (sval w (ag_z2 pf));
  agi_z3 : wf ww (ag_z3 pf);
  agi_z3_bound : bound (ag_z3 pf) = reply_bound (sp_l S + sp_eps S + bits hat) (sp_l S + bits hat);
  agi_z3_inner : inner_scaled q hat (sp_l S + sp_eps S) (sp_l S) (sval ww (ag_z3 pf));
  agi_z4 : wf ww (ag_z4 pf);
  agi_z4_bound : bound (ag_z4 pf) = reply_bound (sp_l S + sp_eps S + bits hat) (sp_l S + bits hat);
  agi_z4_inner : inner_scaled q hat (sp_l S + sp_eps S) (sp_l S) (sval ww (ag_z4 pf));
  agi_w : unit_in N0 (ag_w pf);
  agi_wy : unit_in N1 (ag_wy pf) }.

(** The no-small-factor proof (src/zk/fac.rs): half widths of the masks' intervals
    and how far challenge and secrets move an answer at most. *)
Notation pb := (prime_bits (sp_pail S)).
Definition fac_half_z : Z := 2 ^ (pb - 2) * 2 ^ (sp_l S + sp_eps S - 1).
Definition fac_spread_z : Z := 2 ^ pb * 2 ^ (sp_l S - 1).
Definition fac_half_w (hat : Z) : Z := hat * 2 ^ (sp_l S + sp_eps S - 1).
Definition fac_spread_w (hat : Z) : Z := hat * 2 ^ (sp_l S - 1) * 2 ^ (sp_l S - 1).
Definition fac_half_v (N0 hat : Z) : Z := N0 * hat * 2 ^ (sp_l S + sp_eps S - 1).
Definition fac_spread_v (hat : Z) : Z := 2 ^ pb * 2 ^ (sp_l S - 1) * (hat * 2 ^ (sp_l S - 1)).

Definition fac_margins (N0 hat : Z) (rnd : fac_rand) : Prop :=
  (margin_by fac_half_z fac_spread_z (fr_alpha rnd) /\ margin_by fac_half_z fac_spread_z (fr_beta rnd)) /\
  (margin_by (fac_half_w hat) (fac_spread_w hat) (fr_x rnd) /\ margin_by (fac_half_w hat) (fac_spread_w hat) (fr_y rnd)) /\
  margin_by (fac_half_v N0 hat) (fac_spread_v hat) (fr_r rnd).

Record fac_inner (N0 hat : Z) (pf : fac_proof) : Prop := {
  fi_a : 0 <= fac_a pf < hat;
  fi_b : 0 <= fac_b pf < hat;
  fi_t : 0 <= fac_t pf < hat;
  fi_z1 : wf ww (fac_z1 pf);
  fi_z1_bound : bound (fac_z1 pf) = Z.max (sp_l S + sp_eps S + (pb - 1)) (pb + sp_l S) + 1;
  fi_z1_inner : inner_by fac_half_z fac_spread_z (sval ww (fac_z1 pf));
  fi_z2 : wf ww (fac_z2 pf);
  fi_z2_bound : bound (fac_z2 pf) = Z.max (sp_l S + sp_eps S + (pb - 1)) (pb + sp_l S) + 1;
  fi_z2_inner : inner_by fac_half_z fac_spread_z (sval ww (fac_z2 pf));
  fi_w1 : wf ww (fac_w1 pf);
  fi_w1_bound : bound (fac_w1 pf) = Z.max (sp_l S + sp_eps S + bits hat) (sp_l S + bits hat + sp_l S) + 1;
  fi_w1_inner : inner_by (fac_half_w hat) (fac_spread_w hat) (sval ww (fac_w1 pf));
  fi_w2 : wf ww (fac_w2 pf);
  fi_w2_bound : bound (fac_w2 pf) = Z.max (sp_l S + sp_eps S + bits hat) (sp_l S + bits hat + sp_l S) + 1;
  fi_w2_inner : inner_by (fac_half_w hat) (fac_spread_w hat) (sval ww (fac_w2 pf));
  fi_v : wf (sp_xw S) (fac_v pf);
  fi_v_bound : bound (fac_v pf) =
    Z.max (sp_l S + sp_eps S + bits (N0 * hat)) (pb + sp_l S + (sp_l S + bits hat)) + 1;
  fi_v_inner : inner_by (fac_half_v N0 hat) (fac_spread_v hat) (sval (sp_xw S) (fac_v pf)) }.
End Hide.
