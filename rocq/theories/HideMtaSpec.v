(** * Which masked products say nothing about the sender's factor (property C75).

    In round 2 of signing (src/protocols/interactive_signing.rs:1361-1417) a
    signer multiplies a peer's encrypted [k] by a secret [x] (gamma or the key
    share) and subtracts a mask.  The peer decrypts [k x - beta].  Values near
    the ends of the masks' interval betray the size of [k x]; the others say
    nothing.  The conditions below mention neither [k] nor [x]. *)
From Coq Require Import ZArith.
From Verif Require Import Base PaillierModel ZkBase ZkModel ZkSpec HideSpec MtaSpec.
Open Scope Z_scope.

(** For [k] in the range its proof establishes ([l + eps] bits) and an [x] of
    [l] bits the product is in an interval of this width. *)
Definition product_width (S : sparams) : Z := 2 * sp_l S + sp_eps S - 1.
(** A decrypted value far enough from the ends for every such product. *)
Definition share_inner (S : sparams) (v : Z) : Prop := inner (sp_lp S) (product_width S) v.
(** A draw of the mask far enough from the ends for every such product. *)
Definition mask_margin (S : sparams) (draw : Z) : Prop := margin (sp_lp S) (product_width S) draw.

(** The draws a masked product consumes besides the mask and the randomizer of
    the ciphertext sent to the peer: the randomizer [r] of the ciphertext of the
    mask under the own key and those of the proof. *)
Record other_draws (S : sparams) (N0 N1 hat_n r : Z) (aff : aff_g_rand) : Prop := {
  od_r : unit_ok N1 r;
  od_aff : aff_g_rand_ok S N0 N1 hat_n aff;
  od_alpha : safe_draw S (sp_l S) (ar_alpha aff);
  od_beta : safe_draw S (sp_lp S) (ar_beta aff) }.

(** A draw of the mask and a reduced randomizer. *)
Definition mask_draw (S : sparams) (N0 : Z) (bs : Z * Z) : Prop :=
  0 <= fst bs < 2 ^ sp_lp S /\ unit_in N0 (snd bs).
