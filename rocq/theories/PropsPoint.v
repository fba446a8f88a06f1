(** * Property C64: encodings of curve points. *)
From Coq Require Import ZArith List Bool Lia.
From Verif Require Import Base PointModel PointSpec PointProofs PointToy.
Import ListNotations.
Open Scope Z_scope.

(** Every point except the one at infinity is written as one byte more than a
    coordinate, and read back. *)
Theorem C64_round_trip : forall (pt : Type) (B : backend pt), backend_ok B -> forall P, P <> b_identity B ->
  exists l, point_encode B P = Ret l /\ length l = S (b_size B) /\ point_decode B l = Some P.
Proof. intros pt B HB. exact (round_trip B HB). Qed.
Print Assumptions C64_round_trip.

(** Writing the point at infinity panics; no other point does. *)
Theorem C64_encode_panics : forall (pt : Type) (B : backend pt), backend_ok B -> forall P,
  point_encode B P = Panic <-> P = b_identity B.
Proof. intros pt B HB. exact (encode_panics B HB). Qed.
Print Assumptions C64_encode_panics.

(** Different points are written differently. *)
Theorem C64_encode_injective : forall (pt : Type) (B : backend pt), backend_ok B -> forall P Q l,
  point_encode B P = Ret l -> point_encode B Q = Ret l -> P = Q.
Proof. intros pt B HB. exact (encode_inj B HB). Qed.
Print Assumptions C64_encode_injective.

(** Exactly these byte strings are read as the point [P]. *)
Theorem C64_decode_exact : forall (pt : Type) (B : backend pt), backend_ok B -> forall l P,
  point_decode B l = Some P <->
  (l = [0] /\ P = b_identity B) \/
  exists x y, b_coords B P = Some (x, y) /\
    (l = compressed x y \/ l = uncompressed x y \/ (l = compact x /\ b_decompact B x = Some P)).
Proof. intros pt B HB. exact (decode_exact B HB). Qed.
Print Assumptions C64_decode_exact.

(** The toy backend: residues modulo seven. *)
Definition res7 : Type := { z : Z | (0 <=? z) && (z <? 7) = true }.
Definition res7_mk (z : Z) : res7 :=
  match Sumbool.sumbool_of_bool ((0 <=? z) && (z <? 7)) with left h => exist _ z h | right _ => exist _ 0 eq_refl end.
Definition points7 : backend res7 := backend7 (@proj1_sig _ _) res7_mk.
Lemma res7_range (P : res7) : 0 <= proj1_sig P < 7.
Proof. destruct P as [z h]. cbn. apply andb_prop in h. destruct h as [h1 h2]. apply Z.leb_le in h1. apply Z.ltb_lt in h2. lia. Qed.
Lemma res7_num_mk z : 0 <= z < 7 -> proj1_sig (res7_mk z) = z.
Proof.
  intro H. unfold res7_mk. destruct (Sumbool.sumbool_of_bool _) as [|E]; [reflexivity|].
  apply andb_false_iff in E. destruct E as [E|E]; [apply Z.leb_gt in E|apply Z.ltb_ge in E]; lia.
Qed.
Lemma res7_mk_num (P : res7) : res7_mk (proj1_sig P) = P.
Proof.
  destruct P as [z h]. cbn. unfold res7_mk. destruct (Sumbool.sumbool_of_bool _) as [e|e].
  - f_equal. apply Eqdep_dec.UIP_dec. decide equality.
  - rewrite h in e. discriminate.
Qed.
Lemma points7_ok : backend_ok points7.
Proof. exact (backend7_ok (@proj1_sig _ _) res7_mk res7_range res7_num_mk res7_mk_num). Qed.

(** The point 5 and its negative 2 share the first coordinate; both forms of 5 are
    read; so is the one byte that stands for infinity. *)
Example C64_case :
  backend_ok points7 /\ point_encode points7 (res7_mk 5) = Ret [3; 2] /\ point_encode points7 (res7_mk 2) = Ret [2; 2] /\
  point_decode points7 [3; 2] = Some (res7_mk 5) /\ point_decode points7 [4; 2; 5] = Some (res7_mk 5) /\
  point_decode points7 [5; 2] = Some (res7_mk 2) /\ point_decode points7 [4; 3; 5] = None /\ point_decode points7 [3; 2; 0] = None.
Proof. split; [exact points7_ok|]. repeat split. Qed.

(** A byte string that is read need not be writable again ... *)
Theorem C64_decoded_is_encodable_refuted : exists (pt : Type) (B : backend pt) l P,
  backend_ok B /\ point_decode B l = Some P /\ point_encode B P = Panic.
Proof. exists res7, points7, [0], (res7_mk 0). split; [exact points7_ok|]. split; reflexivity. Qed.
Print Assumptions C64_decoded_is_encodable_refuted.

(** ... and a point can be read from several byte strings. *)
Theorem C64_encoding_unique_refuted : exists (pt : Type) (B : backend pt) l l' P,
  backend_ok B /\ l <> l' /\ point_decode B l = Some P /\ point_decode B l' = Some P /\ P <> b_identity B.
Proof.
  exists res7, points7, [3; 2], [4; 2; 5], (res7_mk 5). split; [exact points7_ok|]. split; [discriminate|].
  split; [reflexivity|]. split; [reflexivity|]. discriminate.
Qed.
Print Assumptions C64_encoding_unique_refuted.
