(** * Encodings of curve points: proofs (property C64). *)
From Coq Require Import ZArith List Bool Lia.
From Verif Require Import Base PointModel PointSpec.
Import ListNotations.
Open Scope Z_scope.

Section Proofs.
Context {pt : Type} (B : backend pt) (HB : backend_ok B).

Lemma encode_coords P x y : b_coords B P = Some (x, y) -> point_encode B P = Ret (compressed x y).
Proof.
  intro H. unfold point_encode, encoded_point. rewrite H.
  destruct (bo_lengths B HB P x y H) as [Hx _]. cbn [length]. rewrite Hx, Nat.eqb_refl.
  unfold compressed, y_odd. destruct (Z.odd (last y 0)); reflexivity.
Qed.
Lemma encode_identity : point_encode B (b_identity B) = Panic.
Proof.
  unfold point_encode, encoded_point.
  destruct (b_coords B (b_identity B)) as [[x y]|] eqn:E.
  - rewrite (proj2 (bo_identity B HB (b_identity B)) eq_refl) in E. discriminate.
  - cbn [length]. pose proof (bo_size B HB). destruct (Nat.eqb_spec 1 (S (b_size B))); [lia|reflexivity].
Qed.
Lemma coords_cases P : (P = b_identity B /\ b_coords B P = None) \/ exists x y, b_coords B P = Some (x, y).
Proof.
  destruct (b_coords B P) as [[x y]|] eqn:E; [right; eauto|left]. split; [|reflexivity]. now apply (bo_identity B HB).
Qed.

Lemma encode_panics P : point_encode B P = Panic <-> P = b_identity B.
Proof.
  split; [|intros ->; apply encode_identity].
  intro H. destruct (coords_cases P) as [[E _]|(x & y & E)]; [exact E|]. rewrite (encode_coords _ _ _ E) in H. discriminate.
Qed.

Lemma decode_exact l P : point_decode B l = Some P <->
  (l = [0] /\ P = b_identity B) \/
  exists x y, b_coords B P = Some (x, y) /\
    (l = compressed x y \/ l = uncompressed x y \/ (l = compact x /\ b_decompact B x = Some P)).
Proof.
  split.
  - destruct l as [|t r]; [discriminate|]. cbn [point_decode]. unfold tag_len.
    destruct (Z.eqb_spec t 0) as [->|N0].
    { destruct (Nat.eqb_spec (length (0 :: r)) 1) as [L|]; [|discriminate].
      destruct r; [|discriminate L]. intros [= <-]. now left. }
    destruct (Z.eqb_spec t 2) as [->|N2]; cbn [orb].
    { destruct (Nat.eqb_spec (length (2 :: r)) (S (b_size B))); [|discriminate]. intro D.
      destruct (bo_decompress B HB _ _ _ D) as (y & C & O). right. exists r, y. split; [exact C|]. left.
      unfold compressed. now rewrite O. }
    destruct (Z.eqb_spec t 3) as [->|N3]; cbn [orb].
    { destruct (Nat.eqb_spec (length (3 :: r)) (S (b_size B))); [|discriminate]. intro D.
      destruct (bo_decompress B HB _ _ _ D) as (y & C & O). right. exists r, y. split; [exact C|]. left.
      unfold compressed. now rewrite O. }
    destruct (Z.eqb_spec t 5) as [->|N5].
    { destruct (Nat.eqb_spec (length (5 :: r)) (S (b_size B))); [|discriminate]. cbn. intro D.
      destruct (bo_decompact B HB _ _ D) as (y & C). right. exists r, y. split; [exact C|]. right. right. now split. }
    destruct (Z.eqb_spec t 4) as [->|N4]; [|discriminate].
    destruct (Nat.eqb_spec (length (4 :: r)) (S (2 * b_size B))); [|discriminate]. intro D.
    apply (bo_from_xy B HB) in D. right. exists (firstn (b_size B) r), (skipn (b_size B) r). split; [exact D|]. right. left.
    unfold uncompressed. now rewrite firstn_skipn.
  - intros [[-> ->]|(x & y & C & H)]; [reflexivity|].
    destruct (bo_lengths B HB P x y C) as [Lx Ly].
    destruct H as [->|[->|[-> D]]].
    + pose proof (bo_recover B HB P x y C) as R. unfold compressed. destruct (Z.odd (last y 0)); cbn [Z.b2z]; cbn;
        rewrite Lx, Nat.eqb_refl; exact R.
    + unfold uncompressed. cbn. rewrite app_length, Lx, Ly.
      replace (Nat.eqb (b_size B + b_size B) (b_size B + (b_size B + 0))) with true
        by (symmetry; apply Nat.eqb_eq; lia).
      rewrite <- Lx at 1 2. rewrite firstn_app, skipn_app, firstn_all, skipn_all, Nat.sub_diag. cbn.
      rewrite app_nil_r. now apply (bo_from_xy B HB).
    + unfold compact. cbn. rewrite Lx, Nat.eqb_refl. exact D.
Qed.

Lemma round_trip P : P <> b_identity B ->
  exists l, point_encode B P = Ret l /\ length l = S (b_size B) /\ point_decode B l = Some P.
Proof.
  intro N. destruct (coords_cases P) as [[E _]|(x & y & E)]; [contradiction|].
  exists (compressed x y). split; [now apply encode_coords|]. split.
  - unfold compressed. cbn. now rewrite (proj1 (bo_lengths B HB P x y E)).
  - apply decode_exact. right. exists x, y. auto.
Qed.
Lemma encode_inj P Q l : point_encode B P = Ret l -> point_encode B Q = Ret l -> P = Q.
Proof.
  intros HP HQ.
  assert (NP : P <> b_identity B) by (intros ->; rewrite encode_identity in HP; discriminate).
  assert (NQ : Q <> b_identity B) by (intros ->; rewrite encode_identity in HQ; discriminate).
  destruct (round_trip P NP) as (a & EA & _ & DA). destruct (round_trip Q NQ) as (b & EB & _ & DB). congruence.
Qed.
(** Re-encoding what was decoded gives the compressed form. *)
Lemma reencode l P : point_decode B l = Some P ->
  (P = b_identity B /\ point_encode B P = Panic) \/
  exists x y, b_coords B P = Some (x, y) /\ point_encode B P = Ret (compressed x y).
Proof.
  intros _. destruct (coords_cases P) as [[E _]|(x & y & E)].
  - left. split; [exact E|]. subst P. exact encode_identity.
  - right. exists x, y. split; [exact E|]. now apply encode_coords.
Qed.
End Proofs.
