(** * A toy curve backend: the group of order seven with one-byte coordinates.
    The point [n] has the second coordinate [n] and shares the first one with its
    negative [7 - n]. *)
From Coq Require Import ZArith List Bool Lia.
From Verif Require Import Base PointModel PointSpec.
Import ListNotations.
Open Scope Z_scope.

Section Toy.
Context {T : Type} (num : T -> Z) (mk : Z -> T).

Definition coords7 (P : T) : option (list Z * list Z) :=
  if num P =? 0 then None else Some ([Z.min (num P) (7 - num P)], [num P]).
Definition from_y7 (x y : Z) : option T :=
  if (1 <=? y) && (y <=? 6) && (x =? Z.min y (7 - y)) then Some (mk y) else None.
Definition decompress7 (x : list Z) (odd : bool) : option T :=
  match x with
  | [a] => if (1 <=? a) && (a <=? 3) then from_y7 a (if eqb (Z.odd a) odd then a else 7 - a) else None
  | _ => None
  end.
Definition from_xy7 (x y : list Z) : option T := match x, y with [a], [b] => from_y7 a b | _, _ => None end.
Definition backend7 : backend T := Backend 1 (mk 0) coords7 decompress7 (fun x => decompress7 x false) from_xy7.

Hypothesis num_range : forall P, 0 <= num P < 7.
Hypothesis num_mk : forall z, 0 <= z < 7 -> num (mk z) = z.
Hypothesis mk_num : forall P, mk (num P) = P.

Lemma odd7 a : Z.odd (7 - a) = negb (Z.odd a).
Proof. rewrite Z.odd_sub. reflexivity. Qed.

Lemma from_y7_ok a b P : from_y7 a b = Some P <-> coords7 P = Some ([a], [b]).
Proof.
  unfold from_y7, coords7. split.
  - destruct ((1 <=? b) && (b <=? 6) && (a =? Z.min b (7 - b))) eqn:E; [|discriminate].
    apply andb_prop in E. destruct E as [E E3]. apply andb_prop in E. destruct E as [E1 E2].
    apply Z.leb_le in E1, E2. apply Z.eqb_eq in E3. intros [= <-]. rewrite num_mk by lia.
    destruct (Z.eqb_spec b 0); [lia|]. now subst a.
  - pose proof (num_range P). destruct (Z.eqb_spec (num P) 0) as [|N]; [discriminate|]. intros [= <- <-].
    rewrite (proj2 (Z.leb_le 1 (num P))), (proj2 (Z.leb_le (num P) 6)), Z.eqb_refl by lia. cbn [andb]. now rewrite mk_num.
Qed.
Lemma decompress7_ok a odd P : decompress7 a odd = Some P -> exists y, coords7 P = Some (a, y) /\ Z.odd (last y 0) = odd.
Proof.
  unfold decompress7. destruct a as [|a [|? ?]]; try discriminate.
  destruct ((1 <=? a) && (a <=? 3)); [|discriminate]. intro D. apply from_y7_ok in D.
  eexists. split; [exact D|]. cbn [last]. destruct (eqb (Z.odd a) odd) eqn:E; [now apply eqb_prop|].
  rewrite odd7. destruct (Z.odd a), odd; cbn in *; congruence.
Qed.

Lemma backend7_ok : backend_ok backend7.
Proof.
  split; cbn [b_size b_identity b_coords b_decompress b_decompact b_from_xy backend7].
  - discriminate.
  - intro P. unfold coords7. destruct (Z.eqb_spec (num P) 0) as [E|E]; split; try discriminate; try reflexivity.
    + intros _. now rewrite <- (mk_num P), E.
    + intros ->. rewrite num_mk in E by lia. now contradiction E.
  - intros P x y. unfold coords7. destruct (num P =? 0); [discriminate|]. intros [= <- <-]. now split.
  - intros P x y C. unfold coords7 in C. pose proof (num_range P) as R.
    destruct (Z.eqb_spec (num P) 0) as [|N]; [discriminate|]. 
    assert (Ex : x = [Z.min (num P) (7 - num P)]) by congruence. assert (Ey : y = [num P]) by congruence.
    clear C. subst x y. cbn [last]. unfold decompress7.
    assert (H1 : (1 <=? Z.min (num P) (7 - num P)) = true) by (apply Z.leb_le; lia).
    assert (H2 : (Z.min (num P) (7 - num P) <=? 3) = true) by (apply Z.leb_le; lia).
    rewrite H1, H2. cbn [andb]. apply from_y7_ok. unfold coords7.
    destruct (Z.eqb_spec (num P) 0) as [|_]; [lia|]. do 2 f_equal. f_equal.
    destruct (Z.leb_spec (num P) 3).
    + rewrite Z.min_l by lia. now rewrite eqb_reflx.
    + rewrite Z.min_r by lia. rewrite odd7. destruct (Z.odd (num P)); cbn [negb eqb]; lia.
  - apply decompress7_ok.
  - intros x P D. destruct (decompress7_ok _ _ _ D) as (y & C & _). now exists y.
  - intros x y P. unfold from_xy7. destruct x as [|a [|? ?]], y as [|b [|? ?]];
      try (split; [discriminate|]; unfold coords7; destruct (num P =? 0); discriminate).
    apply from_y7_ok.
Qed.
End Toy.
