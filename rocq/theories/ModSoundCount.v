(** * Counting challenge values and challenge vectors (C78). *)
From Coq Require Import ZArith List Lia FinFun.
From Verif Require Import Base BaseFacts ModSoundSpec.
Import ListNotations.
Open Scope Z_scope.

Lemma NoDup_app_ok {T} (a b : list T) : NoDup a -> NoDup b -> (forall x, In x a -> In x b -> False) -> NoDup (a ++ b).
Proof.
  induction a as [|x a IH]; intros A B D; [exact B|]. apply NoDup_cons_iff in A. destruct A as [A1 A2]. cbn. constructor.
  - intros I. apply in_app_or in I. destruct I as [I|I]; [auto|]. apply (D x); [left; reflexivity|exact I].
  - apply IH; [exact A2|exact B|]. intros y Y1 Y2. apply (D y); [right; exact Y1|exact Y2].
Qed.

Lemma filter_split {T} (f : T -> bool) l : length l = (length (filter f l) + length (filter (fun x => negb (f x)) l))%nat.
Proof. induction l as [|x l IH]; [reflexivity|]. cbn. destruct (f x); cbn; lia. Qed.

Fixpoint vecs (s : list Z) (k : nat) : list (list Z) :=
  match k with
  | O => [[]]
  | S k' => flat_map (fun x => map (cons x) (vecs s k')) s
  end.

Lemma vecs_length s k : length (vecs s k) = (length s ^ k)%nat.
Proof.
  induction k as [|k IH]; [reflexivity|]. cbn [vecs Nat.pow]. rewrite <- IH. clear IH. generalize (vecs s k) as l. intros l.
  induction s as [|x s IH]; [reflexivity|]. cbn. rewrite app_length, map_length, IH. reflexivity.
Qed.

Lemma vecs_in s k v : length v = k -> incl v s -> In v (vecs s k).
Proof.
  revert v. induction k as [|k IH]; intros [|x v] L I; cbn in *; try discriminate; [auto|].
  apply in_flat_map. exists x. split; [apply I; left; reflexivity|]. apply in_map. apply IH; [congruence|].
  intros y Hy. apply I. right. exact Hy.
Qed.

(** If at most a fraction [d / c] of the values is good, at most [(d / c)^k] of
    the vectors is. *)
Lemma vectors_bound (P : Z -> Prop) (c d k : nat) :
  (forall l, NoDup l -> Forall P l -> (c * length l <= d)%nat) ->
  forall vs, NoDup vs -> (forall v, In v vs -> length v = k /\ Forall P v) -> (c ^ k * length vs <= d ^ k)%nat.
Proof.
  intros H vs ND Hv. set (s := nodup Z.eq_dec (concat vs)).
  assert (Hs : (c * length s <= d)%nat).
  { apply H; [apply NoDup_nodup|]. apply Forall_forall. intros y Hy. apply nodup_In in Hy.
    apply in_concat in Hy. destruct Hy as [v [V Y]]. destruct (Hv v V) as [_ F]. rewrite Forall_forall in F. auto. }
  assert (Hl : (length vs <= length (vecs s k))%nat).
  { apply NoDup_incl_length; [exact ND|]. intros v V. destruct (Hv v V) as [L _]. apply vecs_in; [exact L|].
    intros y Y. apply nodup_In. apply in_concat. exists v. auto. }
  rewrite vecs_length in Hl. apply Nat.le_trans with ((c * length s) ^ k)%nat.
  - rewrite Nat.pow_mul_l. apply Nat.mul_le_mono_l. exact Hl.
  - apply Nat.pow_le_mono_l. exact Hs.
Qed.

Lemma coprimes_in N M y : 0 <= M -> In y (coprimes_below N M) <-> 0 <= y < M /\ Z.gcd y N = 1.
Proof.
  intros HM. unfold coprimes_below. rewrite filter_In, in_map_iff, Z.eqb_eq. split; intros [A B]; split; auto.
  - destruct A as [i [<- I]]. apply in_seq in I. lia.
  - exists (Z.to_nat y). split; [lia|]. apply in_seq. lia.
Qed.

Lemma coprimes_NoDup N M : NoDup (coprimes_below N M).
Proof.
  apply NoDup_filter. apply Injective_map_NoDup; [|apply seq_NoDup]. intros a b E. lia.
Qed.

Section TwoThirds.
Variables (N M : Z) (P : Z -> Prop).
Hypotheses (N1 : 1 < N) (NM : N <= M) (M2 : M <= 2 * N).
Hypothesis P_mod : forall y, P y -> Z.gcd y N = 1 /\ P (y mod N).
Hypothesis P_half : forall l, NoDup l -> (forall y, In y l -> 0 <= y /\ y < N /\ P y) ->
  (2 * length l <= length (coprimes_below N N))%nat.

Lemma two_thirds l : NoDup l -> Forall (fun y => 0 <= y < M /\ P y) l ->
  (3 * length l <= 2 * length (coprimes_below N M))%nat.
Proof.
  intros ND F. rewrite Forall_forall in F.
  set (lo := filter (fun y => y <? N) l). set (hi := filter (fun y => negb (y <? N)) l).
  assert (Ll : length l = (length lo + length hi)%nat) by apply (filter_split (fun y => y <? N)).
  set (hi' := map (fun y => y - N) hi).
  assert (Lh : length hi' = length hi) by apply map_length.
  set (a := nodup Z.eq_dec (lo ++ hi')).
  assert (NDlo : NoDup lo) by (apply NoDup_filter; exact ND).
  assert (NDhi : NoDup hi) by (apply NoDup_filter; exact ND).
  assert (NDhi' : NoDup hi') by (apply Injective_map_NoDup; [intros x y E; lia|exact NDhi]).
  assert (Ilo : forall y, In y lo -> 0 <= y < N /\ P y).
  { intros y Hy. apply filter_In in Hy. destruct Hy as [Hy L]. destruct (F y Hy) as [B Py]. apply Z.ltb_lt in L. split; [lia|exact Py]. }
  assert (Ihi : forall y, In y hi -> N <= y < M /\ P y).
  { intros y Hy. apply filter_In in Hy. destruct Hy as [Hy L]. destruct (F y Hy) as [B Py]. apply Bool.negb_true_iff, Z.ltb_ge in L. split; [lia|exact Py]. }
  assert (Ihi' : forall y, In y hi' -> 0 <= y < N /\ P y).
  { intros y Hy. apply in_map_iff in Hy. destruct Hy as [x [<- Hx]]. destruct (Ihi x Hx) as [B Px].
    split; [lia|]. destruct (P_mod x Px) as [_ Q]. replace (x - N) with (x mod N); [exact Q|].
    symmetry. apply (Z.mod_unique_pos x N 1); lia. }
  assert (Ha : (2 * length a <= length (coprimes_below N N))%nat).
  { apply P_half; [apply NoDup_nodup|]. intros y Hy. apply nodup_In, in_app_or in Hy.
    destruct Hy as [Hy|Hy]; [destruct (Ilo y Hy)|destruct (Ihi' y Hy)]; tauto. }
  assert (A1 : (length lo <= length a)%nat).
  { apply NoDup_incl_length; [exact NDlo|]. intros y Hy. apply nodup_In, in_or_app. auto. }
  assert (A2 : (length hi <= length a)%nat).
  { rewrite <- Lh. apply NoDup_incl_length; [exact NDhi'|]. intros y Hy. apply nodup_In, in_or_app. auto. }
  assert (A3 : (length (coprimes_below N N) + length hi <= length (coprimes_below N M))%nat).
  { rewrite <- app_length. apply NoDup_incl_length.
    - apply NoDup_app_ok; [apply coprimes_NoDup|exact NDhi|]. intros y Hy Hh. apply coprimes_in in Hy; [|lia].
      destruct (Ihi y Hh). lia.
    - intros y Hy. apply coprimes_in; [lia|]. apply in_app_or in Hy. destruct Hy as [Hy|Hy].
      + apply coprimes_in in Hy; [|lia]. split; [lia|tauto].
      + destruct (Ihi y Hy) as [B Py]. split; [lia|]. apply (P_mod y Py). }
  lia.
Qed.
End TwoThirds.
