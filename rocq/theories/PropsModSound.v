(** * Property C78: the Paillier-Blum proof for other moduli.

    C35 says that an honest proof is accepted, and that the verifier does not
    look at the number of repetitions.  Here is what the repetitions are worth
    when all of them are there: an odd composite modulus that is not a product of
    two different primes congruent to 3 modulo 4, coprime to its totient, can
    answer at most half of the residues, whatever the commitment.  The challenges
    are drawn below the next power of two rather than below the modulus
    (src/paillier/rsa.rs:308-317), which costs a little: of the values drawn
    up to two thirds. *)
From Coq Require Import ZArith Znumtheory List Bool Lia.
From Verif Require Import Base BaseFacts SignedModel SignedSpec PaillierModel PaillierSpec PaillierProofs PaillierLemmas RsaFacts
  PropsPaillier ZkBase ZkModel ZkSpec ZkFacts ZkToy ZkTranscripts ZkLemmas PropsZk1 ModSoundSpec ModSoundCount ModSoundLemmas.
From Verif Require ModSoundProofs.
Import ListNotations.
Open Scope Z_scope.

(** ** In an accepted proof of full length every challenge has the two roots. *)
Theorem C78_all_answerable : forall S C A (X : xof A (pt C)) pf N aux,
  p_self_consistent (sp_pail S) = true -> xof_ok (sp_q S) X -> 1 < N < 2 ^ modulus_bits (sp_pail S) ->
  length (mod_elems pf) = sp_secbits S -> mod_verify S X pf N aux = Ret true ->
  let ch := x_residues X Tmod [IZ N; IZ (mod_commitment pf); IA aux] N (sp_secbits S) in
  Z.gcd (mod_commitment pf) N = 1 /\ length ch = sp_secbits S /\
  Forall (fun y => 0 <= y < 2 ^ bits N /\ answerable N (mod_commitment pf) y) ch.
Proof. exact accepted_answerable. Qed.
Print Assumptions C78_all_answerable.

(** [15] is not a Blum modulus; the challenge 8 can be answered with commitment 2. *)
Definition pf15 : mod_proof :=
  ModProof 2 [8; 8; 8; 8] [ModElem 1 false true 2; ModElem 1 false true 2; ModElem 2 false true 2; ModElem 1 false true 2].
Example C78_all_answerable_case : p_self_consistent (sp_pail S4) = true /\ xof_ok 7 (toyX 1 true 8) /\
  1 < 15 < 2 ^ modulus_bits (sp_pail S4) /\ length (mod_elems pf15) = sp_secbits S4 /\
  mod_verify S4 (toyX 1 true 8) pf15 15 tt = Ret true.
Proof. split; [reflexivity|]. split; [apply const_xof_ok; lia|]. decide_case. Qed.

(** ** At most half of the residues can be answered. *)
Theorem C78_half : forall N w, 1 < N -> Z.odd N = true -> ~ prime N -> ~ blum_modulus N -> Z.gcd w N = 1 ->
  forall l, NoDup l -> (forall y, In y l -> 0 <= y /\ y < N /\ answerable N w y) ->
  (2 * length l <= length (coprimes_below N N))%nat.
Proof. exact ModSoundProofs.answerable_half_list. Qed.
Print Assumptions C78_half.

Lemma not_blum_15 : ~ blum_modulus 15.
Proof.
  intros [p [q [Pp [Pq [_ [P4 [Q4 [E _]]]]]]]]. assert (p2 := prime_ge_2 p Pp). assert (q2 := prime_ge_2 q Pq).
  assert (D : p = 3 \/ p = 5) by (assert (p7 : p <= 7) by nia;
    assert (H : p = 2 \/ p = 3 \/ p = 4 \/ p = 5 \/ p = 6 \/ p = 7) by lia; intuition lia).
  destruct D as [-> | ->]; [assert (q = 5) by lia; subst q; discriminate Q4|discriminate P4].
Qed.
Lemma not_prime_15 : ~ prime 15.
Proof. intros H. destruct (prime_divisors 15 H 3); [now exists 5|lia|lia]. Qed.

(** Exactly half of the residues modulo 15: the bound is attained. *)
Example C78_half_case : ~ prime 15 /\ ~ blum_modulus 15 /\ Z.gcd 2 15 = 1 /\
  (forall y, In y [1; 7; 8; 14] -> 0 <= y /\ y < 15 /\ answerable 15 2 y) /\ length (coprimes_below 15 15) = 8%nat.
Proof.
  split; [exact not_prime_15|]. split; [exact not_blum_15|]. split; [reflexivity|]. split; [|reflexivity].
  intros y Hy.
  assert (T : forall z x (a b : bool), (Z.gcd y 15 =? 1) && ((z ^ 15) mod 15 =? y mod 15) &&
    ((x ^ 4) mod 15 =? ((if a then -1 else 1) * (if b then 2 else 1) * y) mod 15) = true -> answerable 15 2 y).
  { intros z x a b E. apply andb_prop in E. destruct E as [E E3]. apply andb_prop in E. destruct E as [E1 E2].
    split; [apply Z.eqb_eq; exact E1|]. split; [exists z; apply Z.eqb_eq; exact E2|exists x, a, b; apply Z.eqb_eq; exact E3]. }
  repeat destruct Hy as [<-|Hy]; [| | | |destruct Hy]; (split; [lia|split; [lia|]]).
  - exact (T 1 1 false false eq_refl).
  - exact (T 13 1 true true eq_refl).
  - exact (T 2 1 false true eq_refl).
  - exact (T 14 1 true false eq_refl).
Qed.

(** ** All repetitions: at most [2^-k] of the residue vectors ... *)
Theorem C78_residue_vectors : forall S C A N w (aux : A), p_self_consistent (sp_pail S) = true ->
  1 < N < 2 ^ modulus_bits (sp_pail S) -> Z.odd N = true -> ~ prime N -> ~ blum_modulus N ->
  forall chs, NoDup (map (map (fun y => y mod N)) chs) -> (forall ch, In ch chs -> answered_vector S C A N w aux ch) ->
  (2 ^ sp_secbits S * length chs <= length (coprimes_below N N) ^ sp_secbits S)%nat.
Proof. exact bad_residues. Qed.
Print Assumptions C78_residue_vectors.

(** ** ... and [(2/3)^k] of the vectors of values the hash can return. *)
Theorem C78_value_vectors : forall S C A N w (aux : A), p_self_consistent (sp_pail S) = true ->
  1 < N < 2 ^ modulus_bits (sp_pail S) -> Z.odd N = true -> ~ prime N -> ~ blum_modulus N ->
  forall chs, NoDup chs -> (forall ch, In ch chs -> answered_vector S C A N w aux ch) ->
  (3 ^ sp_secbits S * length chs <= (2 * length (coprimes_below N (2 ^ bits N))) ^ sp_secbits S)%nat.
Proof. exact bad_values. Qed.
Print Assumptions C78_value_vectors.

Example C78_vectors_case : p_self_consistent (sp_pail S4) = true /\ 1 < 15 < 2 ^ modulus_bits (sp_pail S4) /\
  ~ prime 15 /\ ~ blum_modulus 15 /\ answered_vector S4 toyC unit 15 2 tt [8; 8; 8; 8] /\
  length (coprimes_below 15 (2 ^ bits 15)) = 8%nat.
Proof.
  split; [reflexivity|]. split; [decide_case|]. split; [exact not_prime_15|]. split; [exact not_blum_15|].
  split; [|vm_compute; reflexivity]. exists (toyX 1 true 8), pf15. split; [change (sp_q S4) with 7; apply const_xof_ok; lia|]. decide_case.
Qed.

(** The half fails for the values actually drawn: modulo 35 with commitment 2, 23 of the 43. *)
Definition wit35 : list (Z * (Z * Z) * (bool * bool)) :=
  [
   (1, (1, 1), (false, false)); (8, (22, 2), (false, true)); (11, (16, 3), (false, false)); (12, (3, 3),
   (true, true)); (16, (11, 2), (false, false)); (17, (33, 1), (true, true)); (18, (2, 1), (false, true));
   (19, (24, 2), (true, false)); (23, (32, 3), (false, true)); (24, (19, 3), (true, false)); (27, (13, 2),
   (true, true)); (34, (34, 1), (true, false)); (36, (1, 1), (false, false)); (43, (22, 2), (false, true));
   (46, (16, 3), (false, false)); (47, (3, 3), (true, true)); (51, (11, 2), (false, false)); (52, (33, 1),
   (true, true)); (53, (2, 1), (false, true)); (54, (24, 2), (true, false)); (58, (32, 3), (false, true));
   (59, (19, 3), (true, false)); (62, (13, 2), (true, true))].
Example C78_values_over_half :
  NoDup (map (fun t => fst (fst t)) wit35) /\
  Forall (fun y => 0 <= y < 2 ^ bits 35 /\ answerable 35 2 y) (map (fun t => fst (fst t)) wit35) /\
  length wit35 = 23%nat /\ length (coprimes_below 35 (2 ^ bits 35)) = 43%nat.
Proof.
  split; [|split; [|split; vm_compute; reflexivity]].
  - apply (NoDup_count_occ' Z.eq_dec). intros x Hx. cbn in Hx.
    repeat (destruct Hx as [<-|Hx]; [vm_compute; reflexivity|]). destruct Hx.
  - apply Forall_map.
    assert (T : forallb (fun t : Z * (Z * Z) * (bool * bool) => let '(y, (z, x), (a, b)) := t in
      (0 <=? y) && (y <? 2 ^ bits 35) && (Z.gcd y 35 =? 1) && ((z ^ 35) mod 35 =? y mod 35) &&
      ((x ^ 4) mod 35 =? ((if a then -1 else 1) * (if b then 2 else 1) * y) mod 35)) wit35 = true) by (vm_compute; reflexivity).
    rewrite forallb_forall in T. apply Forall_forall. intros t Ht. specialize (T t Ht). destruct t as [[y [z x]] [a b]].
    cbn [fst]. repeat (apply andb_prop in T; destruct T as [T ?]).
    rewrite ?Z.eqb_eq, ?Z.leb_le, ?Z.ltb_lt in *. split; [lia|]. split; [assumption|].
    split; [exists z; assumption|exists x, a, b; assumption].
Qed.
