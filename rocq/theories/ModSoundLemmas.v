(** * The Paillier-Blum proof for other moduli: what the verifier's checks leave (C78). *)
From Coq Require Import ZArith Znumtheory List Bool Lia.
From Verif Require Import Base BaseFacts SignedModel SignedSpec PaillierModel PaillierSpec PaillierProofs PaillierLemmas
  ZkBase ZkModel ZkSpec ZkFacts ZkLemmas ModProofs ModSoundSpec ModSoundCount.
From Verif Require ModSoundProofs.
Import ListNotations.
Open Scope Z_scope.

Lemma answerable_mod N w y : 1 < N -> answerable N w y -> answerable N w (y mod N).
Proof.
  intros HN [G [[z Hz] [x [a [b Hx]]]]]. split; [|split].
  - rewrite Z.gcd_mod by lia. rewrite Z.gcd_comm. exact G.
  - exists z. rewrite Z.mod_mod by lia. exact Hz.
  - exists x, a, b. rewrite Hx, Z.mul_mod_idemp_r by lia. reflexivity.
Qed.

(** Every challenge of an accepted proof of full length is answerable. *)
Lemma accepted_answerable S C A (X : xof A (pt C)) pf N aux :
  p_self_consistent (sp_pail S) = true -> xof_ok (sp_q S) X -> 1 < N < 2 ^ modulus_bits (sp_pail S) ->
  length (mod_elems pf) = sp_secbits S -> mod_verify S X pf N aux = Ret true ->
  let ch := x_residues X Tmod [IZ N; IZ (mod_commitment pf); IA aux] N (sp_secbits S) in
  Z.gcd (mod_commitment pf) N = 1 /\ length ch = sp_secbits S /\
  Forall (fun y => 0 <= y < 2 ^ bits N /\ answerable N (mod_commitment pf) y) ch.
Proof.
  intros HP HX HN HL HV ch.
  destruct (mod_accept S C A (params_okP _ HP) X pf N aux HN) as [r [Er Hr]]. rewrite HV in Er. injection Er as <-.
  destruct (proj1 Hr eq_refl) as [Ech [_ [G Hel]]]. change (mod_challenge pf = ch) in Ech.
  assert (N0 : 0 < N) by lia.
  destruct (xo_residues _ _ HX Tmod [IZ N; IZ (mod_commitment pf); IA aux] N (sp_secbits S) N0) as [Lc Fc]. fold ch in Lc, Fc.
  split; [exact G|]. split; [exact Lc|]. rewrite Forall_forall in *. intros y Hy.
  split; [apply (Fc y Hy)|].
  destruct (In_nth_error _ _ Hy) as [i Hi].
  assert (Li : (i < length (mod_elems pf))%nat).
  { rewrite HL, <- Lc. apply nth_error_Some. rewrite Hi. discriminate. }
  destruct (nth_error (mod_elems pf) i) as [el|] eqn:He; [|apply nth_error_None in He; lia].
  rewrite <- Ech in Hi. destruct (Hel i el y He Hi) as [Gy [Hz Hx]].
  split; [exact Gy|]. split; [exists (me_z el); exact Hz|]. exists (me_x el), (me_a el), (me_b el). exact Hx.
Qed.

Section Bad.
Context (S : sparams) (C : curve) (A : Type) (N w : Z) (aux : A).
Hypothesis HP : p_self_consistent (sp_pail S) = true.
Hypothesis HN : 1 < N < 2 ^ modulus_bits (sp_pail S).
Hypotheses (oN : Z.odd N = true) (nP : ~ prime N) (nB : ~ blum_modulus N).

Lemma answered_facts ch : answered_vector S C A N w aux ch -> Z.gcd w N = 1 /\ length ch = sp_secbits S /\
  Forall (fun y => 0 <= y < 2 ^ bits N /\ answerable N w y) ch.
Proof.
  intros [X [pf [HX [<- [HL [<- HV]]]]]]. exact (accepted_answerable S C A X pf N aux HP HX HN HL HV).
Qed.

Lemma bits_bounds : N <= 2 ^ bits N <= 2 * N.
Proof.
  unfold bits. destruct (N <=? 0) eqn:E; [apply Z.leb_le in E; lia|].
  destruct (Z.log2_spec N) as [L U]; [lia|]. rewrite <- Z.add_1_r in U. rewrite Z.pow_add_r in * by (try apply Z.log2_nonneg; lia). lia.
Qed.

Lemma bad_values chs : NoDup chs -> (forall ch, In ch chs -> answered_vector S C A N w aux ch) ->
  (3 ^ sp_secbits S * length chs <= (2 * length (coprimes_below N (2 ^ bits N))) ^ sp_secbits S)%nat.
Proof.
  intros ND H. destruct chs as [|c0 chs']; [cbn; lia|].
  assert (cw : Z.gcd w N = 1) by (apply (answered_facts c0); apply H; left; reflexivity).
  destruct bits_bounds as [B1 B2].
  apply (vectors_bound (fun y => 0 <= y < 2 ^ bits N /\ answerable N w y)).
  - apply (two_thirds N (2 ^ bits N) (answerable N w)); [lia|exact B1|exact B2| |].
    + intros y Hy. split; [apply Hy|apply answerable_mod; [lia|exact Hy]].
    + apply (@ModSoundProofs.answerable_half_list N w); [lia|exact oN|exact nP|exact nB|exact cw].
  - exact ND.
  - intros ch Hc. exact (proj2 (answered_facts ch (H ch Hc))).
Qed.

Lemma bad_residues chs : NoDup (map (map (fun y => y mod N)) chs) -> (forall ch, In ch chs -> answered_vector S C A N w aux ch) ->
  (2 ^ sp_secbits S * length chs <= length (coprimes_below N N) ^ sp_secbits S)%nat.
Proof.
  intros ND H. destruct chs as [|c0 chs']; [cbn; lia|].
  assert (cw : Z.gcd w N = 1) by (apply (answered_facts c0); apply H; left; reflexivity).
  rewrite <- (map_length (map (fun y => y mod N)) (c0 :: chs')).
  apply (vectors_bound (fun y => 0 <= y /\ y < N /\ answerable N w y)).
  - intros l NDl F. rewrite Forall_forall in F.
    apply (@ModSoundProofs.answerable_half_list N w); [lia|exact oN|exact nP|exact nB|exact cw|exact NDl|exact F].
  - exact ND.
  - intros v Hv. apply in_map_iff in Hv. destruct Hv as [ch [<- Hc]].
    destruct (answered_facts ch (H ch Hc)) as [_ [L F]]. rewrite map_length. split; [exact L|].
    apply Forall_map. revert F. apply Forall_impl. intros y [_ Hy].
    assert (B := Z.mod_pos_bound y N ltac:(lia)). split; [lia|]. split; [lia|]. apply answerable_mod; [lia|exact Hy].
Qed.
End Bad.
