(** * Sums of points and scalars, and signature assembly. *)
From Coq Require Import ZArith Znumtheory Lia.
From Verif Require Import Base BaseFacts ModArith ZkBase ZkFacts ZkExtract.
From mathcomp Require Import all_ssreflect.
From Verif Require Import AlgBase AlgFacts ProtoBase ProtoFacts SigningModel SigningSpec.
Set Implicit Arguments.
Unset Strict Implicit.
Unset Printing Implicit Defensive.

Section Sums.
Variables (S : sparams) (C : curve).
Notation q := (sp_q S).
Hypothesis HC : curve_ok q C.
Hypothesis Hq : (1 < q)%Z.

Lemma padd0l x : padd C (p0 C) x = x.
Proof. by rewrite (c_addC _ _ HC) (c_add0 _ _ HC). Qed.

Lemma sum_pts_cons x l : sum_pts (x :: l) = padd C x (sum_pts l).
Proof.
have E l' a b : foldl (padd C) (padd C a b) l' = padd C a (foldl (padd C) b l').
  by elim: l' a b => [|y l' IH] a b //=; rewrite -(c_addA _ _ HC) IH.
by rewrite /sum_pts /= padd0l -[X in foldl _ X l](c_add0 _ _ HC) E.
Qed.
Lemma sum_pts_cat l1 l2 : sum_pts (l1 ++ l2) = padd C (sum_pts l1) (sum_pts l2).
Proof.
elim: l1 => [|x l1 IH]; first by rewrite padd0l.
by rewrite cat_cons !sum_pts_cons IH (c_addA _ _ HC).
Qed.

Lemma sum_pts_perm (I : eqType) (f : I -> pt C) s t : perm_eq s t -> sum_pts [seq f i | i <- s] = sum_pts [seq f i | i <- t].
Proof.
apply: (@catCA_perm_subst _ _ (fun s => sum_pts [seq f i | i <- s])) => s1 s2 s3.
by rewrite !map_cat !sum_pts_cat !(c_addA _ _ HC) (c_addC _ _ HC (sum_pts _) (sum_pts [seq f i | i <- s2])).
Qed.

Lemma sum_pts_pmul a l : pmul C a (sum_pts l) = sum_pts [seq pmul C a x | x <- l].
Proof.
elim: l => [|x l IH]; first by rewrite /sum_pts /= (pmul_p0 _ _ HC).
by rewrite /= !sum_pts_cons (c_mulDr _ _ HC) IH.
Qed.

Lemma sum_pts_add (T : Type) (f g : T -> pt C) l :
  sum_pts [seq padd C (f x) (g x) | x <- l] = padd C (sum_pts [seq f x | x <- l]) (sum_pts [seq g x | x <- l]).
Proof.
elim: l => [|x l IH]; first by rewrite /sum_pts /= (c_add0 _ _ HC).
rewrite /= !sum_pts_cons IH !(c_addA _ _ HC) -(c_addA _ _ HC (f x) (g x)) (c_addC _ _ HC (g x)).
by rewrite !(c_addA _ _ HC).
Qed.

Lemma pmul_modq a x : pmul C (a mod q) x = pmul C a x.
Proof. by apply: (pmul_mod q C HC); lia. Qed.

Lemma sum_scs_pmul l P : pmul C (sum_scs S l) P = sum_pts [seq pmul C z P | z <- l].
Proof.
have E l' a : pmul C (foldl (fun a b => (a + b) mod q)%Z a l') P = padd C (pmul C a P) (sum_pts [seq pmul C z P | z <- l']).
  elim: l' a => [|z l' IH] a /=; first by rewrite /sum_pts /= (c_add0 _ _ HC).
  by rewrite IH sum_pts_cons pmul_modq (c_mulDl _ _ HC) (c_addA _ _ HC).
by rewrite /sum_scs E (pmul_0 _ _ HC) padd0l.
Qed.

(** The value of a scalar sum. *)
Lemma sum_scs_mod l : sum_scs S l = (foldr Z.add 0%Z l mod q)%Z.
Proof.
have E l' a : foldl (fun a b => (a + b) mod q)%Z (a mod q)%Z l' = ((a + foldr Z.add 0%Z l') mod q)%Z.
  elim: l' a => [|z l' IH] a /=; first by rewrite Z.add_0_r.
  by rewrite Z.add_mod_idemp_l ?IH -?Z.add_assoc //; lia.
rewrite /sum_scs -[X in foldl _ X l](Z.mod_0_l q) ?E ?Z.add_0_l //; lia.
Qed.
Lemma foldr_add_perm (I : eqType) (f : I -> Z) s t : perm_eq s t ->
  foldr Z.add 0%Z [seq f i | i <- s] = foldr Z.add 0%Z [seq f i | i <- t].
Proof.
have E l1 l2 : foldr Z.add 0%Z (l1 ++ l2) = (foldr Z.add 0%Z l1 + foldr Z.add 0%Z l2)%Z.
  by elim: l1 => [|x l IH] //=; rewrite IH Z.add_assoc.
apply: (@catCA_perm_subst _ _ (fun s => foldr Z.add 0%Z [seq f i | i <- s])) => s1 s2 s3; rewrite !map_cat !E; lia.
Qed.
Lemma sum_scs_perm (I : eqType) (f : I -> Z) s t : perm_eq s t -> sum_scs S [seq f i | i <- s] = sum_scs S [seq f i | i <- t].
Proof. by move=> h; rewrite !sum_scs_mod (foldr_add_perm f h). Qed.

End Sums.

(** ** Signature assembly *)
Section Assembly.
Variables (S : sparams) (C : curve) (xcoord : pt C -> Z) (lift_x : nat -> Z -> option (pt C)).
Notation q := (sp_q S).
Hypothesis HC : curve_ok q C.
Hypothesis Pq : Znumtheory.prime q.
Hypothesis Oq : Z.odd q = true.
Hypothesis HX : xcoord_ok q xcoord.
Hypothesis HL : lift_ok xcoord lift_x.
Local Open Scope Z_scope.

Let q1 : 1 < q. Proof. by case: Pq. Qed.
Let pmm a x : pmul C (a mod q) x = pmul C a x. Proof. exact: (pmul_modq HC q1). Qed.

Lemma inv_mod_prime a : 0 < a < q -> exists2 u, inv_mod q a = Some u & 0 <= u < q /\ (a * u) mod q = 1.
Proof.
move=> h.
have g : Z.gcd a q = 1.
  apply/Zgcd_1_rel_prime/rel_prime_sym/prime_rel_prime => //.
  by move=> /Z.divide_pos_le; lia.
have [[u hu] _] : (exists u, inv_mod q a = Some u) /\ True.
  by split=> //; apply/(inv_mod_gcd q a); [lia|].
exists u => //; have [h1 h2] := inv_mod_Some q a u ltac:(lia) hu; split=> //.
by rewrite h2 Z.mod_1_l //; lia.
Qed.

Lemma pmul_inv a u x : (a * u) mod q = 1 -> pmul C u (pmul C a x) = x.
Proof. by move=> h; rewrite (c_mulA _ _ HC) Z.mul_comm -pmm h (c_mul1 _ _ HC). Qed.

Lemma nonce_recovers vk m r s R : 0 < s < q -> nonce_point xcoord vk m r s R ->
  forall u, (s * u) mod q = 1 -> padd C (pmul C (u * m) (gen C)) (pmul C (u * r) vk) = R.
Proof.
move=> hs [h _] u hu.
by rewrite -!(c_mulA _ _ HC) -(c_mulDr _ _ HC) -h (pmul_inv _ hu).
Qed.

Lemma nonce_valid vk m r s R : 0 < r < q -> 0 < s < q -> nonce_point xcoord vk m r s R -> ecdsa_valid q xcoord vk m r s.
Proof.
move=> hr hs hn; split=> //; split=> //; have [u _ [_ hu]] := inv_mod_prime hs.
by exists u; split=> //; rewrite (nonce_recovers hs hn hu); case: hn.
Qed.

Lemma valid_nonce vk m r s : ecdsa_valid q xcoord vk m r s -> exists R, nonce_point xcoord vk m r s R.
Proof.
move=> [hr [hs [u [hu hx]]]]; exists (padd C (pmul C (u * m) (gen C)) (pmul C (u * r) vk)); split=> //.
have E t x : pmul C s (pmul C (u * t) x) = pmul C t x.
  by rewrite (c_mulA _ _ HC) Z.mul_assoc -(c_mulA _ _ HC) -pmm hu (c_mul1 _ _ HC).
by rewrite (c_mulDr _ _ HC) !E.
Qed.

Lemma nonce_opp vk m r s R : nonce_point xcoord vk m r s R -> nonce_point xcoord vk m r (q - s) (popp C R).
Proof.
move=> [h1 h2]; split; last by rewrite (xc_opp HX).
rewrite -h1 (popp_mul _ _ HC) (c_mulA _ _ HC); apply: (pmul_eqm q C HC); first by lia.
rewrite /eqm; have -> : (q - s) * -1 = s + (-1) * q by lia.
by rewrite Z.mod_add //; lia.
Qed.

(** A signature with [-s] is as good as one with [s]. *)
Lemma valid_opp vk m r s : ecdsa_valid q xcoord vk m r s -> ecdsa_valid q xcoord vk m r (q - s).
Proof.
move=> hv; have [R /nonce_opp hR] := valid_nonce hv; case: hv => hr [hs _].
by apply: nonce_valid hR => //; lia.
Qed.

Lemma verifyP vk m r s : 0 < r < q -> 0 < s < q ->
  (ecdsa_verify S xcoord vk m r s = true <-> ecdsa_valid q xcoord vk m r s).
Proof.
move=> hr hs; rewrite /ecdsa_verify; have [u -> [hu1 hu]] := inv_mod_prime hs; rewrite !pmm.
split.
- move/Z.eqb_eq=> h; split=> //; split=> //; exists u; split=> //.
  by rewrite (Z.mul_comm u m) (Z.mul_comm u r).
- move=> hv; have [R hR] := valid_nonce hv; apply/Z.eqb_eq.
  by rewrite (Z.mul_comm m) (Z.mul_comm r) (nonce_recovers hs hR hu); case: hR.
Qed.

Lemma normalize_range s : 0 < s < q -> 0 < normalize_s S s <= (q - 1) / 2 /\ (normalize_s S s = s \/ normalize_s S s = q - s).
Proof.
move=> hs; rewrite /normalize_s.
have [k hk] : exists k, q = 2 * k + 1 by exact: (proj1 (Z.odd_spec q) Oq).
have -> : (q - 1) / 2 = k by rewrite hk; replace (2 * k + 1 - 1) with (k * 2) by lia; rewrite Z.div_mul.
case: Z.ltb_spec => h; split; auto; lia.
Qed.

Lemma normalize_valid vk m r s : ecdsa_valid q xcoord vk m r s -> ecdsa_valid q xcoord vk m r (normalize_s S s).
Proof. by rewrite /normalize_s; case: ifP => // _; exact: valid_opp. Qed.

(** The recovery id names the nonce point. *)
Lemma recover_sound id vk m r s : 0 < r < q -> recover S xcoord lift_x id m r s = Some vk ->
  ecdsa_verify S xcoord vk m r s = true /\ exists2 R, lift_x id r = Some R & nonce_point xcoord vk m r s R.
Proof.
move=> hr; rewrite /recover; case EL: (lift_x id r) => [R|] //.
have [u -> [hu1 hu]] := inv_mod_prime hr; case: ifP => // /andP [_ hv] [E]; rewrite E in hv.
split=> //; exists R => //; split; last exact: lx_sound HL _ _ _ EL.
rewrite -E !pmm (c_mulDr _ _ HC).
have F t x : pmul C r (pmul C (u * t) x) = pmul C t x.
  by rewrite (c_mulA _ _ HC) Z.mul_assoc -(c_mulA _ _ HC) -pmm hu (c_mul1 _ _ HC).
have pcomm a b x : pmul C a (pmul C b x) = pmul C b (pmul C a x) by rewrite !(c_mulA _ _ HC) Z.mul_comm.
rewrite (popp_mul _ _ HC) (pcomm r (-1)) !F -(popp_mul _ _ HC) (c_addA _ _ HC) (c_addN _ _ HC).
by rewrite (padd0l HC).
Qed.

Lemma recover_complete id vk m r s R : 0 < r < q -> 0 < s < q -> vk <> p0 C -> lift_x id r = Some R -> nonce_point xcoord vk m r s R ->
  recover S xcoord lift_x id m r s = Some vk.
Proof.
move=> hr hs hvk EL hn; rewrite /recover EL; have [u -> [hu1 hu]] := inv_mod_prime hr.
have -> : padd C (popp C (pmul C ((u * m) mod q) (gen C))) (pmul C ((u * s) mod q) R) = vk.
  case: hn => hn _; rewrite !pmm -[pmul C (u * s) R](c_mulA _ _ HC) hn (c_mulDr _ _ HC) (c_addA _ _ HC).
  rewrite (c_mulA _ _ HC) (c_addC _ _ HC (popp C _)) (c_addN _ _ HC) (padd0l HC).
  exact: pmul_inv.
have -> : peqb C vk (p0 C) = false by apply/negP => /(c_eqb _ _ HC).
by rewrite /=; have /(verifyP vk m hr hs) -> : ecdsa_valid q xcoord vk m r s by apply: nonce_valid hn.
Qed.

Lemma from_scalars_sound r s vk m sig : 0 <= r < q -> 0 <= s < q ->
  from_scalars S xcoord lift_x r s vk m = Some sig ->
  [/\ sig_r sig = r, 0 < sig_s sig <= (q - 1) / 2, sig_s sig = s \/ sig_s sig = q - s,
      ecdsa_valid q xcoord vk m r (sig_s sig) &
      exists2 R, lift_x (sig_id sig) r = Some R & nonce_point xcoord vk m r (sig_s sig) R].
Proof.
move=> hr hs; rewrite /from_scalars; case: ifP => // /negbT; rewrite negb_or => /andP [r0 s0].
have hr' : 0 < r < q by move: r0; case: Z.eqb_spec => // ? _; lia.
have hs' : 0 < s < q by move: s0; case: Z.eqb_spec => // ? _; lia.
have [n1 n2] := normalize_range hs'; move: n1 n2; set s' := normalize_s S s => n1 n2.
have ns : 0 < s' < q by case: n2; lia.
case: ifP => // _; rewrite /trial_recovery.
case E: (filter _ _) => [|id l] //= [<-] /=.
have : id \in [:: id & l] by rewrite mem_head.
rewrite -E mem_filter => /andP [+ _].
case ER: (recover S xcoord lift_x id m r s') => [v|] // /(c_eqb _ _ HC) ev; rewrite ev in ER.
have [h1 h2] := recover_sound hr' ER.
by split=> //; apply/(verifyP vk m hr' ns).
Qed.

Lemma from_scalars_complete r s vk m : vk <> p0 C -> ecdsa_valid q xcoord vk m r s ->
  exists sig, from_scalars S xcoord lift_x r s vk m = Some sig.
Proof.
move=> hvk hv; have [hr [hs _]] := hv; rewrite /from_scalars.
have /Z.eqb_neq -> : r <> 0 by lia.
have /Z.eqb_neq -> : s <> 0 by lia.
rewrite /=.
have -> : peqb C vk (p0 C) = false by apply/negP => /(c_eqb _ _ HC).
have [n1 n2] := normalize_range hs.
have hv' := normalize_valid hv; move: n1 n2 hv'; set s' := normalize_s S s => n1 n2 hv'.
have ns : 0 < s' < q by case: n2; lia.
have [R hR] := valid_nonce hv'.
have R0 : R <> p0 C by move=> E; case: hR => _; rewrite E (xc_zero HX); lia.
have [id [hid hl]] := lx_complete HL R0; rewrite (proj2 hR) in hl.
have rc := recover_complete hr ns hvk hl hR.
rewrite /trial_recovery; case E: (filter _ _) => [|id' l] /=; last by eexists.
have : id \in [seq id <- iota 0 4 | if recover S xcoord lift_x id m r s' is Some v then peqb C v vk else false].
  rewrite mem_filter rc (_ : peqb C vk vk = true); last exact/(c_eqb _ _ HC).
  rewrite mem_iota; apply/andP; split=> //; exact/ltP.
by rewrite E.
Qed.

Lemma from_scalars_refuses r s vk m : r = 0 \/ s = 0 \/ vk = p0 C -> from_scalars S xcoord lift_x r s vk m = None.
Proof.
rewrite /from_scalars; case=> [->|[->|->]] //; first by rewrite orbT.
by case: ifP => // _; rewrite (_ : peqb C (p0 C) (p0 C) = true) //; apply/(c_eqb _ _ HC).
Qed.

End Assembly.
