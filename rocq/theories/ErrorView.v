(** * The error rounds of signing: what one message is checked for. *)
From Coq Require Import ZArith Lia.
From Verif Require Import Base BaseFacts ModArith SignedModel SignedSpec SignedProofs PaillierModel PaillierSpec PaillierProofs ZkBase ZkModel ZkSpec ZkFacts ZkLemmas.
From mathcomp Require Import all_ssreflect.
From Verif Require Import AlgBase AlgFacts ProtoBase ProtoSpec ProtoFacts AuxGenModel SigningModel SigningAlgebra SigningEvidence SigningHonest
  MtaSpec MtaProofs SigningErrorSpec ErrorProofs.
Set Implicit Arguments.
Unset Strict Implicit.
Unset Printing Implicit Defensive.
Local Open Scope Z_scope.

Lemma ct_sumE N0 a (l : seq Z) : exists2 r, ct_sum (Ct N0 a) [seq Ct N0 x | x <- l] = Ret (Ct N0 r) &
  eqm (N0 * N0) r (foldr Z.mul 1 (a :: l)).
Proof.
elim: l a => [|b l IH] a /=; first by exists a; rewrite ?Z.mul_1_r.
rewrite hadd_eq /=; have [r -> E] := IH ((a * b) mod (N0 * N0)); exists r => //.
by rewrite E /= eqm_mod Z.mul_assoc.
Qed.

Lemma mapV_all E (K : eqType) A B (f : K * A -> recv E B) (l : seq (K * A)) : uniq (akeys l) ->
  (forall j x, aget l j = Some x -> exists b, f (j, x) = Accept b) -> exists bs, mapV f l = Accept bs.
Proof.
elim: l => [|[j x] l IH] /=; first by exists [::].
move=> /andP [nj hu] h; have [|b ->] := h j x; first by rewrite eqxx.
have [//|j' x' hx|bs /= ->] := IH; last by exists (b :: bs).
by apply: h; case: eqP => // e; move: nj; rewrite -e (aget_in hx).
Qed.

Section View.
Variables (S : sparams) (C : curve) (I : eqType) (HO : eqType).
Notation item := (hitem HO I (pt C)).
Notation w := (uint_w (sp_pail S)).
Variables (X : xof (seq item) (pt C)).
Variables (ids : seq I) (N : I -> Z) (rp : I -> rpparams) (K : I -> Z) (D F : I -> I -> Z) (pub res : I -> pt C) (base : pt C).

(** A state of an error round in terms of what was sent: [D a b] and [F a b] are
    the ciphertexts party [b] made for party [a]. *)
Record view (s : sg_round56 C I HO) : Prop := View {
  v_all : sx_all (s5_ctx s) = ids;
  v_aux : {in ids, forall j, aget (sx_aux (s5_ctx s)) j = Some (N j, rp j)};
  v_ks : {in ids, forall j, aget (s5_ks s) j = Some (Ct (N j) (K j))};
  v_df : {in ids &, forall a b, a != b -> aget (s5_df s) (a, b) = Some (Ct (N a) (D a b), Ct (N b) (F a b))};
  v_pub : {in ids, forall j, aget (s5_pub s) j = Some (pub j)};
  v_res : {in ids, forall j, aget (s5_res s) j = Some (res j)};
  v_base : s5_base s = base }.

Definition joined (l : I) : Z :=
  (foldr Z.mul 1 [seq D l j | j <- without ids l] * foldr Z.mul 1 [seq F j l | j <- without ids l]) mod (N l * N l).
Definition dec_about (l : I) : dec_public C :=
  DecPublic (N l) (Ct (N l) (K l)) (pub l) (Ct (N l) (joined l)) (res l) base (Z.of_nat (size ids)).
Definition aff_about (l j : I) : aff_g_public C :=
  AffGPublic (N j) (N l) (Ct (N j) (K j)) (Ct (N j) (D j l)) (Ct (N l) (F j l)) (pub l).

Section One.
Variable s : sg_round56 C I HO.
Hypothesis vs : view s.
Hypothesis hu : uniq ids.
Hypothesis h2 : (1 < size ids)%N.

Let inw i j : j \in without ids i -> j \in ids /\ j != i.
Proof. by rewrite mem_filter => /andP []. Qed.

Lemma capdE l : l \in ids -> sg_cap_d s l (without ids l) = Accept (Ct (N l) (joined l)).
Proof.
move=> hl; rewrite /sg_cap_d.
rewrite (@mapV_ok_in _ _ _ _ (fun j => Ct (N l) (D l j))) /=; last first.
  by move=> j /inw [hj ne]; rewrite /safe_get (v_df vs) // eq_sym.
rewrite (@mapV_ok_in _ _ _ _ (fun j => Ct (N l) (F j l))) /=; last first.
  by move=> j /inw [hj ne]; rewrite /safe_get (v_df vs).
have : size (without ids l) = (size ids).-1 by move/perm_size: (perm_without hu hl) => ->.
rewrite /joined; case: (without ids l) => [|j ws] /=; first by case: (size ids) h2 => [|[|?]].
move=> _; rewrite (map_comp (Ct (N l)) (D l)) (map_comp (Ct (N l)) (fun j => F j l)).
have [r -> Er] := ct_sumE (N l) (D l j) [seq D l j | j <- ws].
have [t -> Et] := ct_sumE (N l) (F j l) [seq F j l | j <- ws].
by rewrite /= hadd_eq /=; congr (Accept (Ct _ _)); rewrite -[LHS]/((_ * _) mod _); apply: eqm_mul.
Qed.

Lemma recv56_iff as_eb e_dec e_ids e_aff from m : from \in ids ->
  sg_recv56 S X as_eb e_dec e_ids e_aff s from m = Accept tt <->
  exists wire eb, [/\ m = Msg None (Some wire) None, as_eb wire = Some eb,
    dec_verify S X (e5_dec eb) (dec_about from) (rp from) (sg_aux (s5_ctx s) from) = Ret true,
    akeys (e5_psis eb) = without ids from &
    forall j pf, aget (e5_psis eb) j = Some pf -> j != sx_id (s5_ctx s) ->
      aff_gs_verify S X pf (aff_about from j) (sg_aux (s5_ctx s) from) = Ret true].
Proof.
move=> hf; have ha := v_aux vs hf.
rewrite /sg_recv56 /safe_get ha (v_all vs) capdE // (v_ks vs) // (v_pub vs) // (v_res vs) // (v_base vs) -/(dec_about from).
case: m => -[dm|] [em|] [nm|] /=; try by split; [|move=> [? [? []]]].
rewrite /deser; case Eeb : (as_eb em) => [eb|] /=; last by split; [|move=> [? [? [[<-]]]]; rewrite Eeb].
split.
  move=> U; have [ok E1 {}U] := vbind_inv U; have [[] E2 {}U] := vbind_inv U.
  have [[] E3 {}U] := vbind_inv U; have [bs E4 _] := vbind_inv U.
  exists em, eb; split=> //.
  - by move: E1 E2; case: (dec_verify _ _ _ _ _ _) => //= b [<-]; case: b.
  - by move: E3; rewrite /require; case: eqP.
  move=> j pf hj nj; have hk : akeys (e5_psis eb) = without ids from by move: E3; rewrite /require; case: eqP.
  have [hji _] : j \in ids /\ j != from by apply: inw; rewrite -hk; apply: aget_in hj.
  have [b] := mapV_accept E4 hj; rewrite /= (negbTE nj) (v_aux vs) // (v_ks vs) //= (v_df vs) //; last first.
    by have [] := inw (i := from) (j := j); rewrite -?hk ?(aget_in hj).
  by rewrite /= -/(aff_about from j); case: (aff_gs_verify _ _ _ _ _) => //= -[].
move=> [wire [eb' [[<-]]]]; rewrite Eeb => -[<-] -> hk ha'.
rewrite /= hk eqxx /=.
set f := fun _ : I * _ => _.
have [||bs ->] // := @mapV_all _ _ _ _ f (e5_psis eb); first by rewrite hk filter_uniq.
move=> j x hj; rewrite /f /=; case: ifP => [_|/negbT nj]; first by exists tt.
have [hji hjf] : j \in ids /\ j != from by apply: inw; rewrite -hk; apply: aget_in hj.
rewrite (v_aux vs) // (v_ks vs) //= (v_df vs) //= -/(aff_about from j) ha' //=.
by exists tt.
Qed.

Lemma recv56_reject as_eb e_dec e_ids e_aff from m err : from \in ids ->
  sg_recv56 S X as_eb e_dec e_ids e_aff s from m = Reject (Proto err) ->
  exists wire eb ok, [/\ m = Msg None (Some wire) None, as_eb wire = Some eb,
    dec_verify S X (e5_dec eb) (dec_about from) (rp from) (sg_aux (s5_ctx s) from) = Ret ok &
    if ~~ ok then err = e_dec else if akeys (e5_psis eb) != without ids from then err = e_ids else
    exists j pf, [/\ err = e_aff j, aget (e5_psis eb) j = Some pf, j != sx_id (s5_ctx s) &
      aff_gs_verify S X pf (aff_about from j) (sg_aux (s5_ctx s) from) = Ret false]].
Proof.
move=> hf; have ha := v_aux vs hf.
rewrite /sg_recv56 /safe_get ha (v_all vs) capdE // (v_ks vs) // (v_pub vs) // (v_res vs) // (v_base vs) -/(dec_about from).
case: m => -[dm|] [em|] [nm|] //=.
rewrite /deser; case Eeb : (as_eb em) => [eb|] //=.
case Ed: (dec_verify _ _ _ _ _ _) => [ok|] //= U; exists em, eb, ok; split=> //; move: U.
case: ok {Ed} => /= [|[<-] //].
rewrite /require; case: eqP => [hk|_] /=; last by case.
case/vbind_reject => [|[bs _]] // U.
have [|j [pf [hj]]] := mapV_reject _ U; first by rewrite hk filter_uniq.
rewrite /=; case: ifP => // /negbT nj.
have [hji hjf] : j \in ids /\ j != from by apply: inw; rewrite -hk; apply: aget_in hj.
rewrite (v_aux vs) // (v_ks vs) //= (v_df vs) //= -/(aff_about from j).
by case Ea: (aff_gs_verify _ _ _ _ _) => [[]|] //= [<-]; exists j, pf.
Qed.
End One.

(** ** The own message *)
Section Own.
Variable s : sg_round56 C I HO.
Hypothesis vs : view s.
Hypothesis hu : uniq ids.
Hypotheses (h2 : (1 < size ids)%N) (h18 : Z.of_nat (size ids) <= 2 ^ 18).
Hypotheses (HG : good_params S) (HC : curve_ok (sp_q S) C) (HXO : xof_ok (sp_q S) X).
Notation c := (s5_ctx s).
Notation my := (sx_id (s5_ctx s)).
Variables (z k rho_k V : Z) (mm : I -> mta C) (bv : I -> Z) (rnd : seq dec_rand) (rnds : I -> seq aff_gs_rand).
Hypotheses (hmy : my \in ids) (hoth : sx_others c = without ids my) (hkey : key_of S (sx_sk c) (N my)).
Hypotheses (hz : 0 <= z < sp_q S) (hpub : pub my = pmul C z (gen C)).
Hypotheses (hrho : unit_ok (N my) rho_k) (hK : paillier_cipher (N my) k rho_k (K my)).
Notation y := (k * val S z + V).
Hypotheses (hV : encrypts (N my) (joined my) V) (hsize : Z.abs y <= Z.of_nat (size ids) * 2 ^ (sp_lp S + 1)).
Hypothesis hres : res my = pmul C y base.
Record product_ok (j : I) (m : mta C) (b : Z) : Prop := ProductOk {
  po_mta : aget (s5_mta s) j = Some m;
  po_beta : secret_of S (sp_lp S) (mt_beta m) b;
  po_d : affine_cipher (N j) (K j) (val S z) (- b) (mt_s m) (D j my);
  po_f : paillier_cipher (N my) b (mt_r m) (F j my);
  po_s : unit_ok (N j) (mt_s m);
  po_r : unit_ok (N my) (mt_r m);
  po_N : modulus_ok S (N j);
  po_K : unit_ok (N j) (K j) }.
Hypothesis hmm : {in without ids my, forall j, product_ok j (mm j) (bv j)}.
Hypotheses (hrnd : length rnd = Z.to_nat (sp_kappa S) /\ List.Forall (dec_draw_ok S (N my) (Z.of_nat (size ids))) rnd).
Hypotheses (hrnds : {in without ids my, forall j, length (rnds j) = Z.to_nat (sp_kappa S) /\ List.Forall (gs_draw_ok S (N j) (N my)) (rnds j)}).

Lemma send56_ok recheck : exists eb, [/\ sg_send56 S X recheck s z (pub my) rnd rnds = Accept eb,
    dec_verify S X (e5_dec eb) (dec_about my) (rp my) (sg_aux c my) = Ret true,
    akeys (e5_psis eb) = without ids my &
    forall j pf, aget (e5_psis eb) j = Some pf -> aff_gs_verify S X pf (aff_about my j) (sg_aux c my) = Ret true].
Proof.
have HS := good_ok S HG.
have [hpk [_ hN]] := key_pk S HG _ _ hkey.
have [hs hx hm] := secP HG hz.
have n2 : 2 <= Z.of_nat (size ids) by move/ltP: h2 => ?; lia.
have h40 : Z.of_nat (size ids) <= 2 ^ 40 by apply: Z.le_trans h18 _; apply: Z.pow_le_mono_r; lia.
have h64 : Z.of_nat (size ids) < 2 ^ 64 by apply: Z.le_lt_trans h18 _; apply: Z.pow_lt_mono_r; lia.
have [p [r [hkg [hsk eN]]]] := hkey.
have [_ [_ [_ hbig]]] := key_bounds S HG p r hkg; rewrite -eN in hbig.
have [hw hy] := product_size S HG _ (N my) y (conj n2 h40) hbig hsize.
have [kx [full [rho [a [E1 [E2 [E3 [E4 [wa [va [ur ha]]]]]]]]]]] :=
  full_opened S HG _ _ _ _ _ _ _ _ _ hkey hx hrho hK hV hw.
rewrite /sg_send56 /safe_get (v_aux vs) //= hoth capdE //= (v_ks vs) //= hs /= E1 /= E2 /= E3 /= E4 /= (v_all vs).
rewrite DecProofs.ceil_log2_ok //=.
have cl18 : Z.log2_up (Z.of_nat (size ids)) <= 18 by rewrite -(Z.log2_up_pow2 18) //; apply: Z.log2_up_le_mono.
have cl0 := Z.log2_up_nonneg (Z.of_nat (size ids)).
have e1 : 1 <= dec_y_exp S (Z.of_nat (size ids)) by rewrite /dec_y_exp; case: HS => *; lia.
have [ro [-> hro]] := sec_ensure_range_spec w a _ wa e1.
have eW : dec_y_exp S (Z.of_nat (size ids)) < w - 1 by rewrite /dec_y_exp; case: HS => *; lia.
case: ro hro => [y' [wy [vy [by' _]]]|[]]; try lia; last by rewrite va.
rewrite /= (v_res vs) //= (v_base vs) hpk -/(dec_about my).
have uK : unit_ok (N my) (K my) by apply: cipher_gcd hK; [case: hN|case: hrho].
have hcx : pub my = pmul C (val S z) (gen C) by rewrite hpub -{1}hm (pmul_modq HC (proj1 (q_le S HG))).
have [hl hf] := hrnd.
have [psi [E5 E6]] := dec_passes S C (seq item) HG HC X (DecSecret (sec S z) y' rho) (dec_about my) (rp my) (sg_aux c my) rnd (val S z) y
  HXO hx (conj n2 h64) wy (etrans vy va) hy hN ur erefl erefl uK ha hcx hres hl hf.
rewrite E5 /=.
have gs j : j \in without ids my -> exists pf, aff_gs_new S X (AffGStarSecret (sec S z) (mt_beta (mm j)) (mt_s (mm j)) (mt_r (mm j))) (aff_about my j) (sg_aux c my) (rnds j) = Ret pf
    /\ aff_gs_verify S X pf (aff_about my j) (sg_aux c my) = Ret true.
  move=> hj; have [a1 a2 a3 a4 a5 a6 a7 a8] := hmm hj; have [b1 b2] := hrnds hj.
  exact: (gs_passes S C (seq item) HG HC X (AffGStarSecret (sec S z) (mt_beta (mm j)) (mt_s (mm j)) (mt_r (mm j))) (aff_about my j) (sg_aux c my) (rnds j) (val S z) (bv j)
     HXO hx a2 a7 hN a5 a6 erefl erefl erefl a8 a3 a4 hcx b1 b2).
pose pf j := or_else (@AffGStarProof C [::] [::] [::]) (aff_gs_new S X (AffGStarSecret (sec S z) (mt_beta (mm j)) (mt_s (mm j)) (mt_r (mm j))) (aff_about my j) (sg_aux c my) (rnds j)).
rewrite (@mapV_ok_in _ _ _ _ (fun j => (j, pf j))) /=; last first.
  move=> j hj; have [hji ne] : j \in ids /\ j != my by move: hj; rewrite mem_filter => /andP [].
  have [f [E7 E8]] := gs _ hj.
  rewrite (po_mta (hmm hj)) (v_aux vs) // (v_ks vs) //= (v_df vs) //= (v_pub vs) //= -/(aff_about my j) E7 /= E8 /=.
  by rewrite orbT /= /pf E7.
eexists; split; first by [].
- exact: E6.
- by rewrite /= akeys_tab.
move=> j f /=; rewrite aget_tab; case: ifP => // hj [<-]; have [g [E7 E8]] := gs _ hj.
by rewrite /pf E7.
Qed.
End Own.
End View.
