(** * Facts about KeyInit. *)
From Coq Require Import ZArith.
From Verif Require Import Base EncodingModel.
From mathcomp Require Import all_ssreflect all_algebra.
From Verif Require Import AlgBase AlgFacts ThresholdModel ThresholdSpec ThresholdProofs ZkBase SchModel SchProofs
  ProtoBase ProtoSpec ProtoFacts KeyInitModel.
Set Implicit Arguments.
Unset Strict Implicit.
Unset Printing Implicit Defensive.
Import GRing.Theory.
Local Open Scope ring_scope.

Lemma ev_all_inv (I : eqType) W T (as_t : W -> option T) (m : seq (I * W)) r : ev_all as_t m = EvOk r ->
  akeys r = akeys m /\ forall i, aget r i = obind as_t (aget m i).
Proof.
elim: m r => [|[i w] m IH] r /=; first by case=> <-.
case Ew: (as_t w) => [t|] //; case Er: (ev_all as_t m) => [r'||] //= [<-].
have [h1 h2] := IH _ Er; split; first by rewrite /= h1.
by move=> j /=; case: (j == i); rewrite //= Ew.
Qed.
Lemma ev_all_ok (I : eqType) W T (as_t : W -> option T) (m : seq (I * W)) : 
  (forall i, i \in akeys m -> obind as_t (aget m i)) -> uniq (akeys m) -> exists r, ev_all as_t m = EvOk r.
Proof.
elim: m => [|[i w] m IH] /=; first by exists [::].
move=> h /andP [ni hu]; have := h i; rewrite eqxx mem_head => /(_ isT) /=.
case: (as_t w) => // t _; have [|r ->] := IH _ hu; last by exists ((i, t) :: r).
move=> j hj; have := h j; rewrite inE hj orbT => /(_ isT).
by have [e|//] := eqVneq j i; rewrite -e hj in ni.
Qed.

Section KeyInit.
Variables (F : fieldType) (V : lmodType F) (g : V) (I : eqType) (le : rel I) (HO : eqType).
Notation item := (hitem HO I V).
Variables (H : dst -> seq item -> HO) (X : xof (seq item) V) (scheme : seq item).
Hypothesis ho : total_order le.

Notation start := (ki_start g H scheme).
Notation until3 := (ki_until3 le H).
Notation run := (ki_run g le H X).

Lemma start_inv ids sr id x tau rho u c : start ids sr id x tau rho u = Ok c ->
  id \in ids /\ c = KiCtx (without ids id) id x tau (KiPublic (x *: g) (tau *: g) rho u) (sid_new H scheme sr ids).
Proof. by rewrite /ki_start; case: ifP => // /negbFE -> [<-]. Qed.

(** What a party knows once it has reached round 3. *)
Lemma until3_inv c m1 m2 o1 o2 s : until3 c m1 m2 o1 o2 = Accept s ->
  exists px pa pr pu : _,
  [/\ k3_ctx s = c,
      {in o2, forall j, [/\ j \in o1, m2 j = Msg None (Some (W2EB V HO (pr j))) (Some (W2NB HO (px j) (pa j) (pu j))) &
         m1 j = Msg None (Some (W1EB V (H DKeyInit [:: HOut (kx_sid c); HId j; HPt (px j); HPt (pa j); HBits (pr j); HBits (pu j)]))) None]},
      k3_xs s = [seq (j, px j) | j <- sort le o2],
      k3_as s = [seq (j, pa j) | j <- sort le o2] &
      combined (kp_rho (kx_public c) :: [seq pr j | j <- o2]) (k3_rho s)].
Proof.
rewrite /ki_until3 => U; have [cap_vs R1 R2] := vbind_inv U; have [v1 v1' v2] := round_inv R1.
have [pl Q] := vbind_inv R2; move=> {U R1 R2}.
rewrite /ki_finalize2; case Ex: xor_all => [rho|] //= [<-].
pose dx j := if m_normal (m2 j) is Some (W2NB x a u) then (x, a, u) else (0, 0, [::]).
pose dr j := if m_echo (m2 j) is Some (W2EB r) then r else [::].
exists (fun j => (dx j).1.1), (fun j => (dx j).1.2), dr, (fun j => (dx j).2).
have K j t : j \in o2 -> ki_recv2 H c cap_vs j (m2 j) = Accept t ->
    [/\ j \in o1, m2 j = Msg None (Some (W2EB V HO (dr j))) (Some (W2NB HO (dx j).1.1 (dx j).1.2 (dx j).2)),
    m1 j = Msg None (Some (W1EB V (H DKeyInit [:: HOut (kx_sid c); HId j; HPt (dx j).1.1; HPt (dx j).1.2; HBits (dr j); HBits (dx j).2]))) None
    & t = ((dx j).1.1, (dx j).1.2, dr j)].
  move=> hj; rewrite /ki_recv2 /assert_none /deser /safe_get /require /dx /dr.
  case Em: (m2 j) => [[d|] [e|] [n|]] //=; last by case: n Em.
  case: n Em => //= x a u; case: e => //= r Em.
  case Ev: (aget cap_vs j) => [v|] //=; case: eqP => //= Eh [<-].
  have jo1 : j \in o1 by rewrite -v1'; exact: aget_in Ev.
  have [t1] := v2 _ jo1; rewrite Ev => R1 [ev]; subst t1; split=> //.
  move: R1; rewrite /ki_recv1 /assert_none /deser.
  case: (m1 j) => -[d|] [e|] [n|] //=; case: e => //= h [hv]; congr (Msg _ (Some (W1EB _ _)) _).
  by rewrite hv -Eh.
have tabE : pl = [seq (j, ((dx j).1.1, (dx j).1.2, dr j)) | j <- sort le o2].
  by apply: (round_tab Q) => j t hj /(K _ _ hj) [].
split=> //=.
- by move=> j hj; have [_ _ q2] := round_inv Q; have [t ht _] := q2 _ hj; have [] := K _ _ hj ht.
- by rewrite tabE -map_comp.
- by rewrite tabE -map_comp.
- move/xor_allP: Ex; apply: combined_perm; rewrite perm_cons tabE -map_comp /=.
  by apply: perm_map; rewrite perm_sort.
Qed.

(** ** Honest runs *)
Section Honest.
Variables (ids : seq I) (sr : seq Z) (x tau : I -> F) (rho u : I -> seq bool) (n : nat).
Hypothesis hs : sorted le ids.
Hypothesis hu : uniq ids.
Hypothesis hn : {in ids, forall i, size (rho i) = n}.
Variables (c : I -> ki_ctx V I HO) (o1 o2 o3 : I -> seq I).
Hypothesis hc : {in ids, forall i, start ids sr i (x i) (tau i) (rho i) (u i) = Ok (c i)}.
Hypothesis ho1 : {in ids, forall i, perm_eq (o1 i) (without ids i)}.
Hypothesis ho2 : {in ids, forall i, perm_eq (o2 i) (without ids i)}.
Hypothesis ho3 : {in ids, forall i, perm_eq (o3 i) (without ids i)}.

Lemma hcE i : i \in ids ->
  c i = KiCtx (without ids i) i (x i) (tau i) (KiPublic (x i *: g) (tau i *: g) (rho i) (u i)) (sid_new H scheme sr ids).
Proof. by move=> hi; have [_ ->] := start_inv (hc hi). Qed.

Lemma combined_exists : exists R, combined [seq rho i | i <- ids] R.
Proof.
move: hn; case: ids => [|i l] h; first by exists [::].
case Ex: (xor_all (rho i) [seq rho j | j <- l]) => [R|]; first by exists R; apply/xor_allP.
move/xor_all_panics: Ex; case/allPn=> b /mapP [j hj ->].
by rewrite !h ?mem_head ?eqxx // inE hj orbT.
Qed.

Lemma in_without i j : (j \in without ids i) = (j != i) && (j \in ids).
Proof. by rewrite mem_filter. Qed.

Definition h3 R i := KiRound3 (c i) [seq (j, x j *: g) | j <- without ids i] [seq (j, tau j *: g) | j <- without ids i] R.

Lemma honest_until3 R i : combined [seq rho i | i <- ids] R -> i \in ids ->
  until3 (c i) (fun j => ki_send1 H (c j)) (fun j => ki_send2 (c j)) (o1 i) (o2 i) = Accept (h3 R i).
Proof.
move=> hR hi; rewrite /ki_until3.
have so : sorted le (without ids i) by exact: sorted_without.
rewrite (round_ok (p := fun j => ki_hash H (kx_public (c j)) (kx_sid (c j)) (kx_id (c j))) ho so (ho1 hi)) //=.
rewrite (round_ok (p := fun j => (x j *: g, tau j *: g, rho j)) ho so (ho2 hi)) /=; last first.
  move=> j hj; have := hj; rewrite in_without => /andP [_ jid].
  rewrite /ki_recv2 /safe_get /require /= aget_tab hj /= !hcE //= /ki_hash /= eqxx /= .
  by [].
rewrite /ki_finalize2 -!map_comp /= .
have -> : kp_rho (kx_public (c i)) = rho i by rewrite hcE.
have /xor_allP -> // : combined (rho i :: [seq rho j | j <- without ids i]) R.
by apply: combined_perm hR; rewrite (perm_map rho (perm_without hu hi)).
Qed.

Lemma honest_run R i : combined [seq rho i | i <- ids] R -> i \in ids ->
  run (c i) (fun j => ki_send1 H (c j)) (fun j => ki_send2 (c j)) (fun j => ki_send3 X (h3 R j)) (o1 i) (o2 i) (o3 i) =
  if (\sum_(j <- ids) x j) *: g == 0 then RLocal
  else Accept (KShare i (x i) [seq (j, x j *: g) | j <- ids]).
Proof.
move=> hR hi; rewrite /ki_run (honest_until3 hR hi) /=.
have so : sorted le (without ids i) by exact: sorted_without.
rewrite (round_ok (p := fun j => tt) ho so (ho3 hi)) /=; last first.
  move=> j hj; have := hj; rewrite in_without => /andP [_ jid].
  rewrite /ki_recv3 /safe_get /require /= !aget_tab hj /= !hcE //=.
  by rewrite sch_run.
rewrite /ki_finalize3 /h3 /= hcE //= (binsert_tab ho (fun j => x j *: g) hs hu hi) // /ks_new avals_tab psumE big_map.
by rewrite -scaler_suml; case: ifP.
Qed.

Lemma ki_honest : exists s : I -> ki_round3 V I HO,
  {in ids, forall i,
    until3 (c i) (fun j => ki_send1 H (c j)) (fun j => ki_send2 (c j)) (o1 i) (o2 i) = Accept (s i)} /\
  let outcome i := run (c i) (fun j => ki_send1 H (c j)) (fun j => ki_send2 (c j)) (fun j => ki_send3 X (s j))
                     (o1 i) (o2 i) (o3 i) in
  let key := \sum_(i <- ids) x i in
  (key *: g = 0 -> {in ids, forall i, outcome i = RLocal}) /\
  (key *: g != 0 -> exists shares : I -> kshare V I,
     [/\ {in ids, forall i, outcome i = Accept (shares i)}, additive_sharing g ids key shares,
         {in ids, forall i, ks_secret (shares i) = x i} &
         {in ids, forall i, ks_verifying_key (shares i) = Ok (key *: g)}]).
Proof.
have [R hR] := combined_exists; exists (h3 R); split; first by move=> i hi; exact: honest_until3.
split=> hk.
- by move=> i hi; rewrite (honest_run hR hi) hk eqxx.
- exists (fun i => KShare i (x i) [seq (j, x j *: g) | j <- ids]); split=> // [i hi|i hi].
  + by rewrite (honest_run hR hi) (negbTE hk).
  + by rewrite /ks_verifying_key /ks_vkey_point /= avals_tab psumE big_map -scaler_suml /to_verifying_key (negbTE hk).
Qed.
End Honest.

(** ** Arbitrary peers *)
Lemma ki_malicious ids sr id x tau rho u c m1 m2 m3 o1 o2 o3 k :
  start ids sr id x tau rho u = Ok c -> uniq ids ->
  perm_eq o1 (without ids id) -> perm_eq o2 (without ids id) -> perm_eq o3 (without ids id) ->
  run c m1 m2 m3 o1 o2 o3 = Accept k ->
  [/\ ks_owner k = id, ks_secret k = x, perm_eq (ks_parties k) ids, aget (ks_public k) id = Some (x *: g) &
      ks_vkey_point k != 0] /\
  exists px pa pr pu rho_c psi,
    combined (rho :: [seq pr j | j <- without ids id]) rho_c /\
    {in without ids id, forall j,
      [/\ aget (ks_public k) j = Some (px j),
          m2 j = Msg None (Some (W2EB V HO (pr j))) (Some (W2NB HO (px j) (pa j) (pu j))),
          m1 j = Msg None (Some (W1EB V (H DKeyInit [:: HOut (sid_new H scheme sr ids); HId j; HPt (px j); HPt (pa j);
                                                      HBits (pr j); HBits (pu j)]))) None,
          m3 j = Msg None None (Some (W3NB V HO (psi j))) &
          sch_verify g X (psi j) (pa j) (px j) [:: HOut (sid_new H scheme sr ids); HId j; HBits rho_c]]}.
Proof.
case/start_inv=> hid -> hu p1 p2 p3; rewrite /ki_run => U; have [s S1 S2] := vbind_inv U.
have [a Q S3] := vbind_inv S2; move=> {U S2}.
have [px [pa [pr [pu [Ec K Ex Ea Er]]]]] := until3_inv S1.
set c0 := KiCtx _ _ _ _ _ _ in S1 Ec Er K.
have ks : sort le o2 =i without ids id by move=> j; rewrite mem_sort (perm_mem p2).
move: S3; rewrite /ki_finalize3 Ec /= /ks_new; case: ifP => // /negbT nz [<-] {k}.
have Xg j : j \in without ids id -> aget (k3_xs s) j = Some (px j) by rewrite Ex aget_tab ks => ->.
have Ag j : j \in without ids id -> aget (k3_as s) j = Some (pa j) by rewrite Ea aget_tab ks => ->.
have nid : id \notin akeys (k3_xs s) by rewrite Ex akeys_tab ks mem_filter eqxx.
split.
  split=> //=.
  - rewrite /ks_parties /binsert akeys_btree perm_sort akeys_aset // perm_rcons Ex akeys_tab perm_sym.
    apply: perm_trans (perm_without hu hid) _; rewrite perm_cons perm_sym.
    by rewrite perm_sort.
  - by rewrite /binsert aget_btree aget_aset eqxx.
pose psi j := if m_normal (m3 j) is Some (W3NB p) then p else SchProof 0 0.
exists px, pa, pr, pu, (k3_rho s), psi; split.
  by apply: combined_perm Er; rewrite perm_cons /=; apply: perm_map.
move=> j hj; have [h1 h2 h3] := K j (etrans (perm_mem p2 j) hj).
have j3 : j \in o3 by rewrite (perm_mem p3).
have [_ _ /(_ _ j3) [t T1 _]] := round_inv Q.
move: T1; rewrite /ki_recv3 /safe_get Xg // Ag // /assert_none /deser /require.
case Em: (m3 j) => [[d|] [e|] [w|]] //=; case: w Em => //= p Em.
rewrite Ec /= /ki_aux /psi Em /=; case: ifP => // hv _; split=> //.
rewrite /= /binsert aget_btree aget_aset.
by have := hj; rewrite mem_filter => /andP [/negbTE -> _]; exact: Xg.
Qed.

(** ** Evidence *)
Notation evidence_ok := (ki_evidence g H X scheme).

Lemma ki_evidence_hash ids sr id x tau rho u c cap_vs guilty v m2 hist (echos : nat -> seq (I * ki_wire V HO)) :
  start ids sr id x tau rho u = Ok c ->
  ki_recv1 (hist 1%N) = Accept v -> aget cap_vs guilty = Some v -> m_direct m2 = None ->
  ki_recv2 H c cap_vs guilty m2 = Reject (Proto R2HashMismatch) <->
  evidence_ok ids sr guilty R2HashMismatch (assemble (ki_required R2HashMismatch) m2 hist echos) = EvOk tt.
Proof.
case/start_inv=> _ -> R1 Ev.
rewrite /ki_recv2 /ki_evidence /safe_get /require /deser /assert_none /ev_deser Ev /=.
have -> : obind (@as_1eb _ V HO) (m_echo (hist 1%N)) = Some v.
  move: R1; rewrite /ki_recv1 /assert_none /deser.
  by case: (hist 1%N) => -[d|] [e|] [w|] //=; case: (as_1eb e) => // ? [<-].
case: m2 => d e n /= ->; case: n => [[]|]; case: e => [[]|] /=; do ?move=> ?; try by split.
by rewrite /verify_that; case: eqP.
Qed.

Lemma ki_evidence_sch ids sr id x tau rho u c m1 m2 o1 o2 s guilty m3 hist echos :
  start ids sr id x tau rho u = Ok c -> uniq ids ->
  perm_eq o1 (without ids id) -> perm_eq o2 (without ids id) ->
  until3 c m1 m2 o1 o2 = Accept s ->
  guilty \in without ids id -> hist 2%N = m2 guilty ->
  perm_eq (akeys (echos 2%N)) (without ids guilty) ->
  {in without ids guilty, forall j, aget (echos 2%N) j = m_echo (if j == id then ki_send2 c else m2 j)} ->
  m_direct m3 = None -> m_echo m3 = None ->
  ki_recv3 g X s guilty m3 = Reject (Proto R3InvalidSchProof) <->
  evidence_ok ids sr guilty R3InvalidSchProof (assemble (ki_required R3InvalidSchProof) m3 hist echos) = EvOk tt.
Proof.
move=> hst hu p1 p2 hs hg hh hk he hd3 he3.
have [hid Ec0] := start_inv hst.
have [px [pa [pr [pu [Ec K Ex Ea Er]]]]] := until3_inv hs.
have gid : guilty \in ids by move: hg; rewrite mem_filter => /andP [].
have gne : guilty != id by move: hg; rewrite mem_filter => /andP [].
have [_ K2 _] := K _ (etrans (perm_mem p2 guilty) hg).
pose R j := if j == id then rho else pr j.
have echoR j : j \in without ids guilty -> aget (echos 2%N) j = Some (W2EB V HO (R j)).
  move=> hj; rewrite he // /R; case: eqP => [_|/eqP ne]; first by rewrite Ec0.
  have [|_ -> _] := K j; last by [].
  by rewrite (perm_mem p2) mem_filter ne; move: hj; rewrite mem_filter => /andP [].
have ue : uniq (akeys (echos 2%N)) by rewrite (perm_uniq hk) filter_uniq.
have [|ebs Eebs] := @ev_all_ok _ _ _ (@as_2eb _ V HO) (echos 2%N) _ ue.
  by move=> j; rewrite (perm_mem hk) => hj; rewrite echoR.
have [ek eg] := ev_all_inv Eebs.
have xorE : xor_all (pr guilty) (avals ebs) = Ret (k3_rho s).
  apply/xor_allP; apply: combined_perm Er.
  have -> : ebs = [seq (j, R j) | j <- akeys ebs].
    rewrite {1}(@atab_eq _ _ ebs [::]) ?ek //; apply/eq_in_map => j; rewrite (perm_mem hk) => hj.
    by rewrite eg echoR.
  rewrite avals_tab ek.
  have -> : kp_rho (kx_public c) = R id by rewrite Ec0 /R eqxx.
  have -> : pr guilty = R guilty by rewrite /R (negbTE gne).
  have -> : [seq pr j | j <- o2] = [seq R j | j <- o2].
    by apply/eq_in_map => j; rewrite (perm_mem p2) mem_filter => /andP [/negbTE ne _]; rewrite /R ne.
  apply: (@perm_trans _ [seq R j | j <- ids]).
    rewrite -[R id :: _]/([seq R j | j <- id :: o2]) perm_sym; apply: perm_map.
    by apply: perm_trans (perm_without hu hid) _; rewrite perm_cons perm_sym.
  rewrite -[R guilty :: _]/([seq R j | j <- guilty :: akeys (echos 2%N)]); apply: perm_map.
  by apply: perm_trans (perm_without hu gid) _; rewrite perm_cons perm_sym.
have ks : guilty \in sort le o2 by rewrite mem_sort (perm_mem p2).
rewrite /ki_recv3 /ki_evidence /safe_get /require /assert_none /deser /ev_deser hd3 he3 /= hh K2 Eebs /=.
rewrite Ex Ea !aget_tab ks Ec Ec0 /=.
case: (m_normal m3) => [[]|] //= psi.
by rewrite xorE /= /verify_that; case: ifP.
Qed.

(** An honest party is never convicted. *)
Lemma ki_honest_hash_safe ids sr id x tau rho u c hist (echos : nat -> seq (I * ki_wire V HO)) :
  start ids sr id x tau rho u = Ok c -> hist 1%N = ki_send1 H c ->
  evidence_ok ids sr id R2HashMismatch (assemble (ki_required R2HashMismatch) (ki_send2 c) hist echos) = EvInvalid.
Proof. by case/start_inv=> hid -> hh; rewrite /ki_evidence /= hh /= /ki_hash /= eqxx. Qed.

Lemma ki_honest_sch_safe ids sr id x tau rho u c m1 m2 o1 o2 s hist echos :
  start ids sr id x tau rho u = Ok c -> uniq ids ->
  perm_eq o2 (without ids id) ->
  until3 c m1 m2 o1 o2 = Accept s ->
  hist 2%N = ki_send2 c ->
  perm_eq (akeys (echos 2%N)) (without ids id) ->
  {in without ids id, forall j, aget (echos 2%N) j = m_echo (m2 j)} ->
  evidence_ok ids sr id R3InvalidSchProof (assemble (ki_required R3InvalidSchProof) (ki_send3 X s) hist echos) = EvInvalid.
Proof.
move=> hst hu p2 hs hh hk he.
have [hid Ec0] := start_inv hst.
have [px [pa [pr [pu [Ec K Ex Ea Er]]]]] := until3_inv hs.
have echoR j : j \in without ids id -> aget (echos 2%N) j = Some (W2EB V HO (pr j)).
  by move=> hj; have [_ K2 _] := K j (etrans (perm_mem p2 j) hj); rewrite he // K2.
have ue : uniq (akeys (echos 2%N)) by rewrite (perm_uniq hk) filter_uniq.
have [|ebs Eebs] := @ev_all_ok _ _ _ (@as_2eb _ V HO) (echos 2%N) _ ue.
  by move=> j; rewrite (perm_mem hk) => hj; rewrite echoR.
have [ek eg] := ev_all_inv Eebs.
have xorE : xor_all rho (avals ebs) = Ret (k3_rho s).
  apply/xor_allP; rewrite Ec0 /= in Er; apply: combined_perm Er.
  have -> : ebs = [seq (j, pr j) | j <- akeys ebs].
    rewrite {1}(@atab_eq _ _ ebs [::]) ?ek //; apply/eq_in_map => j; rewrite (perm_mem hk) => hj.
    by rewrite eg echoR.
  rewrite avals_tab ek perm_cons; apply: perm_map; apply: perm_trans p2 _; by rewrite perm_sym.
by rewrite /ki_evidence /= hh Eebs /= Ec Ec0 /= xorE /= sch_run.
Qed.

End KeyInit.
