(** * Property C71: the protocols fit together.

    The parties run one protocol after another, each on the outputs of the one
    before, and follow the code.  All hash functions are arbitrary; [X] is only
    asked for challenges in their ranges ([xof_ok]) and a composite-number test
    that never fails ([detects_composites]). *)
From Coq Require Import ZArith.
From Verif Require Import Base SignedModel PaillierModel ZkBase ZkModel ZkSpec ZkToy.
From mathcomp Require Import all_ssreflect all_algebra.
From Verif Require Import AlgBase ShamirSpec ThresholdModel ThresholdSpec SchModel ProtoBase ProtoSpec KeyInitModel ReshareModel
  AuxGenModel AuxHonestSpec AuxHonestToy KeyRefreshModel SigningSpec SigningModel SigningToy SigningWitness EntryModel EntryWitness MtaSpec
  SigningHonestSpec SigningHonestWitness LifeSpec LifeProofs LifeToy CentralModel CentralProofs PropsShare PropsKeyInit.
Set Implicit Arguments.
Unset Strict Implicit.
Unset Printing Implicit Defensive.
Import GRing.Theory.
Local Open Scope ring_scope.

(** ** KeyInit among [olds]; conversion to a threshold key; KeyResharing to [news]
    with threshold [t]; optional derivation of a BIP-32 child key; conversion to
    key shares of [t] signers; AuxGen among [news], restricted to the signers;
    then any message is signed under the child of the key made at the start. *)
Theorem C71_threshold_sequence (S : sparams) (F : fieldType) (V : lmodType F) (g : V) (int_of : F -> Z) (I : eqType) (le : rel I)
    (HO : eqType) (H : dst -> seq (hitem HO I V) -> HO) (X : xof (seq (hitem HO I V)) V) (scheme : seq (hitem HO I V))
    (xcoord : V -> Z) (lift_x : nat -> Z -> option V) (positional debug : bool)
    (T CC N : Type) (as_tweak : T -> option F) (icc : V -> CC) (dtw : V -> CC -> N -> option (T * CC))
    olds news signers t sr1 x tau rho u n1 o1 rs o2 sr2 r com rnd n2 o3 :
  good_params S -> scalar_field (sp_q S) int_of -> xof_ok (sp_q S) (X : xof (seq (hitem HO I V)) (pt (curveV g))) -> total_order le ->
  Znumtheory.prime (sp_q S) -> @xcoord_ok (sp_q S) (curveV g) xcoord -> @lift_ok (curveV g) xcoord lift_x ->
  @detects_composites _ V X ->
  Z.lt (Z.add (Z.add (Z.add (Z.mul 2 (modulus_bits (sp_pail S))) (sp_l S)) (sp_eps S)) 1) (sp_xw S) ->
  sorted le olds -> uniq olds -> sorted le news -> uniq news -> sorted le signers -> uniq signers ->
  {subset signers <= news} -> size signers = t -> (1 < t)%N -> big_field F (size olds) -> big_field F (size news) ->
  {in olds, forall i, size (rho i) = n1} -> orders_ok olds o1 ->
  {in news, forall i, perm_eq (o2 i) (without olds i)} ->
  {in news, forall i, honest_keys S (r i) (com i)} ->
  {in news &, forall i j, i != j -> honest_masks S (r i) (Z.mul (ar_rp_p (r j)) (ar_rp_q (r j))) (rnd i j)} ->
  {in news, forall i, size (ar_rid (r i)) = n2} -> orders_ok news o3 ->
  let key := \sum_(i <- olds) x i in key *: g != 0 ->
  exists shares ts nts a,
  [/\ keygen_run g le H X scheme olds sr1 x tau rho u o1 shares /\
        {in olds, forall i, ks_verifying_key (shares i) = Ok (key *: g)},
      {in olds, forall i, ts_from_key_share (shares i) = Ok (ts i) /\ ts_verifying_key (ts i) = Ok (key *: g)},
      reshare_run g le olds news t (key *: g) ts rs o2 nts /\
        threshold_sharing g news t key nts /\ {in news, forall i, ts_verifying_key (nts i) = Ok (key *: g)} &
      aux_run S g le H X scheme news sr2 r com rnd o3 a] /\
  forall path i0 s0, i0 \in news -> child_share g as_tweak icc dtw path (nts i0) = Some s0 ->
  exists x' children ks aux,
  [/\ child_key g as_tweak icc dtw path (key *: g) = Some (x' *: g),
      {in news, forall i, child_share g as_tweak icc dtw path (nts i) = Some (children i)},
      {in signers, forall i, ts_to_key_share debug (children i) signers = Ok (ks i) /\ ks_verifying_key (ks i) = Ok (x' *: g)} &
      {in signers, forall i, aux_subset (a i) signers = Ok (aux i)}] /\
  forall sr3 text d o4,
    signing_draws_ok S signers (fun i => Z.mul (ar_p (r i)) (ar_q (r i))) (fun i => Z.mul (ar_rp_p (r i)) (ar_rp_q (r i))) d ->
    orders_ok signers o4 -> not_degenerate S g xcoord signers d text x' ->
    exists sig, signing_run S g int_of le H X scheme xcoord lift_x positional signers sr3 text ks aux d o4 sig /\
      signs S g xcoord signers d text x' sig.
Proof. move=> HG HF HX ho Pq Hx Hl HD HW; exact: life_threshold. Qed.
Print Assumptions C71_threshold_sequence.

(** Key 3 made by parties 0 and 1, passed to 0, 1, 2 with threshold 2; 0 and 2
    sign: [k] is 6, gamma 6, [r] is 3, the message is 2. *)
Example C71_threshold_case : let text := [:: Zpos 77; Zpos 3; Zpos 130] in
  [/\ good_params toy_S, scalar_field (sp_q toy_S) int7, xof_ok (sp_q toy_S) (Xs7 : xof (seq item7) (pt (curveV g7))) & total_order leq] /\
  [/\ Znumtheory.prime (sp_q toy_S), @xcoord_ok (sp_q toy_S) (curveV g7) xc7, @lift_ok (curveV g7) xc7 lift7, @detects_composites _ V7 Xs7 &
      Z.lt (Z.add (Z.add (Z.add (Z.mul 2 (modulus_bits (sp_pail toy_S))) (sp_l toy_S)) (sp_eps toy_S)) 1) (sp_xw toy_S)] /\
  [/\ [&& sorted leq oldL, uniq oldL, sorted leq newL, uniq newL, sorted leq sigL, uniq sigL & size sigL == 2%N],
      {subset sigL <= newL}, big_field F7 (size oldL) & big_field F7 (size newL)] /\
  [/\ all (fun i => size (rho7 i) == 3)%N oldL, @orders_ok nat_eqType oldL (ordL oldL),
      {in newL, forall i, perm_eq (ordL oldL 1%N i) (without oldL i)} & @orders_ok nat_eqType newL (ordL newL)] /\
  [/\ exists com, {in newL, forall i, honest_keys toy_S (randL i) (com i)},
      {in newL &, forall i j, i != j -> honest_masks toy_S (randL i) (Z.mul (ar_rp_p (randL j)) (ar_rp_q (randL j))) maskL} &
      all (fun i => size (ar_rid (randL i)) == 2)%N newL] /\
  let key := \sum_(i <- oldL) sec7 i in
  [/\ key = 3%:R, key *: g7 != 0,
      @signing_draws_ok toy_S nat_eqType sigL (fun i => Z.mul (ar_p (randL i)) (ar_q (randL i)))
        (fun i => Z.mul (ar_rp_p (randL i)) (ar_rp_q (randL i))) drawsH,
      @orders_ok nat_eqType sigL (ordL sigL) & @not_degenerate toy_S F7 V7 g7 nat_eqType xc7 sigL drawsH text key].
Proof.
move=> text; split; [split; [exact: toy_S_ok|exact: scalar_field7|exact: const_xof_ok|exact: leq_order]|].
split; [split; [exact: prime7|exact: xcoord7_ok|exact: lift7_ok|exact: detectsW|by []]|].
split; [split; [by vm_compute|by move=> i; rewrite !inE => /orP [] /eqP ->|exact: big_field7|exact: big_field7]|].
split; [split; [by []|exact: ordL_ok|by move=> i _; exact: perm_refl|exact: ordL_ok]|].
split; [split; [by have [com h] := honest_keysL; exists com => i _|by move=> i j _ _ _; exact: honest_masksL|by []]|].
have E : \sum_(i <- oldL) sec7 i = 3%:R by rewrite !big_cons big_nil; apply/eqP; vm_compute.
rewrite /= E; split; [by []|by vm_compute| |exact: ordL_ok|by split; [vm_compute|by vm_compute|vm_compute|vm_compute]].
by apply: drawsL_ok => i; rewrite !inE => /orP [] /eqP ->.
Qed.

(** There the new shares of the key are computed from those of KeyInit, and
    deriving the child at the path 5, 1 gives everybody a share of the key 2,
    with which the signature above is not degenerate either. *)
Definition initL (i : nat) : kshare V7 nat_eqType := KShare i (sec7 i) [seq (j, sec7 j *: g7) | j <- oldL].
Definition oldTL (i : nat) : tshare V7 nat_eqType :=
  if ts_from_key_share (initL i) is Ok s then s else TShare 0%N 0 0 [::] [::].
Definition ctxL (i : nat) : rs_round1 V7 nat_eqType :=
  if rs_start g7 (if i \in oldL then Some (oldTL i) else None)
      (if i \in newL then Some (NewHolder (3%:R *: g7) 2 oldL) else None) newL 2 i (fun _ => (i + 2)%:R) is Ok c then c
  else RsRound1 None None [::] 0 0%N [::] [::].
Definition sentL (j i : nat) : message (rs_wire V7) := if rs_send (ctxL j) i is Ok m then m else Msg None None None.
Definition childL : tshare V7 nat_eqType -> option (tshare V7 nat_eqType) :=
  child_share g7 (fun a : F7 => if a == 0 then None else Some a) (fun _ => tt) (fun _ _ (n : F7) => Some (n, tt)) (Some [:: 5%:R; 1]).
Example C71_threshold_child_case :
  all (fun i => accepted (rs_run g7 leq (ctxL i) (fun j => sentL j i) (ordL oldL 1%N i)) (fun o =>
    if o is Some s then if childL s is Some s' then
      if ts_to_key_share true s' sigL is Ok k then (if ks_verifying_key k is Ok v then v == 2%:R *: g7 else false) else i \notin sigL
    else false else false)) newL /\
  @not_degenerate toy_S F7 V7 g7 nat_eqType xc7 sigL drawsH [:: Zpos 77; Zpos 3; Zpos 130] 2%:R.
Proof. by split; [vm_compute|split; [vm_compute|by vm_compute|vm_compute|vm_compute]]. Qed.

(** ** KeyInit, KeyRefresh, update of the shares; then all parties sign any
    message under the key made at the start, with the refreshed shares and the
    auxiliary data made by KeyRefresh. *)
Theorem C71_refresh_sequence (S : sparams) (F : fieldType) (V : lmodType F) (g : V) (int_of : F -> Z) (I : eqType) (le : rel I)
    (HO : eqType) (H : dst -> seq (hitem HO I V) -> HO) (X : xof (seq (hitem HO I V)) V) (Hs : dst -> seq (hitem HO I V) -> F)
    (scheme : seq (hitem HO I V)) (xcoord : V -> Z) (lift_x : nat -> Z -> option V) (positional : bool)
    ids sr1 x tau rho u n1 o1 sr2 r com y tau' split rnd n2 o2 :
  good_params S -> scalar_field (sp_q S) int_of -> xof_ok (sp_q S) (X : xof (seq (hitem HO I V)) (pt (curveV g))) -> total_order le ->
  Znumtheory.prime (sp_q S) -> @xcoord_ok (sp_q S) (curveV g) xcoord -> @lift_ok (curveV g) xcoord lift_x ->
  @detects_composites _ V X ->
  Z.lt (Z.add (Z.add (Z.add (Z.mul 2 (modulus_bits (sp_pail S))) (sp_l S)) (sp_eps S)) 1) (sp_xw S) ->
  sorted le ids -> uniq ids ->
  {in ids, forall i, size (rho i) = n1} -> orders_ok ids o1 ->
  {in ids, forall i, honest_keys S (r i) (com i)} ->
  {in ids &, forall i j, i != j -> honest_masks S (r i) (Z.mul (ar_rp_p (r j)) (ar_rp_q (r j))) (rnd i j)} ->
  {in ids, forall i, size (ar_rid (r i)) = n2} -> orders_ok ids o2 ->
  let key := \sum_(i <- ids) x i in key *: g != 0 ->
  exists shares kc a shares',
  [/\ keygen_run g le H X scheme ids sr1 x tau rho u o1 shares,
      refresh_run S g le H X Hs scheme ids sr2 r com y tau' split rnd o2 kc a,
      {in ids, forall i, ks_update (shares i) (kc i) = Ok (shares' i)} &
      {in ids, forall i, ks_verifying_key (shares i) = Ok (key *: g) /\ ks_verifying_key (shares' i) = Ok (key *: g)}] /\
  forall sr3 text d o3,
    signing_draws_ok S ids (fun i => Z.mul (ar_p (r i)) (ar_q (r i))) (fun i => Z.mul (ar_rp_p (r i)) (ar_rp_q (r i))) d ->
    orders_ok ids o3 -> not_degenerate S g xcoord ids d text key ->
    exists sig, signing_run S g int_of le H X scheme xcoord lift_x positional ids sr3 text shares' a d o3 sig /\
      signs S g xcoord ids d text key sig.
Proof. move=> HG HF HX ho Pq Hx Hl HD HW; exact: life_refresh. Qed.
Print Assumptions C71_refresh_sequence.

(** Three parties, key 6; [k] is 2, gamma 5, [r] is 1, the message is 2.  The
    hypotheses about the setting are those of [C71_threshold_case]. *)
Example C71_refresh_case : let text := [:: Zpos 77; Zpos 3; Zpos 130] in
  [/\ [&& sorted leq newL, uniq newL & all (fun i => size (rho7 i) == 3)%N newL], @orders_ok nat_eqType newL (ordL newL) &
      exists com, {in newL, forall i, honest_keys toy_S (randL i) (com i)}] /\
  {in newL &, forall i j, i != j -> honest_masks toy_S (randL i) (Z.mul (ar_rp_p (randL j)) (ar_rp_q (randL j))) maskL} /\
  all (fun i => size (ar_rid (randL i)) == 2)%N newL /\
  let key := \sum_(i <- newL) sec7 i in
  [/\ key = 6%:R, key *: g7 != 0,
      @signing_draws_ok toy_S nat_eqType newL (fun i => Z.mul (ar_p (randL i)) (ar_q (randL i)))
        (fun i => Z.mul (ar_rp_p (randL i)) (ar_rp_q (randL i))) drawsH &
      @not_degenerate toy_S F7 V7 g7 nat_eqType xc7 newL drawsH text key].
Proof.
move=> text; split.
  by split; [vm_compute|exact: ordL_ok|have [com h] := honest_keysL; exists com => i _].
split; first by move=> i j _ _ _; exact: honest_masksL.
split; first by [].
have E : \sum_(i <- newL) sec7 i = 6%:R by rewrite !big_cons big_nil; apply/eqP; vm_compute.
rewrite /= E; split; [by []|by vm_compute| |by split; [vm_compute|by vm_compute|vm_compute|vm_compute]].
by apply: drawsL_ok.
Qed.

(** ** Keys and auxiliary data made in one place are as good: a threshold key *)
Theorem C71_centralized_threshold (S : sparams) (F : fieldType) (V : lmodType F) (g : V) (int_of : F -> Z) (I : eqType) (le : rel I)
    (HO : eqType) (H : dst -> seq (hitem HO I V) -> HO) (X : xof (seq (hitem HO I V)) V) (scheme : seq (hitem HO I V))
    (xcoord : V -> Z) (lift_x : nat -> Z -> option V) (positional debug : bool) ids signers t x draws r com :
  good_params S -> scalar_field (sp_q S) int_of -> xof_ok (sp_q S) (X : xof (seq (hitem HO I V)) (pt (curveV g))) -> total_order le ->
  Znumtheory.prime (sp_q S) -> @xcoord_ok (sp_q S) (curveV g) xcoord -> @lift_ok (curveV g) xcoord lift_x ->
  sorted le ids -> uniq ids -> sorted le signers -> uniq signers ->
  {subset signers <= ids} -> size signers = t -> (0 < t)%N -> big_field F (size ids) ->
  {in ids, forall i, honest_keys S (r i) (com i)} -> x *: g != 0 ->
  exists ts a ks aux,
  [/\ ts_new_centralized g ids t x draws = Ok [seq (i, ts i) | i <- ids],
      aux_new_centralized S ids r = Ok [seq (i, a i) | i <- ids],
      {in signers, forall i, ts_to_key_share debug (ts i) signers = Ok (ks i) /\ ks_verifying_key (ks i) = Ok (x *: g)} &
      {in signers, forall i, aux_subset (a i) signers = Ok (aux i)}] /\
  forall sr text d o,
    signing_draws_ok S signers (fun i => Z.mul (ar_p (r i)) (ar_q (r i))) (fun i => Z.mul (ar_rp_p (r i)) (ar_rp_q (r i))) d ->
    orders_ok signers o -> not_degenerate S g xcoord signers d text x ->
    exists sig, signing_run S g int_of le H X scheme xcoord lift_x positional signers sr text ks aux d o sig /\
      signs S g xcoord signers d text x sig.
Proof. move=> HG HF HX ho Pq Hx Hl; exact: life_central_threshold. Qed.
Print Assumptions C71_centralized_threshold.

(** ... and an additively shared one. *)
Theorem C71_centralized (S : sparams) (F : fieldType) (V : lmodType F) (g : V) (int_of : F -> Z) (I : eqType) (le : rel I)
    (HO : eqType) (H : dst -> seq (hitem HO I V) -> HO) (X : xof (seq (hitem HO I V)) V) (scheme : seq (hitem HO I V))
    (xcoord : V -> Z) (lift_x : nat -> Z -> option V) (positional : bool) ids x draws r com :
  good_params S -> scalar_field (sp_q S) int_of -> xof_ok (sp_q S) (X : xof (seq (hitem HO I V)) (pt (curveV g))) -> total_order le ->
  Znumtheory.prime (sp_q S) -> @xcoord_ok (sp_q S) (curveV g) xcoord -> @lift_ok (curveV g) xcoord lift_x ->
  sorted le ids -> uniq ids -> (0 < size ids)%N ->
  {in ids, forall i, honest_keys S (r i) (com i)} -> x *: g != 0 ->
  exists ks a,
  [/\ ks_new_centralized g ids x draws = Ok [seq (i, ks i) | i <- ids],
      aux_new_centralized S ids r = Ok [seq (i, a i) | i <- ids] &
      {in ids, forall i, ks_verifying_key (ks i) = Ok (x *: g)}] /\
  forall sr text d o,
    signing_draws_ok S ids (fun i => Z.mul (ar_p (r i)) (ar_q (r i))) (fun i => Z.mul (ar_rp_p (r i)) (ar_rp_q (r i))) d ->
    orders_ok ids o -> not_degenerate S g xcoord ids d text x ->
    exists sig, signing_run S g int_of le H X scheme xcoord lift_x positional ids sr text ks a d o sig /\
      signs S g xcoord ids d text x sig.
Proof. move=> HG HF HX ho Pq Hx Hl; exact: life_central. Qed.
Print Assumptions C71_centralized.

(** In the setting of [C71_threshold_case] everything is made, and a signature
    under the key 3 comes out. *)
Example C71_centralized_case : let text := [:: Zpos 77; Zpos 3; Zpos 130] in exists ts a ks aux sig,
  [/\ ts_new_centralized g7 newL 2 (3%:R : F7) (fun i => i.+1%:R) = Ok [seq (i, ts i) | i <- newL],
      aux_new_centralized toy_S newL randL = Ok [seq (i, a i) | i <- newL],
      {in sigL, forall i, ts_to_key_share true (ts i) sigL = Ok (ks i)} &
      {in sigL, forall i, aux_subset (a i) sigL = Ok (aux i)}] /\
  [/\ @signing_run toy_S F7 V7 g7 int7 nat_eqType leq nat_eqType H7 Xs7 [::] xc7 lift7 true sigL [::] text ks aux drawsH (ordL sigL) sig,
      sig_r sig = Zpos 3 & @signs toy_S F7 V7 g7 nat_eqType xc7 sigL drawsH text 3%:R sig].
Proof.
move=> text.
have [[c1 c2 c3 c4] [[d1 d2 d3 _ _] [[_ sub _ big] [_ [[[com hk] _ _] [_ _ dr ok nd]]]]]] := C71_threshold_case.
have E : \sum_(i <- oldL) sec7 i = 3%:R by rewrite !big_cons big_nil; apply/eqP; vm_compute.
rewrite E in nd.
have xg : (3%:R : F7) *: g7 != 0 by vm_compute.
have [ts [a [ks [aux [[h1 h2 h3 h4] /(_ [::] text drawsH (ordL sigL) dr ok nd) [sig [s1 s2]]]]]]] :=
  @C71_centralized_threshold toy_S F7 V7 g7 int7 nat_eqType leq nat_eqType H7 Xs7 [::] xc7 lift7 true true newL sigL 2 3%:R
    (fun i => i.+1%:R) randL com c1 c2 c3 c4 d1 d2 d3 (erefl true) (erefl true) (erefl true) (erefl true) sub (erefl 2%N) (erefl true) big hk xg.
have r3 : sig_r sig = Zpos 3 by case: s2 => -> _ _; vm_compute.
exists ts, a, ks, aux, sig.
exact: (conj (And4 h1 h2 (fun i hi => proj1 (h3 i hi)) h4) (And3 s1 r3 s2)).
Qed.
