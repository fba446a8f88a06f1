(** * Properties C42-C44: key generation (KeyInit).

    [F] is any field, [V] any vector space over it, [g] the generator, [I] any
    type of party ids ordered by [le], [HO] the type of hash outputs, [H] and [X]
    any hash functions, [scheme] whatever identifies the scheme parameters. *)
From Coq Require Import ZArith.
From Verif Require Import Base EncodingModel.
From mathcomp Require Import all_ssreflect all_algebra.
From Verif Require Import AlgBase ThresholdModel ThresholdSpec ZkBase ZkToy SchModel ProtoBase ProtoSpec KeyInitModel
  KeyInitProofs PropsShare.
Set Implicit Arguments.
Unset Strict Implicit.
Unset Printing Implicit Defensive.
Import GRing.Theory.
Local Open Scope ring_scope.

(** ** A toy setting: three parties, the field with seven elements, a hash that
    depends on its whole input. *)
Notation item7 := (hitem nat nat V7).
Fixpoint code7 (x : item7) : nat :=
  match x with
  | HOut h => h
  | HId i => i.+1
  | HPt P => val P + 11
  | HBits b => foldl (fun n (c : bool) => n.*2 + c) 1 b
  | HNum z => Z.to_nat z
  | HBytes b => size b
  | HSeq l => foldl (fun n y => (3 * n + code7 y) %% 31) 1 l
  end%N.
Definition H7 (d : dst) (l : seq item7) : nat := foldl (fun n y => (3 * n + code7 y) %% 31)%N 1%N l.
Definition Xs7 : xof (seq item7) V7 := const_xof (Zpos 5) true Z0.
Definition trio : seq nat := [:: 0; 1; 2]%N.
Definition sec7 (i : nat) : F7 := i.+1%:R.
Definition tau7 (i : nat) : F7 := (i + 2)%:R.
Definition rho7 (i : nat) : seq bool := [:: odd i; i == 2; true]%N.
Definition u7 (i : nat) : seq bool := [:: true; odd i].
Definition ctx7 (sec : nat -> F7) (i : nat) : ki_ctx V7 nat_eqType nat_eqType :=
  if ki_start g7 H7 [::] trio [::] i (sec i) (tau7 i) (rho7 i) (u7 i) is Ok c then c
  else KiCtx [::] 0%N 0 0 (KiPublic 0 0 [::] [::]) 0%N.
Definition st7 (sec : nat -> F7) (i : nat) : ki_round3 V7 nat_eqType nat_eqType :=
  if ki_until3 leq H7 (ctx7 sec i) (fun j => ki_send1 H7 (ctx7 sec j)) (fun j => ki_send2 (ctx7 sec j))
       (without trio i) (rev (without trio i)) is Accept s then s
  else KiRound3 (ctx7 sec i) [::] [::] [::].
Definition run7 (sec : nat -> F7) (i : nat) : recv ki_error (kshare V7 nat_eqType) :=
  ki_run g7 leq H7 Xs7 (ctx7 sec i) (fun j => ki_send1 H7 (ctx7 sec j)) (fun j => ki_send2 (ctx7 sec j))
    (fun j => ki_send3 Xs7 (st7 sec j)) (without trio i) (rev (without trio i)) (without trio i).
Definition is_ok7 {T} (r : result T) : bool := if r is Ok _ then true else false.
Definition accepted {E T} (r : recv E T) (p : T -> bool) : bool := if r is Accept t then p t else false.
Definition confirmed (r : evid unit) : bool := if r is EvOk _ then true else false.
Definition proto_rejected {E T} (r : recv E T) : bool := if r is Reject (Proto _) then true else false.

(** ** C42 *)
Theorem C42_honest_run (F : fieldType) (V : lmodType F) (g : V) (I : eqType) (le : rel I) (HO : eqType)
    (H : dst -> seq (hitem HO I V) -> HO) (X : xof (seq (hitem HO I V)) V) (scheme : seq (hitem HO I V))
    (ids : seq I) (sr : seq Z) (x tau : I -> F) (rho u : I -> seq bool) (n : nat)
    (c : I -> ki_ctx V I HO) (o1 o2 o3 : I -> seq I) :
  total_order le -> sorted le ids -> uniq ids -> {in ids, forall i, size (rho i) = n} ->
  {in ids, forall i, ki_start g H scheme ids sr i (x i) (tau i) (rho i) (u i) = Ok (c i)} ->
  {in ids, forall i, perm_eq (o1 i) (without ids i)} ->
  {in ids, forall i, perm_eq (o2 i) (without ids i)} ->
  {in ids, forall i, perm_eq (o3 i) (without ids i)} ->
  exists s : I -> ki_round3 V I HO,
  {in ids, forall i,
    ki_until3 le H (c i) (fun j => ki_send1 H (c j)) (fun j => ki_send2 (c j)) (o1 i) (o2 i) = Accept (s i)} /\
  let outcome i := ki_run g le H X (c i) (fun j => ki_send1 H (c j)) (fun j => ki_send2 (c j)) (fun j => ki_send3 X (s j))
                     (o1 i) (o2 i) (o3 i) in
  let key := \sum_(i <- ids) x i in
  (key *: g = 0 -> {in ids, forall i, outcome i = RLocal}) /\
  (key *: g != 0 -> exists shares : I -> kshare V I,
     [/\ {in ids, forall i, outcome i = Accept (shares i)}, additive_sharing g ids key shares,
         {in ids, forall i, ks_secret (shares i) = x i} &
         {in ids, forall i, ks_verifying_key (shares i) = Ok (key *: g)}]).
Proof. by move=> ho hs hu hn hc h1 h2 h3; exact: (ki_honest X ho hs hu hn hc h1 h2 h3). Qed.
Print Assumptions C42_honest_run.

(** Secrets 1, 2, 3: all three parties finish with their own secret, the same
    public shares and the key 6.  With secrets 1, 2, 4 the sum is zero. *)
Example C42_case :
  [/\ sorted leq trio && uniq trio && all (fun i => size (rho7 i) == 3)%N trio &
      all (fun i => is_ok7 (ki_start g7 H7 [::] trio [::] i (sec7 i) (tau7 i) (rho7 i) (u7 i))) trio] /\
  [/\ all (fun i => accepted (run7 sec7 i) (fun k =>
         [&& ks_owner k == i, ks_secret k == sec7 i, ks_parties k == trio,
             [seq p.2 | p <- ks_public k] == [seq sec7 j *: g7 | j <- trio] & ks_vkey_point k == 6%:R *: g7])) trio &
      let sec j := if j == 2%N then 4%:R else sec7 j in
      all (fun i => if run7 sec i is RLocal then true else false) trio].
Proof. by split; split; vm_compute. Qed.

(** ** C43 *)
Theorem C43_finished_party (F : fieldType) (V : lmodType F) (g : V) (I : eqType) (le : rel I) (HO : eqType)
    (H : dst -> seq (hitem HO I V) -> HO) (X : xof (seq (hitem HO I V)) V) (scheme : seq (hitem HO I V))
    ids sr id x tau rho u c m1 m2 m3 o1 o2 o3 k :
  ki_start g H scheme ids sr id x tau rho u = Ok c -> uniq ids ->
  perm_eq o1 (without ids id) -> perm_eq o2 (without ids id) -> perm_eq o3 (without ids id) ->
  ki_run g le H X c m1 m2 m3 o1 o2 o3 = Accept k ->
  [/\ ks_owner k = id, ks_secret k = x, perm_eq (ks_parties k) ids, aget (ks_public k) id = Some (x *: g) &
      ks_vkey_point k != 0] /\
  exists px pa pr pu rho_c psi,
    combined (rho :: [seq pr j | j <- without ids id]) rho_c /\
    {in without ids id, forall j,
      [/\ aget (ks_public k) j = Some (px j),
          m2 j = Msg None (Some (W2EB V HO (pr j))) (Some (W2NB HO (px j) (pa j) (pu j))),
          m1 j = Msg None (Some (W1EB V (H DKeyInit [:: HOut (sid_new H scheme sr ids); HId j; HPt (px j); HPt (pa j);
                                                      HBits (pr j); HBits (pu j)]))) None,
          m3 j = Msg None None (Some (W3NB V HO (psi j))) &
          sch_verify g X (psi j) (pa j) (px j) [:: HOut (sid_new H scheme sr ids); HId j; HBits rho_c]]}.
Proof. exact: ki_malicious. Qed.
Print Assumptions C43_finished_party.

(** Party 1 finishes although party 0 chose its values after seeing nobody
    else's; what party 0 committed to, revealed and proved is what party 1 uses. *)
Example C43_case :
  accepted (run7 sec7 1%N) (fun k => (ks_secret k == 2%:R) && (aget (ks_public k) 0%N == Some (1%:R *: g7))) /\
  perm_eq (rev (without trio 1%N)) (without trio 1%N).
Proof. by split; vm_compute. Qed.
(** The same run is stopped if party 0 reveals another point than it committed
    to, and if its Schnorr proof is for another secret. *)
Example C43_case_stopped :
  let m1 j := ki_send1 H7 (ctx7 sec7 j) in
  let m2 j := if j == 0%N then Msg None (Some (W2EB V7 nat_eqType (rho7 0%N))) (Some (W2NB nat_eqType (5%:R : V7) (6%:R : V7) (u7 0%N)))
              else ki_send2 (ctx7 sec7 j) in
  let m3 j := ki_send3 Xs7 (st7 sec7 j) in
  let m3' j := if j == 0%N then Msg None None (Some (W3NB V7 nat_eqType (SchProof (5%:R : F7) 1%:R))) else m3 j in
  proto_rejected (ki_run g7 leq H7 Xs7 (ctx7 sec7 1%N) m1 m2 m3 [:: 0; 2]%N [:: 0; 2]%N [:: 0; 2]%N) /\
  proto_rejected (ki_run g7 leq H7 Xs7 (ctx7 sec7 1%N) m1 (fun j => ki_send2 (ctx7 sec7 j)) m3' [:: 0; 2]%N [:: 0; 2]%N [:: 0; 2]%N).
Proof. by split; vm_compute. Qed.

(** ** C44 *)
Theorem C44_hash_evidence (F : fieldType) (V : lmodType F) (g : V) (I : eqType) (HO : eqType)
    (H : dst -> seq (hitem HO I V) -> HO) (X : xof (seq (hitem HO I V)) V) (scheme : seq (hitem HO I V))
    ids sr id x tau rho u c cap_vs guilty v m2 hist (echos : nat -> seq (I * ki_wire V HO)) :
  ki_start g H scheme ids sr id x tau rho u = Ok c ->
  ki_recv1 (hist 1%N) = Accept v -> aget cap_vs guilty = Some v -> m_direct m2 = None ->
  ki_recv2 H c cap_vs guilty m2 = Reject (Proto R2HashMismatch) <->
  ki_evidence g H X scheme ids sr guilty R2HashMismatch (assemble (ki_required R2HashMismatch) m2 hist echos) = EvOk tt.
Proof. exact: ki_evidence_hash. Qed.
Print Assumptions C44_hash_evidence.

(** Party 0 reveals something else than it committed to. *)
Definition bad2 : message (ki_wire V7 nat_eqType) :=
  Msg None (Some (W2EB V7 nat_eqType (rho7 0%N))) (Some (W2NB nat_eqType (5%:R : V7) (6%:R : V7) (u7 0%N))).
Definition hist7 (r : nat) : message (ki_wire V7 nat_eqType) :=
  match r with 1 => ki_send1 H7 (ctx7 sec7 0%N) | 2 => ki_send2 (ctx7 sec7 0%N) | _ => ki_send3 Xs7 (st7 sec7 0%N) end%N.
Example C44_hash_case :
  let v := ki_hash H7 (kx_public (ctx7 sec7 0%N)) (kx_sid (ctx7 sec7 0%N)) 0%N in
  accepted (ki_recv1 (hist7 1%N)) (eq_op v) /\
  proto_rejected (ki_recv2 H7 (ctx7 sec7 1%N) [:: (0%N, v)] 0%N bad2) /\
  confirmed (ki_evidence g7 H7 Xs7 [::] trio [::] 0%N R2HashMismatch
    (assemble (ki_required R2HashMismatch) bad2 hist7 (fun _ => [::]))).
Proof. by split; [|split]; vm_compute. Qed.

Theorem C44_schnorr_evidence (F : fieldType) (V : lmodType F) (g : V) (I : eqType) (le : rel I) (HO : eqType)
    (H : dst -> seq (hitem HO I V) -> HO) (X : xof (seq (hitem HO I V)) V) (scheme : seq (hitem HO I V))
    ids sr id x tau rho u c m1 m2 o1 o2 s guilty m3 hist echos :
  ki_start g H scheme ids sr id x tau rho u = Ok c -> uniq ids ->
  perm_eq o1 (without ids id) -> perm_eq o2 (without ids id) ->
  ki_until3 le H c m1 m2 o1 o2 = Accept s ->
  guilty \in without ids id -> hist 2%N = m2 guilty ->
  perm_eq (akeys (echos 2%N)) (without ids guilty) ->
  {in without ids guilty, forall j, aget (echos 2%N) j = m_echo (if j == id then ki_send2 c else m2 j)} ->
  m_direct m3 = None -> m_echo m3 = None ->
  ki_recv3 g X s guilty m3 = Reject (Proto R3InvalidSchProof) <->
  ki_evidence g H X scheme ids sr guilty R3InvalidSchProof (assemble (ki_required R3InvalidSchProof) m3 hist echos) = EvOk tt.
Proof. exact: ki_evidence_sch. Qed.
Print Assumptions C44_schnorr_evidence.

(** Party 0 proves knowledge of a wrong secret; party 1 rejects and its evidence,
    carrying the echoes of parties 1 and 2, convicts party 0. *)
Definition bad3 : message (ki_wire V7 nat_eqType) := Msg None None (Some (W3NB V7 nat_eqType (SchProof (5%:R : F7) 1%:R))).
Definition echos7 (r : nat) : seq (nat * ki_wire V7 nat_eqType) :=
  [seq (j, W2EB V7 nat_eqType (rho7 j)) | j <- [:: 1; 2]%N].
Example C44_schnorr_case :
  proto_rejected (ki_recv3 g7 Xs7 (st7 sec7 1%N) 0%N bad3) /\
  confirmed (ki_evidence g7 H7 Xs7 [::] trio [::] 0%N R3InvalidSchProof
    (assemble (ki_required R3InvalidSchProof) bad3 hist7 echos7)).
Proof. by split; vm_compute. Qed.

(** An honest party is never convicted. *)
Theorem C44_honest_hash_safe (F : fieldType) (V : lmodType F) (g : V) (I : eqType) (HO : eqType)
    (H : dst -> seq (hitem HO I V) -> HO) (X : xof (seq (hitem HO I V)) V) (scheme : seq (hitem HO I V))
    ids sr id x tau rho u c hist (echos : nat -> seq (I * ki_wire V HO)) :
  ki_start g H scheme ids sr id x tau rho u = Ok c -> hist 1%N = ki_send1 H c ->
  ki_evidence g H X scheme ids sr id R2HashMismatch (assemble (ki_required R2HashMismatch) (ki_send2 c) hist echos) = EvInvalid.
Proof. exact: ki_honest_hash_safe. Qed.
Print Assumptions C44_honest_hash_safe.

Theorem C44_honest_schnorr_safe (F : fieldType) (V : lmodType F) (g : V) (I : eqType) (le : rel I) (HO : eqType)
    (H : dst -> seq (hitem HO I V) -> HO) (X : xof (seq (hitem HO I V)) V) (scheme : seq (hitem HO I V))
    ids sr id x tau rho u c m1 m2 o1 o2 s hist echos :
  ki_start g H scheme ids sr id x tau rho u = Ok c -> uniq ids ->
  perm_eq o2 (without ids id) ->
  ki_until3 le H c m1 m2 o1 o2 = Accept s ->
  hist 2%N = ki_send2 c ->
  perm_eq (akeys (echos 2%N)) (without ids id) ->
  {in without ids id, forall j, aget (echos 2%N) j = m_echo (m2 j)} ->
  ki_evidence g H X scheme ids sr id R3InvalidSchProof (assemble (ki_required R3InvalidSchProof) (ki_send3 X s) hist echos) = EvInvalid.
Proof. exact: ki_honest_sch_safe. Qed.
Print Assumptions C44_honest_schnorr_safe.

(** Party 0's honest messages convict it of neither error. *)
Example C44_safe_case :
  ~~ confirmed (ki_evidence g7 H7 Xs7 [::] trio [::] 0%N R2HashMismatch
    (assemble (ki_required R2HashMismatch) (ki_send2 (ctx7 sec7 0%N)) hist7 echos7)) /\
  ~~ confirmed (ki_evidence g7 H7 Xs7 [::] trio [::] 0%N R3InvalidSchProof
    (assemble (ki_required R3InvalidSchProof) (ki_send3 Xs7 (st7 sec7 0%N)) hist7 echos7)).
Proof. by split; vm_compute. Qed.

