(** * The integer-based zero-knowledge proofs: transcription of
    [src/zk/{prm,mod_,fac,enc_elg,aff_g,aff_g_star,dec}.rs].  Definitions only.

    Randomness is explicit: a [..._rand] record holds the results of the RNG
    calls ([random_mod] draws for the range samplers, residues for
    [Randomizer::random], scalars for [Scalar::random]).  A scalar is a [Z] in
    [0, q).  A Paillier public key is its modulus.  [to_wire] of a ciphertext or
    commitment is its value. *)
From Coq Require Import ZArith List Bool.
From Verif Require Import Base SignedModel EncodingModel ConversionModel PaillierModel ZkBase.
Import ListNotations.
Open Scope Z_scope.

(** [iter.map(f).collect()] for a computation that may panic. *)
Fixpoint omap {A B} (f : A -> outcome B) (l : list A) : outcome (list B) :=
  match l with
  | [] => Ret []
  | x :: l' => y <~ f x ;; ys <~ omap f l' ;; Ret (y :: ys)
  end.
(** [for x in iter { if !cond(x) { return false; } } true]. *)
Fixpoint oforall {A} (f : A -> outcome bool) (l : list A) : outcome bool :=
  match l with
  | [] => Ret true
  | x :: l' => b <~ f x ;; check b (oforall f l')
  end.

Section Zk.
Variables (S : sparams) (C : curve) (A : Type) (X : xof A (pt C)).
Notation P := (sp_pail S).
Notation w := (uint_w (sp_pail S)).
Notation ww := (wide_w (sp_pail S)).
Notation xw := (sp_xw S).
Notation q := (sp_q S).
Notation item := (item A (pt C)).

(** Conversions of params/conversion.rs at these parameters. *)
Definition signed_of_scalar (e : Z) : outcome signed := public_signed_from_scalar q (sp_slen S) (sp_L S) e.
Definition scalar_of_signed (x : signed) : outcome Z := scalar_from_signed q (sp_slen S) (sp_L S) (sp_LW S) x.
Definition scalar_of_wide_signed (x : signed) : outcome Z :=
  scalar_from_wide_signed q (sp_slen S) (sp_L S) (sp_LW S) x.
Definition scalar_of_secret (x : signed) : outcome Z := secret_scalar_from_signed q (sp_slen S) (sp_L S) (sp_LW S) x.
Definition scalar_of_wide_secret (x : signed) : outcome Z :=
  secret_scalar_from_wide_signed q (sp_slen S) (sp_L S) (sp_LW S) x.

(** The samplers at the types used by the proofs (secret_signed.rs:303-419). *)
Definition sample (e draw : Z) : outcome signed := sec_random_range w e draw.
Definition sample_scaled (e scale draw : Z) : outcome signed := sec_random_range_scaled w ww e scale draw.

(** ** prm: ring-Pedersen parameters *)

(** zk/prm.rs:61-68. *)
Record prm_proof := PrmProof { prm_commitment : list Z; prm_challenge : list bool; prm_elems : list Z }.

(** zk/prm.rs:50-59. *)
Definition prm_challenge_of (com : list Z) (setup : rpparams) (aux : A) : list bool :=
  x_bits X Tprm [IL (map IZ com); setup_item setup; IA aux] (sp_secbits S).

(** secret_unsigned.rs:43-52 ([add_mod] of values below the modulus). *)
Definition u_add_mod (a b m : Z) : Z := (a + b) mod m.

(** zk/prm.rs:28-45, 70-102; [draws]: one [random_residue_mod_totient] result
    per repetition ([SECURITY_BITS] of them). *)
Definition prm_new (sec : rpsecret) (setup : rpparams) (aux : A) (draws : list Z) : outcome prm_proof :=
  _ <~ oassert (Nat.eqb (length draws) (sp_secbits S)) ;;
  secs <~ omap (random_residue_mod_totient P (rps_primes sec)) draws ;;
  com <~ omap (fun a => pow_unsigned (rp_n setup) (rp_t setup) a) secs ;;
  let tot := pr_totient (rps_primes sec) in
  let e := prm_challenge_of com setup aux in
  Ret (PrmProof com e
    (map (fun ae : unsigned * bool =>
       if snd ae then u_add_mod (uword (fst ae)) (uword (rps_lambda sec)) tot else uword (fst ae))
       (combine secs e))).

(** zk/prm.rs:105-128.  [zip] truncates to the shortest vector; no lengths are
    compared. *)
Definition prm_verify (pf : prm_proof) (setup : rpparams) (aux : A) : outcome bool :=
  let N := rp_n setup in
  let e := prm_challenge_of (prm_commitment pf) setup aux in
  check (bits_eqb e (prm_challenge pf))
    (oforall (fun eza : bool * Z * Z =>
        let '(e, z, a) := eza in
        let pwr := pow_bounded N (rp_t setup) z (bits z) in
        Ret (if e then pwr =? ((a mod N) * rp_s setup) mod N else pwr =? a mod N))
      (combine (combine e (prm_elems pf)) (prm_commitment pf))).

(** ** mod: Paillier-Blum modulus *)

(** zk/mod_.rs:51-57. *)
Record mod_elem := ModElem { me_x : Z; me_a : bool; me_b : bool; me_z : Z }.
(** zk/mod_.rs:68-74. *)
Record mod_proof := ModProof { mod_commitment : Z; mod_challenge : list Z; mod_elems : list mod_elem }.

(** zk/mod_.rs:38-48. *)
Definition mod_challenge_of (N com : Z) (aux : A) : list Z :=
  x_residues X Tmod [IZ N; IZ com; IA aux] N (sp_secbits S).

(** zk/mod_.rs:88-107: the last of the four candidates with a square root wins. *)
Definition mod_candidate (sk : skey) (y2 w2 : Z * Z) (ab : bool * bool) : option (Z * Z) :=
  let p := pr_p (sk_primes sk) in
  let q := pr_q (sk_primes sk) in
  let y2 := if fst ab then ((- fst y2) mod p, (- snd y2) mod q) else y2 in
  let y2 := if snd ab then ((fst y2 * fst w2) mod p, (snd y2 * snd w2) mod q) else y2 in
  rns_sqrt P sk y2.
Definition mod_search (sk : skey) (y2 w2 : Z * Z) : option (Z * Z * bool * bool) :=
  fold_left (fun acc ab =>
      match mod_candidate sk y2 w2 ab with
      | Some r => Some (r, fst ab, snd ab)
      | None => acc
      end)
    [(false, false); (false, true); (true, false); (true, true)] None.

(** zk/mod_.rs:82-129 (one element). *)
Definition mod_elem_new (sk : skey) (w2 : Z * Z) (y : Z) : outcome mod_elem :=
  y2 <~ rns_split P sk y ;;
  found <~ oexpect (mod_search sk y2 w2) ;;
  let '(y_sqrt, a, b) := found in
  parts <~ oexpect (rns_sqrt P sk y_sqrt) ;;
  y4 <~ rns_join P sk parts ;;
  z <~ pow_unsigned (sk_pk sk) (y mod sk_pk sk) (sk_inv_modulus sk) ;;
  Ret (ModElem y4 a b z).

(** zk/mod_.rs:25-32, 77-137; [com] is the result of [random_nonsquare_residue]. *)
Definition mod_new (sk : skey) (aux : A) (com : Z) : outcome mod_proof :=
  let ch := mod_challenge_of (sk_pk sk) com aux in
  w2 <~ rns_split P sk com ;;
  elems <~ omap (mod_elem_new sk w2) ch ;;
  Ret (ModProof com ch elems).

(** Equality of challenge vectors (mod_.rs:34-35, public_uint.rs:8). *)
Fixpoint zs_eqb (a b : list Z) : bool :=
  match a, b with
  | [], [] => true
  | x :: a', y :: b' => (x =? y) && zs_eqb a' b'
  | _, _ => false
  end.

(** zk/mod_.rs:166-195 (one element). *)
Definition mod_elem_verify (N com : Z) (Ns : signed) (ey : mod_elem * Z) : outcome bool :=
  let '(el, y) := ey in
  let ym := y mod N in
  check (is_invertible y N)
   (zn <~ pow_pub ww N (me_z el mod N) Ns ;;
    check (zn =? ym)
     (let ym := if me_a el then (- ym) mod N else ym in
      let ym := if me_b el then (ym * (com mod N)) mod N else ym in
      let x := me_x el mod N in
      let x2 := (x * x) mod N in
      Ret (ym =? (x2 * x2) mod N))).

(** zk/mod_.rs:139-196.  [zip] truncates; the length of the proof is never
    checked. *)
Definition mod_verify (pf : mod_proof) (N : Z) (aux : A) : outcome bool :=
  let ch := mod_challenge_of N (mod_commitment pf) aux in
  check (zs_eqb ch (mod_challenge pf))
   (check (negb (x_is_prime X Tmod_rng [IZ (mod_commitment pf); IZ N; IA aux] N))
     (check (Z.gcd N (mod_commitment pf) =? 1)
       (Ns <~ modulus_signed P N ;;
        oforall (mod_elem_verify N (mod_commitment pf) Ns) (combine (mod_elems pf) (mod_challenge pf))))).

(** ** fac: no small factors *)

(** zk/fac.rs:26-39. *)
Record fac_proof := FacProof {
  fac_e : signed;
  fac_p : Z; fac_q : Z; fac_a : Z; fac_b : Z; fac_t : Z;
  fac_z1 : signed; fac_z2 : signed; fac_w1 : signed; fac_w2 : signed; fac_v : signed }.
Record fac_rand := FacRand {
  fr_alpha : Z; fr_beta : Z; fr_mu : Z; fr_nu : Z; fr_r : Z; fr_x : Z; fr_y : Z }.

(** zk/fac.rs:90-104 and 143-160. *)
Definition fac_challenge (cp cq ca cb ct N0 : Z) (setup : rpparams) (aux : A) : outcome signed :=
  pub_from_xof_range w (sp_l S)
    (x_uint X Tfac [IZ cp; IZ cq; IZ ca; IZ cb; IZ ct; IZ N0; setup_item setup; IA aux] (sp_l S)).

(** zk/fac.rs:42-135.  [Uint << n] of a value that does not overflow. *)
Definition fac_new (sk0 : skey) (setup : rpparams) (aux : A) (rnd : fac_rand) : outcome fac_proof :=
  let N0 := sk_pk sk0 in
  let hat_n := rp_n setup in
  sqrt_n <~ oexpect (oshl w 1 (prime_bits P - 2)) ;;
  alpha <~ sample_scaled (sp_l S + sp_eps S) sqrt_n (fr_alpha rnd) ;;
  beta <~ sample_scaled (sp_l S + sp_eps S) sqrt_n (fr_beta rnd) ;;
  mu <~ sample_scaled (sp_l S) hat_n (fr_mu rnd) ;;
  nu <~ sample_scaled (sp_l S) hat_n (fr_nu rnd) ;;
  let scale := N0 * hat_n in
  r <~ sec_random_range_scaled_wide w xw (sp_l S + sp_eps S) scale (fr_r rnd) ;;
  x <~ sample_scaled (sp_l S + sp_eps S) hat_n (fr_x rnd) ;;
  y <~ sample_scaled (sp_l S + sp_eps S) hat_n (fr_y rnd) ;;
  p <~ p_signed P (sk_primes sk0) ;;
  qq <~ q_signed P (sk_primes sk0) ;;
  cp <~ rp_commit_sec setup w ww p mu ;;
  cq <~ rp_commit_sec setup w ww qq nu ;;
  ca <~ rp_commit_sec setup ww ww alpha x ;;
  cb <~ rp_commit_sec setup ww ww beta y ;;
  cqa <~ rpc_pow_sec setup ww cq alpha ;;
  cr <~ rp_commit_zero_value_sec setup xw r ;;
  let ct := rpc_mul setup cqa cr in
  e <~ fac_challenge cp cq ca cb ct N0 setup aux ;;
  ew <~ pub_to_wide w ww e ;;
  pe <~ sec_mul w p e ;;
  pew <~ sec_to_wide w ww pe ;;
  z1 <~ sec_add ww alpha pew ;;
  z1 <~ sec_to_public ww z1 ;;
  qe <~ sec_mul w qq e ;;
  qew <~ sec_to_wide w ww qe ;;
  z2 <~ sec_add ww beta qew ;;
  z2 <~ sec_to_public ww z2 ;;
  mue <~ sec_mul ww mu ew ;;
  w1 <~ sec_add ww x mue ;;
  w1 <~ sec_to_public ww w1 ;;
  nue <~ sec_mul ww nu ew ;;
  w2 <~ sec_add ww y nue ;;
  w2 <~ sec_to_public ww w2 ;;
  pew2 <~ sec_mul_wide_public w w p e ;;
  pen <~ sec_mul ww pew2 nu ;;
  penx <~ sec_to_wide ww xw pen ;;
  v <~ sec_sub xw r penx ;;
  v <~ sec_to_public xw v ;;
  Ret (FacProof e cp cq ca cb ct z1 z2 w1 w2 v).

(** zk/fac.rs:137-207. *)
Definition fac_verify (pf : fac_proof) (N0 : Z) (setup : rpparams) (aux : A) : outcome bool :=
  e <~ fac_challenge (fac_p pf) (fac_q pf) (fac_a pf) (fac_b pf) (fac_t pf) N0 setup aux ;;
  check (s_eqb e (fac_e pf))
  (r1 <~ pub_in_range ww (fac_z1 pf) (sp_l S + sp_eps S + prime_bits P - 2) ;;
   check r1
  (r2 <~ pub_in_range ww (fac_z2 pf) (sp_l S + sp_eps S + prime_bits P - 2) ;;
   check r2
  (n0 <~ modulus_signed P N0 ;;
   cr <~ rp_commit_zero_randomizer_pub setup ww n0 ;;
   let ca := rpc_to_precomputed setup (fac_a pf) in
   let cp := rpc_to_precomputed setup (fac_p pf) in
   l1 <~ rp_commit_pub setup ww ww (fac_z1 pf) (fac_w1 pf) ;;
   pe <~ rpc_pow_pub setup w cp e ;;
   check (l1 =? rpc_mul setup ca pe)
  (let cb := rpc_to_precomputed setup (fac_b pf) in
   let cq := rpc_to_precomputed setup (fac_q pf) in
   l2 <~ rp_commit_pub setup ww ww (fac_z2 pf) (fac_w2 pf) ;;
   qe <~ rpc_pow_pub setup w cq e ;;
   check (l2 =? rpc_mul setup cb qe)
  (let ct := rpc_to_precomputed setup (fac_t pf) in
   qz <~ rpc_pow_pub setup ww cq (fac_z1 pf) ;;
   tv <~ rp_commit_zero_value_pub setup xw (fac_v pf) ;;
   re <~ rpc_pow_pub setup w cr e ;;
   check (rpc_mul setup qz tv =? rpc_mul setup ct re)
   (Ret true)))))).

(** ** enc_elg: encryption in range with an El-Gamal commitment *)

(** zk/enc_elg.rs:21-42. *)
Record enc_elg_secret := EncElgSecret { es_x : signed; es_rho : Z; es_b : Z }.
Record enc_elg_public := EncElgPublic {
  ep_pk0 : Z; ep_cap_c : ciphertext; ep_cap_a : pt C; ep_cap_b : pt C; ep_cap_x : pt C }.
(** zk/enc_elg.rs:46-58. *)
Record enc_elg_proof := EncElgProof {
  ee_e : Z; ee_s : Z; ee_d : Z; ee_y : pt C; ee_z : pt C; ee_t : Z;
  ee_z1 : signed; ee_w : Z; ee_z2 : Z; ee_z3 : signed }.
Record enc_elg_rand := EncElgRand { er_alpha : Z; er_mu : Z; er_r : Z; er_beta : Z; er_gamma : Z }.

(** zk/enc_elg.rs:85-104 and 133-152. *)
Definition enc_elg_challenge (s d : Z) (y z : pt C) (t : Z) (pub : enc_elg_public) (setup : rpparams) (aux : A) : Z :=
  x_scalar X Tenc_elg
    [IZ s; IZ d; IP y; IP z; IZ t; IZ (ep_pk0 pub); IZ (ct_val (ep_cap_c pub));
     IP (ep_cap_a pub); IP (ep_cap_b pub); IP (ep_cap_x pub); setup_item setup; IA aux].

(** zk/enc_elg.rs:61-123. *)
Definition enc_elg_new (sec : enc_elg_secret) (pub : enc_elg_public) (setup : rpparams) (aux : A)
    (rnd : enc_elg_rand) : outcome enc_elg_proof :=
  _ <~ sec_assert_range w (es_x sec) (sp_l S) ;;
  _ <~ oassert (ct_pk (ep_cap_c pub) =? ep_pk0 pub) ;;
  let hat_n := rp_n setup in
  alpha <~ sample (sp_l S + sp_eps S) (er_alpha rnd) ;;
  mu <~ sample_scaled (sp_l S) hat_n (er_mu rnd) ;;
  let r := er_r rnd in
  let beta := er_beta rnd in
  gamma <~ sample_scaled (sp_l S + sp_eps S) hat_n (er_gamma rnd) ;;
  cs <~ rp_commit_sec setup w ww (es_x sec) mu ;;
  cd <~ enc P (ep_pk0 pub) alpha r ;;
  alpha_s <~ scalar_of_secret alpha ;;
  let cy := padd C (pmul C beta (ep_cap_a pub)) (pmul C alpha_s (gen C)) in
  let cz := pmul C beta (gen C) in
  ct <~ rp_commit_sec setup w ww alpha gamma ;;
  let e := enc_elg_challenge cs (ct_val cd) cy cz ct pub setup aux in
  es <~ signed_of_scalar e ;;
  xe <~ sec_mul w (es_x sec) es ;;
  z1 <~ sec_add w alpha xe ;;
  z1 <~ sec_to_public w z1 ;;
  let w_ := (beta + es_b sec * e) mod q in
  z2 <~ to_masked P (ep_pk0 pub) (es_rho sec) r es ;;
  ew <~ pub_to_wide w ww es ;;
  mue <~ sec_mul ww mu ew ;;
  z3 <~ sec_add ww gamma mue ;;
  z3 <~ sec_to_public ww z3 ;;
  Ret (EncElgProof e cs (ct_val cd) cy cz ct z1 w_ z2 z3).

(** zk/enc_elg.rs:125-190. *)
Definition enc_elg_verify (pf : enc_elg_proof) (pub : enc_elg_public) (setup : rpparams) (aux : A) : outcome bool :=
  _ <~ oassert (ct_pk (ep_cap_c pub) =? ep_pk0 pub) ;;
  let e := enc_elg_challenge (ee_s pf) (ee_d pf) (ee_y pf) (ee_z pf) (ee_t pf) pub setup aux in
  check (e =? ee_e pf)
  (es <~ signed_of_scalar e ;;
   rg <~ pub_in_range w (ee_z1 pf) (sp_l S + sp_eps S) ;;
   check rg
  (c <~ enc_public P (ep_pk0 pub) (ee_z1 pf) (ee_z2 pf) ;;
   let cd := ct_to_precomputed (ep_pk0 pub) (ee_d pf) in
   ce <~ homomorphic_mul_pub w (ep_cap_c pub) es ;;
   rhs <~ homomorphic_add cd ce ;;
   check (ct_eqb c rhs)
  (z1s <~ scalar_of_signed (ee_z1 pf) ;;
   check (peqb C (padd C (pmul C (ee_w pf) (ep_cap_a pub)) (pmul C z1s (gen C)))
                 (padd C (ee_y pf) (pmul C e (ep_cap_x pub))))
  (check (peqb C (pmul C (ee_w pf) (gen C)) (padd C (ee_z pf) (pmul C e (ep_cap_b pub))))
  (let ct := rpc_to_precomputed setup (ee_t pf) in
   let cs := rpc_to_precomputed setup (ee_s pf) in
   lhs <~ rp_commit_pub setup w ww (ee_z1 pf) (ee_z3 pf) ;;
   se <~ rpc_pow_pub setup w cs es ;;
   check (lhs =? rpc_mul setup ct se)
   (Ret true)))))).

(** ** aff_g: affine operation with group commitment in range *)

(** zk/aff_g.rs:18-47. *)
Record aff_g_secret := AffGSecret { as_x : signed; as_y : signed; as_rho : Z; as_rho_y : Z }.
Record aff_g_public := AffGPublic {
  ap_pk0 : Z; ap_pk1 : Z; ap_cap_c : ciphertext; ap_cap_d : ciphertext; ap_cap_y : ciphertext; ap_cap_x : pt C }.
(** zk/aff_g.rs:51-67. *)
Record aff_g_proof := AffGProof {
  ag_e : Z; ag_a : Z; ag_bx : pt C; ag_by : Z; ag_ce : Z; ag_s : Z; ag_f : Z; ag_t : Z;
  ag_z1 : signed; ag_z2 : signed; ag_z3 : signed; ag_z4 : signed; ag_w : Z; ag_wy : Z }.
Record aff_g_rand := AffGRand {
  ar_alpha : Z; ar_beta : Z; ar_r : Z; ar_ry : Z; ar_gamma : Z; ar_m : Z; ar_delta : Z; ar_mu : Z }.

(** zk/aff_g.rs:108-131 and 175-196. *)
Definition aff_g_challenge (a : Z) (bx : pt C) (by_ ce f s t : Z) (pub : aff_g_public) (setup : rpparams) (aux : A) : Z :=
  x_scalar X Taff_g
    [IZ a; IP bx; IZ by_; IZ ce; IZ f; IZ s; IZ t; IZ (ap_pk0 pub); IZ (ap_pk1 pub);
     IZ (ct_val (ap_cap_c pub)); IZ (ct_val (ap_cap_d pub)); IZ (ct_val (ap_cap_y pub));
     IP (ap_cap_x pub); setup_item setup; IA aux].

(** zk/aff_g.rs:70-167. *)
Definition aff_g_new (sec : aff_g_secret) (pub : aff_g_public) (setup : rpparams) (aux : A)
    (rnd : aff_g_rand) : outcome aff_g_proof :=
  _ <~ sec_assert_range w (as_x sec) (sp_l S) ;;
  _ <~ sec_assert_range w (as_y sec) (sp_lp S) ;;
  _ <~ oassert (ct_pk (ap_cap_c pub) =? ap_pk0 pub) ;;
  _ <~ oassert (ct_pk (ap_cap_d pub) =? ap_pk0 pub) ;;
  _ <~ oassert (ct_pk (ap_cap_y pub) =? ap_pk1 pub) ;;
  let hat_n := rp_n setup in
  alpha <~ sample (sp_l S + sp_eps S) (ar_alpha rnd) ;;
  beta <~ sample (sp_lp S + sp_eps S) (ar_beta rnd) ;;
  let r := ar_r rnd in
  let ry := ar_ry rnd in
  gamma <~ sample_scaled (sp_l S + sp_eps S) hat_n (ar_gamma rnd) ;;
  m <~ sample_scaled (sp_l S) hat_n (ar_m rnd) ;;
  delta <~ sample_scaled (sp_l S + sp_eps S) hat_n (ar_delta rnd) ;;
  mu <~ sample_scaled (sp_l S) hat_n (ar_mu rnd) ;;
  ca1 <~ homomorphic_mul_sec w (ap_cap_c pub) alpha ;;
  ca2 <~ enc P (ap_pk0 pub) beta r ;;
  ca <~ homomorphic_add ca1 ca2 ;;
  alpha_s <~ scalar_of_secret alpha ;;
  let bx := pmul C alpha_s (gen C) in
  by_ <~ enc P (ap_pk1 pub) beta ry ;;
  ce <~ rp_commit_sec setup w ww alpha gamma ;;
  cs <~ rp_commit_sec setup w ww (as_x sec) m ;;
  cf <~ rp_commit_sec setup w ww beta delta ;;
  ct <~ rp_commit_sec setup w ww (sec_neg w (as_y sec)) mu ;;
  let e_scalar := aff_g_challenge (ct_val ca) bx (ct_val by_) ce cf cs ct pub setup aux in
  e <~ signed_of_scalar e_scalar ;;
  ew <~ pub_to_wide w ww e ;;
  xe <~ sec_mul w (as_x sec) e ;;
  z1 <~ sec_add w alpha xe ;;
  z1 <~ sec_to_public w z1 ;;
  ye <~ sec_mul w (sec_neg w (as_y sec)) e ;;
  z2 <~ sec_add w beta ye ;;
  z2 <~ sec_to_public w z2 ;;
  me <~ sec_mul ww m ew ;;
  z3 <~ sec_add ww gamma me ;;
  z3 <~ sec_to_public ww z3 ;;
  mue <~ sec_mul ww mu ew ;;
  z4 <~ sec_add ww delta mue ;;
  z4 <~ sec_to_public ww z4 ;;
  w_ <~ to_masked P (ap_pk0 pub) (as_rho sec) r e ;;
  wy <~ to_masked P (ap_pk1 pub) (as_rho_y sec) ry (pub_neg w e) ;;
  Ret (AffGProof e_scalar (ct_val ca) bx (ct_val by_) ce cs cf ct z1 z2 z3 z4 w_ wy).

(** zk/aff_g.rs:170-252. *)
Definition aff_g_verify (pf : aff_g_proof) (pub : aff_g_public) (setup : rpparams) (aux : A) : outcome bool :=
  _ <~ oassert (ct_pk (ap_cap_c pub) =? ap_pk0 pub) ;;
  _ <~ oassert (ct_pk (ap_cap_d pub) =? ap_pk0 pub) ;;
  _ <~ oassert (ct_pk (ap_cap_y pub) =? ap_pk1 pub) ;;
  let e_scalar := aff_g_challenge (ag_a pf) (ag_bx pf) (ag_by pf) (ag_ce pf) (ag_f pf) (ag_s pf) (ag_t pf) pub setup aux in
  check (e_scalar =? ag_e pf)
  (e <~ signed_of_scalar e_scalar ;;
   r1 <~ pub_in_range w (ag_z1 pf) (sp_l S + sp_eps S) ;;
   check r1
  (r2 <~ pub_in_range w (ag_z2 pf) (sp_lp S + sp_eps S) ;;
   check r2
  (cz <~ homomorphic_mul_pub w (ap_cap_c pub) (ag_z1 pf) ;;
   ez <~ enc_public P (ap_pk0 pub) (ag_z2 pf) (ag_w pf) ;;
   lhs <~ homomorphic_add cz ez ;;
   de <~ homomorphic_mul_pub w (ap_cap_d pub) e ;;
   rhs <~ homomorphic_add de (ct_to_precomputed (ap_pk0 pub) (ag_a pf)) ;;
   check (ct_eqb lhs rhs)
  (z1s <~ scalar_of_signed (ag_z1 pf) ;;
   check (peqb C (pmul C z1s (gen C)) (padd C (ag_bx pf) (pmul C e_scalar (ap_cap_x pub))))
  (lhs <~ enc_public P (ap_pk1 pub) (ag_z2 pf) (ag_wy pf) ;;
   ye <~ homomorphic_mul_pub w (ap_cap_y pub) (pub_neg w e) ;;
   rhs <~ homomorphic_add ye (ct_to_precomputed (ap_pk1 pub) (ag_by pf)) ;;
   check (ct_eqb lhs rhs)
  (let ce := rpc_to_precomputed setup (ag_ce pf) in
   let cs := rpc_to_precomputed setup (ag_s pf) in
   l3 <~ rp_commit_pub setup w ww (ag_z1 pf) (ag_z3 pf) ;;
   se <~ rpc_pow_pub setup w cs e ;;
   check (l3 =? rpc_mul setup ce se)
  (let cf := rpc_to_precomputed setup (ag_f pf) in
   let ct := rpc_to_precomputed setup (ag_t pf) in
   l4 <~ rp_commit_pub setup w ww (ag_z2 pf) (ag_z4 pf) ;;
   te <~ rpc_pow_pub setup w ct e ;;
   check (l4 =? rpc_mul setup cf te)
   (Ret true)))))))).

(** ** aff_g_star: setup-less affine operation *)

(** zk/aff_g_star.rs:21-50; [ss_mu] is the randomizer of [Y]. *)
Record aff_gs_secret := AffGStarSecret { ss_x : signed; ss_y : signed; ss_rho : Z; ss_mu : Z }.
(** The public inputs have the same fields as [aff_g_public]. *)
(** zk/aff_g_star.rs:59-81. *)
Record aff_gs_com := AffGStarCom { sc_a : Z; sc_r : pt C; sc_b : Z }.
Record aff_gs_elem := AffGStarElem { sl_z : signed; sl_zp : signed; sl_w : Z; sl_lambda : Z }.
Record aff_gs_proof := AffGStarProof { sg_e : list bool; sg_coms : list aff_gs_com; sg_elems : list aff_gs_elem }.
Record aff_gs_rand := AffGStarRand { sr_alpha : Z; sr_beta : Z; sr_r : Z; sr_s : Z }.
(** zk/aff_g_star.rs:52-57. *)
Record aff_gs_eph := AffGStarEph { sh_alpha : signed; sh_beta : signed; sh_r : Z; sh_s : Z }.

(** zk/aff_g_star.rs:114-128 and 180-194. *)
Definition aff_gs_com_item (c : aff_gs_com) : item := IL [IZ (sc_a c); IP (sc_r c); IZ (sc_b c)].
Definition aff_gs_challenge (coms : list aff_gs_com) (pub : aff_g_public) (aux : A) : list bool :=
  x_bits X Taff_g_star
    [IL (map aff_gs_com_item coms); IZ (ap_pk0 pub); IZ (ap_pk1 pub);
     IZ (ct_val (ap_cap_c pub)); IZ (ct_val (ap_cap_d pub)); IZ (ct_val (ap_cap_y pub));
     IP (ap_cap_x pub); IA aux] (Z.to_nat (sp_kappa S)).

(** zk/aff_g_star.rs:96-112 (one repetition). *)
Definition aff_gs_commit (pub : aff_g_public) (rnd : aff_gs_rand) : outcome (aff_gs_eph * aff_gs_com) :=
  alpha <~ sample (sp_l S + sp_eps S) (sr_alpha rnd) ;;
  beta <~ sample (sp_lp S + sp_eps S) (sr_beta rnd) ;;
  let r := sr_r rnd in
  let s := sr_s rnd in
  ca1 <~ homomorphic_mul_sec w (ap_cap_c pub) alpha ;;
  ca2 <~ enc P (ap_pk0 pub) beta r ;;
  ca <~ homomorphic_add ca1 ca2 ;;
  alpha_s <~ scalar_of_secret alpha ;;
  let cr := pmul C alpha_s (gen C) in
  cb <~ enc P (ap_pk1 pub) beta s ;;
  Ret (AffGStarEph alpha beta r s, AffGStarCom (ct_val ca) cr (ct_val cb)).

(** zk/aff_g_star.rs:130-166 (one repetition). *)
Definition aff_gs_respond (sec : aff_gs_secret) (pub : aff_g_public) (eb : aff_gs_eph * bool) : outcome aff_gs_elem :=
  let '(eph, e) := eb in
  z <~ (if e : bool then sec_add w (sh_alpha eph) (ss_x sec) else Ret (sh_alpha eph)) ;;
  zp <~ (if e : bool then sec_add w (sh_beta eph) (sec_neg w (ss_y sec)) else Ret (sh_beta eph)) ;;
  let ex := if e : bool then pub_one else s_zero in
  w_ <~ to_masked P (ap_pk0 pub) (ss_rho sec) (sh_r eph) ex ;;
  la <~ to_masked P (ap_pk1 pub) (ss_mu sec) (sh_s eph) (pub_neg w ex) ;;
  z <~ sec_to_public w z ;;
  zp <~ sec_to_public w zp ;;
  Ret (AffGStarElem z zp w_ la).

(** zk/aff_g_star.rs:84-173; one [aff_gs_rand] per repetition. *)
Definition aff_gs_new (sec : aff_gs_secret) (pub : aff_g_public) (aux : A) (rnds : list aff_gs_rand)
    : outcome aff_gs_proof :=
  _ <~ oassert (Nat.eqb (length rnds) (Z.to_nat (sp_kappa S))) ;;
  _ <~ sec_assert_range w (ss_x sec) (sp_l S) ;;
  _ <~ sec_assert_range w (ss_y sec) (sp_lp S) ;;
  _ <~ oassert (ct_pk (ap_cap_c pub) =? ap_pk0 pub) ;;
  _ <~ oassert (ct_pk (ap_cap_d pub) =? ap_pk0 pub) ;;
  _ <~ oassert (ct_pk (ap_cap_y pub) =? ap_pk1 pub) ;;
  ecs <~ omap (aff_gs_commit pub) rnds ;;
  let coms := map snd ecs in
  let e := aff_gs_challenge coms pub aux in
  elems <~ omap (aff_gs_respond sec pub) (combine (map fst ecs) e) ;;
  Ret (AffGStarProof e coms elems).

(** zk/aff_g_star.rs:204-255 (one repetition). *)
Definition aff_gs_elem_verify (pub : aff_g_public) (ecl : bool * aff_gs_com * aff_gs_elem) : outcome bool :=
  let '(e, com, el) := ecl in
  r1 <~ pub_in_range w (sl_z el) (sp_l S + sp_eps S) ;;
  check r1
  (r2 <~ pub_in_range w (sl_zp el) (sp_lp S + sp_eps S) ;;
   check r2
  (let ca := ct_to_precomputed (ap_pk0 pub) (sc_a com) in
   cz <~ homomorphic_mul_pub w (ap_cap_c pub) (sl_z el) ;;
   ez <~ enc_public P (ap_pk0 pub) (sl_zp el) (sl_w el) ;;
   lhs <~ homomorphic_add cz ez ;;
   rhs <~ (if e : bool then homomorphic_add ca (ap_cap_d pub) else Ret ca) ;;
   check (ct_eqb lhs rhs)
  (zs <~ scalar_of_signed (sl_z el) ;;
   check (peqb C (pmul C zs (gen C)) (if e : bool then padd C (sc_r com) (ap_cap_x pub) else sc_r com))
  (let cb := ct_to_precomputed (ap_pk1 pub) (sc_b com) in
   lhs <~ enc_public P (ap_pk1 pub) (sl_zp el) (sl_lambda el) ;;
   rhs <~ (if e : bool then homomorphic_sub cb (ap_cap_y pub) else Ret cb) ;;
   Ret (ct_eqb lhs rhs))))).

(** zk/aff_g_star.rs:175-258. *)
Definition aff_gs_verify (pf : aff_gs_proof) (pub : aff_g_public) (aux : A) : outcome bool :=
  _ <~ oassert (ct_pk (ap_cap_c pub) =? ap_pk0 pub) ;;
  _ <~ oassert (ct_pk (ap_cap_d pub) =? ap_pk0 pub) ;;
  _ <~ oassert (ct_pk (ap_cap_y pub) =? ap_pk1 pub) ;;
  let e := aff_gs_challenge (sg_coms pf) pub aux in
  check (bits_eqb e (sg_e pf))
  (check (Nat.eqb (length e) (length (sg_coms pf)) && Nat.eqb (length e) (length (sg_elems pf)))
    (oforall (aff_gs_elem_verify pub) (combine (combine e (sg_coms pf)) (sg_elems pf)))).

(** ** dec: decryption in the exponent *)

(** zk/dec.rs:24-59. *)
Record dec_secret := DecSecret { ds_x : signed; ds_y : signed; ds_rho : Z }.
Record dec_public := DecPublic {
  dp_pk0 : Z; dp_cap_k : ciphertext; dp_cap_x : pt C; dp_cap_d : ciphertext;
  dp_cap_s : pt C; dp_cap_g : pt C; dp_num_parties : Z }.
(** zk/dec.rs:70-89. *)
Record dec_com := DecCom { dc_a : Z; dc_b : pt C; dc_c : pt C }.
Record dec_elem := DecElem { de_z : signed; de_w : signed; de_nu : Z }.
Record dec_proof := DecProof { dg_e : list bool; dg_coms : list dec_com; dg_elems : list dec_elem }.
Record dec_rand := DecRand { dr_alpha : Z; dr_beta : Z; dr_r : Z }.
Record dec_eph := DecEph { dh_alpha : signed; dh_beta : signed; dh_r : Z }.

(** zk/dec.rs:103 and 257: [(num_parties - 1).ilog2() + 1]; [usize]
    underflow (overflow checks) for 0, [ilog2(0)] panics for 1. *)
Definition ceil_log2_parties (n : Z) : outcome Z :=
  m <~ oexpect (csub n 1) ;;
  _ <~ oassert (0 <? m) ;;
  Ret (Z.log2 m + 1).

(** zk/dec.rs:135-150 and 184-199. *)
Definition dec_com_item (c : dec_com) : item := IL [IZ (dc_a c); IP (dc_b c); IP (dc_c c)].
Definition dec_challenge (coms : list dec_com) (pub : dec_public) (setup : rpparams) (aux : A) : list bool :=
  x_bits X Tdec
    [IL (map dec_com_item coms); IZ (dp_pk0 pub); IZ (ct_val (dp_cap_k pub)); IP (dp_cap_x pub);
     IZ (ct_val (dp_cap_d pub)); IP (dp_cap_s pub); IP (dp_cap_g pub); setup_item setup; IA aux]
    (Z.to_nat (sp_kappa S)).

(** zk/dec.rs:110-133 (one repetition). *)
Definition dec_commit (pub : dec_public) (y_bound : Z) (rnd : dec_rand) : outcome (dec_eph * dec_com) :=
  alpha <~ sample (sp_l S + sp_eps S) (dr_alpha rnd) ;;
  beta <~ sec_random_range ww (y_bound + sp_eps S) (dr_beta rnd) ;;
  let r := dr_r rnd in
  ka <~ homomorphic_mul_sec w (dp_cap_k pub) (sec_neg w alpha) ;;
  eb <~ enc_wide P (dp_pk0 pub) beta r ;;
  ca <~ homomorphic_add ka eb ;;
  beta_s <~ scalar_of_wide_secret beta ;;
  let cb := pmul C beta_s (dp_cap_g pub) in
  alpha_s <~ scalar_of_secret alpha ;;
  let cc := pmul C alpha_s (gen C) in
  Ret (DecEph alpha beta r, DecCom (ct_val ca) cb cc).

(** zk/dec.rs:152-174 (one repetition). *)
Definition dec_respond (sec : dec_secret) (pub : dec_public) (eb : dec_eph * bool) : outcome dec_elem :=
  let '(eph, e) := eb in
  z <~ (if e : bool then sec_add w (dh_alpha eph) (ds_x sec) else Ret (dh_alpha eph)) ;;
  w_ <~ (if e : bool then (yw <~ sec_to_wide w ww (ds_y sec) ;; sec_add ww (dh_beta eph) yw) else Ret (dh_beta eph)) ;;
  let ex := if e : bool then pub_one else s_zero in
  nu <~ to_masked P (dp_pk0 pub) (ds_rho sec) (dh_r eph) ex ;;
  z <~ sec_to_public w z ;;
  w_ <~ sec_to_public ww w_ ;;
  Ret (DecElem z w_ nu).

(** zk/dec.rs:92-181. *)
Definition dec_new (sec : dec_secret) (pub : dec_public) (setup : rpparams) (aux : A) (rnds : list dec_rand)
    : outcome dec_proof :=
  _ <~ oassert (Nat.eqb (length rnds) (Z.to_nat (sp_kappa S))) ;;
  _ <~ sec_assert_range w (ds_x sec) (sp_l S) ;;
  cl <~ ceil_log2_parties (dp_num_parties pub) ;;
  let y_bound := sp_lp S + sp_eps S + 1 + cl in
  _ <~ sec_assert_range w (ds_y sec) y_bound ;;
  _ <~ oassert (ct_pk (dp_cap_k pub) =? dp_pk0 pub) ;;
  _ <~ oassert (ct_pk (dp_cap_d pub) =? dp_pk0 pub) ;;
  ecs <~ omap (dec_commit pub y_bound) rnds ;;
  let coms := map snd ecs in
  let e := dec_challenge coms pub setup aux in
  elems <~ omap (dec_respond sec pub) (combine (map fst ecs) e) ;;
  Ret (DecProof e coms elems).

(** zk/dec.rs:209-264 (one repetition). *)
Definition dec_elem_verify (pub : dec_public) (ecl : bool * dec_com * dec_elem) : outcome bool :=
  let '(e, com, el) := ecl in
  let ca := ct_to_precomputed (dp_pk0 pub) (dc_a com) in
  ew <~ enc_public_wide P (dp_pk0 pub) (de_w el) (de_nu el) ;;
  kz <~ homomorphic_mul_pub w (dp_cap_k pub) (pub_neg w (de_z el)) ;;
  lhs <~ homomorphic_add ew kz ;;
  rhs <~ (if e : bool then homomorphic_add ca (dp_cap_d pub) else Ret ca) ;;
  check (ct_eqb lhs rhs)
  (zs <~ scalar_of_signed (de_z el) ;;
   check (peqb C (pmul C zs (gen C)) (if e : bool then padd C (dc_c com) (dp_cap_x pub) else dc_c com))
  (ws <~ scalar_of_wide_signed (de_w el) ;;
   check (peqb C (pmul C ws (dp_cap_g pub)) (if e : bool then padd C (dc_b com) (dp_cap_s pub) else dc_b com))
  (r1 <~ pub_in_range w (de_z el) (sp_l S + sp_eps S) ;;
   check r1
  (cl <~ ceil_log2_parties (dp_num_parties pub) ;;
   r2 <~ pub_in_range ww (de_w el) (sp_lp S + sp_eps S + 1 + cl + sp_eps S) ;;
   Ret r2)))).

(** zk/dec.rs:183-267. *)
Definition dec_verify (pf : dec_proof) (pub : dec_public) (setup : rpparams) (aux : A) : outcome bool :=
  let e := dec_challenge (dg_coms pf) pub setup aux in
  check (bits_eqb e (dg_e pf))
  (check (Nat.eqb (length e) (length (dg_coms pf)) && Nat.eqb (length e) (length (dg_elems pf)))
    (oforall (dec_elem_verify pub) (combine (combine e (dg_coms pf)) (dg_elems pf)))).

End Zk.

Arguments ep_pk0 {C}. Arguments ep_cap_c {C}. Arguments ep_cap_a {C}. Arguments ep_cap_b {C}. Arguments ep_cap_x {C}.
Arguments EncElgPublic {C}. Arguments EncElgProof {C}.
Arguments ee_e {C}. Arguments ee_s {C}. Arguments ee_d {C}. Arguments ee_y {C}. Arguments ee_z {C}. Arguments ee_t {C}.
Arguments ee_z1 {C}. Arguments ee_w {C}. Arguments ee_z2 {C}. Arguments ee_z3 {C}.
Arguments ap_pk0 {C}. Arguments ap_pk1 {C}. Arguments ap_cap_c {C}. Arguments ap_cap_d {C}. Arguments ap_cap_y {C}.
Arguments ap_cap_x {C}. Arguments AffGPublic {C}. Arguments AffGProof {C}.
Arguments ag_e {C}. Arguments ag_a {C}. Arguments ag_bx {C}. Arguments ag_by {C}. Arguments ag_ce {C}. Arguments ag_s {C}.
Arguments ag_f {C}. Arguments ag_t {C}. Arguments ag_z1 {C}. Arguments ag_z2 {C}. Arguments ag_z3 {C}. Arguments ag_z4 {C}.
Arguments ag_w {C}. Arguments ag_wy {C}.
Arguments AffGStarCom {C}. Arguments sc_a {C}. Arguments sc_r {C}. Arguments sc_b {C}.
Arguments AffGStarProof {C}. Arguments sg_e {C}. Arguments sg_coms {C}. Arguments sg_elems {C}.
Arguments DecPublic {C}. Arguments dp_pk0 {C}. Arguments dp_cap_k {C}. Arguments dp_cap_x {C}. Arguments dp_cap_d {C}.
Arguments dp_cap_s {C}. Arguments dp_cap_g {C}. Arguments dp_num_parties {C}.
Arguments DecCom {C}. Arguments dc_a {C}. Arguments dc_b {C}. Arguments dc_c {C}.
Arguments DecProof {C}. Arguments dg_e {C}. Arguments dg_coms {C}. Arguments dg_elems {C}.
Arguments prm_challenge_of S {C A} X. Arguments prm_new S {C A} X. Arguments prm_verify S {C A} X.
Arguments mod_challenge_of S {C A} X. Arguments mod_new S {C A} X. Arguments mod_verify S {C A} X.
Arguments fac_challenge S {C A} X. Arguments fac_new S {C A} X. Arguments fac_verify S {C A} X.
Arguments enc_elg_challenge {C A} X. Arguments enc_elg_new S {C A} X. Arguments enc_elg_verify S {C A} X.
Arguments aff_g_challenge {C A} X. Arguments aff_g_new S {C A} X. Arguments aff_g_verify S {C A} X.
Arguments aff_gs_challenge S {C A} X. Arguments aff_gs_new S {C A} X. Arguments aff_gs_verify S {C A} X.
Arguments aff_gs_commit S {C}. Arguments aff_gs_respond S {C}. Arguments aff_gs_elem_verify S {C}.
Arguments dec_challenge S {C A} X. Arguments dec_new S {C A} X. Arguments dec_verify S {C A} X.
Arguments dec_commit S {C}. Arguments dec_respond S {C}. Arguments dec_elem_verify S {C}.
