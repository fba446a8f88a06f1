(** * The parameter sets shipped with the crate.  Definitions only. *)
From Coq Require Import ZArith.
From Verif Require Import Base PaillierModel ZkBase.
Open Scope Z_scope.

(** [nlimbs!(b)] of crypto-bigint on 64-bit targets: whole limbs. *)
Definition limbs (b : Z) : Z := (b + 63) / 64.

(** params/traits.rs:52-58 (defaults of the derived constants) and the shape
    common to params/dev.rs:23-49 and params/k256.rs: [HalfUint], [Uint] and
    [WideUint] hold one, two and four primes, [ExtraWideUint] holds five.
    [q] is the curve order, of [nb] bits, encoded in [slen] bytes. *)
Definition with_defaults (pb q nb : Z) (slen secbits : nat) : sparams :=
  let l := nb in
  SParams (PParams pb (2 * pb) (64 * limbs pb) (64 * limbs (2 * pb)) (64 * limbs (4 * pb)))
    (64 * limbs (5 * pb)) q nb slen
    (Z.to_nat (limbs (2 * pb))) (Z.to_nat (limbs (4 * pb))) secbits
    nb l (pb + l) (pb - 2 * l).

(** params/dev.rs:23-49: [PaillierTest] and [TestParams].  The order of
    TinyCurve32 comes from an external crate and stays a parameter. *)
Definition dev_params (q : Z) : sparams := with_defaults 128 q 32 4 16.

(** The order of secp256k1 (external crate k256; SEC 2). *)
Definition secp256k1_order : Z :=
  0xFFFFFFFFFFFFFFFFFFFFFFFFFFFFFFFEBAAEDCE6AF48A03BBFD25E8CD0364141.

(** params/k256.rs: [PaillierProduction112]/[ProductionParams112]. *)
Definition params_112 : sparams := with_defaults 1024 secp256k1_order 256 32 112.
(** params/k256.rs: [PaillierProduction128]/[ProductionParams128]. *)
Definition params_128 : sparams := with_defaults 1536 secp256k1_order 256 32 128.
