(** * Messages of the error rounds with one fault each (C68), in the toy session
    of C55: party 2 cheated in round 3, party 1 sends the prescribed messages of
    rounds 5 and 6 with one part changed, party 0 looks at them. *)
From Coq Require Import ZArith.
From Verif Require Import Base ZkBase ZkModel ZkToy.
From mathcomp Require Import all_ssreflect.
From Verif Require Import ProtoBase AuxGenModel AuxGenToy SigningModel SigningToy SigningEvidenceToy.
Set Implicit Arguments.
Unset Strict Implicit.
Unset Printing Implicit Defensive.

Definition edit (f : r56eb curve7 nat_eqType -> r56eb curve7 nat_eqType) (m : msgS) : msgS :=
  match m with
  | Msg a (Some (S5EB e)) b => Msg a (Some (S5EB (f e))) b
  | Msg a (Some (S6EB e)) b => Msg a (Some (S6EB (f e))) b
  | _ => m
  end.
Definition other_dec (n : dec_proof curve7) (e : r56eb curve7 nat_eqType) := R56EB n (e5_psis e).
Definition dec_of (m : msgS) (n : dec_proof curve7) := match m_echo m with Some (S5EB e) | Some (S6EB e) => e5_dec e | _ => n end.
Definition no_psis (e : r56eb curve7 nat_eqType) : r56eb curve7 nat_eqType := R56EB (e5_dec e) [::].
Definition aff_null : aff_gs_proof curve7 := AffGStarProof [::] [::] [::].
Definition null_psis (e : r56eb curve7 nat_eqType) : r56eb curve7 nat_eqType := R56EB (e5_dec e) [seq (p.1, aff_null) | p <- e5_psis e].
(** The decryption proof of the other error round. *)
Definition swap_dec (m m' : msgS) : msgS := edit (fun e => other_dec (dec_of m' (e5_dec e)) e) m.

Definition told (r : recvS unit) : option (reject (sg_error nat_eqType)) := if r is Reject e then Some e else None.
Lemma toldP r e : told r = Some e -> r = Reject e.
Proof. by case: r => // ? [->]. Qed.

Lemma faults_case :
  [/\ sg_recv5 SA XS true st50 1%N (swap_dec m51 m61) = Reject (Proto R5DecFailed),
      sg_recv5 SA XS true st50 1%N (edit no_psis m51) = Reject (Proto R5WrongIdsPsi) &
      sg_recv5 SA XS true st50 1%N (edit null_psis m51) = Reject (Proto (R5AffGStarFailed 2%N))] /\
  [/\ sg_recv6 SA XS true st60 1%N (swap_dec m61 m51) = Reject (Proto R6DecFailed),
      sg_recv6 SA XS true st60 1%N (edit no_psis m61) = Reject (Proto R6WrongIdsPsi) &
      sg_recv6 SA XS true st60 1%N (edit null_psis m61) = Reject (Proto (R6AffGStarFailed 2%N))].
Proof. by split; split; apply: toldP; vm_compute. Qed.
