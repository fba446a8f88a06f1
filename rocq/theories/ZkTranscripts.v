(** * Concrete transcripts of the zero-knowledge proofs at the toy parameters of
    ZkToy.v, and a tactic checking specification relations on them. *)
From Coq Require Import ZArith Znumtheory List Bool Lia.
From Verif Require Import Base ModArith RsaFacts SignedModel SignedSpec PaillierModel PaillierSpec PaillierProofs RpProofs
  ZkBase ZkModel ZkSpec ZkFacts ZkToy.
Import ListNotations.
Open Scope Z_scope.

Definition toy_N0 : Z := toy_p0 * toy_q0.
Definition toy_N1 : Z := toy_p1 * toy_q1.
(** Ring-Pedersen parameters with [t = 4], [s = t^5]. *)
Definition toy_rp : rpparams := RP toy_N1 4 1024.

Definition ee_pub : enc_elg_public toyC := @EncElgPublic toyC toy_N0 (Ct toy_N0 3779176157855197392758391927619747765971779) (zq_mk 7 5) (zq_mk 7 3) (zq_mk 7 3).
Definition ee_pf1 : enc_elg_proof toyC := @EncElgProof toyC 1 2028615726071878397913828181645693716210 9379160175432683793210153858940232233104599128421385957043170716161132045550964 (zq_mk 7 2) (zq_mk 7 2) 2068023062076717650243343042664503764038 (mkS 45 115792089237316195423570985008687907853269984665640564039457584007913129635492) 5 1 (mkS 200 13407807929942597099574024998205846127479365820592393377723561443721764030073546976801874298166903427690031858186486050853753882811946569946433649006071780).
Definition ee_pf2 : enc_elg_proof toyC := @EncElgProof toyC 3 2028615726071878397913828181645693716210 9379160175432683793210153858940232233104599128421385957043170716161132045550964 (zq_mk 7 2) (zq_mk 7 2) 2068023062076717650243343042664503764038 (mkS 45 115792089237316195423570985008687907853269984665640564039457584007913129637960) 4 1 (mkS 200 13407807929942597099574024998205846127479365820592393377723561443721764030073546976801874298166903427690031858186486050853753882811946569946433649006071838).
Definition ag_pub : aff_g_public toyC := @AffGPublic toyC toy_N0 toy_N1 (Ct toy_N0 128626741191181758910739433517041658161115) (Ct toy_N0 9379160175432683793206622989035784096557348724522254600095655239169280786931433) (Ct toy_N1 3530869910284035207736438103306022260260984563301156348254) (zq_mk 7 5).
Definition ag_pf1 : aff_g_proof toyC := @AffGProof toyC 1 7061739808995889443172349760456998742187912184380182405362 (zq_mk 7 1) 7061739820567994816636886862838970017741928571196047571802 1187763611716153975195917853982616403885 783327878403710408642782066696396177616 381049199898651027221245588876913553778 150078594869823909409253256994875607130 (mkS 45 776278) (mkS 111 1152921504606834636) (mkS 200 993) (mkS 200 911) 1 1.
Definition ag_pf2 : aff_g_proof toyC := @AffGProof toyC 3 7061739808995889443172349760456998742187912184380182405362 (zq_mk 7 1) 7061739820567994816636886862838970017741928571196047571802 1187763611716153975195917853982616403885 783327878403710408642782066696396177616 381049199898651027221245588876913553778 150078594869823909409253256994875607130 (mkS 45 773278) (mkS 111 115792089237316195423570985008687907853269984665640564039456431086408522755930) (mkS 200 979) (mkS 200 933) 1 1.
Definition sg_pf1 : aff_gs_proof toyC := @AffGStarProof toyC [true; true; true] [@AffGStarCom toyC 225975673884667212733923511492492559976058586628787687500689 (zq_mk 7 6) 225975674258175833642373745691665201721460782275483771338753; @AffGStarCom toyC 225975673884667212733923511492492559976058586628787687500689 (zq_mk 7 6) 225975674258175833642373745691665201721460782275483771338753; @AffGStarCom toyC 225975673884667212733923511492492559976058586628787687500689 (zq_mk 7 6) 225975674258175833642373745691665201721460782275483771338753] [AffGStarElem (mkS 45 115792089237316195423570985008687907853269984665640564039457584007913129639436) (mkS 111 72634054790231347143) 1 1; AffGStarElem (mkS 45 115792089237316195423570985008687907853269984665640564039457584007913129639436) (mkS 111 72634054790231347143) 1 1; AffGStarElem (mkS 45 115792089237316195423570985008687907853269984665640564039457584007913129639436) (mkS 111 72634054790231347143) 1 1].
Definition sg_pf2 : aff_gs_proof toyC := @AffGStarProof toyC [false; false; false] [@AffGStarCom toyC 225975673884667212733923511492492559976058586628787687500689 (zq_mk 7 6) 225975674258175833642373745691665201721460782275483771338753; @AffGStarCom toyC 225975673884667212733923511492492559976058586628787687500689 (zq_mk 7 6) 225975674258175833642373745691665201721460782275483771338753; @AffGStarCom toyC 225975673884667212733923511492492559976058586628787687500689 (zq_mk 7 6) 225975674258175833642373745691665201721460782275483771338753] [AffGStarElem (mkS 45 1000) (mkS 111 73786976294838206464) 1 1; AffGStarElem (mkS 45 1000) (mkS 111 73786976294838206464) 1 1; AffGStarElem (mkS 45 1000) (mkS 111 73786976294838206464) 1 1].
Definition dg_pub : dec_public toyC := @DecPublic toyC toy_N0 (Ct toy_N0 101063868078785667715580983477675588555162) (zq_mk 7 4) (Ct toy_N0 9379160175432680090824712932554726147461092278919176565278443173336335717809998) (zq_mk 7 2) (zq_mk 7 3) 3.
Definition dg_pf1 : dec_proof toyC := @DecProof toyC [true; true; true] [@DecCom toyC 3791242691508618758156263875366286766043378322494825208578608939609 (zq_mk 7 3) (zq_mk 7 6); @DecCom toyC 3791242691508618758156263875366286766043378322494825208578608939609 (zq_mk 7 3) (zq_mk 7 6); @DecCom toyC 3791242691508618758156263875366286766043378322494825208578608939609 (zq_mk 7 3) (zq_mk 7 6)] [DecElem (mkS 45 1900) (mkS 140 1236731113465765645724418048) 1; DecElem (mkS 45 1900) (mkS 140 1236731113465765645724418048) 1; DecElem (mkS 45 1900) (mkS 140 1236731113465765645724418048) 1].
Definition dg_pf2 : dec_proof toyC := @DecProof toyC [false; false; false] [@DecCom toyC 3791242691508618758156263875366286766043378322494825208578608939609 (zq_mk 7 3) (zq_mk 7 6); @DecCom toyC 3791242691508618758156263875366286766043378322494825208578608939609 (zq_mk 7 3) (zq_mk 7 6); @DecCom toyC 3791242691508618758156263875366286766043378322494825208578608939609 (zq_mk 7 3) (zq_mk 7 6)] [DecElem (mkS 45 1000) (mkS 140 1237940039285380274899124224) 1; DecElem (mkS 45 1000) (mkS 140 1237940039285380274899124224) 1; DecElem (mkS 45 1000) (mkS 140 1237940039285380274899124224) 1].
(* challenge 5 *)
Definition fc_pf1 : fac_proof := FacProof (mkS 21 5) 748828074983149326806045211930984894507 1335899101400490089594049935852584011668 1265570165062556652389427785060293013443 1158829597180037672560163397399099316091 1267768026525692710871412055621792897931 (mkS 400 1457292790346885778762) (mkS 400 13407807929942597099574024998205846127479365820592393377723561443721764030073546976801874298166903427690031858186486050853753882811944485464358768149694503) (mkS 400 1000005000000000) (mkS 400 13407807929942597099574024998205846127479365820592393377723561443721764030073546976801874298166903427690031858186486050853753882811946569936433644006084101) (mkS 500 276701169452773305705525524665).
(* challenge -5 *)
Definition fc_pf2 : fac_proof := FacProof (mkS 21 115792089237316195423570985008687907853269984665640564039457584007913129639931) 748828074983149326806045211930984894507 1335899101400490089594049935852584011668 1265570165062556652389427785060293013443 1158829597180037672560163397399099316091 1267768026525692710871412055621792897931 (mkS 400 903890451087936828092) (mkS 400 13407807929942597099574024998205846127479365820592393377723561443721764030073546976801874298166903427690031858186486050853753882811943932062025660217259993) (mkS 400 999995000000000) (mkS 400 13407807929942597099574024998205846127479365820592393377723561443721764030073546976801874298166903427690031858186486050853753882811946569936433654006084091) (mkS 500 13407807929942597099574024998205846127479365820592393377723561443721764030073546976801874298166903427690031858186486050853753606110777317173127943480559431).

Ltac toy_case :=
  lazymatch goal with
  | |- prime _ => apply prime_check_ok; vm_compute; reflexivity
  | |- xof_ok _ (const_xof _ _ _) => apply const_xof_ok; split; vm_compute; congruence
  | |- curve_ok _ (zq_curve _) => apply zq_curve_ok
  | |- good_params toy_S => exact toy_S_ok
  | |- paillier_cipher _ _ _ _ => apply paillier_fast; vm_compute; reflexivity
  | |- unit_power _ _ _ _ => apply unit_power_fast; vm_compute; reflexivity
  | |- rp_opens _ _ _ _ _ _ => apply rp_opens_fast; vm_compute; reflexivity
  | |- modulus_ok _ _ => unfold modulus_ok; toy_case
  | |- setup_ok _ _ => unfold setup_ok; toy_case
  | |- cipher_ok _ _ => unfold cipher_ok; toy_case
  | |- unit_ok _ _ => unfold unit_ok; toy_case
  | |- pm_interval _ _ => unfold pm_interval; toy_case
  | |- secret_of _ _ _ _ => unfold secret_of; toy_case
  | |- wf _ _ => unfold wf; toy_case
  | |- encrypts _ _ _ => unfold encrypts; eexists; toy_case
  | |- affine_cipher _ _ _ _ _ _ =>
      eexists; eexists; split; [apply unit_power_fast; vm_compute; reflexivity
                               |split; [apply paillier_fast; vm_compute; reflexivity|vm_compute; reflexivity]]
  | |- ex _ => fail
  | |- Forall _ [] => constructor
  | |- Forall _ (_ :: _) => constructor; toy_case
  | |- Forall _ ?l => let l' := eval hnf in l in change l with l'; toy_case
  | |- _ /\ _ => split; toy_case
  | |- @eq (pt _) _ _ => apply zq_eq; vm_compute; reflexivity
  | |- @eq zq _ _ => apply zq_eq; vm_compute; reflexivity
  | |- _ = _ => vm_compute; reflexivity
  | |- _ => vm_compute; congruence
  end.
