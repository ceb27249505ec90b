(** The examples of the docstrings of properties/, evaluated in exact arithmetic: the value of the model lies
    in the range that rounds to the printed number.  These validate the constants of PropModel. *)
From Coq Require Import Reals Lra Lia List Bool Arith ZArith.
From Verif Require Import Prelude Deriv NumBounds HmtProps KinModel AcmModel EosModel PropModel IvTac.
Import ListNotations.
Open Scope R_scope.

Definition nvec (l : list R) : nat -> R := fun i => nth i l 0.
Ltac br p k :=
  repeat match goal with
  | |- context [Rltb ?a ?b] => first [rewrite (Rltb_t a b) by iv_num p k|rewrite (Rltb_f a b) by iv_num p k]
  | |- context [Rleb ?a ?b] => first [rewrite (proj2 (Rleb_true a b)) by iv_num p k|rewrite (proj2 (Rleb_false a b)) by iv_num p k]
  end.
Ltac flt := eexists; split; [reflexivity|].
(** dhvl.py:62-64 *)
Example doc_DHVL_Pitzer : exists d, DHVL_Pitzer (32315 / 100) 425 (122 / 1000) = Flt d /\ 17450 <= d <= 17550.
Proof. unfold DHVL_Pitzer, fpow. cbv zeta. br 60%Z 5%nat. flt. unfold Rgas. iv_num 60%Z 5%nat. Qed.
(** dhvl.py:117-119 *)
Example doc_DHVL_Vetere : 21550 <= DHVL_Vetere (2598 / 10) 425 (515 * 10 ^ 4) <= 21650.
Proof. unfold DHVL_Vetere, Rgas. cbv zeta. iv_num 60%Z 5%nat. Qed.
(** dhvl.py:182-184 *)
Example doc_DHVL_KV : exists d, DHVL_Kistiakowsky_Vetere (2686 / 10) (Some (541 / 10000)) KvHydrocarbon = Ok (Flt d) /\ 22350 <= d <= 22450.
Proof. unfold DHVL_Kistiakowsky_Vetere, fpow, log10. cbv zeta. br 60%Z 5%nat. flt. iv_num 60%Z 5%nat. Qed.
(** dhvl.py:261-263 *)
Example doc_DHVL_Watson : exists d, DHVL_Watson (229 / 10) 258 (32315 / 100) 425 = Flt d /\ 1895 / 100 <= d <= 1905 / 100.
Proof. unfold DHVL_Watson, fpow. br 60%Z 5%nat. flt. iv_num 60%Z 5%nat. Qed.
(** pvap.py:58-60 *)
Example doc_PL_LK : 650 <= PL_Lee_Kesler (29815 / 100) 420 644 (4540 * 1000) <= 670.
Proof. unfold PL_Lee_Kesler, fLK0, fLK1. cbv zeta. iv_num 60%Z 5%nat. Qed.
(** pvap.py:117-119 *)
Example doc_PL_AW : exists d, PL_Ambrose_Walton (2687 / 10) 425 (433 * 10 ^ 4) (195 / 1000) = Flt d /\ 95000 <= d <= 105000.
Proof. unfold PL_Ambrose_Walton, aw_f, fpow. cbv zeta. br 60%Z 5%nat. cbn [pmap pmap2]. flt. iv_num 60%Z 5%nat. Qed.
(** pvap.py:168-170 *)
Example doc_PL_Wilson : 95000 <= PL_Wilson (2687 / 10) 425 (433 * 10 ^ 4) (195 / 1000) <= 105000.
Proof. unfold PL_Wilson. iv_num 60%Z 5%nat. Qed.
(** liquid.py:79-88 *)
Example doc_DL_WC : 125 / 10 ^ 11 <= DL_Wilke_Chang 298 (625 / 10000) (18 / 1000) 910 (89 / 100000) (26 / 10) <= 135 / 10 ^ 11.
Proof. unfold DL_Wilke_Chang. iv_num 90%Z 5%nat. Qed.
(** liquid.py:138-146 *)
Example doc_DL_HM : exists d, DL_Hayduk_Minhas 298 HmAqueous (625 / 10000) 910 (89 / 100000) = Ok d /\ 125 / 10 ^ 11 <= d <= 135 / 10 ^ 11.
Proof. unfold DL_Hayduk_Minhas. cbv zeta. flt. iv_num 90%Z 5%nat. Qed.
(** liquid.py:204-206 *)
Example doc_DL_SE : 215 / 10 ^ 14 <= DL_Stokes_Einstein 298 (1 / 10 ^ 7) (1 / 1000) <= 225 / 10 ^ 14.
Proof. unfold DL_Stokes_Einstein, kB. iv_num 110%Z 5%nat. Qed.
(** vapor.py:65-77, 81-93 *)
Example doc_DV_WL : exists d, DV_Wilke_Lee 298 100000 (625 / 10000) (18 / 1000) 910 (Some 959) 260 (Some 373) = Ok d /\ 1095 / 10 ^ 8 <= d <= 1105 / 10 ^ 8.
Proof. unfold DV_Wilke_Lee, WL_sigma, WL_omega. cbv zeta. cbn [bind]. flt. iv_num 90%Z 5%nat. Qed.
Example doc_DV_WL_air : exists d, DV_Wilke_Lee 298 100000 (625 / 10000) (18 / 1000) 910 None 260 None = Ok d /\ 1365 / 10 ^ 8 <= d <= 1375 / 10 ^ 8.
Proof. unfold DV_Wilke_Lee, WL_sigma, WL_omega. cbv zeta. cbn [bind]. flt. iv_num 90%Z 5%nat. Qed.
(** vrentasduda.py:98-111; Tg1, Tg2 and y are not given there (K21, K22 are K21-Tg1, K22-Tg2) *)
Definition doc_vd : vrentas := mkVD (482 / 10 ^ 6) 0 (917 / 1000) (728 / 1000) (82 / 100) (145 / 10 ^ 5) (433 / 10 ^ 6) (- (8632 / 100)) (- (2582 / 10)) 0 0 1 (1 / 2).
Example doc_VD_mutual : exists d, vd_call doc_vd (2 / 10) (29815 / 100) false = Ok d /\ 3785 / 10 ^ 11 <= d <= 3795 / 10 ^ 11.
Proof. unfold vd_call. br 60%Z 5%nat. cbn [andb]. flt. unfold vd_mutual, vd_self, vd_free, doc_vd, Rgas. cbn [vD0 vE vV1 vV2 vz vK11 vK12 vK21 vK22 vTg1 vTg2 vy vX]. iv_num 90%Z 5%nat. Qed.
Example doc_VD_self : exists d, vd_call doc_vd (2 / 10) (29815 / 100) true = Ok d /\ 7395 / 10 ^ 11 <= d <= 7405 / 10 ^ 11.
Proof. unfold vd_call. br 60%Z 5%nat. cbn [andb]. flt. unfold vd_mutual, vd_self, vd_free, doc_vd, Rgas. cbn [vD0 vE vV1 vV2 vz vK11 vK12 vK21 vK22 vTg1 vTg2 vy vX]. iv_num 90%Z 5%nat. Qed.
(** volume.py:58-60 *)
Example doc_VL_Rackett : exists d, VL_Rackett 350 425 (433 * 10 ^ 4) None (Some (195 / 1000)) = Ok (Flt d) /\ 1005 / 10 ^ 7 <= d <= 1015 / 10 ^ 7.
Proof. unfold VL_Rackett, fpow, Rgas. cbn [bind]. br 60%Z 5%nat. flt. iv_num 90%Z 5%nat. Qed.
(** viscosity/liquid.py:52-56 *)
Example doc_MULMX2 : 665 / 1000 <= MULMX2_Perry 2 (nvec [1 / 2; 1 / 2]) (nvec [76 / 100; 59 / 100]) false <= 675 / 1000.
Proof. unfold MULMX2_Perry, nvec. cbn [sumn nth]. iv_num 60%Z 5%nat. Qed.
(** viscosity/vapor.py:62-67 *)
Example doc_MUVMX2 : 1115 / 10 ^ 8 <= MUVMX2_Herning_Zipperer 2 (nvec [1 / 2; 1 / 2]) (nvec [130 / 10 ^ 7; 100 / 10 ^ 7]) (nvec [28 / 1000; 56 / 1000]) <= 1125 / 10 ^ 8.
Proof. unfold MUVMX2_Herning_Zipperer, HZ_mean, nvec. cbv zeta. cbn [sumn nth]. iv_num 100%Z 5%nat. Qed.
(** viscosity/vapor.py:120-125 *)
Example doc_MUVPC_Jossi : 6755 / 10 ^ 9 <= MUVPC_Jossi (130 / 184) (2805 / 10 ^ 5) (2824 / 10) (504 * 10 ^ 4) <= 6765 / 10 ^ 9.
Proof. unfold MUVPC_Jossi. cbv zeta. iv_num 120%Z 8%nat. Qed.
(** viscosity/vapor.py:188-196 *)
Example doc_Dean_Stiel : 2315 / 10 ^ 8 <= MUVMXPC_Dean_Stiel 2 (112 / 10 ^ 6) (nvec [1 / 2; 1 / 2]) (nvec [2805 / 10 ^ 5; 4208 / 10 ^ 5]) (nvec [2824 / 10; 3649 / 10]) (nvec [504 * 10 ^ 4; 460 * 10 ^ 4]) (nvec [280 / 1000; 274 / 1000]) <= 2325 / 10 ^ 8.
Proof. unfold MUVMXPC_Dean_Stiel, pseudocritical_properties, Dean_Stiel_pure, nvec, Rgas. cbv zeta. cbn [sumn nth]. iv_num 90%Z 5%nat. Qed.
(** viscosity/vapor.py:260-263 *)
Example doc_MUV_Lucas : exists d, MUV_Lucas 350 (10 ^ 6) (2805 / 10 ^ 5) (2824 / 10) (504 * 10 ^ 4) (280 / 1000) 0 = Flt d /\ 1195 / 10 ^ 8 <= d <= 1205 / 10 ^ 8.
Proof.
  unfold MUV_Lucas, Lucas_FP0, fpow. br 60%Z 5%nat. cbn [pmap]. flt. unfold Lucas_FP0_val, Lucas_dmr, Lucas_mu, Lucas_Z1. cbv zeta. br 60%Z 5%nat. cbn [andb]. iv_num 100%Z 7%nat.
Qed.
(** thermal_conductivity/liquid.py:57-62 *)
Example doc_KLMX2_Li : 1425 / 10 ^ 4 <= KLMX2_Li 2 (nvec [1 / 2; 1 / 2]) (nvec [172 / 1000; 124 / 1000]) (nvec [909 / 1000; 681 / 1000]) <= 1435 / 10 ^ 4.
Proof. unfold KLMX2_Li, quadratic_mixing, nvec. cbv zeta. cbn [sumn nth]. iv_num 60%Z 5%nat. Qed.
(** thermal_conductivity/vapor.py:64-69 *)
Example doc_KVPC : exists d, KVPC_Stiel_Thodos (184 / 10 ^ 6) (2805 / 10 ^ 5) (2824 / 10) (504 * 10 ^ 4) (280 / 1000) = Ok d /\ 1685 / 10 ^ 5 <= d <= 1695 / 10 ^ 5.
Proof. unfold KVPC_Stiel_Thodos, ST_a, Rgas, NA. cbv zeta. br 90%Z 5%nat. cbn [bind]. flt. iv_num 130%Z 8%nat. Qed.
(** thermal_conductivity/vapor.py:220-225 *)
Example doc_KVMX2 : 1275 / 10 ^ 5 <= KVMX2_Wassilijewa 2 (nvec [1 / 2; 1 / 2]) (nvec [1 / 100; 155 / 10 ^ 4]) (nvec [10415 / 100; 10617 / 100]) <= 1285 / 10 ^ 5.
Proof. unfold KVMX2_Wassilijewa, HZ_mean, nvec. cbv zeta. cbn [sumn nth]. iv_num 60%Z 5%nat. Qed.
