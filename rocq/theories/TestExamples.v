(** Published values used in the test suite (tests/thermo, tests/properties, tests/hmt, tests/flow), evaluated
    in exact arithmetic: the value of the model lies within the tolerance of the test. *)
From Coq Require Import Reals Lra Lia List Bool Arith ZArith.
From Verif Require Import Prelude KinModel AcmModel EosModel PropModel RtdModel HmtProps IvTac DocTac.
Import ListNotations.
Open Scope R_scope.

Definition w2 (a b : R) : nat -> R := fun i => match i with O => a | _ => b end.
Definition m2 (ab ba : R) : mat := fun i j => match i, j with 0%nat, 1%nat => ab | 1%nat, 0%nat => ba | _, _ => 0 end.
Definition z2 : mat := fun _ _ => 0.
Ltac num := iv_num 70%Z 5%nat.
(** tests/thermo/test_acm.py:41-56 — water and ethanol, NRTL (c = 0.3 off the diagonal by default) *)
Definition nrtl_t : mat := NRTL_tau (m2 (34578 / 10 ^ 4) (- (8009 / 10 ^ 4))) (m2 (- (5860809 / 10 ^ 4)) (24618 / 100)) z2 z2 (29815 / 100).
Definition nrtl_a : mat := m2 (3 / 10) (3 / 10).
Example test_NRTL : 2660315 / 10 ^ 6 <= NRTL_gamma 2 (w2 0 1) nrtl_t nrtl_a 0 <= 2660319 / 10 ^ 6 /\ 4557081 / 10 ^ 6 <= NRTL_gamma 2 (w2 1 0) nrtl_t nrtl_a 1 <= 4557089 / 10 ^ 6.
Proof. unfold NRTL_gamma, NRTL_A, NRTL_B, NRTL_G, nrtl_t, NRTL_tau, nrtl_a. cbv zeta. unfold z2; cbn [sumn w2 m2]. split; num. Qed.
Example test_NRTL_g : - (98193 / 100) <= NRTL_gE 2 (29815 / 100) (w2 (1 / 2) (1 / 2)) nrtl_t nrtl_a - 29815 / 100 * Dsmix_ideal 2 (w2 (1 / 2) (1 / 2)) <= - (98173 / 100).
Proof. unfold NRTL_gE, Dsmix_ideal, NRTL_A, NRTL_B, NRTL_G, nrtl_t, NRTL_tau, nrtl_a, Rgas. unfold z2; cbn [sumn w2 m2]. brs 60%Z 5%nat. num. Qed.
(** tests/thermo/test_acm.py:158-174 — Wilson *)
Definition wil_t : mat := exp_par (m2 (- (503 / 10 ^ 4)) (- (25035 / 10 ^ 4))) (m2 (- (696372 / 10 ^ 4)) (346151 / 1000)) z2 z2 (29815 / 100).
Example test_Wilson : 2780617 / 10 ^ 6 <= Wilson_gamma 2 (w2 0 1) wil_t 0 <= 2780623 / 10 ^ 6 /\ 4901955 / 10 ^ 6 <= Wilson_gamma 2 (w2 1 0) wil_t 1 <= 4901965 / 10 ^ 6.
Proof. unfold Wilson_gamma, Wilson_A, wil_t, exp_par. unfold z2; cbn [sumn w2 m2]. split; num. Qed.
Example test_Wilson_g : - (983374 / 1000) <= Wilson_gE 2 (29815 / 100) (w2 (1 / 2) (1 / 2)) wil_t - 29815 / 100 * Dsmix_ideal 2 (w2 (1 / 2) (1 / 2)) <= - (983176 / 1000).
Proof. unfold Wilson_gE, Dsmix_ideal, Wilson_A, wil_t, exp_par, Rgas. unfold z2; cbn [sumn w2 m2]. brs 60%Z 5%nat. num. Qed.
(** tests/thermo/test_acm.py:66-75 — UNIQUAC, three components *)
Definition w3 (a b c : R) : nat -> R := fun i => match i with O => a | 1%nat => b | _ => c end.
Definition uq_t : mat := exp_par z2 (fun i j => match i, j with 0%nat, 1%nat => - (6028 / 100) | 0%nat, 2%nat => - (2371 / 100) | 1%nat, 0%nat => - (8957 / 100)
   | 1%nat, 2%nat => 1359 / 10 | 2%nat, 0%nat => - (5458 / 10) | 2%nat, 1%nat => - (2454 / 10) | _, _ => 0 end) z2 z2 (31815 / 100).
Definition uq_x := w3 (1311 / 10 ^ 4) (330 / 10 ^ 4) (8359 / 10 ^ 4).
Definition uq_g := UNIQUAC_gamma 3 uq_x (w3 (172 / 100) (24 / 10) (44 / 10)) (w3 (187 / 100) (319 / 100) (517 / 100)) uq_t.
Example test_UNIQUAC : 71357 / 10 ^ 4 <= uq_g 0%nat <= 71643 / 10 ^ 4 /\ 12475 / 10 ^ 4 <= uq_g 1%nat <= 12525 / 10 ^ 4 /\ 105788 / 10 ^ 5 <= uq_g 2%nat <= 106212 / 10 ^ 5.
Proof. unfold uq_g, UNIQUAC_gamma, uq_t, exp_par, uq_x. cbv zeta. unfold z2; cbn [sumn w3]. repeat split; iv_num 50%Z 3%nat. Qed.
(** tests/thermo/test_eos.py:90-103 — second virial coefficients and fugacities (methyl ethyl ketone and toluene) *)
Definition vi_B : mat := B_mixture (32315 / 100) (w2 (5355 / 10) (5918 / 10)) (w2 (415 * 10 ^ 4) (411 * 10 ^ 4)) (w2 (249 / 1000) (264 / 1000)) (w2 (323 / 1000) (262 / 1000)).
Lemma vi_B_val : - (1385 / 10 ^ 6) <= vi_B 0%nat 0%nat <= - (1366 / 10 ^ 6) /\ - (1883 / 10 ^ 6) <= vi_B 1%nat 1%nat <= - (1861 / 10 ^ 6) /\ - (1616 / 10 ^ 6) <= vi_B 0%nat 1%nat <= - (1595 / 10 ^ 6) /\ vi_B 1%nat 0%nat = vi_B 0%nat 1%nat.
Proof. split; [|split; [|split; [|reflexivity]]]; unfold vi_B, B_mixture, B_cross, B_pure, Rgas; cbn [w2 Nat.eqb Nat.ltb Nat.leb]; cbv zeta; iv_num 60%Z 6%nat. Qed.
Example test_Virial_phi : 986 / 1000 <= Vir_phi 2 vi_B (32315 / 100) 25000 (w2 (1 / 2) (1 / 2)) 0 <= 988 / 1000 /\ 982 / 1000 <= Vir_phi 2 vi_B (32315 / 100) 25000 (w2 (1 / 2) (1 / 2)) 1 <= 984 / 1000.
Proof.
  destruct vi_B_val as (H00 & H11 & H01 & E). unfold Vir_phi, Vir_Bm, quadratic_mixing, Rgas. cbn [sumn w2]. rewrite E.
  set (p := vi_B 0%nat 0%nat) in *; set (q := vi_B 1%nat 1%nat) in *; set (c := vi_B 0%nat 1%nat) in *. clearbody p q c. clear E.
  split.
  - enough (exp (- (1290 / 10 ^ 5)) >= 986 / 1000 /\ exp (- (1252 / 10 ^ 5)) <= 988 / 1000) as (L & U).
    + split; [eapply Rle_trans; [apply Rge_le, L|]|eapply Rle_trans; [|exact U]]; apply exp_le; lra.
    + split; [apply Rle_ge|]; iv_num 50%Z 3%nat.
  - enough (exp (- (1760 / 10 ^ 5)) >= 982 / 1000 /\ exp (- (1705 / 10 ^ 5)) <= 984 / 1000) as (L & U).
    + split; [eapply Rle_trans; [apply Rge_le, L|]|eapply Rle_trans; [|exact U]]; apply exp_le; lra.
    + split; [apply Rle_ge|]; iv_num 50%Z 3%nat.
Qed.
(** tests/thermo/test_eos.py:134-165 — Redlich-Kwong *)
Example test_RK_b : 44846 / 10 ^ 9 <= cu_b RK_consts (fun _ => 4163 / 10) (fun _ => 668 * 10 ^ 4) 0 <= 44936 / 10 ^ 9.
Proof. unfold cu_b, RK_consts, Rgas. cbn [cu_Ob]. num. Qed.
Example test_RK_P : 2381616 <= cu_P RK_consts (cu_a RK_consts RK_alpha (fun _ => 4057 / 10) (fun _ => 1128 * 10 ^ 4) (fun _ => 0) (33815 / 100) 0) (cu_b RK_consts (fun _ => 4057 / 10) (fun _ => 1128 * 10 ^ 4) 0) (33815 / 100) (10212 / 10 ^ 7) <= 2386384.
Proof. unfold cu_P, cu_a, cu_b, RK_consts, RK_alpha, Rgas. cbn [cu_Ob cu_Oa cu_u cu_w]. num. Qed.
(** tests/properties/test_equations.py:25-82 *)
Example test_DIPPR100 : 4176 / 1000 <= DIPPR100 (29815 / 100) 276370 (- (20901 / 10)) (8125 / 1000) (- (14116 / 10 ^ 6)) (93701 / 10 ^ 10) / 18020 <= 4184 / 1000.
Proof. unfold DIPPR100. num. Qed.
Example test_DIPPR101 : 101224 <= DIPPR101 (37315 / 100) (73649 / 1000) (- (72582 / 10)) (- (73037 / 10 ^ 4)) (41653 / 10 ^ 10) 2 <= 101426.
Proof. unfold DIPPR101. num. Qed.
Example test_DIPPR102 : 212402 / 10 ^ 10 <= DIPPR102 1000 (63412 / 10 ^ 12) (84758 / 10 ^ 5) (41718 / 1000) 0 <= 212404 / 10 ^ 10.
Proof. unfold DIPPR102. num. Qed.
Example test_DIPPR104 : - (1782687 / 10 ^ 6) <= DIPPR104 (27315 / 100) (2222 / 10 ^ 5) (- (2638 / 100)) (-16750000) (- (3894 * 10 ^ 16)) (3133 * 10 ^ 18) <= - (1782683 / 10 ^ 6).
Proof. unfold DIPPR104. iv_num 160%Z 5%nat. Qed.
Example test_DIPPR105 : exists d, DIPPR105 (29815 / 100) (14395 / 10 ^ 5) (112 / 10 ^ 4) (649727 / 1000) (5107 / 10 ^ 5) = Flt d /\ 997 <= d <= 999.
Proof. unfold DIPPR105, fpow. brs 60%Z 5%nat. cbn [pmap]. okv. num. Qed.
Example test_DIPPR106 : exists d, DIPPR106 (27316 / 100) 56600000 (612041 / 10 ^ 6) (- (625697 / 10 ^ 6)) (398804 / 10 ^ 6) 0 (647096 / 1000) = Flt d /\ 44980795 <= d <= 44980885.
Proof. unfold DIPPR106, fpow. cbv zeta. brs 60%Z 5%nat. cbn [pmap]. okv. num. Qed.
Example test_DIPPR107 : 33585870 / 1000 <= DIPPR107 300 33363 26790 (26105 / 10) 8896 1169 <= 33585938 / 1000.
Proof. unfold DIPPR107, sinh, cosh. num. Qed.
Example test_Antoine : 993 / 1000 <= Antoine (37315 / 100) (46543 / 10 ^ 4) (1435264 / 1000) (- (64848 / 1000)) true <= 1033 / 1000.
Proof. unfold Antoine, base_pow. num. Qed.
Example test_Wagner25 : exists d, Wagner25 (37315 / 100) (- (7861942 / 10 ^ 6)) (1879246 / 10 ^ 6) (- (2266807 / 10 ^ 6)) (- (2128615 / 10 ^ 6)) (22064 / 100) (647096 / 1000) = Flt d /\ 1004 / 1000 <= d <= 1023 / 1000.
Proof. unfold Wagner25, fpow. cbv zeta. brs 60%Z 5%nat. cbn [pmap pmap2]. okv. num. Qed.
Example test_Wagner36 : exists d, Wagner36 (37315 / 100) (- (776451 / 10 ^ 5)) (145838 / 10 ^ 5) (- (277580 / 10 ^ 5)) (- (123303 / 10 ^ 5)) (22064 / 100) (647096 / 1000) = Flt d /\ 1004 / 1000 <= d <= 1023 / 1000.
Proof. unfold Wagner36, fpow. cbv zeta. brs 60%Z 5%nat. cbn [pmap pmap2]. okv. num. Qed.
Example test_Yaws : 696 / 1000 <= Yaws (29815 / 100) (- (2717 / 1000)) (9461 / 10) (- (3173 / 10 ^ 6)) (1683 / 10 ^ 9) false <= 724 / 1000.
Proof. unfold Yaws, base_pow. num. Qed.
(** tests/properties/test_tait.py:15-90 *)
Definition tait_t : tait := mkTait (82396 / 10 ^ 8) (30490 / 10 ^ 11) (70201 / 10 ^ 14) (29803 * 10 ^ 4) (43789 / 10 ^ 7).
Example test_Tait : 890101 / 10 ^ 9 <= tait_eval tait_t (43215 / 100) 0 <= 890279 / 10 ^ 9 /\ 148535145 <= tait_B tait_t (43215 / 100) <= 148564855 /\ 822238 / 10 ^ 9 <= tait_eval tait_t (43215 / 100) (2 * 10 ^ 8) <= 822402 / 10 ^ 9
  /\ 350085 / 10 ^ 9 <= tait_alpha tait_t (43215 / 100) (2 * 10 ^ 8) <= 350155 / 10 ^ 9 /\ 277623 / 10 ^ 15 <= tait_beta tait_t (43215 / 100) (2 * 10 ^ 8) <= 277677 / 10 ^ 15.
Proof. unfold tait_alpha, tait_beta, tait_eval, tait_B, tait_C, tait_t. cbn [tA0 tA1 tA2 tB0 tB1]. repeat split; num. Qed.
