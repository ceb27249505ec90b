(** Concrete cases that meet the hypotheses of the flow, transport and residence-time theorems (C56-C60, C90-C95, C97,
    C118, C121, C123). *)
From Coq Require Import Reals Lra Lia List Bool Arith Psatz.
From Coquelicot Require Import Coquelicot.
From Verif Require Import Prelude RootsModel KinModel CopoModel NumBounds Erf HmtModel HmtProps WallProps FlowModel FlowProps RheoProps.
Open Scope R_scope.

(** water in a 10 cm pipe, 100 m long: 1 and 2 litres per second *)
Example C57_water_case : exists p1 p2, DP_tube (1 / 1000) (1 / 10) 100 1000 (1 / 1000) (1 / 10 ^ 4) = Ok p1 /\ DP_tube (2 / 1000) (1 / 10) 100 1000 (1 / 1000) (1 / 10 ^ 4) = Ok p2 /\ 0 < p1 < p2.
Proof. apply C57_increasing; lra. Qed.
(** air and water together lose more than the sum of the two flowing alone; without gas the liquid formula is used *)
Example C57_two_phase_case : (exists p pL pG, DP_GL_Lockhart_Martinelli 1 (1 / 10) (1 / 10) 10 1000 (12 / 10) (1 / 1000) (2 / 10 ^ 5) 0 = Ok p /\
    DP_tube (1 / 1000) (1 / 10) 10 1000 (1 / 1000) 0 = Ok pL /\ DP_tube (1 / 10 / (12 / 10)) (1 / 10) 10 (12 / 10) (2 / 10 ^ 5) 0 = Ok pG /\ pL + pG < p) /\
  DP_GL_Lockhart_Martinelli 1 0 (1 / 10) 10 1000 (12 / 10) (1 / 1000) (2 / 10 ^ 5) 0 = DP_tube (1 / 1000) (1 / 10) 10 1000 (1 / 1000) 0 /\
  DP_GL_Lockhart_Martinelli 0 1 (1 / 10) 10 1000 (12 / 10) (1 / 1000) (2 / 10 ^ 5) 0 = DP_tube (1 / (12 / 10)) (1 / 10) 10 (12 / 10) (2 / 10 ^ 5) 0.
Proof. split; [apply C57_LM_above; lra|]. split; [apply C57_LM_liquid; lra|apply C57_LM_gas; lra]. Qed.
(** glycerol-like liquid (laminar): the Mueller-Bonn formula gives Hagen-Poiseuille *)
Example C57_MB_case : exists f, f_MB (Re_m 1 (1 / 10) 1) = Ok f /\ single 1 (1 / 10) 10 1000 1 f = DP_Hagen_Poiseuille (1 / 1000) (1 / 10) 10 1.
Proof.
  apply C57_MB_laminar; try lra. unfold Re_m. pose proof PI_RGT_0 as P. pose proof PI2_1 as P2. unfold PI2 in P2.
  assert (Q : 1 < PI) by lra. apply (Rmult_le_reg_r (PI * (1 / 10) * 1)); [lra|]. match goal with |- ?l <= _ => replace l with 4 by (field; lra) end. lra.
Qed.
Example C57_MB_liquid_case : exists f, f_MB (Re_m 1 (1 / 10) (1 / 1000)) = Ok f /\ DP_GL_Mueller_Bonn 1 0 (1 / 10) 10 1000 (12 / 10) (1 / 1000) (2 / 10 ^ 5) = Ok (single 1 (1 / 10) 10 1000 (1 / 1000) f).
Proof. apply C57_MB_liquid; lra. Qed.
(** Haaland at Re = 10^5, relative roughness 10^-3 *)
Example C92_haaland_case : 0 < fD_Haaland 100000 (1 / 1000) /\ fD_Haaland 200000 (1 / 1000) < fD_Haaland 100000 (1 / 1000) /\ fD_Haaland 100000 (1 / 1000) < fD_Haaland 100000 (1 / 100) /\ 64 / 100000 < fD_Haaland 100000 (1 / 1000).
Proof. destruct (C92_haaland 100000 (1 / 1000)) as (A & B & C); [lra|lra|]. split; [exact A|]. split; [apply B; lra|]. split; [apply C; lra|]. apply C92_turbulent_above_laminar; lra. Qed.
(** a polymer melt: Cross, Carreau-Yasuda, power law and WLF *)
Example C60_melt_case :
  (exists m1 m2, mu_Cross 1 1000 (1 / 10) (3 / 10) = Ok m1 /\ mu_Cross 100 1000 (1 / 10) (3 / 10) = Ok m2 /\ 0 < m2 < m1 /\ m1 <= 1000) /\
  (exists m1 m2, mu_Carreau_Yasuda 1 1000 1 (1 / 10) (3 / 10) 2 = Ok m1 /\ mu_Carreau_Yasuda 100 1000 1 (1 / 10) (3 / 10) 2 = Ok m2 /\ 1 < m2 < m1 /\ m1 <= 1000) /\
  (exists m1 m2, mu_PowerLaw 1 1000 (3 / 10) = Ok m1 /\ mu_PowerLaw 100 1000 (3 / 10) = Ok m2 /\ 0 < m2 < m1) /\
  (exists m1 m2, mu_Cross_modified 1 1000 2 (3 / 10) = Ok m1 /\ mu_Cross_modified 100 1000 2 (3 / 10) = Ok m2 /\ 0 < m2 < m1 /\ m1 <= 1000) /\
  (exists a1 a2, aT_WLF 400 373 (Some (1744 / 100)) (Some (5160 / 100)) = Ok a1 /\ aT_WLF 450 373 (Some (1744 / 100)) (Some (5160 / 100)) = Ok a2 /\ 0 < a2 < a1).
Proof.
  split; [apply (C60_cross 1000 (1 / 10) (3 / 10)); lra|]. split; [apply (C60_carreau 1000 1 (1 / 10) (3 / 10) 2); lra|]. split; [apply (C60_power_law 1000 (3 / 10)); lra|].
  split; [apply (C60_cross_modified 1000 2 (3 / 10)); lra|]. apply (C60_WLF 373 (1744 / 100) (5160 / 100)); lra.
Qed.
Example C60_limit_case : exists g0, 0 < g0 /\ forall g, g0 <= g -> exists m, mu_Cross g 1000 (1 / 10) (3 / 10) = Ok m /\ 0 < m < 1.
Proof. apply C60_cross_limit; lra. Qed.
(** water through a bed of 5 mm spheres, 40 % void *)
Example C93_bed_case : exists p1 p2, DP_packed_bed 1 2 (5 / 1000) (4 / 10) 1000 (1 / 1000) = Ok p1 /\ DP_packed_bed 2 2 (5 / 1000) (4 / 10) 1000 (1 / 1000) = Ok p2 /\ 0 < p1 < p2.
Proof. apply (C93_packed_bed 2 (5 / 1000) (4 / 10) 1000 (1 / 1000)); lra. Qed.

(** walls: a steel tube with fouling *)
Example C59_tube_case : let U := U_plane_wall 1000 500 (1 / 500) 50 (1 / 10000) (1 / 10000) in
  0 < U < 500 /\ U * ((1 / 50) / (1 / 50 + 2 * (1 / 500))) <= U_cylindrical_wall 1000 500 (1 / 50) (1 / 50 + 2 * (1 / 500)) 50 (1 / 10000) (1 / 10000) <= U.
Proof. cbv zeta. split; [|apply C59_cylindrical_wall; lra]. destruct (C59_plane_wall 1000 500 (1 / 500) 50 (1 / 10000) (1 / 10000)) as (A & _ & B & _); lra. Qed.
Example C59_composite_case : 1 <= diffusivity_composite 4 1 (1 / 3) 1 <= 4 /\ diffusivity_composite 4 1 (1 / 3) 1 < diffusivity_composite 4 1 (2 / 3) 1.
Proof.
  destruct (C59_composite 4 1 1) as (_ & _ & A & B); try lra. split; [|apply (A (1 / 3) (2 / 3)); lra].
  specialize (B (1 / 3) ltac:(lra)). rewrite Rmin_left, Rmax_right in B by lra. exact B.
Qed.
Example C59_plate_case : Nu_plate 1000 7 < Nu_plate 2000 7. Proof. apply C59_plate_increasing. lra. Qed.
Example C90_bank_case : 70 / 100 <= bank_C2 true 3 <= 1 /\ bank_C2 true 3 <= bank_C2 true 4 /\ 64 / 100 <= bank_C2 false 1.
Proof. split; [apply (C90_bank_rows true 3); lia|]. split; [apply (C90_bank_rows true 3); lia|apply (C90_bank_rows false 1); lia]. Qed.
Example C90_mixed_case : 0 < Nu_combined 10 5 false < 10 /\ Nu_cylinder 100 7 < Nu_cylinder 1000 7.
Proof. destruct (C90_combined_opposed 10 5) as (A & B); try lra. split; [split; [apply B; lra|exact A]|]. apply C90_cylinder. lra. Qed.

From Verif Require Import SettleProps ColebrookProps PrvProps PrvLiqProps PrvTwoProps.
(** a 0.1 mm sand grain in water *)
Example C93_sand_case : exists v, 0 < v < vt_Stokes (1 / 10 ^ 4) 2650 1000 (1 / 1000) /\ forall w, 0 < w -> (w - vt_drag (1 / 10 ^ 4) 2650 1000 (1 / 1000) w = 0 <-> w = v).
Proof. destruct (C93_terminal (1 / 10 ^ 4) 2650 1000 (1 / 1000)) as (v & A & _ & B); try lra. eauto. Qed.
Example C93_density_case : exists v w, 0 < v < w /\ v - vt_drag (1 / 10 ^ 4) 2000 1000 (1 / 1000) v = 0 /\ w - vt_drag (1 / 10 ^ 4) 2650 1000 (1 / 1000) w = 0.
Proof.
  destruct (C93_terminal (1 / 10 ^ 4) 2000 1000 (1 / 1000)) as (v & A & _ & B); try lra. destruct (C93_terminal (1 / 10 ^ 4) 2650 1000 (1 / 1000)) as (w & C & _ & D); try lra.
  pose proof (proj2 (B v ltac:(lra)) eq_refl) as E. pose proof (proj2 (D w ltac:(lra)) eq_refl) as F. exists v, w. split; [|split; auto]. split; [lra|].
  exact (C93_terminal_density (1 / 10 ^ 4) 2000 2650 1000 (1 / 1000) v w ltac:(lra) ltac:(lra) ltac:(lra) ltac:(lra) ltac:(lra) ltac:(lra) E F).
Qed.
Example C93_drag_case : 24 < Cd_sphere 1. Proof. pose proof (C93_drag_above_stokes 1). lra. Qed.
Example C92_colebrook_case : exists r, 0 < r /\ 2 * log10 (1 / 1000 / (37 / 10) + 251 / 100 / (100000 * sqrt r)) = - (1 / sqrt r).
Proof. destruct (C92_colebrook_root 100000 (1 / 1000)) as (r & A & _ & B & _); try lra. eauto. Qed.
(** hydrocarbon gas valve: 6.7 bara upstream, discharge to 2 and 5 bara *)
Example C94_back_case : exists r2 r3, area_relief_gas 24270 (67 / 10) 2 348 (111 / 100) 51 (9 / 10) false (975 / 1000) 1 1 1 = Ok r2 /\ area_relief_gas 24270 (67 / 10) 5 348 (111 / 100) 51 (9 / 10) false (975 / 1000) 1 1 1 = Ok r3 /\
  (prv_crit r2 = false -> prv_crit r3 = false /\ prv_A r2 < prv_A r3).
Proof. destruct (C94_gas_backpressure 24270 (67 / 10) 2 5 348 (111 / 100) 51 (9 / 10) (975 / 1000) 1 1) as (r2 & r3 & A & B & _ & C & _); try lra. exists r2, r3. auto. Qed.
Example C94_critical_case : exists res rc, area_relief_gas 24270 (67 / 10) 2 348 (111 / 100) 51 (9 / 10) false (975 / 1000) 1 1 1 = Ok res /\ prv_Pcf res = Some (67 / 10 * rc) /\ (prv_crit res = true <-> 2 <= 67 / 10 * rc).
Proof.
  destruct (C94_gas_backpressure 24270 (67 / 10) 2 5 348 (111 / 100) 51 (9 / 10) (975 / 1000) 1 1) as (r2 & r3 & A & _); try lra.
  pose proof (fun H1 H2 => C94_gas_critical _ _ _ _ _ _ _ _ _ _ _ _ r2 H1 H2 A) as W. destruct W as (rc & B & _ & _ & C); [lra|lra|]. exists r2, rc. auto.
Qed.
(** two-phase valve *)
Example C95_omega_case : exists ec, 0 < ec < 1 /\ forall e f, ec <= e -> e < f -> f <= 1 -> omega_G (9 * (2265 / 1945 - 1)) f 500 1 < omega_G (9 * (2265 / 1945 - 1)) e 500 1.
Proof. destruct (C95_omega_exact (9 * (2265 / 1945 - 1))) as (ec & A & B); [lra|]. destruct (B 500 1) as (_ & C & _); try lra. eauto. Qed.
Example C95_sub_case : 0 < sub_eta 2 (9 / 10) <= 9 / 10.
Proof. apply (C95_sub_ratio 2 (9 / 10)); unfold sub_st; lra. Qed.
Example C95_limits_case : sub_G 2 1 (1 / 2) 10 1000 = omega_G 2 (1 / 2) 10 (1 / 1000).
Proof. apply (C95_sub_limits 2 (1 / 2) 10 1000); lra. Qed.
Example C95_high_case : exists r, area_relief_2phase_subcooled 100 20 1 5 1000 900 1 1 1 1 = Ok r /\ prv_crit r = true /\ 0 < prv_A r.
Proof.
  destruct (C95_sub_high 100 20 1 5 1000 900 1 1 1 1) as (r & A & _ & B & C & _); try lra; [unfold sub_st; lra|]. exists r. split; [exact A|]. split; [apply B; lra|exact C].
Qed.

From Verif Require Import RtdModel RtdProps RtdDispProps.
(** three tanks of 10 s each; laminar flow; dispersion *)
Example C56_three_tanks_case : rtd_pair 0 (fun t => E_tanks_series t 30 3) (fun t => F_tanks_series t 30 3) /\ total (fun t => t * E_tanks_series t 30 3) 30 /\ total (fun t => t ^ 2 * E_tanks_series t 30 3) 1200.
Proof. split; [apply C56_tanks; [lra|lia]|]. destruct (C56_tanks_moments 30 3) as (_ & A & B); [lra|lia|]. split; [exact A|]. replace 1200 with (30 ^ 2 + 30 ^ 2 / INR 3) by (simpl; field). exact B. Qed.
Example C56_single_case : total (fun t => t * E_cstr t 30) 30 /\ total (fun t => E_laminar_flow t 30) 1.
Proof. split; [exact (proj2 (C56_cstr 30 ltac:(lra)))|exact (proj1 (proj2 (proj2 (C56_laminar 30 ltac:(lra)))))]. Qed.
Example C56_closed_case : RInt (fun t => E_dispersion_model t 30 4) 0 30 = 1 / 2 * (1 - exp 4 * erfc 2).
Proof.
  etransitivity; [exact (C56_dispersion_closed 30 4 30 ltac:(lra) ltac:(lra) ltac:(lra))|]. assert (E1 : 30 / 30 = 1) by field. rewrite E1. rewrite sqrt_1. assert (E4 : sqrt 4 = 2) by (replace 4 with (2 * 2) by ring; apply sqrt_square; lra). rewrite E4.
  assert (F0 : 2 / 2 * (/ 1 - 1) = 0) by field. assert (F2 : 2 / 2 * (/ 1 + 1) = 2) by field. rewrite F0, F2. unfold erfc. rewrite erf_0. match goal with |- ?a = ?b => change (@eq R a b) end. ring.
Qed.
Example C56_peak_case : forall quad, rtd_pair 0 (fun t => E_dispersion_model t 30 200) (fun t => F_dispersion_model quad t 30 200).
Proof. intros quad. apply C56_dispersion_high; lra. Qed.
Example C56_Pe_case : (exists Pe, Pe_tube 100 (Some 1000) = Ok Pe /\ 0 < Pe) /\ exists P1 P2, Pe_tube 5000 None = Ok P1 /\ Pe_tube 10000 None = Ok P2 /\ 0 < P1 < P2.
Proof. split; [destruct (C56_Pe_laminar 100 1000) as (_ & Pe & A & B & _); try lra; exists Pe; split; [exact A|lra]|]. apply C56_Pe_turbulent. lra. Qed.

From Verif Require Import TrigRootsProps ConvProps IvTac ErfcProps FickProps FickProps2 TruncProps.
Example C91_first_case : exists r, 0 < r < PI / 2 /\ r * tan r = 2.
Proof. destruct (C91_xtanx_roots 2 0) as (r & A & B & _); [lra|]. exists r. change (INR 0) with 0 in A. split; [lra|exact B]. Qed.
Example C91_small_case : roots_xtanx (Some (1 / 10 ^ 12)) 0 (1 / 10 ^ 6) = Ok (PI / 2 * (1 / 10 ^ 12 / (1 / 10 ^ 12 + 1))).
Proof. apply C91_xtanx_small. lra. Qed.
Example C91_xcotx_case : exists r, PI < r < 2 * PI /\ 1 - r * (1 / tan r) = 3.
Proof. destruct (C91_xcotx_roots 3 1) as (r & A & B & _); [lra|]. exists r. change (INR 1) with 1 in A. split; [lra|exact B]. Qed.
Example C97_case : (exists v w, uptake_convection_sphere (1 / 10) 2 = Ok v /\ uptake_convection_sphere 1 2 = Ok w /\ 0 <= v < w /\ w < 1) /\ uptake_convection_sheet 1 0 = Ok 0.
Proof. split; [|apply (C97_zero 1 0); lra]. destruct (C97_sphere 2) as (f & A & _ & B & _); [lra|]. exists (f (1 / 10)), (f 1). rewrite !A by lra. destruct (B (1 / 10) 1) as (C & D); [lra|]. auto. Qed.
Example C97_jump_case : exists v, uptake_convection_sheet (1 / 10 ^ 9) 10 = Ok v /\ 1 / 1000 < v.
Proof. destruct (C97_sheet_jump (1 / 10 ^ 9) 10) as (v & A & B); try lra. exists v. split; [exact A|]. lra. Qed.
Example C58_case : 0 <= profile_sphere (1 / 10) (1 / 2) <= 1 /\ 0 <= uptake_sheet (1 / 10) <= 1 /\ profile_sphere (1 / 1000) 0 < 0.
Proof.
  assert (E : 0 < eps < 1 / 2) by (unfold eps; split; [apply Rinv_0_lt_compat; lra|lra]).
  split; [apply C58_sphere; [lra|rewrite Rabs_right; lra]|]. split; [apply C58_uptake_sheet; lra|]. destruct (C58_centre (1 / 1000) 0) as (_ & _ & A); [lra|rewrite Rabs_R0; lra|apply A; lra].
Qed.
Example C58_semiinf_case : exists v w, profile_semiinf 1 1 1 = Fin v /\ profile_semiinf 2 1 1 = Fin w /\ 0 < v < w.
Proof. destruct (C58_semiinf 1 ltac:(lra)) as (A & _ & B & _). destruct (A 1 1) as (v & V & V0 & _); try lra. destruct (A 2 1) as (w & W & _); try lra. exists v, w. split; [exact V|]. split; [exact W|]. split; [lra|]. apply (B 1 2 1); auto; lra. Qed.
Example C121_sheet_case : fick 1 profile_sheet (1 / 10) /\ profile_sheet 1 1 = 1 /\ exists m, is_RInt (profile_sheet (1 / 10)) 0 1 m /\ Rabs (uptake_sheet (1 / 10) - m) <= 1 / 10 ^ 13.
Proof. split; [apply C121_Fick_sheet; lra|]. split; [apply (C121_boundary_sheet 1); lra|]. destruct (C121_uptake_sheet (1 / 10)) as (m & A & B & _); [lra|]. eauto. Qed.
Example C121_late_case : 1 - uptake_sheet 2 <= exp (- (PI ^ 2 / 4) * 2) /\ uptake_sheet (1 / 4) <= uptake_sheet 2 + 1 / 10 ^ 7.
Proof. split; [apply (C121_late 2); lra|apply (C121_monotone (1 / 4) 2); lra]. Qed.

From Verif Require Import DimProps DimProps2.
(** the same pipe in metres and in millimetres (grams, milliseconds) *)
Example C118_pipe_case : DP_Hagen_Poiseuille ((10 ^ 3) ^ 3 / 10 ^ 3 * (1 / 1000)) (10 ^ 3 * (1 / 10)) (10 ^ 3 * 10) (10 ^ 3 / (10 ^ 3 * 10 ^ 3) * 1) = 10 ^ 3 / (10 ^ 3 * (10 ^ 3) ^ 2) * DP_Hagen_Poiseuille (1 / 1000) (1 / 10) 10 1.
Proof. apply C118_Hagen_Poiseuille; lra. Qed.
Example C118_bed_case : DP_packed_bed (10 ^ 3 / ((10 ^ 3) ^ 2 * 10 ^ 3) * 1) (10 ^ 3 * 2) (10 ^ 3 * (5 / 1000)) (4 / 10) (10 ^ 3 / (10 ^ 3) ^ 3 * 1000) (10 ^ 3 / (10 ^ 3 * 10 ^ 3) * (1 / 1000)) = rscale (10 ^ 3 / (10 ^ 3 * (10 ^ 3) ^ 2)) (DP_packed_bed 1 2 (5 / 1000) (4 / 10) 1000 (1 / 1000)).
Proof. apply C118_packed_bed; lra. Qed.
Example C118_wall_case : U_plane_wall (3 * 1000) (3 * 500) (2 * (1 / 500)) (3 * 2 * 50) (1 / 10000 / 3) (1 / 10000 / 3) = 3 * U_plane_wall 1000 500 (1 / 500) 50 (1 / 10000) (1 / 10000).
Proof. apply C118_plane_wall; lra. Qed.
Example C118_semiinf_case : profile_semiinf (60 * 1) (100 * 2) (100 ^ 2 / 60 * 3) = profile_semiinf 1 2 3.
Proof. apply C118_semiinf; lra. Qed.
Example C118_liquid_case : area_relief_liquid (2 ^ 2 * 3 * 100) (3 ^ 2 * 10) (3 ^ 2 * 1) (2 * 3 * 1) 1 1 1 1 = rscale (2 ^ 2) (area_relief_liquid 100 10 1 1 1 1 1 1).
Proof. apply C118_relief_liquid; lra. Qed.
