(** Concrete cases for scaling laws, diffusion, residence times, relief valves, mixtures and
    quasi-Newton steps (C54-C123): each shows inputs that meet the hypotheses of the theorem it is
    named after, and what the theorem then says. *)
From Coq Require Import Reals Lra Lia List Bool Arith Psatz String.
From Coquelicot Require Import Coquelicot.
From Verif Require Import Prelude.
Import ListNotations.
Close Scope string_scope.
Open Scope R_scope.

Section Dim.
From Verif Require Import KinModel HmtModel FlowModel StepModel HmtProps FlowProps RheoProps WallProps DimProps DimProps2.

(** from SI to millimetres, grams and minutes *)
Example C118_Lockhart_Martinelli_case : DP_GL_Lockhart_Martinelli (1000 / (1 / 60) * 1) (1000 / (1 / 60) * (1 / 10)) (1000 * (1 / 20)) (1000 * 10) (1000 / 1000 ^ 3 * 1000) (1000 / 1000 ^ 3 * 1) (1000 / (1000 * (1 / 60)) * (1 / 1000)) (1000 / (1000 * (1 / 60)) * (1 / 100000)) 0
  = rscale (1000 / (1000 * (1 / 60) ^ 2)) (DP_GL_Lockhart_Martinelli 1 (1 / 10) (1 / 20) 10 1000 1 (1 / 1000) (1 / 100000) 0).
Proof. apply C118_Lockhart_Martinelli; lra. Qed.
Example C118_Mueller_Bonn_case : DP_GL_Mueller_Bonn (1000 / 1 * 1) (1000 / 1 * (1 / 10)) (1 * (1 / 20)) (1 * 10) (1000 / 1 ^ 3 * 1000) (1000 / 1 ^ 3 * 1) (1000 / (1 * 1) * (1 / 1000)) (1000 / (1 * 1) * (1 / 100000))
  = rscale (1000 / (1 * 1 ^ 2)) (DP_GL_Mueller_Bonn 1 (1 / 10) (1 / 20) 10 1000 1 (1 / 1000) (1 / 100000)).
Proof. apply C118_Mueller_Bonn; lra. Qed.
Example C118_drag_case : let l := 3 ^ 2 in vt_drag (l * (1 / 1000)) (1 / l ^ 3 * 2500) (1 / l ^ 3 * 1000) (1 / (l * 3) * (1 / 1000)) (l / 3 * (1 / 10)) = l / 3 * vt_drag (1 / 1000) 2500 1000 (1 / 1000) (1 / 10).
Proof. apply (C118_drag (1 / 1000) 2500 1000 (1 / 1000) (1 / 10) 1 3); lra. Qed.
Example C118_rheology_case : mu_Cross (5 / 60) (1000 * 2) (60 * 3) (1 / 2) = rscale 1000 (mu_Cross 5 2 3 (1 / 2)) /\
  mu_Cross_modified (5 / 60) (1000 * 2) (60 / 1000 * 3) (1 / 2) = rscale 1000 (mu_Cross_modified 5 2 3 (1 / 2)) /\
  mu_Carreau_Yasuda (5 / 60) (1000 * 2) (1000 * 1) (60 * 3) (1 / 2) 2 = rscale 1000 (mu_Carreau_Yasuda 5 2 1 3 (1 / 2) 2).
Proof. split; [apply C118_Cross; lra|]. split; [apply C118_Cross_modified; lra|apply C118_Carreau_Yasuda; lra]. Qed.
Example C118_relief_case : area_relief_2phase (2 * 100) (10 ^ 2 * 5) (10 ^ 2 * 1) (3 ^ 2 * (1 / 100)) (3 ^ 2 * (2 / 100)) 1 1 1 1 = scalePRV (10 ^ 2) (2 * 3 / 10) (area_relief_2phase 100 5 1 (1 / 100) (2 / 100) 1 1 1 1).
Proof. apply C118_relief_2phase; lra. Qed.
Example C118_relief_gas_case : area_relief_gas (2 * 100) (10 * 5) (10 * 1) (3 ^ 2 * 300) (7 / 5) 28 1 false 1 1 1 1 =
  match area_relief_gas 100 5 1 300 (7 / 5) 28 1 false 1 1 1 1 with Ok r => Ok (scalePRV 10 (2 * 3 / 10) r) | Err e => Err e end.
Proof. apply C118_relief_gas; lra. Qed.
Example C118_relief_subcooled_case : area_relief_2phase_subcooled (2 * 100) (10 ^ 2 * 5) (10 ^ 2 * 1) (10 ^ 2 * 2) (3 ^ 2 * 900) (3 ^ 2 * 600) 1 1 1 1 =
  match area_relief_2phase_subcooled 100 5 1 2 900 600 1 1 1 1 with Ok r => Ok (scalePRV (10 ^ 2) (2 * 3 / 10) r) | Err e => Err e end.
Proof. apply C118_relief_subcooled; lra. Qed.
Example C118_composite_case : diffusivity_composite (10000 * 0) (10000 * (1 / 10 ^ 9)) (1 / 2) 1 = 10000 * diffusivity_composite 0 (1 / 10 ^ 9) (1 / 2) 1.
Proof. apply C118_composite. lra. Qed.
Example C118_bank_case : Nu_cylinder_bank (100 / 1 * 5) (1000 / 100 ^ 3 * 1) (1000 / (100 * 1) * (1 / 50000)) (7 / 10) (7 / 10) true (100 * (1 / 50)) (100 * (1 / 20)) (100 * (1 / 20)) 10 = Nu_cylinder_bank 5 1 (1 / 50000) (7 / 10) (7 / 10) true (1 / 50) (1 / 20) (1 / 20) 10.
Proof. apply (C118_cylinder_bank 5 1 (1 / 50000) (7 / 10) (7 / 10) true (1 / 50) (1 / 20) (1 / 20) 10 1000 100 1); lra. Qed.
Example C118_gel_case : Miller_2 (7 * 2) (7 * 3) 3 (1000 * 1) (1000 * 2) (fun _ => 1 / 3) = (flscale 1000 (fst (Miller_2 2 3 3 1 2 (fun _ => 1 / 3))), flscale 1000 (snd (Miller_2 2 3 3 1 2 (fun _ => 1 / 3)))) /\
  Case_3 (1 / 2) (1 / 3) 1 (1000 * 1) (1000 * 2) = rscale2 1000 (Case_3 (1 / 2) (1 / 3) 1 1 2) /\
  Miller_1 (7 * 1) (7 * 1) (7 * 2) 3 1 2 3 (1 / 2) (1 / 3) = Miller_1 1 1 2 3 1 2 3 (1 / 2) (1 / 3) /\
  Miller_1 1 1 2 3 (1000 * 1) (1000 * 2) (1000 * 3) (1 / 2) (1 / 3) = rscale2 1000 (Miller_1 1 1 2 3 1 2 3 (1 / 2) (1 / 3)).
Proof. split; [apply C118_Miller_2; lra|]. split; [apply C118_Case_3; lra|]. split; [apply C118_Miller_1_batch; lra|apply C118_Miller_1_mass; lra]. Qed.
Example C118_Stockmayer_case : Stockmayer 1 1 (fun _ => 5 * 1) (fun _ => 5 * 1) (fun _ => 2) (fun _ => 2) (fun _ => 1) (fun _ => 1) (1 / 2) = Stockmayer 1 1 (fun _ => 1) (fun _ => 1) (fun _ => 2) (fun _ => 2) (fun _ => 1) (fun _ => 1) (1 / 2).
Proof. apply (C118_Stockmayer_batch 1 1 (fun _ => 1) (fun _ => 1)). lra. Qed.
Example C57_LM_case : exists pL pG C, 0 < pL /\ 0 < pG /\ In C [5; 10; 12; 20] /\ DP_GL_Lockhart_Martinelli 1 (1 / 10) (1 / 20) 10 1000 1 (1 / 1000) (1 / 100000) 0 = Ok (pL + C * sqrt (pL * pG) + pG).
Proof. destruct (C57_LM_both 1 (1 / 10) (1 / 20) 10 1000 1 (1 / 1000) (1 / 100000) 0) as (pL & pG & C & _ & _ & A & B & I & E); try lra. exists pL, pG, C. auto. Qed.
Example C57_MB_case : exists f, DP_GL_Mueller_Bonn 0 (1 / 10) (1 / 20) 10 1000 1 (1 / 1000) (1 / 100000) = Ok (single (1 / 10) (1 / 20) 10 1 (1 / 100000) f).
Proof. destruct (C57_MB_gas (1 / 10) (1 / 20) 10 1000 1 (1 / 1000) (1 / 100000)) as (f & _ & E); try lra. now exists f. Qed.
Example C59_limit_case : exists d0, 0 < d0 /\ forall d, d0 < d -> Rabs (U_cylindrical_wall 100 200 d (d + 2 * (1 / 100)) 15 0 0 - U_plane_wall 100 200 (1 / 100) 15 0 0) < 1 / 10.
Proof. apply C59_cylindrical_limit; lra. Qed.
Example C59_plate_case : continuity_pt (fun Re => Nu_plate Re 1) 500000.
Proof. apply C59_plate_continuous. lra. Qed.
End Dim.

Section Diffusion.
From Verif Require Import Deriv RootsModel KinModel Erf HmtModel HmtProps ErfcProps FickProps FickProps2 TruncProps ConvProps RtdModel RtdProps.

Example C121_sphere_case : exists w, fick 1 w 1 /\ exists e, 0 < e /\ forall s r, Rabs (s - 1) < e -> eps <= Rabs r -> w s r = r * profile_sphere s r.
Proof. apply C121_Fick_sphere; lra. Qed.
Example C121_semiinf_case : exists u, fick (1 / 10 ^ 9) u 100 /\ u 100 0 = 1.
Proof. destruct (C121_Fick_semiinf (1 / 10 ^ 9) 100) as (u & A & _ & B); try lra. exists u. split; [exact A|apply B; lra]. Qed.
Example C121_boundary_case : profile_sphere (1 / 4) 1 = 1 /\ profile_sphere (1 / 4) (- (1 / 2)) = profile_sphere (1 / 4) (1 / 2).
Proof. destruct (C121_boundary_sphere (1 / 4)) as (_ & A & B); [lra|]. split; [apply A; lra|apply B]. Qed.
Example C121_initial_case : exists d, 0 < d /\ forall Fo, 0 < Fo < d -> Rabs (profile_sheet Fo (1 / 2)) < 1 / 100.
Proof. apply C121_initial_sheet; [rewrite Rabs_right; lra|lra]. Qed.
Example C121_uptake_case : exists m, is_RInt (fun r => 3 * r ^ 2 * profile_sphere (1 / 10) r) eps 1 m /\ Rabs (uptake_sphere (1 / 10) - m) <= 1 / 10 ^ 17.
Proof. apply C121_uptake_sphere. lra. Qed.
Example C120_case : ierfc 0 = 1 / sqrt PI /\ exists I, is_lim (fun b => RInt erfc 1 b) p_infty (Finite I) /\ ierfc 1 = I.
Proof.
  split; [apply C120_shape|]. destruct (C120_ierfc 1) as (I & A & B & _). exists I. split; [exact A|apply B; lra].
Qed.
Example C120_i2_case : exists J, i2erfc 1 = J /\ exists I, is_lim (fun b => RInt I 1 b) p_infty (Finite J).
Proof.
  assert (H : forall s, is_lim (fun b => RInt erfc s b) p_infty (Finite (Lim (fun b => RInt erfc s b) p_infty))).
  { intros s. destruct (C120_ierfc s) as (I & A & _). rewrite (is_lim_unique _ _ _ A). exact A. }
  destruct (C120_i2erfc _ 1 H) as (J & A & B & _). exists J. split; [apply B; lra|]. eexists. exact A.
Qed.
Example C123_case : exists L : R, Rabs (uptake_sheet (1 / 10) - L) <= 1 / 10 ^ 14 /\ exists L' : R, Rabs (uptake_sphere 1 - L') <= 1 / 10 ^ 16.
Proof.
  destruct (C123_uptake_sheet (1 / 10)) as (A & _); [lra|]. destruct A as (L & _ & B); [lra|]. exists L. split; [exact B|].
  destruct (C123_uptake_sphere 1) as (_ & A'); [lra|]. destruct A' as (L' & _ & B'); [lra|]. now exists L'.
Qed.
Example C58_case : Deriv.D ierfc 1 (- erfc 1) /\ 0 <= uptake_sphere 2 <= 1.
Proof. split; [apply C58_ierfc; lra|apply C58_uptake_sphere; lra]. Qed.
Example C97_jump_case : exists v, uptake_convection_sphere 1 10 = Ok v /\ 6 * 10 ^ 2 / (249 * (249 + 10 * (10 - 1))) - 6 / 10 ^ 6 <= v.
Proof. apply C97_sphere_jump; lra. Qed.
Example C56_tank_case : E_tanks_series 3 10 1 = E_cstr 3 10 /\ is_lim (fun T => RInt (fun t => t ^ 2 * E_laminar_flow t 10) 0 T) p_infty p_infty.
Proof. split; [apply C56_one_tank; lra|apply C56_laminar_variance; lra]. Qed.
End Diffusion.

Section Corr.
From Verif Require Import RootsModel KinModel AcmModel AcmProps AcmMixProps AcmMoreProps EosModel EosProps CubicProps EosCritProps PropModel PropVapProps PropMixProps TransportProps DimProps DimProps2 CorrProps LucasProps.

Example C119_vaporisation_case : DHVL_Vetere (9 / 5 * 350) (9 / 5 * 500) 4000000 = 9 / 5 * DHVL_Vetere 350 500 4000000 /\ DHVL_Watson 30000 (9 / 5 * 300) (9 / 5 * 350) (9 / 5 * 500) = DHVL_Watson 30000 300 350 500.
Proof. destruct (C119_vaporisation 350 300 500 4000000 0 30000 (9 / 5)) as (_ & A & B); [lra|]. auto. Qed.
Example C119_Dean_Stiel_case : Dean_Stiel_pure (1000 * (1 / 1000)) (2 ^ 2 * (1 / 10)) (3 ^ 6 * 500) (5 ^ 3 * 4000000) (1000 * (3 / 10000)) = 2 * 5 ^ 2 / 3 * Dean_Stiel_pure (1 / 1000) (1 / 10) 500 4000000 (3 / 10000).
Proof. apply C119_Dean_Stiel; lra. Qed.
Example C119_Lucas_case : MUV_Lucas (3 ^ 6 * 550) (5 ^ 6 * 1000000) (2 ^ 2 * (1 / 10)) (3 ^ 6 * 500) (5 ^ 6 * 4000000) (1 / 4) (3 ^ 6 / 5 ^ 3 * 0) = pmap (Rmult (2 * 5 ^ 4 / 3)) (MUV_Lucas 550 1000000 (1 / 10) 500 4000000 (1 / 4) 0).
Proof. apply C119_Lucas; lra. Qed.
Example C119_Stiel_Thodos_case : KVPC_Stiel_Thodos (3 ^ 6 / 5 ^ 3 * (1 / 1000)) (2 ^ 2 * (1 / 10)) (3 ^ 6 * 500) (5 ^ 3 * 4000000) (1 / 4) = rscale (5 ^ 2 / (3 * 2)) (KVPC_Stiel_Thodos (1 / 1000) (1 / 10) 500 4000000 (1 / 4)).
Proof. apply C119_Stiel_Thodos; lra. Qed.
Lemma RK_alphaf : alphaf RK_alpha. Proof. constructor. Qed.
Example C119_cubic_case : let a := cu_a RK_consts RK_alpha (fun _ => 500) (fun _ => 4000000) (fun _ => 0) 600 in let a' := cu_a RK_consts RK_alpha (fun _ => 2 * 500) (fun _ => 3 * 4000000) (fun _ => 0) (2 * 600) in
  cu_A (cu_am 1 a' None (fun _ => 1)) (2 * 600) (3 * 1000000) = cu_A (cu_am 1 a None (fun _ => 1)) 600 1000000.
Proof.
  assert (O : 0 <= cu_Oa RK_consts) by (cbn; lra).
  apply (proj1 (C119_cubic (fun _ _ _ => []) RK_consts RK_alpha 1 None (fun _ => 1) 600 1000000 (fun _ => 500) (fun _ => 4000000) (fun _ => 0) 2 3 RK_alphaf O ltac:(lra) ltac:(lra) ltac:(lra) ltac:(intros; lra) ltac:(intros; lra))).
Qed.
Example C109_alpha_case : RK_alpha 500 500 0 = 1 /\ RK_alpha (2 * 300) (2 * 500) 0 = RK_alpha 300 500 0 /\ RK_alpha 400 500 0 < RK_alpha 300 500 0.
Proof.
  split; [apply C109_alpha_critical; [apply RK_alphaf|lra]|]. split; [apply C109_alpha_reduced; [apply RK_alphaf|lra..]|].
  apply (C109_alpha_decreasing RK_alpha 0 300 400 500 RK_alphaf); [lra..|reflexivity].
Qed.
Example C109_graboski_case : Rabs (SRK_fw true (1 / 4) - SRK_fw false (1 / 4)) <= 6 / 1000.
Proof. apply C109_graboski. lra. Qed.
Example C109_virial_case : Rabs (1 / 1000 * (cu_P RK_consts 1 (1 / 10000) 300 (1 / 1000) * (1 / 1000) / (Rgas * 300) - 1) - cu_Bm 1 (1 / 10000) 300) <= (2 * (1 / 10000) ^ 2 + cu_u RK_consts * (1 / 10000) * Rabs 1 / (Rgas * 300)) / (1 / 1000).
Proof. apply C109_cubic_virial; try lra. now left. Qed.
Definition half (_ : nat) : R := 1 / 2.
Lemma half_moles : moles 2 half. Proof. split; [intros; unfold half; lra|unfold sumn, half; cbn; lra]. Qed.
Example C81_ideal_case : 0 <= Dsmix_ideal 2 half <= Rgas * ln (INR 2).
Proof. apply C81_ideal_entropy; [intros; unfold half; lra|unfold sumn, half; cbn; lra]. Qed.
Example C81_UNIQUAC_case : sE_consistent (UNIQUAC_gEc 2 half (fun _ => 1) (fun _ => 2) zmat (fun i j => if Nat.eqb i j then 0 else 100) zmat zmat) (fun t => UNIQUAC_gE 2 t half (fun _ => 1) (fun _ => 2) (exp_par zmat (fun i j => if Nat.eqb i j then 0 else 100) zmat zmat t)) 300.
Proof. apply C81_UNIQUAC_entropy; [apply half_moles|intros; lra|lra]. Qed.
Example C81_athermal_case : let m := mixing 2 300 half (NRTL_gE 2 300 half (NRTL_tau (fun _ _ => 1) zmat zmat zmat 300) (NRTL_alpha (fun _ _ => 3 / 10) zmat 300)) (NRTL_sE 2 300 half (fun _ _ => 1) zmat (fun _ _ => 3 / 10) zmat zmat zmat) in mx_hE m = 0.
Proof. apply (C81_NRTL_athermal 2 half (fun _ _ => 1) (fun _ _ => 3 / 10) 300 half_moles). lra. Qed.
Example C117_low_case : Lucas_Z1 (6 / 5) 1 / Lucas_xi (1 / 10) 500 4000000 < Lucas_mu (6 / 5) (1 / 2) (1 / 10) 500 4000000 1.
Proof. apply (C117_low_pressure (6 / 5) (1 / 2) (1 / 10) 500 4000000); lra. Qed.
Example C88_arguments_case : DV_Wilke_Lee 300 100000 (1 / 10) (1 / 20) 900 None 400 (Some 300) = Err ValueError.
Proof. apply C88_WL_arguments. left. split; [reflexivity|discriminate]. Qed.
Example C88_identical_case : MUVMXPC_Dean_Stiel 2 (1 / 1000) half (fun _ => 1 / 10) (fun _ => 500) (fun _ => 4000000) (fun _ => 1 / 4) = Dean_Stiel_pure (1 / 1000) (1 / 10) 500 4000000 (1 / 4 * Rgas * 500 / 4000000).
Proof. apply C88_Dean_Stiel_identical; try lra. unfold sumn, half; cbn; lra. Qed.
End Corr.

Section Net.
From Verif Require Import ReactModel ReactProps.

Definition rx_case (iM iP : nat) : prop := mkProp (mkSpecies 0 SScalar (Some iM)) (mkSpecies 1 SDist (Some iP)) None (fun _ => Ok 5).
Example C103_update_case : exists y, prop_eval (rx_case 0 1) 300 [2; 1; 3; 11] [0; 0; 0; 0] = Ok y /\ List.length y = 4%nat.
Proof.
  destruct (C103_update (rx_case 0 1) 300 [2; 1; 3; 11] [0; 0; 0; 0] 0 1 None 5) as (y & A & B & _); try (cbn; lia); try reflexivity; [repeat split|exists y; auto].
Qed.
Example C103_constructor_case : new_system [mkReaction 0 (prop_eval (rx_case 0 1)) (Err AttributeError)] = Err AttributeError.
Proof.
  apply (C103_constructor [mkReaction 0 (prop_eval (rx_case 0 1)) (Err AttributeError)]).
  - intros r [<-|[]]. reflexivity.
  - cbn. constructor; [intros []|constructor].
  - discriminate.
Qed.
Example C103_dimension_case : exists sy, new_system [mkReaction 0 (prop_eval (rx_case 0 1)) (Ok [mkSpecies 0 SScalar None; mkSpecies 1 SDist None])] = Ok sy /\ rs_dim sy = 4%nat.
Proof.
  destruct (C103_dimension [mkReaction 0 (prop_eval (rx_case 0 1)) (Ok [mkSpecies 0 SScalar None; mkSpecies 1 SDist None])] [[mkSpecies 0 SScalar None; mkSpecies 1 SDist None]]) as (sy & A & B & _).
  - cbn. constructor; [intros []|constructor].
  - reflexivity.
  - intros s [<-|[<-|[]]]; discriminate.
  - exists sy. auto.
Qed.
Example C103_sum_case : exists r r', propagation 0 (rx_case 0 1) = Ok r /\ propagation 1 (rx_case 0 1) = Ok r' /\ add_reactions r r' = Err AttributeError.
Proof. do 2 eexists. split; [reflexivity|]. split; [reflexivity|]. eapply (C103_sum_raises 0 _ _ 1); [reflexivity|reflexivity|lia]. Qed.
End Net.
