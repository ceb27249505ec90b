(** Concrete cases meeting the hypotheses of theorems of several areas. *)
From Coq Require Import Reals Lra Lia List Bool Arith Psatz String Permutation.
From Coquelicot Require Import Coquelicot.
From Verif Require Import Prelude.
Import ListNotations.
Close Scope string_scope.
Open Scope R_scope.

Section VapCases.
From Verif Require Import KinModel RootsModel PropModel PropVapProps VapAnchorProps.
Open Scope R_scope.
Example C115_any_doubling_case : exists h1 h2, DHVL_Kistiakowsky_Vetere 250 None KvAny = Ok (Flt h1) /\ DHVL_Kistiakowsky_Vetere 500 (Some 1) KvAny = Ok (Flt h2) /\
  h2 / 500 - h1 / 250 = Rgas * ln 2.
Proof.
  eexists. eexists. split; [reflexivity|]. split; [reflexivity|]. replace 500 with (2 * 250) by lra.
  apply (C115_any_doubling 250 None (Some 1)); [lra|reflexivity|reflexivity].
Qed.
(** molar masses of 50 and 100 g/mol, boiling at 300 K and at 900 K *)
Example C115_polar_mass_case : exists h1 h2 g1 g2,
  DHVL_Kistiakowsky_Vetere 300 (Some (5 / 100)) KvPolar = Ok (Flt h1) /\ DHVL_Kistiakowsky_Vetere 300 (Some (1 / 10)) KvPolar = Ok (Flt h2) /\ h2 < h1 /\
  DHVL_Kistiakowsky_Vetere 900 (Some (5 / 100)) KvPolar = Ok (Flt g1) /\ DHVL_Kistiakowsky_Vetere 900 (Some (1 / 10)) KvPolar = Ok (Flt g2) /\ g1 < g2.
Proof.
  do 4 eexists. split; [reflexivity|]. split; [reflexivity|]. split; [|split; [reflexivity|split; [reflexivity|]]].
  - apply (proj1 (C115_polar_mass 300 (5 / 100) (1 / 10) _ _ ltac:(lra) ltac:(lra) eq_refl eq_refl)). lra.
  - apply (proj2 (C115_polar_mass 900 (5 / 100) (1 / 10) _ _ ltac:(lra) ltac:(lra) eq_refl eq_refl)). lra.
Qed.
Example C115_acid_mass_case : exists h1 h2,
  DHVL_Kistiakowsky_Vetere 350 (Some (46 / 1000)) KvAcidAlcohol = Ok (Flt h1) /\ DHVL_Kistiakowsky_Vetere 350 (Some (6 / 100)) KvAcidAlcohol = Ok (Flt h2) /\ h1 < h2.
Proof.
  do 2 eexists. split; [reflexivity|]. split; [reflexivity|].
  apply (proj1 (C115_acid_mass 350 (46 / 1000) (6 / 100) _ _ ltac:(lra) ltac:(lra) eq_refl eq_refl)).
Qed.
End VapCases.

Section TaitCases.
From Verif Require Import RootsModel UtilsModel PropModel PropVapProps TaitModel TaitProps.
Open Scope R_scope.
Definition tait_ex : tait := mkTait (8 / 10 ^ 4) (5 / 10 ^ 7) (/ 10 ^ 9) (2 * 10 ^ 8) (4 / 10 ^ 3).
Example C108_init_case : tait_init tait_ex (Fin 300) (Fin 500) (Fin 0) PInf "PS"%string = Ok (mkTobj tait_ex (Fin 300) (Fin 500) (Fin 0) PInf "PS"%string) /\
  exists e, tait_init tait_ex (Fin 500) (Fin 300) (Fin 0) PInf "PS"%string = Err e /\ e = RangeError.
Proof.
  pose proof eps_pos. assert (eps <= 1) by (unfold eps; rewrite <- Rinv_1 at 1; apply Rinv_le_contravar; [lra|apply pow_R1_Rle; lra]).
  split.
  - apply (proj1 (C108_init tait_ex (Fin 300) (Fin 500) (Fin 0) PInf "PS"%string)). unfold tait_ex. cbn [tA0 tA1 tA2 tB0 tB1].
    split; [repeat split; lra|]. split; [exists 300; repeat split; [lra|right; exists 500; split; [reflexivity|lra]]|]. split; [|reflexivity].
    exists 0. repeat split; [lra|now left].
  - destruct (tait_init tait_ex (Fin 500) (Fin 300) (Fin 0) PInf "PS"%string) as [o|e] eqn:E.
    + apply (proj1 (C108_init tait_ex (Fin 500) (Fin 300) (Fin 0) PInf "PS"%string)) in E. destruct E as (_ & (a & A & _ & B) & _). injection A as <-.
      destruct B as [B|(b & B & L)]; [discriminate B|]. injection B as <-. lra.
    + exists e. split; [reflexivity|]. exact (proj2 (C108_init _ _ _ _ _ _) _ E).
Qed.
Example C54_positive_case : 0 < tait_eval tait_ex 400 (10 ^ 7).
Proof.
  apply C54_positive; [unfold tait_ok, tait_ex; cbn [tA0 tA1 tA2 tB0 tB1]; repeat split; lra|lra|].
  split; [lra|]. unfold tait_B, tait_ex. cbn [tB0 tB1].
  assert (X : exp (- (4 / 10 ^ 3) * (400 - 27315 / 100)) >= 1 / 10). { pose proof (exp_ineq1_le (- (4 / 10 ^ 3) * (400 - 27315 / 100))). lra. }
  lra.
Qed.
End TaitCases.

Section MixCases.
From Verif Require Import RootsModel DistModel DistMixProps.
Open Scope R_scope.
(** 2 a + (3 b + a) and (a + 3 b) + 2 a *)
Example C22_grouping_case : exists h' l h2' l2,
  eval_expr [] (EPlus (EScale 2 7%nat) (EPlus (EScale 3 8%nat) (EInd 7%nat))) = Some (h', OMix l) /\
  eval_expr [] (EPlus (EPlus (EInd 7%nat) (EScale 3 8%nat)) (EScale 2 7%nat)) = Some (h2', OMix l2) /\ Permutation (hget h' l) (hget h2' l2).
Proof.
  apply C22_grouping_irrelevant. cbn [leaves]. rewrite !(proj2 (Rltb_true _ _)) by lra. cbn [app].
  apply Permutation_trans with [(8%nat, 3); (7%nat, 1); (7%nat, 2)].
  - exact (Permutation_cons_append [(8%nat, 3); (7%nat, 1)] (7%nat, 2)).
  - apply perm_swap.
Qed.
End MixCases.

Section DataCases.
From Verif Require Import RootsModel DataModel DataProps.
Open Scope R_scope.
Example C102_constraints_case : dotl (fit_eq_row 2 4) [1 / 4; 3 / 4; 1; 2] = 1 /\ dotl (fit_le_row 2 4 0) [1 / 4; 3 / 4; 1; 2] <= 0.
Proof.
  destruct (C102_constraints false 2 [1 / 4; 3 / 4; 1; 2] ltac:(lia) eq_refl) as (A & B). cbn [List.length] in A, B. split.
  - etransitivity; [exact A|]. unfold DistModel.lsum. cbn [firstn fold_right]. lra.
  - apply (proj2 (B 0%nat ltac:(lia))). cbn [nth Nat.add]. apply Rle_Rpower; lra.
Qed.
End DataCases.

Section WallCases.
From Verif Require Import RootsModel HmtModel HmtProps WallProps.
Open Scope R_scope.
(** on either side of the transition at a Rayleigh number of 1e7 *)
Example C90_plate_case : exists na nb, Nu_plate_free UpperHeated (10 ^ 6) None = Ok na /\ Nu_plate_free UpperHeated (10 ^ 8) None = Ok nb /\ na < nb.
Proof.
  do 2 eexists. split; [reflexivity|]. split; [reflexivity|].
  apply (C90_plate_free_increasing UpperHeated None (10 ^ 6) (10 ^ 8)); [lra|reflexivity|reflexivity].
Qed.
End WallCases.

Section KinCases.
From Verif Require Import RootsModel KinModel KinCldProps.
Open Scope R_scope.
(** two propagations sharing monomer 0 and the moments 1, 2, 3 *)
Example C70_network_case : exists rx, rs_rates [mkProp 0 1 None (fun _ => Ok 100); mkProp 0 1 (Some 4%nat) (fun _ => Ok 50)] 300 (fun i => INR (i + 1)) = Ok rx /\
  rx 0%nat + rx 2%nat = 0 /\ rx 1%nat = 0.
Proof.
  eexists. split; [reflexivity|].
  match goal with |- ?f 0%nat + _ = 0 /\ _ => destruct (C70_network [mkProp 0 1 None (fun _ => Ok 100); mkProp 0 1 (Some 4%nat) (fun _ => Ok 50)] 300 (fun i => INR (i + 1)) f 0%nat 1%nat) as (A & B) end.
  - intros p [<-|[<-|[]]]; unfold idx_ok; cbn [p_iM p_iP p_iA]; repeat split; try lia; try exact I.
  - reflexivity.
  - split; [exact A|]. apply B. discriminate.
Qed.
End KinCases.

Section GoldCases.
From Verif Require Import RootsModel DistModel DistFamProps MomModel MomProps GoldProps Case11Props.
Open Scope R_scope.
(** mean 200, ratio of the rate coefficients 3: the branch of the code that does not call the solver *)
Example C67_gold_limit_case : exists p0, 0 < p0 < 1 /\ is_series (fun k => INR k * gold_pdf_gt1 inc_ex p0 3 k) (200 + (3 - 1) * p0).
Proof.
  exists (gold_p0 eps 0 200 3).
  assert (L : - 40 < ln eps).
  { unfold eps. rewrite ln_Rinv by (apply pow_lt; lra). rewrite ln_pow by lra. pose proof ln_lt_2. assert (ln 2 < 7 / 10). { rewrite <- (ln_exp (7 / 10)). apply ln_increasing; [lra|]. pose proof (exp_ge_taylor (7 / 10) 3 ltac:(lra)) as T. cbn in T. lra. } replace (INR 52) with 52 by (cbn; lra). lra. }
  assert (E : 0 < eps < 1). { unfold eps. split; [apply Rinv_0_lt_compat, pow_lt; lra|]. rewrite <- Rinv_1. apply Rinv_lt_contravar; [rewrite Rmult_1_l; apply pow_lt; lra|]. apply Rlt_pow_R1; [lra|lia]. }
  destruct (C67_gold_limit eps 0 inc_ex 200 3 inc_ex_ok E ltac:(lra) ltac:(lra)) as (A & _ & B & _).
  - unfold gold_find_p0. lra.
  - split; [exact A|]. apply B. lra.
Qed.
End GoldCases.

Section FloryCases.
From Verif Require Import RootsModel DistModel DistFamProps.
Open Scope R_scope.
Example C19_flory_mass_case cdfR pl : ind_pdf (mkI (fun x => flory_pdf0 (flory_a 10) (Z.to_nat (up x - 1))) cdfR (flory_moment pl (flory_a 10)) 1) (INR 2) 1 false = 9 / 500.
Proof.
  rewrite (C19_flory_mass_pdf 10 1 pl _ cdfR 2 ltac:(lra) ltac:(lia)).
  - unfold flory_pdf0, flory_a. cbn. lra.
  - intros j. f_equal. rewrite <- (tech_up (INR j) (Z.of_nat j + 1)).
    + replace (Z.of_nat j + 1 - 1)%Z with (Z.of_nat j) by lia. now rewrite Nat2Z.id.
    + rewrite plus_IZR, <- INR_IZR_INZ. lra.
    + rewrite plus_IZR, <- INR_IZR_INZ. lra.
Qed.
End FloryCases.

Section TransportCases.
From Verif Require Import KinModel RootsModel PropModel PropMixProps TransportProps.
Open Scope R_scope.
(** a solute of 32 ml/mol in water: the correlation gives a positive diffusivity *)
Example C88_Hayduk_case : exists k, DL_Hayduk_Minhas 298 HmAqueous (32 / 1000) 1000 (1 / 1000) = Ok k /\ 0 < k.
Proof.
  eexists. split; [reflexivity|].
  apply (proj2 (C88_Hayduk_aqueous_sign 298 (32 / 1000) 1000 (1 / 1000) _ ltac:(lra) ltac:(lra) ltac:(lra) ltac:(lra) eq_refl)).
  replace (1000000 * (32 / 1000) / 1000) with (2 ^ 5) by lra. rewrite <- Rpower_pow by lra. rewrite Rpower_mult.
  apply Rlt_le_trans with (Rpower 2 (- (1))); [rewrite Rpower_Ropp, Rpower_1 by lra; lra|]. apply Rle_Rpower; [lra|]. cbn. lra.
Qed.
(** the mixture rule for a single component reproduces the pure component only at the critical compressibility it assumes *)
Example C88_ST_single_case k : KVPC_Stiel_Thodos 1 (1 / 100) 300 5000000 (291 / 1000) = Ok k ->
  KVMXPC_Stiel_Thodos 1 1 (fun _ => 1) (fun _ => 1 / 100) (fun _ => 300) (fun _ => 5000000) (fun _ => 291 / 1000) (fun _ => 0) = Ok k.
Proof. intros H. apply (C88_ST_single 1 (1 / 100) 300 5000000 (291 / 1000) 0 k); try lra. exact H. Qed.
End TransportCases.

Section ReactCases.
From Verif Require Import RootsModel ReactModel ReactProps.
Open Scope R_scope.
Definition prop_ex (k : R) : prop := mkProp (mkSpecies 0 SScalar (Some 0%nat)) (mkSpecies 1 SDist (Some 1%nat)) None (fun _ => Ok k).
Example C103_additive_case : exists y y' z, rates_loop (as_reactions [(0%nat, prop_ex 5)]) 300 [2; 1; 3; 11] [0; 0; 0; 0] = Ok y /\
  rates_loop (as_reactions [(1%nat, prop_ex 7)]) 300 [2; 1; 3; 11] [0; 0; 0; 0] = Ok y' /\
  rates_loop (as_reactions [(0%nat, prop_ex 5); (1%nat, prop_ex 7)]) 300 [2; 1; 3; 11] [0; 0; 0; 0] = Ok z /\ nth 3 z 0 = nth 3 y 0 + nth 3 y' 0.
Proof.
  destruct (C103_additive 300 [2; 1; 3; 11] [(0%nat, prop_ex 5)] [(1%nat, prop_ex 7)]) as (y & y' & z & A & B & C & D).
  - repeat constructor; cbn [snd]; exists 0%nat, 1%nat, None; eexists; (split; [unfold indexed, prop_ex; cbn; auto|]); repeat split; cbn; lia.
  - exists y, y', z. split; [exact A|]. split; [exact B|]. split; [exact C|]. apply D.
Qed.
End ReactCases.

Section FlowCases.
From Verif Require Import RootsModel FlowModel FlowProps RheoProps.
Open Scope R_scope.
(** equal densities and viscosities *)
Example C57_MB_case : exists p, DP_GL_Mueller_Bonn 1 2 (1 / 10) 3 1000 1000 (1 / 1000) (1 / 1000) = Ok p /\ 0 < p.
Proof.
  destruct (f_MB_pos (Re_m (1 + 2) (1 / 10) (1 / 1000))) as (f & E & _); [apply Re_m_pos; lra|].
  apply (C57_MB_positive 1 2 (1 / 10) 3 1000 1000 (1 / 1000) (1 / 1000)) with (fL := f) (fG := f); try lra; exact E.
Qed.
End FlowCases.

Section EyringCases.
From Verif Require Import RootsModel KinModel VapAnchorProps.
Open Scope R_scope.
Example C71_factor_case : exists k0 k, eyr_equation 500 0 0 1 = Ok k0 /\ eyr_equation 500 (-10) 5000 1 = Ok k /\ 11 * k < k0 < 112 / 10 * k.
Proof.
  unfold eyr_equation. rewrite !pydiv_ok by lra. cbn [bind]. do 2 eexists. split; [reflexivity|]. split; [reflexivity|].
  apply (C71_factor (-10) 5000 1); [lra|lra| |]; unfold eyr_equation; rewrite pydiv_ok by lra; reflexivity.
Qed.
End EyringCases.

Section LeastCases.
From Verif Require Import VecModel LinAlg QnLinModel QnLinProps QrProps OracleProps Case13Props.
Open Scope R_scope.
(** any matrix sending the step (1, 1) to (3, 3) differs from the old matrix at least as much, row by row *)
Example C96_least_case B : matvec 2 B (fun _ => 2 - 1) 0%nat = 1 * (4 - 1) ->
  let (Q', R') := update_broyden_qr 2 (quN 2) (fun _ => 1) (fun _ => 2) (fun _ => 1) (fun _ => 4) (fst (qr 2 J2)) (snd (qr 2 J2)) (fun _ => 1) (fun _ => 1) in
  sumn 2 (fun j => ((mmul 2 Q' R' 0%nat j - mmul 2 (fst (qr 2 J2)) (snd (qr 2 J2)) 0%nat j) / 1) ^ 2) <= sumn 2 (fun j => ((B 0%nat j - mmul 2 (fst (qr 2 J2)) (snd (qr 2 J2)) 0%nat j) / 1) ^ 2).
Proof.
  intros H. destruct (update_broyden_qr _ _ _ _ _ _ _ _ _ _) as (Q', R') eqn:E.
  apply (C96_least_change 2 (quN 2) (fun _ => 1) (fun _ => 2) (fun _ => 1) (fun _ => 4) (fst (qr 2 J2)) (snd (qr 2 J2)) Q' R' (fun _ => 1) (fun _ => 1) B 0%nat); try exact E; try exact H; try (intros; lra); try lia; try apply C96_update_exists.
  exists 0%nat. split; [lia|lra].
Qed.
End LeastCases.

Section TrigCases.
From Verif Require Import RootsModel HmtModel TrigRootsProps.
Open Scope R_scope.
Example C91_xtanx_large_case : let r := INR 34 * PI + PI / 4 in
  INR 34 * PI < xtanx_large r 34 (1 / 10 ^ 6) < INR 34 * PI + PI / 2 /\ (Rabs (xtanx_large r 34 (1 / 10 ^ 6) - r) <= 1 / 10 ^ 6 * (100 / 99) \/ Rabs (xtanx_large r 34 (1 / 10 ^ 6) - r) <= 2 / 100 ^ 10).
Proof.
  intros r. pose proof PI_RGT_0. assert (P : 3 < PI) by (pose proof PI2_3_2; lra).
  apply C91_xtanx_large.
  - unfold r. cbn [INR]. lra.
  - unfold r. lra.
  - replace (tan r) with 1; [ring|]. unfold r. symmetry. replace (INR 34 * PI + PI / 4) with (PI / 4 + 2 * INR 17 * PI) by (cbn [INR]; lra).
    unfold tan. rewrite sin_period, cos_period. exact tan_PI4.
Qed.
Example C91_xcotx_large_case : let r := 3 * (PI / 4) in
  PI / 2 <= xcotx_large (1 + r) 0 (1 / 10 ^ 6) <= PI /\ (Rabs (xcotx_large (1 + r) 0 (1 / 10 ^ 6) - r) <= 1 / 10 ^ 6 * (25 / 17) \/ Rabs (xcotx_large (1 + r) 0 (1 / 10 ^ 6) - r) <= 2 * (8 / 25) ^ 30).
Proof.
  intros r. pose proof PI_RGT_0. assert (P : 3 < PI) by (pose proof PI2_3_2; lra).
  assert (T : tan r = - (1)). { unfold r. replace (3 * (PI / 4)) with (PI - PI / 4) by lra. unfold tan. rewrite sin_PI_x. replace (PI - PI / 4) with (- (PI / 4) + PI) by lra. rewrite neg_cos, cos_neg. pose proof tan_PI4 as Q. unfold tan in Q. pose proof (cos_gt_0 (PI / 4) ltac:(lra) ltac:(lra)).
    assert (E : sin (PI / 4) = cos (PI / 4)) by (rewrite <- (Rmult_1_l (cos (PI / 4))), <- Q; field; lra). rewrite E. field. lra. }
  pose proof (C91_xcotx_large (1 + r) 0 (1 / 10 ^ 6) r) as X. cbn [INR] in X. rewrite Rmult_0_l, !Rplus_0_l in X. apply X; unfold r; [lra|lra|].
  fold r. rewrite T. field.
Qed.
End TrigCases.

Section AlphaCases.
From Verif Require Import RootsModel KinModel EosModel EosCritProps.
Open Scope R_scope.
Example C109_alpha_case : exists f, (forall T Tc, PR_alpha T Tc (1 / 2) = (1 + f * (1 - sqrt (T / Tc))) ^ 2) /\ 0 < f <= 165 / 100.
Proof.
  destruct (C109_alpha_form PR_alpha (1 / 2) al_PR) as [E|(f & A & B & _ & C)].
  - exfalso. apply (f_equal (fun h => h 4 1 (1 / 2))) in E. unfold PR_alpha, RK_alpha in E. cbv beta in E. revert E.
    replace (4 / 1) with (2 * 2) by lra. replace (1 / 4) with ((1 / 2) * (1 / 2)) by lra. rewrite !sqrt_square by lra. lra.
  - exists f. split; [exact A|]. split; [apply B; lra|apply C; [reflexivity|lra]].
Qed.
End AlphaCases.

Section EqCases.
From Verif Require Import RootsModel UtilsModel PropModel PropVapProps EqPlotModel EqPlotProps.
Open Scope R_scope.
Example C111_objects_case : evaluates (init_DIPPR100 1 2 3 4 5 (Fin 0) PInf) (Fin 0) PInf 10 (1 + 2 * 10 + 3 * 10 ^ 2 + 4 * 10 ^ 3 + 5 * 10 ^ 4) /\
  evaluates (init_Antoine 8 1700 (-40) true (Fin 273) (Fin 373)) (Fin 273) (Fin 373) 300 (Rpower 10 (8 - 1700 / (300 + -40))).
Proof.
  split.
  - apply (C111_objects (Fin 0) PInf 10 1 2 3 4 5 1 1 true); [exists 0; repeat split; [lra|now left]|lra].
  - apply (C111_objects (Fin 273) (Fin 373) 300 8 1700 (-40) 0 0 1 1 true); [|lra]. exists 273. repeat split; [lra|]. right. exists 373. split; [reflexivity|].
    unfold RootsModel.eps. apply Rle_trans with (/ 1); [apply Rinv_le_contravar; [lra|apply pow_R1_Rle; lra]|lra].
Qed.
End EqCases.
