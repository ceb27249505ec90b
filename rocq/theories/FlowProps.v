(** C57: pressure drop in tubes; C60: rheology; C92: friction factors and monotonicity of pressure drops. *)
From Coq Require Import Reals Lra Lia List Bool Arith Psatz.
From Coq Require Rsqrt_def.
From Verif Require Import Prelude RootsModel RootsProps KinModel CopoModel Deriv NumBounds HmtModel HmtProps WallProps FlowModel.
Import ListNotations.
Open Scope R_scope.

Lemma Rleb_t x y : x <= y -> Rleb x y = true.
Proof. apply Rleb_true. Qed.
Lemma Rleb_f x y : y < x -> Rleb x y = false.
Proof. apply Rleb_false. Qed.
Lemma ln_lt_sub x y : 0 < x -> 0 < y -> ln y <= ln x + (y / x - 1).
Proof.
  intros Hx Hy. assert (0 < y / x) by now apply Rdiv_lt_0_compat. pose proof (ln_le_sub (y / x) H) as L. unfold Rdiv in L at 1. rewrite ln_mult, ln_Rinv in L by (auto; now apply Rinv_0_lt_compat). lra.
Qed.
Lemma ln_le x y : 0 < x -> x <= y -> ln x <= ln y.
Proof. intros H [L| ->]; [left; now apply ln_increasing|lra]. Qed.
Lemma ln3 : 1 <= ln 3.
Proof. rewrite <- (ln_exp 1). apply ln_le; [apply exp_pos|]. apply exp_le_3. Qed.
Lemma ln10_pos : 225 / 100 < ln 10.
Proof.
  rewrite <- (ln_exp (225 / 100)). apply ln_increasing; [apply exp_pos|]. replace (225 / 100) with (INR 3 * (3 / 4)) by (cbn; field). rewrite exp_mult_pow.
  assert (E : exp (3 / 4) <= 215 / 100) by (apply exp_upper; unfold q5; lra). pose proof (exp_pos (3 / 4)). assert (exp (3 / 4) ^ 3 <= (215 / 100) ^ 3) by (apply pow_incr; lra). lra.
Qed.

(* ------------------------------------------------------------------ *)
(** * Haaland's friction factor                                       *)
(* ------------------------------------------------------------------ *)

Definition h_arg (Re er : R) : R := pow0 (er / (37 / 10)) (111 / 100) + 69 / 10 / Re.
Definition h_L (Re er : R) : R := - ln (h_arg Re er).
Lemma h_arg_bounds Re er : 2300 <= Re -> 0 <= er <= 1 -> 0 < h_arg Re er < 1 / 3.
Proof.
  intros HR He. unfold h_arg. assert (0 < 69 / 10 / Re <= 3 / 1000).
  { split; [apply Rdiv_lt_0_compat; lra|]. apply (Rmult_le_reg_r Re); [lra|]. unfold Rdiv. rewrite Rmult_assoc, Rinv_l by lra. lra. }
  assert (0 <= pow0 (er / (37 / 10)) (111 / 100) <= 10 / 37).
  { split; [apply pow0_nonneg|]. eapply Rle_trans; [apply (pow0_le _ (10 / 37)); lra|]. rewrite pow0_pos by lra. replace (10 / 37) with (Rpower (10 / 37) 1) at 2 by (apply Rpower_1; lra). left. apply rp_exp_decr; lra. }
  lra.
Qed.
Lemma h_L_gt1 Re er : 2300 <= Re -> 0 <= er <= 1 -> 1 < h_L Re er.
Proof.
  intros HR He. pose proof (h_arg_bounds Re er HR He). unfold h_L. rewrite <- ln_Rinv by lra. eapply Rle_lt_trans; [apply ln3|]. apply ln_increasing; [lra|]. apply (Rmult_lt_reg_r (h_arg Re er)); [lra|]. rewrite Rinv_l; lra.
Qed.
Lemma haaland_val Re er : 2300 <= Re -> 0 <= er <= 1 -> fD_Haaland Re er = (ln 10 / (18 / 10)) ^ 2 / h_L Re er ^ 2.
Proof.
  intros HR He. pose proof (h_L_gt1 Re er HR He) as L. pose proof ln10_pos. unfold fD_Haaland. fold (h_arg Re er). unfold h_L in *. field. lra.
Qed.
Lemma h_L_Re R1 R2 er : 2300 <= R1 < R2 -> 0 <= er <= 1 -> h_L R1 er < h_L R2 er /\ h_L R2 er <= h_L R1 er + ln (R2 / R1).
Proof.
  intros HR He. pose proof (h_arg_bounds R1 er ltac:(lra) He) as A1. pose proof (h_arg_bounds R2 er ltac:(lra) He) as A2. unfold h_L.
  assert (I : / R2 < / R1) by (apply Rinv_lt_contravar; [apply Rmult_lt_0_compat|]; lra). assert (P : 0 < / R2) by (apply Rinv_0_lt_compat; lra). split.
  - apply Ropp_lt_contravar, ln_increasing; [lra|]. unfold h_arg, Rdiv. nra.
  - assert (ln (h_arg R1 er) <= ln (h_arg R2 er * (R2 / R1))).
    { apply ln_le; [lra|]. unfold h_arg. rewrite Rmult_plus_distr_r. replace (69 / 10 / R2 * (R2 / R1)) with (69 / 10 / R1) by (field; lra). pose proof (pow0_nonneg (er / (37 / 10)) (111 / 100)). assert (1 <= R2 / R1); [|nra]. apply (Rmult_le_reg_r R1); [lra|]. unfold Rdiv. rewrite Rmult_assoc, Rinv_l; lra. }
    assert (0 < R2 / R1) by (apply Rdiv_lt_0_compat; lra). rewrite ln_mult in H by lra. lra.
Qed.
Lemma h_L_er Re e1 e2 : 2300 <= Re -> 0 <= e1 < e2 -> e2 <= 1 -> h_L Re e2 < h_L Re e1.
Proof.
  intros HR H1 H2. pose proof (h_arg_bounds Re e1 HR ltac:(lra)). unfold h_L. apply Ropp_lt_contravar, ln_increasing; [lra|]. unfold h_arg. apply Rplus_lt_compat_r. apply pow0_lt; lra.
Qed.
Lemma inv_sq_lt c x y : 0 < c -> 0 < x < y -> c / y ^ 2 < c / x ^ 2.
Proof. intros. unfold Rdiv. apply Rmult_lt_compat_l; auto. apply Rinv_lt_contravar; [apply Rmult_lt_0_compat; apply pow_lt; lra|]. simpl. nra. Qed.
Lemma c10_pos : 15625 / 10000 < (ln 10 / (18 / 10)) ^ 2.
Proof. pose proof ln10_pos. assert (125 / 100 < ln 10 / (18 / 10)) by lra. simpl. nra. Qed.
(** Haaland's friction factor is positive, decreasing in Re and increasing with the roughness *)
Theorem C92_haaland Re er : 2300 <= Re -> 0 <= er <= 1 ->
  0 < fD_Haaland Re er /\ (forall Re', Re < Re' -> fD_Haaland Re' er < fD_Haaland Re er) /\ (forall er', er < er' <= 1 -> fD_Haaland Re er < fD_Haaland Re er').
Proof.
  intros HR He. pose proof (h_L_gt1 Re er HR He) as L. pose proof c10_pos as C. rewrite haaland_val by auto. split; [|split].
  - apply Rdiv_lt_0_compat; [lra|]. apply pow_lt. lra.
  - intros R' H'. rewrite haaland_val by lra. apply inv_sq_lt; [lra|]. split; [lra|]. apply h_L_Re; lra.
  - intros e' H'. rewrite haaland_val by lra. apply inv_sq_lt; [lra|]. pose proof (h_L_gt1 Re e' HR ltac:(lra)). split; [lra|]. apply h_L_er; lra.
Qed.
(** Re^2 f increases *)
Lemma re2f_incr R1 R2 er : 2300 <= R1 < R2 -> 0 <= er <= 1 -> R1 ^ 2 * fD_Haaland R1 er < R2 ^ 2 * fD_Haaland R2 er.
Proof.
  intros HR He. pose proof (h_L_gt1 R1 er ltac:(lra) He) as L1. pose proof (h_L_gt1 R2 er ltac:(lra) He) as L2. destruct (h_L_Re R1 R2 er HR He) as (_ & B). rewrite !haaland_val by lra. pose proof c10_pos as C. set (c := (ln 10 / (18 / 10)) ^ 2) in *. set (l1 := h_L R1 er) in *. set (l2 := h_L R2 er) in *.
  assert (T : 1 < R2 / R1). { apply (Rmult_lt_reg_r R1); [lra|]. unfold Rdiv. rewrite Rmult_assoc, Rinv_l; lra. }
  assert (0 < R2 / R1) by lra. pose proof (ln_le_sub (R2 / R1) H) as LN. assert (K : l2 < l1 * (R2 / R1)) by nra.
  assert (K2 : R1 / l1 < R2 / l2). { apply (Rmult_lt_reg_r (l1 * l2)); [nra|]. replace (R1 / l1 * (l1 * l2)) with (R1 * l2) by (field; lra). replace (R2 / l2 * (l1 * l2)) with (R1 * (l1 * (R2 / R1))) by (field; lra). apply Rmult_lt_compat_l; lra. }
  replace (R1 ^ 2 * (c / l1 ^ 2)) with (c * (R1 / l1) ^ 2) by (field; lra). replace (R2 ^ 2 * (c / l2 ^ 2)) with (c * (R2 / l2) ^ 2) by (field; lra).
  assert (0 < R1 / l1) by (apply Rdiv_lt_0_compat; lra). apply Rmult_lt_compat_l; [lra|]. simpl. nra.
Qed.
Lemma h_L0 Re : 2300 <= Re -> h_L Re 0 = ln (Re / (69 / 10)).
Proof. intros H. unfold h_L, h_arg. replace (0 / (37 / 10)) with 0 by field. rewrite pow0_0, Rplus_0_l, <- ln_Rinv by (apply Rdiv_lt_0_compat; lra). f_equal. field. lra. Qed.
Lemma l2300 : 2 < ln (2300 / (69 / 10)) < 6.
Proof.
  split.
  - rewrite <- (ln_exp 2). apply ln_increasing; [apply exp_pos|]. replace 2 with (1 + 1) by ring. rewrite exp_plus. pose proof exp_le_3. pose proof (exp_pos 1). assert (exp 1 * exp 1 <= 3 * 3) by (apply Rmult_le_compat; lra). lra.
  - rewrite <- (ln_exp 6). apply ln_increasing; [lra|]. replace 6 with (INR 6 * 1) by (cbn; ring). rewrite exp_mult_pow. assert (27 / 10 <= exp 1) by (apply exp_lower; unfold q6; lra). assert ((27 / 10) ^ 6 <= exp 1 ^ 6) by (apply pow_incr; lra). lra.
Qed.
(** the turbulent factor exceeds the laminar one over the whole range of its use *)
Theorem C92_turbulent_above_laminar Re er : 2300 <= Re -> 0 <= er <= 1 -> 64 / Re < fD_Haaland Re er.
Proof.
  intros HR He. apply Rlt_le_trans with (fD_Haaland Re 0); [|destruct (Req_dec er 0) as [-> |N]; [lra|left; apply (C92_haaland Re 0 HR ltac:(lra)); lra]].
  pose proof (h_L_gt1 Re 0 HR ltac:(lra)) as L. rewrite haaland_val by lra. rewrite h_L0 in * by auto. pose proof c10_pos as C. set (c := (ln 10 / (18 / 10)) ^ 2) in *. set (l := ln (Re / (69 / 10))) in *.
  pose proof l2300 as (M1 & M2). set (l0 := ln (2300 / (69 / 10))) in *. set (t := sqrt (Re / 2300)).
  assert (Q : 1 <= Re / 2300) by (apply (Rmult_le_reg_r 2300); [lra|]; unfold Rdiv; rewrite Rmult_assoc, Rinv_l; lra).
  assert (T2 : t * t = Re / 2300) by (apply sqrt_sqrt; lra). assert (T1 : 1 <= t) by (unfold t; rewrite <- sqrt_1; apply sqrt_le_1; lra).
  assert (LB : l <= l0 + 2 * (t - 1)).
  { unfold l, l0. replace (Re / (69 / 10)) with (2300 / (69 / 10) * (t * t)) by (rewrite T2; field). rewrite ln_mult, ln_mult by nra. pose proof (ln_le_sub t ltac:(lra)). lra. }
  assert (LT : l <= l0 * t) by nra. assert (LQ : l ^ 2 <= 36 * (Re / 2300)). { rewrite <- T2. assert (l <= 6 * t) by nra. assert (0 <= l) by lra. simpl. nra. }
  apply (Rmult_lt_reg_r (Re * l ^ 2)); [apply Rmult_lt_0_compat; [lra|apply pow_lt; lra]|]. replace (64 / Re * (Re * l ^ 2)) with (64 * l ^ 2) by (field; lra). replace (c / l ^ 2 * (Re * l ^ 2)) with (c * Re) by (field; lra). nra.
Qed.

(* ------------------------------------------------------------------ *)
(** * Tubes                                                           *)
(* ------------------------------------------------------------------ *)

(** in laminar flow (either direction) the drop is Hagen-Poiseuille's *)
Theorem C57_laminar Q D L rho mu er : 0 < D -> 0 < rho -> 0 < mu -> Q <> 0 -> rho * (4 * Q / (PI * D ^ 2)) * D / mu < 2300 ->
  DP_tube Q D L rho mu er = Ok (DP_Hagen_Poiseuille Q D L mu).
Proof.
  intros HD Hr Hm HQ HR. pose proof PI_RGT_0. unfold DP_tube, fD_switch. rewrite Rltb_t by auto. rewrite pydiv_ok. { cbn [bind]. f_equal. unfold DP_Darcy_Weisbach, DP_Hagen_Poiseuille. field. repeat split; lra. }
  apply Rmult_integral_contrapositive_currified; [|apply Rinv_neq_0_compat; lra]. repeat (apply Rmult_integral_contrapositive_currified; try lra). apply Rinv_neq_0_compat. apply Rmult_integral_contrapositive_currified; [lra|apply pow_nonzero; lra].
Qed.
Theorem C57_length v D L1 L2 rho fD : DP_Darcy_Weisbach v D (L1 + L2) rho fD = DP_Darcy_Weisbach v D L1 rho fD + DP_Darcy_Weisbach v D L2 rho fD.
Proof. unfold DP_Darcy_Weisbach. ring. Qed.
(** finding: without flow DP_tube fails, while the laminar drop is 0 *)
Theorem C57_zero_flow_refuted D L rho mu er : DP_tube 0 D L rho mu er = Err ZeroDivisionError /\ DP_Hagen_Poiseuille 0 D L mu = 0.
Proof.
  unfold DP_tube, fD_switch. replace (rho * (4 * 0 / (PI * D ^ 2)) * D / mu) with 0 by (unfold Rdiv; ring). rewrite Rltb_t by lra. rewrite pydiv_zero by auto. split; [reflexivity|]. unfold DP_Hagen_Poiseuille, Rdiv. ring.
Qed.
(** the drop as a function of the Reynolds number *)
Definition re2f (Re er : R) : R := if Rltb Re 2300 then 64 * Re else Re ^ 2 * fD_Haaland Re er.
Lemma DP_tube_val Q D L rho mu er : 0 < D -> 0 < rho -> 0 < mu -> Q <> 0 ->
  DP_tube Q D L rho mu er = Ok (L * mu ^ 2 / (2 * rho * D ^ 3) * re2f (rho * (4 * Q / (PI * D ^ 2)) * D / mu) er).
Proof.
  intros HD Hr Hm HQ. pose proof PI_RGT_0. unfold re2f. destruct (Rltb _ 2300) eqn:E.
  - rewrite C57_laminar by (auto; now apply Rltb_true). f_equal. unfold DP_Hagen_Poiseuille. field. repeat split; lra.
  - unfold DP_tube, fD_switch. rewrite E. cbn [bind]. f_equal. unfold DP_Darcy_Weisbach. field. repeat split; lra.
Qed.
Lemma re2f_mono R1 R2 er : 0 < R1 < R2 -> 0 <= er <= 1 -> re2f R1 er < re2f R2 er.
Proof.
  intros HR He. unfold re2f. destruct (Rltb R1 2300) eqn:E1, (Rltb R2 2300) eqn:E2; try apply Rltb_true in E1; try apply Rltb_true in E2; try apply Rltb_false in E1; try apply Rltb_false in E2; try lra.
  - pose proof (C92_turbulent_above_laminar R2 er E2 He) as T. apply (Rmult_lt_compat_r (R2 ^ 2)) in T; [|apply pow_lt; lra]. replace (64 / R2 * R2 ^ 2) with (64 * R2) in T by (field; lra). lra.
  - apply re2f_incr; lra.
Qed.
(** the drop increases with the flow, also across the laminar-turbulent switch *)
Theorem C57_increasing Q1 Q2 D L rho mu er : 0 < D -> 0 < L -> 0 < rho -> 0 < mu -> 0 <= er <= 1 -> 0 < Q1 < Q2 ->
  exists p1 p2, DP_tube Q1 D L rho mu er = Ok p1 /\ DP_tube Q2 D L rho mu er = Ok p2 /\ 0 < p1 < p2.
Proof.
  intros HD HL Hr Hm He HQ. pose proof PI_RGT_0. rewrite !DP_tube_val by lra. do 2 eexists. split; [reflexivity|]. split; [reflexivity|].
  set (K := L * mu ^ 2 / (2 * rho * D ^ 3)). assert (0 < K). { apply Rdiv_lt_0_compat; apply Rmult_lt_0_compat; try lra; apply pow_lt; lra. }
  assert (C : 0 < rho * 4 / (PI * D ^ 2) * D / mu). { assert (0 < D ^ 2) by (apply pow_lt; lra). apply Rdiv_lt_0_compat; auto. apply Rmult_lt_0_compat; auto. apply Rdiv_lt_0_compat; [lra|]. apply Rmult_lt_0_compat; lra. }
  assert (V : forall Q, rho * (4 * Q / (PI * D ^ 2)) * D / mu = rho * 4 / (PI * D ^ 2) * D / mu * Q) by (intros; field; repeat split; lra). rewrite !V. set (k := rho * 4 / (PI * D ^ 2) * D / mu) in *.
  assert (0 < k * Q1 < k * Q2) by (split; [apply Rmult_lt_0_compat; lra|apply Rmult_lt_compat_l; lra]). split; [|apply Rmult_lt_compat_l; auto; now apply re2f_mono].
  apply Rmult_lt_0_compat; auto. unfold re2f. destruct (Rltb (k * Q1) 2300) eqn:E; [lra|]. apply Rltb_false in E. apply Rmult_lt_0_compat; [apply pow_lt; lra|]. now apply C92_haaland.
Qed.
(** finding: reverse flow is always taken as laminar, so above Re = 2300 the drop is not that of the same flow
    in the other direction *)
Theorem C57_reverse_refuted Q D L rho mu er : 0 < D -> 0 < L -> 0 < rho -> 0 < mu -> 0 <= er <= 1 -> 0 < Q -> 2300 <= rho * (4 * Q / (PI * D ^ 2)) * D / mu ->
  exists p p', DP_tube Q D L rho mu er = Ok p /\ DP_tube (- Q) D L rho mu er = Ok p' /\ p' = DP_Hagen_Poiseuille (- Q) D L mu /\ - p' < p.
Proof.
  intros HD HL Hr Hm He HQ HR. pose proof PI_RGT_0. rewrite (C57_laminar (- Q) D L rho mu er HD Hr Hm ltac:(lra)). 2: { replace (rho * (4 * - Q / (PI * D ^ 2)) * D / mu) with (- (rho * (4 * Q / (PI * D ^ 2)) * D / mu)) by (field; lra). lra. }
  rewrite DP_tube_val by lra. do 2 eexists. repeat split. set (Re := rho * (4 * Q / (PI * D ^ 2)) * D / mu) in *.
  assert (E : - DP_Hagen_Poiseuille (- Q) D L mu = L * mu ^ 2 / (2 * rho * D ^ 3) * (64 * Re)) by (unfold DP_Hagen_Poiseuille, Re; field; lra). rewrite E.
  apply Rmult_lt_compat_l. { apply Rdiv_lt_0_compat; apply Rmult_lt_0_compat; try lra; apply pow_lt; lra. }
  unfold re2f. rewrite Rltb_f by auto. pose proof (C92_turbulent_above_laminar Re er HR He) as T. apply (Rmult_lt_compat_r (Re ^ 2)) in T; [|apply pow_lt; lra]. replace (64 / Re * Re ^ 2) with (64 * Re) in T by (field; lra). lra.
Qed.

(* ------------------------------------------------------------------ *)
(** * Two-phase flow                                                  *)
(* ------------------------------------------------------------------ *)

Lemma LM_phase_tube mdot D L rho mu er : 0 < D -> 0 < rho -> 0 < mu -> 0 < mdot -> 0 < L -> 0 <= er <= 1 ->
  exists p Re, LM_phase mdot D rho mu er = Ok (p, Re) /\ 0 < p /\ DP_tube (mdot / rho) D L rho mu er = Ok (p * L).
Proof.
  intros HD Hr Hm H HL He. pose proof PI_RGT_0. destruct (C57_increasing (mdot / rho) (mdot / rho + 1) D 1 rho mu er HD ltac:(lra) Hr Hm He) as (p1 & _ & E1 & _ & B & _). { split; [apply Rdiv_lt_0_compat; lra|lra]. }
  unfold LM_phase, DP_tube in *. rewrite Rltb_t by auto. cbv zeta in *. replace (mdot / (PI / 4 * D ^ 2 * rho)) with (4 * (mdot / rho) / (PI * D ^ 2)) by (field; lra).
  set (v := 4 * (mdot / rho) / (PI * D ^ 2)) in *. destruct (fD_switch (rho * v * D / mu) er) as [f|]; [|discriminate]. cbn [bind] in *. do 2 eexists. split; [reflexivity|]. injection E1 as E1. split; [rewrite E1; auto|]. f_equal. unfold DP_Darcy_Weisbach. ring.
Qed.
Lemma LM_phase_0 mdot D rho mu er : mdot <= 0 -> LM_phase mdot D rho mu er = Ok (0, 0).
Proof. intros H. unfold LM_phase. now rewrite Rltb_f. Qed.
(** with one phase only, the drop is that of the single phase *)
Theorem C57_LM_liquid mdotL mdotG D L rhoL rhoG muL muG er : 0 < D -> 0 < L -> 0 < rhoL -> 0 < muL -> 0 <= er <= 1 -> 0 < mdotL -> mdotG <= 0 ->
  DP_GL_Lockhart_Martinelli mdotL mdotG D L rhoL rhoG muL muG er = DP_tube (mdotL / rhoL) D L rhoL muL er.
Proof.
  intros. destruct (LM_phase_tube mdotL D L rhoL muL er) as (p & Re & E & B & T); auto. unfold DP_GL_Lockhart_Martinelli. rewrite E, LM_phase_0 by auto. cbn [bind]. rewrite Reqb_refl, T. reflexivity.
Qed.
Theorem C57_LM_gas mdotL mdotG D L rhoL rhoG muL muG er : 0 < D -> 0 < L -> 0 < rhoG -> 0 < muG -> 0 <= er <= 1 -> mdotL <= 0 -> 0 < mdotG ->
  DP_GL_Lockhart_Martinelli mdotL mdotG D L rhoL rhoG muL muG er = DP_tube (mdotG / rhoG) D L rhoG muG er.
Proof.
  intros. destruct (LM_phase_tube mdotG D L rhoG muG er) as (p & Re & E & B & T); auto. unfold DP_GL_Lockhart_Martinelli. rewrite E, LM_phase_0 by auto. cbn [bind]. rewrite Reqb_f by lra. rewrite Reqb_refl, T. reflexivity.
Qed.
(** with both phases: both single-phase drops plus C times their geometric mean *)
Theorem C57_LM_both mdotL mdotG D L rhoL rhoG muL muG er : 0 < D -> 0 < L -> 0 < rhoL -> 0 < rhoG -> 0 < muL -> 0 < muG -> 0 <= er <= 1 -> 0 < mdotL -> 0 < mdotG ->
  exists pL pG C, DP_tube (mdotL / rhoL) D L rhoL muL er = Ok pL /\ DP_tube (mdotG / rhoG) D L rhoG muG er = Ok pG /\ 0 < pL /\ 0 < pG /\
    In C [5; 10; 12; 20] /\ DP_GL_Lockhart_Martinelli mdotL mdotG D L rhoL rhoG muL muG er = Ok (pL + C * sqrt (pL * pG) + pG).
Proof.
  intros. destruct (LM_phase_tube mdotL D L rhoL muL er) as (p & Re & E & B & T); auto. destruct (LM_phase_tube mdotG D L rhoG muG er) as (p' & Re' & E' & B' & T'); auto.
  unfold DP_GL_Lockhart_Martinelli. rewrite E, E'. cbn [bind]. rewrite !Reqb_f by lra. set (C := if Rltb 1000 Re then (if Rltb 1000 Re' then 20 else 10) else (if Rltb 1000 Re' then 12 else 5)).
  exists (p * L), (p' * L), C. split; [auto|]. split; [auto|]. split; [nra|]. split; [nra|]. split. { unfold C. destruct (Rltb 1000 Re), (Rltb 1000 Re'); cbn; tauto. }
  f_equal. assert (Q : 0 < p / p') by now apply Rdiv_lt_0_compat. assert (S : 0 < sqrt (p / p')) by now apply sqrt_lt_R0. pose proof (sqrt_sqrt (p / p') ltac:(lra)) as SS.
  replace (sqrt (p * L * (p' * L))) with (p * L / sqrt (p / p')).
  - replace (p' * L) with (p * L / (sqrt (p / p') * sqrt (p / p'))) by (rewrite SS; field; lra). field. lra.
  - symmetry. apply sqrt_lem_1; [apply Rmult_le_pos; apply Rmult_le_pos; lra|apply Rlt_le, Rdiv_lt_0_compat; nra|]. replace (p * L / sqrt (p / p') * (p * L / sqrt (p / p'))) with (p * L * (p * L) / (sqrt (p / p') * sqrt (p / p'))) by (field; lra). rewrite SS. field. lra.
Qed.
Theorem C57_LM_above mdotL mdotG D L rhoL rhoG muL muG er : 0 < D -> 0 < L -> 0 < rhoL -> 0 < rhoG -> 0 < muL -> 0 < muG -> 0 <= er <= 1 -> 0 < mdotL -> 0 < mdotG ->
  exists p pL pG, DP_GL_Lockhart_Martinelli mdotL mdotG D L rhoL rhoG muL muG er = Ok p /\ DP_tube (mdotL / rhoL) D L rhoL muL er = Ok pL /\ DP_tube (mdotG / rhoG) D L rhoG muG er = Ok pG /\ pL + pG < p.
Proof.
  intros. destruct (C57_LM_both mdotL mdotG D L rhoL rhoG muL muG er) as (pL & pG & C & A & B & PL & PG & HC & E); auto. exists (pL + C * sqrt (pL * pG) + pG), pL, pG. repeat split; auto.
  assert (0 < sqrt (pL * pG)) by (apply sqrt_lt_R0; nra). assert (0 < C) by (cbn in HC; intuition lra). nra.
Qed.

(** Mueller-Bonn with one phase *)
Definition single (mdot D L rho mu f : R) : R := f * (mdot / (PI / 4 * D ^ 2)) ^ 2 / (2 * rho * D) * L.
Definition Re_m (mdot D mu : R) : R := mdot / (PI / 4 * D ^ 2) * D / mu.
Lemma f_MB_pos Re : 0 < Re -> exists f, f_MB Re = Ok f /\ 0 < f.
Proof. intros H. unfold f_MB. destruct (Rleb Re 1187); [rewrite pydiv_ok by lra; eexists; split; [reflexivity|apply Rdiv_lt_0_compat; lra]|]. eexists. split; [reflexivity|]. apply Rdiv_lt_0_compat; [lra|apply rp_pos]. Qed.
Lemma Re_m_pos mdot D mu : 0 < mdot -> 0 < D -> 0 < mu -> 0 < Re_m mdot D mu.
Proof. intros. pose proof PI_RGT_0. unfold Re_m. apply Rdiv_lt_0_compat; auto. apply Rmult_lt_0_compat; auto. apply Rdiv_lt_0_compat; auto. apply Rmult_lt_0_compat; [lra|apply pow_lt; lra]. Qed.
Theorem C57_MB_liquid mdot D L rhoL rhoG muL muG : 0 < mdot -> 0 < D -> 0 < rhoL -> 0 < rhoG -> 0 < muL -> 0 < muG ->
  exists f, f_MB (Re_m mdot D muL) = Ok f /\ DP_GL_Mueller_Bonn mdot 0 D L rhoL rhoG muL muG = Ok (single mdot D L rhoL muL f).
Proof.
  intros. pose proof PI_RGT_0. destruct (f_MB_pos (Re_m mdot D muL)) as (f & F & _); [now apply Re_m_pos|]. destruct (f_MB_pos (Re_m mdot D muG)) as (f' & F' & _); [now apply Re_m_pos|]. exists f. split; auto.
  unfold DP_GL_Mueller_Bonn. rewrite Rplus_0_r. rewrite pydiv_ok by lra. cbn [bind]. fold (Re_m mdot D muL) (Re_m mdot D muG). rewrite F, F'. cbn [bind]. f_equal. replace (0 / mdot) with 0 by (field; lra). rewrite Rminus_0_r, pow0_pos, rp_one by lra. unfold single. ring.
Qed.
Theorem C57_MB_gas mdot D L rhoL rhoG muL muG : 0 < mdot -> 0 < D -> 0 < rhoL -> 0 < rhoG -> 0 < muL -> 0 < muG ->
  exists f, f_MB (Re_m mdot D muG) = Ok f /\ DP_GL_Mueller_Bonn 0 mdot D L rhoL rhoG muL muG = Ok (single mdot D L rhoG muG f).
Proof.
  intros. pose proof PI_RGT_0. destruct (f_MB_pos (Re_m mdot D muL)) as (f & F & _); [now apply Re_m_pos|]. destruct (f_MB_pos (Re_m mdot D muG)) as (f' & F' & _); [now apply Re_m_pos|]. exists f'. split; auto.
  unfold DP_GL_Mueller_Bonn. rewrite Rplus_0_l. rewrite pydiv_ok by lra. cbn [bind]. fold (Re_m mdot D muL) (Re_m mdot D muG). rewrite F, F'. cbn [bind]. f_equal. replace (mdot / mdot) with 1 by (field; lra). replace (1 - 1) with 0 by ring. rewrite pow0_0. unfold single. ring.
Qed.
(** which is Hagen-Poiseuille's up to Re = 1187 *)
Theorem C57_MB_laminar mdot D L rho mu : 0 < mdot -> 0 < D -> 0 < rho -> 0 < mu -> Re_m mdot D mu <= 1187 ->
  exists f, f_MB (Re_m mdot D mu) = Ok f /\ single mdot D L rho mu f = DP_Hagen_Poiseuille (mdot / rho) D L mu.
Proof.
  intros H1 H2 H3 H4 HR. pose proof PI_RGT_0. pose proof (Re_m_pos mdot D mu H1 H2 H4). unfold f_MB. rewrite Rleb_t by auto. rewrite pydiv_ok by lra. eexists. split; [reflexivity|]. unfold single, DP_Hagen_Poiseuille, Re_m. field. lra.
Qed.
Theorem C57_MB_no_flow_refuted D L rhoL rhoG muL muG : DP_GL_Mueller_Bonn 0 0 D L rhoL rhoG muL muG = Err ZeroDivisionError.
Proof. unfold DP_GL_Mueller_Bonn. rewrite Rplus_0_r. now rewrite pydiv_zero. Qed.
Example C57_example : DP_tube 1 1 PI 1 1 0 = Ok 128.
Proof. pose proof PI_bounds. rewrite C57_laminar; try lra. - f_equal. unfold DP_Hagen_Poiseuille. field. lra. - replace (1 * (4 * 1 / (PI * 1 ^ 2)) * 1 / 1) with (4 / PI) by (field; lra). apply (Rmult_lt_reg_r PI); [lra|]. unfold Rdiv. rewrite Rmult_assoc, Rinv_l; lra. Qed.
Print Assumptions C57_LM_above.
