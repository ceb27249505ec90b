(** C94: relief areas for gases and liquids. *)
From Coq Require Import Reals Lra Lia List Bool Arith Psatz.
From Verif Require Import Prelude RootsModel KinModel CopoModel Deriv NumBounds HmtModel HmtProps WallProps FlowModel FlowProps.
From Coquelicot Require Derive.
Import ListNotations.
Open Scope R_scope.

Ltac posm := repeat match goal with |- 0 < _ * _ => apply Rmult_lt_0_compat end; try assumption; try lra.

(* ------------------------------------------------------------------ *)
(** * Gas                                                             *)
(* ------------------------------------------------------------------ *)

Lemma D_rp a x : 0 < x -> D (fun t => Rpower t a) x (a * Rpower x (a - 1)).
Proof. intros H. unfold D. apply Coquelicot.Derive.is_derive_Reals. now apply derivable_pt_lim_power. Qed.

Section Gas.
  Variable k : R.
  Hypothesis Hk : 1 < k.
  Definition psi (k r : R) : R := Rpower r (2 / k) - Rpower r ((k + 1) / k).
  Lemma g_c : 0 < 2 / (k + 1) < 1.
  Proof. split; [apply Rdiv_lt_0_compat; lra|]. apply (Rmult_lt_reg_r (k + 1)); [lra|]. unfold Rdiv. rewrite Rmult_assoc, Rinv_l; lra. Qed.
  Lemma rc_bounds : 0 < gas_rc k < 1.
  Proof. split; [apply rp_pos|]. apply rp_lt1; [apply g_c|apply Rdiv_lt_0_compat; lra]. Qed.
  (** the critical ratio is the point where r^((k-1)/k) = 2/(k+1) *)
  Lemma rc_pow : Rpower (gas_rc k) ((k - 1) / k) = 2 / (k + 1).
  Proof. unfold gas_rc. rewrite Rpower_mult. replace (k / (k - 1) * ((k - 1) / k)) with 1 by (field; lra). apply Rpower_1, g_c. Qed.
  Lemma psi_fact r : 0 < r -> psi k r = Rpower r (2 / k) * (1 - Rpower r ((k - 1) / k)).
  Proof. intros H. unfold psi. rewrite Rmult_minus_distr_l, Rmult_1_r, <- Rpower_plus. do 2 f_equal. field. lra. Qed.
  Lemma psi_pos r : 0 < r < 1 -> 0 < psi k r.
  Proof. intros H. rewrite psi_fact by lra. apply Rmult_lt_0_compat; [apply rp_pos|]. pose proof (rp_lt1 r ((k - 1) / k) H ltac:(apply Rdiv_lt_0_compat; lra)). lra. Qed.
  Lemma psi_D r : 0 < r -> D (psi k) r (Rpower r (2 / k - 1) / k * (2 - (k + 1) * Rpower r ((k - 1) / k))).
  Proof.
    intros H. unfold psi. eapply D_eq; [apply D_minus; apply D_rp; auto|]. replace ((k + 1) / k - 1) with (2 / k - 1 + (k - 1) / k) by (field; lra). rewrite Rpower_plus. field. lra.
  Qed.
  Lemma psi_decr r s : gas_rc k <= r -> r < s -> psi k s < psi k r.
  Proof.
    intros H1 H2. pose proof rc_bounds as B. apply Ropp_lt_cancel. apply (mono_strict (fun t => - psi k t) (fun t => - (Rpower t (2 / k - 1) / k * (2 - (k + 1) * Rpower t ((k - 1) / k))))); auto.
    - intros t Ht. apply D_opp, psi_D. lra.
    - intros t Ht. pose proof (rp_base (gas_rc k) t ((k - 1) / k) ltac:(lra) ltac:(lra) ltac:(apply Rdiv_lt_0_compat; lra)) as L. rewrite rc_pow in L. assert (0 < Rpower t (2 / k - 1) / k) by (apply Rdiv_lt_0_compat; [apply rp_pos|lra]). assert (2 < (k + 1) * Rpower t ((k - 1) / k)). { apply (Rmult_lt_compat_l (k + 1)) in L; [|lra]. replace ((k + 1) * (2 / (k + 1))) with 2 in L by (field; lra). lra. } nra.
  Qed.
  Lemma psi_rc : k / (k - 1) * psi k (gas_rc k) = k * Rpower (2 / (k + 1)) ((k + 1) / (k - 1)) / 2.
  Proof.
    pose proof rc_bounds. rewrite psi_fact by lra. rewrite rc_pow. unfold gas_rc. rewrite Rpower_mult. replace (k / (k - 1) * (2 / k)) with (2 / (k - 1)) by (field; lra). replace ((k + 1) / (k - 1)) with (2 / (k - 1) + 1) by (field; lra). rewrite Rpower_plus, Rpower_1 by apply g_c. field. lra.
  Qed.
  Lemma sub_area W P1 P2 T M Z Kd Kc : 0 < P2 < P1 -> 0 < T * Z / M -> 0 < Kd -> 0 < Kc -> 0 < M ->
    179 / 10 * W / (gas_F2 k (P2 / P1) * Kd * Kc) * sqrt (T * Z / (M * P1 * (P1 - P2))) = 179 / 10 * W / (Kd * Kc * P1) * sqrt (T * Z / M) / sqrt (k / (k - 1) * psi k (P2 / P1)).
  Proof.
    intros HP HT Hd Hc HM. set (r := P2 / P1). assert (R1 : 0 < r < 1). { unfold r. split; [apply Rdiv_lt_0_compat; lra|]. apply (Rmult_lt_reg_r P1); [lra|]. unfold Rdiv. rewrite Rmult_assoc, Rinv_l; lra. }
    assert (PP : 0 < k / (k - 1) * psi k r) by (apply Rmult_lt_0_compat; [apply Rdiv_lt_0_compat; lra|now apply psi_pos]).
    assert (E1 : gas_F2 k r = sqrt (k / (k - 1) * psi k r) / sqrt (1 - r)). { unfold gas_F2. rewrite <- sqrt_div_alt by lra. f_equal. rewrite psi_fact by lra. field. lra. }
    assert (E2 : sqrt (T * Z / (M * P1 * (P1 - P2))) = sqrt (T * Z / M) / (P1 * sqrt (1 - r))). { replace (T * Z / (M * P1 * (P1 - P2))) with (T * Z / M / (P1 ^ 2 * (1 - r))) by (unfold r; field; lra). rewrite sqrt_div_alt by (apply Rmult_lt_0_compat; [apply pow_lt; lra|lra]). rewrite sqrt_mult by nra. rewrite sqrt_pow2 by lra. reflexivity. }
    rewrite E1, E2. pose proof (sqrt_lt_R0 _ PP). assert (0 < sqrt (1 - r)) by (apply sqrt_lt_R0; lra). field. repeat split; lra.
  Qed.
  Lemma P2_crit P1 P2 : 0 < P1 -> (P2 * 100 <= P1 * 100 * gas_rc k <-> P2 / P1 <= gas_rc k).
  Proof.
    intros H. split; intros L.
    - apply (Rmult_le_reg_r P1); auto. unfold Rdiv. rewrite Rmult_assoc, Rinv_l; lra.
    - apply (Rmult_le_compat_r P1) in L; [|lra]. unfold Rdiv in L. rewrite Rmult_assoc, Rinv_l in L; lra.
  Qed.
End Gas.
(** the flow is critical up to a ratio between 0 and exp(-1/2) that depends on k alone *)
Theorem C94_gas_critical W P1 P2 T k M Z steam Kd Kb Kc KSH res : 1 < k -> 0 < P1 ->
  area_relief_gas W P1 P2 T k M Z steam Kd Kb Kc KSH = Ok res ->
  exists rc, prv_Pcf res = Some (P1 * rc) /\ 0 < rc < exp (- (1 / 2)) /\ Rpower rc ((k - 1) / k) = 2 / (k + 1) /\ (prv_crit res = true <-> P2 <= P1 * rc).
Proof.
  intros Hk HP E. exists (gas_rc k). assert (EP : prv_Pcf res = Some (P1 * gas_rc k) /\ prv_crit res = Rleb (P2 * 100) (P1 * 100 * gas_rc k)).
  { unfold area_relief_gas in E. set (e := if Rleb _ _ then _ else _) in E. destruct e; cbn [bind] in E; [|discriminate]. injection E as <-. cbn. split; auto. f_equal. field. }
  destruct EP as (E1 & E2). split; auto. split; [|split].
  - split; [apply rc_bounds; auto|]. unfold gas_rc, Rpower. apply exp_increasing. pose proof (g_c k Hk) as C. set (y := 2 / (k + 1)) in *. assert (L : ln y <= y - 1) by now apply ln_le_sub. assert (KK : 0 < k / (k - 1)) by (apply Rdiv_lt_0_compat; lra). apply Rle_lt_trans with (k / (k - 1) * (y - 1)); [apply Rmult_le_compat_l; lra|]. unfold y. replace (k / (k - 1) * (2 / (k + 1) - 1)) with (- (k / (k + 1))) by (field; lra). apply Ropp_lt_contravar. apply (Rmult_lt_reg_r (k + 1)); [lra|]. unfold Rdiv at 2. rewrite Rmult_assoc, Rinv_l by lra. lra.
  - now apply rc_pow.
  - rewrite E2. split; intros L. { apply Rleb_true in L. lra. } { apply Rleb_true. lra. }
Qed.
(** the area is positive and proportional to the flow *)
Theorem C94_gas_flow W P1 P2 T k M Z Kd Kb Kc KSH : 1 < k -> 0 < P2 < P1 -> 0 < T -> 0 < Z -> 0 < M -> 0 < Kd -> 0 < Kb -> 0 < Kc -> 0 < W ->
  exists A, 0 < A /\ forall c, exists res, area_relief_gas (c * W) P1 P2 T k M Z false Kd Kb Kc KSH = Ok res /\ prv_A res = c * A.
Proof.
  intros Hk HP HT HZ HM Hd Hb Hc HW. unfold area_relief_gas. assert (TZ : 0 < T * Z / M) by (apply Rdiv_lt_0_compat; [now apply Rmult_lt_0_compat|auto]). pose proof (sqrt_lt_R0 _ TZ) as TS. destruct (Rleb (P2 * 100) (P1 * 100 * gas_rc k)) eqn:E.
  - assert (C0 : 0 < gas_C k). { unfold gas_C. apply Rmult_lt_0_compat; [lra|]. apply sqrt_lt_R0. apply Rmult_lt_0_compat; [lra|apply rp_pos]. } exists (W / (gas_C k * Kd * (P1 * 100) * Kb * Kc) * sqrt (T * Z / M)). split.
    + apply Rmult_lt_0_compat; auto. apply Rdiv_lt_0_compat; auto. posm.
    + intros c. eexists. split; [reflexivity|]. cbn. field. repeat split; lra.
  - assert (R1 : 0 < P2 / P1 < 1). { split; [apply Rdiv_lt_0_compat; lra|]. apply (Rmult_lt_reg_r P1); [lra|]. unfold Rdiv. rewrite Rmult_assoc, Rinv_l; lra. }
    assert (PP : 0 < k / (k - 1) * psi k (P2 / P1)) by (apply Rmult_lt_0_compat; [apply Rdiv_lt_0_compat; lra|now apply psi_pos]). pose proof (sqrt_lt_R0 _ PP) as PS. exists (179 / 10 * W / (Kd * Kc * (P1 * 100)) * sqrt (T * Z / M) / sqrt (k / (k - 1) * psi k (P2 / P1))). split.
    + apply Rdiv_lt_0_compat; auto. apply Rmult_lt_0_compat; auto. apply Rdiv_lt_0_compat; [lra|]. posm.
    + intros c. eexists. split; [reflexivity|]. cbn [prv_A]. rewrite sub_area by (auto; lra). replace (P2 * 100 / (P1 * 100)) with (P2 / P1) by (field; lra). field. repeat split; lra.
Qed.
(** without the correction Kb, the area does not depend on P2 in critical flow, increases with P2 beyond, and there
    exceeds 17.9 sqrt(2) 0.03948 = 0.9994 times the critical area *)
Theorem C94_gas_backpressure W P1 P2 P3 T k M Z Kd Kc KSH : 1 < k -> 0 < P2 < P3 -> P3 < P1 -> 0 < T -> 0 < Z -> 0 < M -> 0 < Kd -> 0 < Kc -> 0 < W ->
  exists r2 r3, area_relief_gas W P1 P2 T k M Z false Kd 1 Kc KSH = Ok r2 /\ area_relief_gas W P1 P3 T k M Z false Kd 1 Kc KSH = Ok r3 /\
    (prv_crit r3 = true -> prv_crit r2 = true /\ prv_A r2 = prv_A r3) /\
    (prv_crit r2 = false -> prv_crit r3 = false /\ prv_A r2 < prv_A r3) /\
    (prv_crit r2 = true -> prv_crit r3 = false -> 9993 / 10000 * prv_A r2 < prv_A r3).
Proof.
  intros Hk H2 H3 HT HZ HM Hd Hc HW. unfold area_relief_gas. assert (TZ : 0 < T * Z / M) by (apply Rdiv_lt_0_compat; [now apply Rmult_lt_0_compat|auto]). pose proof (sqrt_lt_R0 _ TZ) as TS.
  pose proof (P2_crit k P1 P2 ltac:(lra)) as C2. pose proof (P2_crit k P1 P3 ltac:(lra)) as C3. pose proof (rc_bounds k Hk) as RB.
  assert (LT : P2 / P1 < P3 / P1) by (apply Rmult_lt_compat_r; [apply Rinv_0_lt_compat; lra|lra]).
  assert (Q : forall P, 0 < P < P1 -> 0 < P / P1 < 1) by (intros; split; [apply Rdiv_lt_0_compat; lra|]; apply (Rmult_lt_reg_r P1); [lra|]; unfold Rdiv; rewrite Rmult_assoc, Rinv_l; lra).
  assert (KK : 0 < k / (k - 1)) by (apply Rdiv_lt_0_compat; lra). set (a := 179 / 10 * W / (Kd * Kc * (P1 * 100)) * sqrt (T * Z / M)).
  assert (A0 : 0 < a) by (apply Rmult_lt_0_compat; auto; apply Rdiv_lt_0_compat; [lra|]; posm).
  assert (S : forall P, 0 < P < P1 -> 179 / 10 * W / (gas_F2 k (P * 100 / (P1 * 100)) * Kd * Kc) * sqrt (T * Z / (M * (P1 * 100) * (P1 * 100 - P * 100))) = a / sqrt (k / (k - 1) * psi k (P / P1))) by (intros P HP; rewrite sub_area by (auto; lra); replace (P * 100 / (P1 * 100)) with (P / P1) by (field; lra); reflexivity).
  destruct (Rleb (P2 * 100) (P1 * 100 * gas_rc k)) eqn:E2, (Rleb (P3 * 100) (P1 * 100 * gas_rc k)) eqn:E3; (do 2 eexists; split; [reflexivity|]; split; [reflexivity|]); cbn [prv_crit prv_A]; try rewrite Rleb_true in *; try rewrite Rleb_false in *.
  - repeat split; intros; try discriminate; auto.
  - split; [intros; discriminate|]. split; [intros; discriminate|]. intros _ _. rewrite S by lra. assert (G : gas_rc k < P3 / P1). { apply Rnot_le_lt. intros N. apply C3 in N. lra. }
    pose proof (psi_decr k Hk (gas_rc k) (P3 / P1) (Rle_refl _) G) as PD. pose proof (psi_rc k Hk) as PR. pose proof (psi_pos k Hk (P3 / P1) (Q P3 ltac:(lra))) as PP. set (X := k * Rpower (2 / (k + 1)) ((k + 1) / (k - 1))) in *. assert (X0 : 0 < X) by (apply Rmult_lt_0_compat; [lra|apply rp_pos]).
    assert (SL : sqrt (k / (k - 1) * psi k (P3 / P1)) < sqrt (X / 2)). { apply sqrt_lt_1; [nra|lra|]. rewrite <- PR. nra. } assert (SP : 0 < sqrt (k / (k - 1) * psi k (P3 / P1))) by (apply sqrt_lt_R0; nra).
    assert (U : 9993 / 10000 * (W / (gas_C k * Kd * (P1 * 100) * 1 * Kc) * sqrt (T * Z / M)) <= a / sqrt (X / 2)).
    { unfold gas_C. fold X. assert (SX : sqrt (X / 2) = sqrt X / sqrt 2) by (apply sqrt_div_alt; lra). rewrite SX. assert (0 < sqrt X) by (apply sqrt_lt_R0; auto). assert (S2 : 14141 / 10000 < sqrt 2). { apply Rsqr_incrst_0; [|lra|apply sqrt_pos]. rewrite Rsqr_sqrt by lra. unfold Rsqr. lra. }
      set (b := W / (Kd * Kc * (P1 * 100)) * sqrt (T * Z / M) / sqrt X). assert (B0 : 0 < b) by (apply Rdiv_lt_0_compat; auto; apply Rmult_lt_0_compat; auto; apply Rdiv_lt_0_compat; auto; posm). replace (a / (sqrt X / sqrt 2)) with (179 / 10 * sqrt 2 * b) by (unfold a, b; field; repeat split; lra). replace (9993 / 10000 * (W / (3948 / 100000 * sqrt X * Kd * (P1 * 100) * 1 * Kc) * sqrt (T * Z / M))) with (9993 / 10000 / (3948 / 100000) * b) by (unfold b; field; repeat split; lra). apply Rmult_le_compat_r; lra. }
    eapply Rle_lt_trans; [exact U|]. apply Rmult_lt_compat_l; auto. apply Rinv_lt_contravar; [apply Rmult_lt_0_compat; lra|auto].
  - exfalso. lra.
  - split; [intros; discriminate|]. split; [|intros; discriminate]. intros _. split; auto. rewrite !S by lra. apply Rmult_lt_compat_l; auto. assert (G : gas_rc k <= P2 / P1). { left. apply Rnot_le_lt. intros N. apply C2 in N. lra. } pose proof (psi_decr k Hk _ _ G LT) as PD. pose proof (psi_pos k Hk (P3 / P1) (Q P3 ltac:(lra))) as PP.
    assert (SP : 0 < sqrt (k / (k - 1) * psi k (P3 / P1))) by (apply sqrt_lt_R0; nra). assert (SL : sqrt (k / (k - 1) * psi k (P3 / P1)) < sqrt (k / (k - 1) * psi k (P2 / P1))) by (apply sqrt_lt_1; nra). apply Rinv_lt_contravar; [apply Rmult_lt_0_compat; lra|auto].
Qed.
(** finding: just beyond the critical pressure the area falls below the critical-flow area *)
Theorem C94_gas_jump_refuted W P1 T k M Z Kd Kc KSH : 1 < k -> 0 < P1 -> 0 < T -> 0 < Z -> 0 < M -> 0 < Kd -> 0 < Kc -> 0 < W ->
  exists P2 P3 r2 r3, 0 < P2 < P3 /\ P3 < P1 /\ area_relief_gas W P1 P2 T k M Z false Kd 1 Kc KSH = Ok r2 /\ area_relief_gas W P1 P3 T k M Z false Kd 1 Kc KSH = Ok r3 /\ prv_A r3 < prv_A r2.
Proof.
  intros Hk HP HT HZ HM Hd Hc HW. pose proof (rc_bounds k Hk) as RB. assert (TZ : 0 < T * Z / M) by (apply Rdiv_lt_0_compat; [now apply Rmult_lt_0_compat|auto]). pose proof (sqrt_lt_R0 _ TZ) as TS. assert (KK : 0 < k / (k - 1)) by (apply Rdiv_lt_0_compat; lra).
  assert (CT : continuity_pt (psi k) (gas_rc k)) by (unfold psi; apply continuity_pt_minus; apply cont_rpower; lra).
  pose proof (psi_pos k Hk _ RB) as P0. destruct (CT (5 / 10000 * psi k (gas_rc k)) ltac:(lra)) as (d & D0 & DC). set (rc := gas_rc k) in *. set (r3 := rc + Rmin (d / 2) ((1 - rc) / 2)). pose proof (Rmin_l (d / 2) ((1 - rc) / 2)). pose proof (Rmin_r (d / 2) ((1 - rc) / 2)). assert (RM : 0 < Rmin (d / 2) ((1 - rc) / 2)) by (apply Rmin_pos; lra).
  assert (B : Rabs (psi k r3 - psi k rc) < 5 / 10000 * psi k rc). { apply DC. split; [split; [exact I|unfold r3; lra]|]. cbn. unfold R_dist, r3. rewrite Rabs_right; lra. } apply Rabs_def2 in B.
  exists (P1 * rc), (P1 * r3). unfold area_relief_gas. fold rc. rewrite (Rleb_t (P1 * rc * 100)) by lra. assert (L3 : P1 * rc < P1 * r3) by (apply Rmult_lt_compat_l; unfold r3; lra). rewrite (Rleb_f (P1 * r3 * 100)) by lra. do 2 eexists. split; [split; [apply Rmult_lt_0_compat; lra|auto]|]. split. { rewrite <- (Rmult_1_r P1) at 2. apply Rmult_lt_compat_l; unfold r3; lra. } split; [reflexivity|]. split; [reflexivity|]. cbn [prv_A].
  assert (L4 : 0 < P1 * 100 * r3 < P1 * 100). { split; [apply Rmult_lt_0_compat; unfold r3; lra|]. rewrite <- (Rmult_1_r (P1 * 100)) at 2. apply Rmult_lt_compat_l; unfold r3; lra. }
  rewrite sub_area by (auto; lra). replace (P1 * r3 * 100 / (P1 * 100)) with r3 by (field; lra). pose proof (psi_rc k Hk) as PR. fold rc in PR. set (X := k * Rpower (2 / (k + 1)) ((k + 1) / (k - 1))) in *. assert (X0 : 0 < X) by (apply Rmult_lt_0_compat; [lra|apply rp_pos]).
  assert (SL : sqrt (X / 2) * (9997 / 10000) < sqrt (k / (k - 1) * psi k r3)). { apply Rsqr_incrst_0; [|apply Rmult_le_pos; [apply sqrt_pos|lra]|apply sqrt_pos]. rewrite Rsqr_mult, !Rsqr_sqrt by nra. rewrite <- PR. unfold Rsqr. assert (9995 / 10000 * psi k rc < psi k r3) by lra. assert (k / (k - 1) * psi k rc * (9997 / 10000 * (9997 / 10000)) <= k / (k - 1) * (9995 / 10000 * psi k rc)) by nra. nra. }
  unfold gas_C. fold X. assert (SX : sqrt (X / 2) = sqrt X / sqrt 2) by (apply sqrt_div_alt; lra). rewrite SX in SL. assert (SX0 : 0 < sqrt X) by (apply sqrt_lt_R0; auto). assert (S2 : sqrt 2 < 14143 / 10000). { apply Rsqr_incrst_0; [|apply sqrt_pos|lra]. rewrite Rsqr_sqrt by lra. unfold Rsqr. lra. } assert (S20 : 0 < sqrt 2) by (apply sqrt_lt_R0; lra).
  set (b := W / (Kd * Kc * (P1 * 100)) * sqrt (T * Z / M)). assert (B0 : 0 < b) by (apply Rmult_lt_0_compat; auto; apply Rdiv_lt_0_compat; auto; posm). set (s := sqrt (k / (k - 1) * psi k r3)) in *. assert (S0 : 0 < s). { eapply Rle_lt_trans; [|exact SL]. apply Rmult_le_pos; [|lra]. left. now apply Rdiv_lt_0_compat. }
  replace (179 / 10 * W / (Kd * Kc * (P1 * 100)) * sqrt (T * Z / M) / s) with (179 / 10 / s * b) by (unfold b; field; repeat split; lra). replace (W / (3948 / 100000 * sqrt X * Kd * (P1 * 100) * 1 * Kc) * sqrt (T * Z / M)) with (1 / (3948 / 100000 * sqrt X) * b) by (unfold b; field; repeat split; lra). apply Rmult_lt_compat_r; auto.
  apply (Rmult_lt_reg_r s); auto. unfold Rdiv at 1. rewrite Rmult_assoc, Rinv_l, Rmult_1_r by lra. apply (Rmult_lt_reg_l (3948 / 100000 * sqrt X)); [lra|]. replace (3948 / 100000 * sqrt X * (1 / (3948 / 100000 * sqrt X) * s)) with s by (field; lra). eapply Rlt_trans; [|exact SL]. apply (Rmult_lt_reg_r (sqrt 2)); auto. replace (sqrt X / sqrt 2 * (9997 / 10000) * sqrt 2) with (sqrt X * (9997 / 10000)) by (field; lra). nra.
Qed.
(** steam: the correction KN lies between 0.995 and 1.2, P1 above 220.57 bara is rejected *)
Theorem C94_steam W P1 P2 T k M Z Kd Kb Kc KSH : 1 < k -> 0 < P1 -> P2 <= P1 * gas_rc k -> 0 < W -> 0 < Kd -> 0 < Kb -> 0 < Kc -> 0 < KSH ->
  (22057 / 100 <= P1 -> area_relief_gas W P1 P2 T k M Z true Kd Kb Kc KSH = Err ValueError) /\
  (P1 < 22057 / 100 -> exists res KN, area_relief_gas W P1 P2 T k M Z true Kd Kb Kc KSH = Ok res /\ prv_crit res = true /\
     995 / 1000 < KN < 12 / 10 /\ (P1 <= 10339 / 100 -> KN = 1) /\ prv_A res * (P1 * 100 * Kd * Kb * Kc * KN * KSH) = 1905 / 10 * W).
Proof.
  intros Hk HP HC HW Hd Hb Hc HS. unfold area_relief_gas. rewrite Rleb_t by lra. split; intros L.
  - unfold steam_KN. rewrite Rleb_f by lra. rewrite Rltb_f by lra. reflexivity.
  - unfold steam_KN. destruct (Rleb (P1 * 100) 10339) eqn:E.
    + apply Rleb_true in E. cbn [bind]. do 2 eexists. split; [reflexivity|]. split; [reflexivity|]. split; [|split; [reflexivity|]]; [lra|]. cbn [prv_A]. field. repeat split; lra.
    + apply Rleb_false in E. rewrite Rltb_t by lra. cbn [bind]. set (d := 3324 / 100000 * (P1 * 100) - 1061). assert (D0 : d < 0) by (unfold d; lra). do 2 eexists. split; [reflexivity|]. split; [reflexivity|]. assert (KB : 995 / 1000 < (2764 / 100000 * (P1 * 100) - 1000) / d < 12 / 10). { replace ((2764 / 100000 * (P1 * 100) - 1000) / d) with ((1000 - 2764 / 100000 * (P1 * 100)) / - d) by (field; lra). split; apply (Rmult_lt_reg_r (- d)); try lra; unfold Rdiv; rewrite ?(Rmult_assoc _ (/ - d)), ?Rinv_l by lra; unfold d; lra. } split; [exact KB|]. split; [lra|]. cbn [prv_A]. field. repeat split; lra.
Qed.

(** diatomic gas: critical up to 0.52... of the upstream pressure *)
Example C94_gas_ex : exists A, 0 < A /\ exists res, area_relief_gas 24270 (67 / 10) 1 348 (111 / 100) 51 (9 / 10) false (975 / 1000) 1 1 1 = Ok res /\ prv_A res = A.
Proof. destruct (C94_gas_flow 24270 (67 / 10) 1 348 (111 / 100) 51 (9 / 10) (975 / 1000) 1 1 1) as (A & P & H); try lra. exists A. split; auto. destruct (H 1) as (r & E & Q). exists r. rewrite Rmult_1_l in *. auto. Qed.
Example C94_steam_ex : exists res KN, area_relief_gas 1000 10 1 500 (13 / 10) 18 1 true 1 1 1 1 = Ok res /\ KN = 1 /\ prv_A res * (10 * 100 * 1 * 1 * 1 * KN * 1) = 1905 / 10 * 1000.
Proof.
  assert (B : 1 <= 10 * gas_rc (13 / 10)). { unfold gas_rc. replace (2 / (13 / 10 + 1)) with (20 / 23) by lra. replace (13 / 10 / (13 / 10 - 1)) with (13 / 3) by lra. pose proof (rp_exp_decr (20 / 23) (13 / 3) 5) as R. assert (E : Rpower (20 / 23) 5 = (20 / 23) ^ 5) by (rewrite <- Rpower_pow by lra; f_equal; simpl; lra). rewrite E in R. assert (1 / 10 <= (20 / 23) ^ 5) by lra. specialize (R ltac:(lra) ltac:(lra)). lra. }
  destruct (C94_steam 1000 10 1 500 (13 / 10) 18 1 1 1 1 1) as [_ H]; try lra. destruct (H ltac:(lra)) as (res & KN & E & _ & _ & K & A). exists res, KN. split; auto. split; auto. apply K. lra.
Qed.
Print Assumptions C94_gas_critical.
Print Assumptions C94_gas_flow.
Print Assumptions C94_gas_backpressure.
Print Assumptions C94_gas_jump_refuted.
Print Assumptions C94_steam.
