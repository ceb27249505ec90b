(** C95: relief areas for two-phase flow (omega method). *)
From Coq Require Import Reals Lra Lia List Bool Arith Psatz.
From Coq Require Ranalysis5.
From Coquelicot Require Import Coquelicot.
From Verif Require Import Prelude RootsModel KinModel CopoModel Deriv NumBounds HmtModel HmtProps WallProps FlowModel FlowProps ColebrookProps PrvProps.
Import ListNotations.
Open Scope R_scope.

(* ------------------------------------------------------------------ *)
(** * Flux of the omega method                                        *)
(* ------------------------------------------------------------------ *)

Section Om.
  Variable w : R.
  Hypothesis Hw : 0 < w.
  Definition om_N (w e : R) : R := -2 * (w * ln e + (w - 1) * (1 - e)).
  Definition om_D (w e : R) : R := w * (1 / e - 1) + 1.
  Definition om_h (w e : R) : R := e ^ 2 + (w ^ 2 - 2 * w) * (1 - e) ^ 2 + 2 * w ^ 2 * ln e + 2 * w ^ 2 * (1 - e).
  Lemma om_h1 : om_h w 1 = 1. Proof. unfold om_h. rewrite ln_1. ring. Qed.
  Lemma om_hD e : 0 < e -> D (om_h w) e (2 * e + (1 - e) * (2 * w ^ 2 * (1 - e) / e + 4 * w)).
  Proof. intros H. unfold om_h, D. auto_derive; [lra|]. field. lra. Qed.
  Lemma om_h_incr a b : 0 < a -> a < b -> b <= 1 -> om_h w a < om_h w b.
  Proof.
    intros H1 H2 H3. apply (mono_strict (om_h w) (fun e => 2 * e + (1 - e) * (2 * w ^ 2 * (1 - e) / e + 4 * w))); auto.
    - intros t Ht. apply om_hD. lra.
    - intros t Ht. assert (0 <= 2 * w ^ 2 * (1 - t) / t). { apply Rmult_le_pos; [apply Rmult_le_pos; [nra|lra]|left; apply Rinv_0_lt_compat; lra]. } nra.
  Qed.
  Lemma om_root : exists ec, 0 < ec < 1 /\ om_h w ec = 0.
  Proof.
    set (t := (1 + 3 * w ^ 2) / (2 * w ^ 2)). assert (T : 0 < t) by (apply Rdiv_lt_0_compat; nra). set (a := exp (- t)). assert (A : 0 < a < 1). { split; [apply exp_pos|]. unfold a. rewrite <- exp_0. apply exp_increasing. lra. }
    assert (N : om_h w a < 0). { unfold om_h. unfold a at 3. rewrite ln_exp. assert (ET : 2 * w ^ 2 * - t = - (1 + 3 * w ^ 2)) by (unfold t; field; lra). rewrite ET. assert (a ^ 2 < 1) by nra. assert ((w ^ 2 - 2 * w) * (1 - a) ^ 2 <= w ^ 2). { assert (0 <= (1 - a) ^ 2 <= 1) by nra. nra. } assert (2 * w ^ 2 * (1 - a) <= 2 * w ^ 2) by nra. lra. }
    destruct (Ranalysis5.IVT_interv (om_h w) a 1) as (z & Z & E); auto; try lra.
    - intros e He. apply derivable_continuous_pt. exists (2 * e + (1 - e) * (2 * w ^ 2 * (1 - e) / e + 4 * w)). apply Coquelicot.Derive.is_derive_Reals. apply om_hD. lra.
    - rewrite om_h1. lra.
    - exists z. split; auto. split; [lra|]. destruct (Req_dec z 1) as [-> |]; [rewrite om_h1 in E; lra|lra].
  Qed.
  Lemma om_Dpos e : 0 < e <= 1 -> 1 <= om_D w e.
  Proof. intros H. unfold om_D. assert (1 <= 1 / e). { unfold Rdiv. rewrite Rmult_1_l, <- Rinv_1. apply Rinv_le_contravar; lra. } nra. Qed.
  Lemma om_Npos e : 0 < e < 1 -> 2 * (1 - e) < om_N w e.
  Proof. intros H. unfold om_N. assert (ln e < e - 1). { pose proof (exp_ineq1 (e - 1) ltac:(lra)) as L. apply exp_lt_inv. rewrite exp_ln; lra. } nra. Qed.
  Lemma om_N1 : om_N w 1 = 0. Proof. unfold om_N. rewrite ln_1. ring. Qed.
  Lemma om_qD e : 0 < e <= 1 -> D (fun t => om_N w t / om_D w t ^ 2) e (- 2 * om_h w e / (e ^ 2 * om_D w e ^ 3)).
  Proof.
    intros H. pose proof (om_Dpos e H) as P. unfold om_N, om_D, om_h, D in *. auto_derive.
    - repeat split; try lra. intros Q. unfold Rdiv in P. nra.
    - field. repeat split; try lra. intros Q. assert (E : w * (1 / e - 1) + 1 = (w * (1 - e) + e) / e) by (field; lra). rewrite E in P. rewrite Q in P. unfold Rdiv in P. lra.
  Qed.
  Lemma om_G e P1 v1 : 0 < e <= 1 -> 0 < P1 -> 0 < v1 -> omega_G w e P1 v1 = sqrt (om_N w e / om_D w e ^ 2) * sqrt (P1 / v1).
  Proof.
    intros H HP Hv. pose proof (om_Dpos e H) as P. unfold omega_G. fold (om_N w e). fold (om_D w e). assert (D2 : 0 < om_D w e ^ 2) by nra. rewrite (sqrt_div_alt (om_N w e)) by auto. rewrite sqrt_pow2 by lra. field. lra.
  Qed.
  Lemma om_sq a b P1 v1 : 0 < P1 -> 0 < v1 -> 0 <= a < b -> sqrt a * sqrt (P1 / v1) < sqrt b * sqrt (P1 / v1).
  Proof. intros HP Hv H. apply Rmult_lt_compat_r; [apply sqrt_lt_R0, Rdiv_lt_0_compat; auto|]. apply sqrt_lt_1; lra. Qed.
  Lemma om_q0 e : 0 < e <= 1 -> 0 <= om_N w e / om_D w e ^ 2.
  Proof. intros H. pose proof (om_Dpos e H) as P. apply Rmult_le_pos; [|left; apply Rinv_0_lt_compat; nra]. destruct (Req_dec e 1) as [-> |N]; [rewrite om_N1; lra|]. pose proof (om_Npos e ltac:(lra)). lra. Qed.
  Variable ec : R.
  Hypotheses (Hec : 0 < ec < 1) (Hh : om_h w ec = 0).
  Lemma om_decr e f P1 v1 : 0 < P1 -> 0 < v1 -> ec <= e -> e < f -> f <= 1 -> omega_G w f P1 v1 < omega_G w e P1 v1.
  Proof.
    intros HP Hv H1 H2 H3. rewrite !om_G by lra. apply om_sq; auto. split; [apply om_q0; lra|]. apply Ropp_lt_cancel. apply (mono_strict (fun t => - (om_N w t / om_D w t ^ 2)) (fun t => - (- 2 * om_h w t / (t ^ 2 * om_D w t ^ 3)))); auto.
    - intros t Ht. apply D_opp. apply om_qD. lra.
    - intros t Ht. pose proof (om_Dpos t ltac:(lra)) as P. assert (0 < om_h w t) by (rewrite <- Hh; apply om_h_incr; lra). replace (- (-2 * om_h w t / (t ^ 2 * om_D w t ^ 3))) with (2 * om_h w t / (t ^ 2 * om_D w t ^ 3)) by (field; split; lra). apply Rdiv_lt_0_compat; [lra|]. apply Rmult_lt_0_compat; apply pow_lt; lra.
  Qed.
  Lemma om_incr e f P1 v1 : 0 < P1 -> 0 < v1 -> 0 < e -> e < f -> f <= ec -> omega_G w e P1 v1 < omega_G w f P1 v1.
  Proof.
    intros HP Hv H1 H2 H3. rewrite !om_G by lra. apply om_sq; auto. split; [apply om_q0; lra|]. apply (mono_strict (fun t => (om_N w t / om_D w t ^ 2)) (fun t => (- 2 * om_h w t / (t ^ 2 * om_D w t ^ 3)))); auto.
    - intros t Ht. apply om_qD. lra.
    - intros t Ht. pose proof (om_Dpos t ltac:(lra)) as P. assert (om_h w t < 0) by (rewrite <- Hh; apply om_h_incr; lra). replace ((-2 * om_h w t / (t ^ 2 * om_D w t ^ 3))) with (2 * - om_h w t / (t ^ 2 * om_D w t ^ 3)) by (field; split; lra). apply Rdiv_lt_0_compat; [lra|]. apply Rmult_lt_0_compat; apply pow_lt; lra.
  Qed.
  Lemma om_at P1 v1 : 0 < P1 -> 0 < v1 -> omega_G w ec P1 v1 = omega_Gc w ec P1 v1.
  Proof.
    intros HP Hv. rewrite om_G by lra. unfold omega_Gc. pose proof (om_Dpos ec ltac:(lra)) as P. assert (E : om_N w ec / om_D w ec ^ 2 = ec ^ 2 / w). { assert (X : om_N w ec * w = om_D w ec ^ 2 * ec ^ 2). { unfold om_N, om_D, om_h in *. replace ((w * (1 / ec - 1) + 1) ^ 2 * ec ^ 2) with ((w * (1 - ec) + ec) ^ 2) by (field; lra). apply Rminus_diag_uniq_sym. rewrite <- Hh. ring. } apply (Rmult_eq_reg_r (w * om_D w ec ^ 2)); [|apply Rgt_not_eq, Rmult_lt_0_compat; [auto|apply pow_lt; lra]]. replace (om_N w ec / om_D w ec ^ 2 * (w * om_D w ec ^ 2)) with (om_N w ec * w) by (field; lra). rewrite X. field. lra. }
    rewrite E, <- sqrt_mult by (apply Rlt_le, Rdiv_lt_0_compat; auto; nra). replace (ec ^ 2 / w * (P1 / v1)) with (ec ^ 2 * (P1 / (v1 * w))) by (field; lra). assert (0 < P1 / (v1 * w)) by (apply Rdiv_lt_0_compat; auto; nra). rewrite sqrt_mult by nra. rewrite sqrt_pow2 by lra. reflexivity.
  Qed.
End Om.

(** for every omega > 0 there is exactly one pressure ratio below 1 that maximises the mass flux; there the formula
    of the critical flux and that of the subcritical flux agree, and beyond it the flux falls with the back pressure *)
Theorem C95_omega_exact w : 0 < w ->
  exists ec, 0 < ec < 1 /\
    forall P1 v1, 0 < P1 -> 0 < v1 ->
      omega_G w ec P1 v1 = omega_Gc w ec P1 v1 /\
      (forall e f, ec <= e -> e < f -> f <= 1 -> omega_G w f P1 v1 < omega_G w e P1 v1) /\
      (forall e f, 0 < e -> e < f -> f <= ec -> omega_G w e P1 v1 < omega_G w f P1 v1).
Proof.
  intros Hw. destruct (om_root w Hw) as (ec & H & E). exists ec. split; auto. intros P1 v1 HP Hv. split; [now apply om_at|]. split; intros; [now apply (om_decr w Hw ec)|now apply (om_incr w Hw ec)].
Qed.
(** hence the area grows with the back pressure in subcritical flow beyond that ratio *)
Theorem C95_omega_monotone w : 0 < w -> exists ec, 0 < ec < 1 /\
  forall W P1 P2 P3 v1 v9 Kd Kb Kc Kv, w = 9 * (v9 / v1 - 1) -> 0 < W -> 0 < P1 -> 0 < v1 -> 0 < Kd -> 0 < Kb -> 0 < Kc -> 0 < Kv ->
    P1 * ec <= P2 -> P2 < P3 -> P3 < P1 ->
    prv_crit (area_relief_2phase W P1 P2 v1 v9 Kd Kb Kc Kv) = false ->
    prv_crit (area_relief_2phase W P1 P3 v1 v9 Kd Kb Kc Kv) = false /\
    0 < prv_A (area_relief_2phase W P1 P2 v1 v9 Kd Kb Kc Kv) < prv_A (area_relief_2phase W P1 P3 v1 v9 Kd Kb Kc Kv).
Proof.
  intros Hw. destruct (om_root w Hw) as (ec & H & E). exists ec. split; auto. intros W P1 P2 P3 v1 v9 Kd Kb Kc Kv Ew HW HP Hv Hd Hb Hc Hk H2 H23 H3 C2.
  unfold area_relief_2phase in *. rewrite <- Ew in *. cbn [prv_crit prv_A] in *. assert (C3 : Rleb (P3 * 10 ^ 5) (P1 * 10 ^ 5 * omega_eta w) = false). { apply Rleb_false in C2. apply Rleb_f. lra. } rewrite C2, C3. split; auto.
  assert (Q : forall P, P * 10 ^ 5 / (P1 * 10 ^ 5) = P / P1) by (intros; field; lra). rewrite !Q. assert (R2 : ec <= P2 / P1) by (apply (Rmult_le_reg_r P1); auto; unfold Rdiv; rewrite Rmult_assoc, Rinv_l by lra; lra). assert (R3 : P2 / P1 < P3 / P1) by (apply Rmult_lt_compat_r; auto; now apply Rinv_0_lt_compat). assert (R1 : P3 / P1 < 1) by (apply (Rmult_lt_reg_r P1); auto; unfold Rdiv; rewrite Rmult_assoc, Rinv_l by lra; lra).
  assert (HP5 : 0 < P1 * 10 ^ 5) by lra. pose proof (om_decr w Hw ec H E (P2 / P1) (P3 / P1) (P1 * 10 ^ 5) v1 HP5 Hv R2 R3 ltac:(lra)) as L. assert (GP : 0 < omega_G w (P3 / P1) (P1 * 10 ^ 5) v1). { pose proof (om_decr w Hw ec H E (P3 / P1) 1 (P1 * 10 ^ 5) v1 HP5 Hv ltac:(lra) R1 ltac:(lra)) as L1. rewrite (om_G w Hw 1) in L1 by lra. rewrite om_N1 in L1. unfold Rdiv in L1 at 1. rewrite Rmult_0_l, sqrt_0, Rmult_0_l in L1. exact L1. }
  set (K := Kd * Kb * Kc * Kv) in *. assert (KP : 0 < K) by (unfold K; posm). split.
  - apply Rdiv_lt_0_compat; [lra|]. apply Rmult_lt_0_compat; lra.
  - apply Rmult_lt_compat_l; [lra|]. apply Rinv_lt_contravar; [apply Rmult_lt_0_compat; apply Rmult_lt_0_compat; lra|]. apply Rmult_lt_compat_l; lra.
Qed.

(* ------------------------------------------------------------------ *)
(** * The correlation of the critical ratio                           *)
(* ------------------------------------------------------------------ *)

Lemma om_sqrt_lt w a : 0 < w -> 0 < a -> w < a ^ 2 -> sqrt w < a.
Proof. intros H1 H2 H. rewrite <- (sqrt_pow2 a) by lra. apply sqrt_lt_1; lra. Qed.
Lemma om_ln_up w n : 0 < w -> w <= 10 ^ n -> ln w <= INR n * (231 / 100).
Proof. intros H L. eapply Rle_trans; [apply ln_le; [lra|exact L]|]. rewrite ln_pow by lra. pose proof ln10_up. pose proof (pos_INR n). nra. Qed.
(** the correlated critical ratio lies between 0 and 1 for omega below 12500 *)
Theorem C95_omega_ratio w : 0 < w -> w <= 12500 -> 0 < omega_eta w < 1.
Proof.
  intros H L. split; [apply rp_pos|]. unfold omega_eta. assert (S1 : sqrt w < 111804 / 1000) by (apply om_sqrt_lt; lra). pose proof (om_ln_up w 5 H ltac:(lra)) as LW. simpl INR in LW. pose proof (rp_pos w (- (56261 / 100000))) as P. set (p := Rpower w _) in *. assert (B : 1 < 1 + (10446 / 10000 - 93431 / 10 ^ 7 * sqrt w) * p). { assert (0 < 10446 / 10000 - 93431 / 10 ^ 7 * sqrt w) by lra. nra. } set (b := 1 + _ * p) in *. unfold Rpower. rewrite <- exp_0. apply exp_increasing. assert (0 < ln b) by (rewrite <- ln_1; apply ln_increasing; lra). assert (- (70356 / 100000) + 14685 / 10 ^ 6 * ln w < 0) by lra. nra.
Qed.
(** finding: above 12520 it exceeds 1, so that every flow is called critical, with a critical pressure above the upstream pressure *)
Theorem C95_omega_ratio_refuted w : 12520 <= w -> w <= 10 ^ 20 -> 1 < omega_eta w.
Proof.
  intros H L. unfold omega_eta. assert (S1 : 11189 / 100 < sqrt w). { rewrite <- (sqrt_pow2 (11189 / 100)) by lra. apply sqrt_lt_1; lra. } pose proof (om_ln_up w 20 ltac:(lra) L) as LW. rewrite (INR_IZR_INZ 20) in LW. cbn in LW. pose proof (rp_pos w (- (56261 / 100000))) as P. assert (PS : Rpower w (- (56261 / 100000)) * sqrt w < 1). { rewrite <- Rpower_sqrt by lra. rewrite <- Rpower_plus. unfold Rpower. apply Rlt_le_trans with (exp 0); [apply exp_increasing|rewrite exp_0; lra]. assert (0 < ln w) by (rewrite <- ln_1; apply ln_increasing; lra). lra. } set (p := Rpower w _) in *. assert (B : 0 < 1 + (10446 / 10000 - 93431 / 10 ^ 7 * sqrt w) * p < 1) by (split; nra). set (b := 1 + _ * p) in *. unfold Rpower. rewrite <- exp_0. apply exp_increasing. assert (ln b < 0) by (rewrite <- ln_1; apply ln_increasing; lra). assert (- (70356 / 100000) + 14685 / 10 ^ 6 * ln w < 0) by lra. nra.
Qed.

Lemma om_small m : 0 <= m -> exists w, 0 < w < 1 /\ omega_eta w / sqrt w <= exp (- m).
Proof.
  intros Hm. set (L := 13 + 10 * m). exists (exp (- L)). assert (W : 0 < exp (- L) < 1). { split; [apply exp_pos|]. rewrite <- exp_0. apply exp_increasing. unfold L. lra. } set (w := exp (- L)) in *. split; auto. assert (LW : ln w = - L) by apply ln_exp. assert (S1 : 0 < sqrt w < 1). { split; [now apply sqrt_lt_R0|]. rewrite <- sqrt_1. apply sqrt_lt_1; lra. }
  assert (ES : sqrt w = exp (- L / 2)). { rewrite <- Rpower_sqrt by lra. unfold Rpower. rewrite LW. f_equal. field. }
  unfold omega_eta. set (p := Rpower w (- (56261 / 100000))). assert (P : 0 < p) by apply rp_pos. assert (LP : ln p = 56261 / 100000 * L). { unfold p, Rpower. rewrite ln_exp, LW. ring. } set (b := 1 + _ * p). assert (B : p <= b) by (unfold b; nra). assert (LB : 56261 / 100000 * L <= ln b) by (rewrite <- LP; apply ln_le; auto). unfold Rpower. rewrite LW, ES. match goal with |- exp ?a / exp ?c <= _ => replace (exp a / exp c) with (exp (a - c)) by (unfold Rminus; now rewrite exp_plus, exp_Ropp) end. apply exp_le. assert (L13 : 13 <= L) by (unfold L; lra). set (x := 70356 / 100000 + 14685 / 10 ^ 6 * L). replace (- (70356 / 100000) + 14685 / 10 ^ 6 * - L) with (- x) by (unfold x; ring). assert (X : 0 < x) by (unfold x; lra). assert (x * (56261 / 100000 * L) <= x * ln b) by (apply Rmult_le_compat_l; lra). assert (K : L / 2 + m <= x * (56261 / 100000 * L)) by (unfold x, L in *; nra). lra.
Qed.
(** finding: for v9 -> v1 (omega -> 0) the correlated critical ratio tends to zero much too fast: the area exceeds any
    multiple of the area that the same flux equation gives for the pressure ratio 1/2 *)
Theorem C95_small_omega_refuted W P1 v1 Kd Kb Kc Kv M : 0 < W -> 0 < P1 -> 0 < v1 -> 0 < Kd -> 0 < Kb -> 0 < Kc -> 0 < Kv -> 0 < M ->
  exists v9, v1 < v9 /\ let w := 9 * (v9 / v1 - 1) in let r := area_relief_2phase W P1 0 v1 v9 Kd Kb Kc Kv in
    prv_crit r = true /\ M * (2778 / 10 * W / (Kd * Kb * Kc * Kv * omega_G w (1 / 2) (P1 * 10 ^ 5) v1)) <= prv_A r.
Proof.
  intros HW HP Hv Hd Hb Hc Hk HM. destruct (om_small (2 * M) ltac:(lra)) as (w & Hw & E). exists (v1 * (1 + w / 9)). split; [nra|]. cbv zeta. assert (EW : 9 * (v1 * (1 + w / 9) / v1 - 1) = w) by (field; lra). unfold area_relief_2phase. rewrite !EW. pose proof (rp_pos (1 + (10446 / 10000 - 93431 / 10 ^ 7 * sqrt w) * Rpower w (- (56261 / 100000))) (- (70356 / 100000) + 14685 / 10 ^ 6 * ln w)) as EP. fold (omega_eta w) in EP. assert (CR : Rleb (0 * 10 ^ 5) (P1 * 10 ^ 5 * omega_eta w) = true) by (apply Rleb_t; rewrite Rmult_0_l; nra). cbn [prv_crit prv_A]. rewrite CR. split; auto.
  set (K := Kd * Kb * Kc * Kv). assert (KP : 0 < K) by (unfold K; posm). set (P := P1 * 10 ^ 5). assert (PP : 0 < P) by (unfold P; lra). set (s := sqrt (P / v1)). assert (SP : 0 < s) by (apply sqrt_lt_R0, Rdiv_lt_0_compat; auto).
  assert (GH : s / 2 <= omega_G w (1 / 2) P v1). { rewrite om_G by lra. fold s. assert (1 / 2 <= sqrt (om_N w (1 / 2) / om_D w (1 / 2) ^ 2)); [|nra]. rewrite <- (sqrt_pow2 (1 / 2)) at 1 by lra. apply sqrt_le_1_alt. unfold om_N, om_D. replace (1 / (1 / 2)) with 2 by lra. assert (LN : ln (1 / 2) <= - (1 / 2)) by (pose proof (ln_le_sub (1 / 2) ltac:(lra)); lra). apply (Rmult_le_reg_r ((w * (2 - 1) + 1) ^ 2)); [nra|]. replace (-2 * (w * ln (1 / 2) + (w - 1) * (1 - 1 / 2)) / (w * (2 - 1) + 1) ^ 2 * (w * (2 - 1) + 1) ^ 2) with (-2 * (w * ln (1 / 2) + (w - 1) * (1 - 1 / 2))) by (field; lra). nra. }
  assert (GC : omega_Gc w (omega_eta w) P v1 = omega_eta w / sqrt w * s). { unfold omega_Gc, s. replace (P / (v1 * w)) with (P / v1 / w) by (field; lra). rewrite (sqrt_div_alt (P / v1)) by lra. assert (0 < sqrt w) by (apply sqrt_lt_R0; lra). field. lra. } rewrite GC.
  set (x := omega_eta w / sqrt w) in *. assert (XP : 0 < x) by (apply Rdiv_lt_0_compat; auto; apply sqrt_lt_R0; lra). assert (XM : x * (2 * M) <= 1). { assert (X1 : exp (- (2 * M)) <= / (2 * M)). { rewrite exp_Ropp. apply Rinv_le_contravar; [lra|]. pose proof (exp_ge1 (2 * M) ltac:(lra)). lra. } apply Rle_trans with (/ (2 * M) * (2 * M)); [apply Rmult_le_compat_r; lra|rewrite Rinv_l; lra]. }
  apply Rle_trans with (M * (2778 / 10 * W / (K * (s / 2)))).
  - apply Rmult_le_compat_l; [lra|]. apply Rmult_le_compat_l; [lra|]. apply Rinv_le_contravar; [posm|]. apply Rmult_le_compat_l; lra.
  - apply (Rmult_le_reg_r (K * (x * s))); [posm|]. replace (2778 / 10 * W / (K * (x * s)) * (K * (x * s))) with (2778 / 10 * W) by (field; lra). replace (M * (2778 / 10 * W / (K * (s / 2))) * (K * (x * s))) with (2778 / 10 * W * (x * (2 * M))) by (field; lra). nra.
Qed.

(* ------------------------------------------------------------------ *)
(** * Subcooled liquid                                                *)
(* ------------------------------------------------------------------ *)

Lemma sub_st_b ws : 0 < ws -> 0 < sub_st ws < 1 /\ ws * (1 - sub_st ws) < 1 / 2 /\ / sub_st ws = 1 + 1 / (2 * ws).
Proof.
  intros H. unfold sub_st. split; [split|split].
  - apply Rdiv_lt_0_compat; lra.
  - apply (Rmult_lt_reg_r (1 + 2 * ws)); [lra|]. unfold Rdiv. rewrite Rmult_assoc, Rinv_l; lra.
  - replace (ws * (1 - 2 * ws / (1 + 2 * ws))) with (ws / (1 + 2 * ws)) by (field; lra). apply (Rmult_lt_reg_r (1 + 2 * ws)); [lra|]. unfold Rdiv. rewrite Rmult_assoc, Rinv_l; lra.
  - field. lra.
Qed.
(** the critical ratio of the low subcooling region lies between 0 and the saturation ratio, which it equals at the transition only *)
Theorem C95_sub_ratio ws es : 0 < ws -> ws <> 1 / 2 -> sub_st ws <= es -> es <= 1 ->
  0 < sub_eta ws es <= es /\ (sub_eta ws es = es <-> es = sub_st ws).
Proof.
  intros H N L U. destruct (sub_st_b ws H) as (B & _ & I). set (u := / es). assert (E0 : 0 < es) by lra. assert (U1 : 1 <= u) by (unfold u; rewrite <- Rinv_1; apply Rinv_le_contravar; lra). assert (U2 : u <= 1 + 1 / (2 * ws)) by (rewrite <- I; apply Rinv_le_contravar; lra). assert (EU : es = / u) by (unfold u; now rewrite Rinv_inv).
  set (c := (2 * ws - 1) / (2 * ws)). assert (C1 : c = 1 - 1 / (2 * ws)) by (unfold c; field; lra). set (h := 1 / (2 * ws)) in *. assert (HP : 0 < h) by (apply Rdiv_lt_0_compat; lra). assert (C0 : c <> 0). { unfold c. intros Q. apply N. apply (Rmult_eq_compat_r (2 * ws)) in Q. unfold Rdiv in Q. rewrite Rmult_assoc, Rinv_l in Q by lra. lra. }
  assert (X0 : (u - 1) ^ 2 <= 1 - u * c) by nra. assert (X1 : 0 <= 1 - u * c) by nra. set (q := sqrt (1 - u * c)). assert (Q0 : 0 <= q) by apply sqrt_pos. assert (Q2 : q * q = 1 - u * c) by (apply sqrt_sqrt; auto).
  assert (E : sub_eta ws es = / (1 + q)). { unfold sub_eta. replace (1 / es) with u by (unfold u; field; lra). fold c. fold q. replace (2 * ws / (2 * ws - 1)) with (/ c) by (unfold c; field; split; [lra|]; intros Z; apply N; lra). apply (Rmult_eq_reg_r (1 + q)); [|lra]. rewrite Rinv_l by lra. replace (es * / c * (1 - q) * (1 + q)) with (es * / c * (1 - q * q)) by ring. rewrite Q2, EU. field. split; lra. }
  assert (QU : u - 1 <= q). { apply Rnot_lt_le. intros Z. nra. }
  rewrite E. split; [split|].
  - apply Rinv_0_lt_compat. lra.
  - rewrite EU. apply Rinv_le_contravar; lra.
  - rewrite EU. split; intros Z.
    + assert (Z1 : 1 + q = u) by (rewrite <- (Rinv_inv (1 + q)), Z; apply Rinv_inv). assert (Z2 : (u - 1) ^ 2 = 1 - u * c) by nra. assert (Z3 : u * (u - (1 + h)) = 0) by nra. assert (Z4 : u = 1 + h) by nra. rewrite Z4, <- I. apply Rinv_inv.
    + assert (Z1 : u = 1 + h) by (rewrite <- I, <- Z; symmetry; apply Rinv_inv). f_equal. assert (Z2 : q * q = h * h) by (rewrite Q2, C1, Z1; ring). assert (q = h) by nra. lra.
Qed.

(** for a saturated liquid the flux is that of the omega method with the specific volume of the liquid; at the
    transition it is that of the incompressible liquid *)
Theorem C95_sub_limits ws e P1 rho1 : 0 < ws -> 0 < e <= 1 -> 0 < P1 -> 0 < rho1 ->
  sub_G ws 1 e P1 rho1 = omega_G ws e P1 (1 / rho1) /\
  sub_G ws (sub_st ws) (sub_st ws) P1 rho1 = sqrt (2 * rho1 * (P1 - sub_st ws * P1)).
Proof.
  intros H He HP HR. destruct (sub_st_b ws H) as (B & _ & _). split.
  - unfold sub_G, omega_G. assert (LE : ln (1 / e) = - ln e) by (unfold Rdiv; rewrite Rmult_1_l; apply ln_Rinv; lra). rewrite LE. replace (P1 / (1 / rho1)) with (P1 * rho1) by (field; lra). do 3 f_equal. ring.
  - unfold sub_G. set (a := sub_st ws) in *. replace (a / a) with 1 by (field; lra). rewrite ln_1. replace (ws * (1 - 1) + 1) with 1 by ring. replace (2 * (1 - a) + 2 * (ws * a * 0 - (ws - 1) * (a - a))) with (2 * (1 - a)) by ring. rewrite <- sqrt_mult by nra. unfold Rdiv. rewrite Rinv_1, Rmult_1_r. f_equal. ring.
Qed.
(** high subcooling: the discharge is that of a liquid to the larger of the back pressure and the saturation pressure *)
Theorem C95_sub_high Q P1 P2 Ps rho1 rho9 Kd Kb Kc Kv : 0 < Q -> 0 < P1 -> P2 < P1 -> 0 < rho9 < rho1 -> 0 < Kd -> 0 < Kb -> 0 < Kc -> 0 < Kv ->
  0 < Ps < P1 -> Ps / P1 < sub_st (9 * (rho1 / rho9 - 1)) ->
  exists r, area_relief_2phase_subcooled Q P1 P2 Ps rho1 rho9 Kd Kb Kc Kv = Ok r /\ prv_Pcf r = None /\ (prv_crit r = true <-> P2 <= Ps) /\
    0 < prv_A r /\ (prv_A r * (Kd * Kb * Kc * Kv)) ^ 2 * (1414 / 1000) ^ 2 * (P1 - Rmax P2 Ps) * 10 ^ 5 = (1667 / 100 * Q) ^ 2 * rho1.
Proof.
  intros HQ HP H2 HR Hd Hb Hc Hk HS HT. unfold area_relief_2phase_subcooled. replace (Ps * 10 ^ 5 / (P1 * 10 ^ 5)) with (Ps / P1) by (field; lra). rewrite Rltb_t by auto. cbn [bind]. eexists. split; [reflexivity|]. cbn [prv_Pcf prv_crit prv_A]. split; auto. set (P := if Rleb (P2 * 10 ^ 5) (Ps * 10 ^ 5) then Ps * 10 ^ 5 else P2 * 10 ^ 5).
  assert (EP : P = Rmax P2 Ps * 10 ^ 5). { unfold P. destruct (Rleb (P2 * 10 ^ 5) (Ps * 10 ^ 5)) eqn:E; [apply Rleb_true in E; rewrite Rmax_right by lra|apply Rleb_false in E; rewrite Rmax_left by lra]; reflexivity. }
  assert (MX : Rmax P2 Ps < P1) by (apply Rmax_lub_lt; lra). set (m := Rmax P2 Ps) in *. set (K := Kd * Kb * Kc * Kv). assert (KP : 0 < K) by (unfold K; posm). rewrite EP. assert (G0 : 0 < rho1 * (P1 * 10 ^ 5 - m * 10 ^ 5)) by (apply Rmult_lt_0_compat; lra). set (s := sqrt _). assert (SP : 0 < s) by now apply sqrt_lt_R0. assert (S2 : s * s = rho1 * (P1 * 10 ^ 5 - m * 10 ^ 5)) by (apply sqrt_sqrt; lra).
  split; [|split].
  - rewrite Rleb_true. lra.
  - apply Rdiv_lt_0_compat; [apply Rmult_lt_0_compat; lra|posm].
  - replace ((1667 / 100 * Q * rho1 / (K * (1414 / 1000 * s)) * K) ^ 2 * (1414 / 1000) ^ 2 * (P1 - m) * 10 ^ 5) with ((1667 / 100 * Q) ^ 2 * rho1 * (rho1 * (P1 * 10 ^ 5 - m * 10 ^ 5)) / (s * s)) by (field; lra). rewrite <- S2. field. lra.
Qed.
(** finding: 2 ws = 1, a removable singularity of the critical ratio *)
Theorem C95_sub_zero_division_refuted Q P1 P2 Ps rho9 Kd Kb Kc Kv : 0 < P1 -> 0 < rho9 -> P1 / 2 <= Ps ->
  area_relief_2phase_subcooled Q P1 P2 Ps (19 / 18 * rho9) rho9 Kd Kb Kc Kv = Err ZeroDivisionError.
Proof.
  intros HP HR HS. unfold area_relief_2phase_subcooled. replace (9 * (19 / 18 * rho9 / rho9 - 1)) with (1 / 2) by (field; lra). rewrite Rltb_f. 2: { unfold sub_st. replace (2 * (1 / 2) / (1 + 2 * (1 / 2))) with (1 / 2) by field. apply (Rmult_le_reg_r (P1 * 10 ^ 5)); [lra|]. replace (Ps * 10 ^ 5 / (P1 * 10 ^ 5) * (P1 * 10 ^ 5)) with (Ps * 10 ^ 5) by (field; lra). lra. }
  replace (2 * (1 / 2) - 1) with 0 by field. rewrite pydiv_zero; reflexivity.
Qed.
(** finding: in the low subcooling region with a back pressure between the saturation and the upstream pressure
    (liquid without flashing) the area is smaller than that of the liquid flow, and finite without driving force *)
Theorem C95_sub_undersized_refuted Q P1 P2 Ps rho1 rho9 Kd Kb Kc Kv : 0 < Q -> 0 < Ps -> Ps < P2 -> P2 <= P1 -> 0 < rho9 < rho1 -> 0 < Kd -> 0 < Kb -> 0 < Kc -> 0 < Kv ->
  9 * (rho1 / rho9 - 1) <> 1 / 2 -> sub_st (9 * (rho1 / rho9 - 1)) <= Ps / P1 ->
  exists r, area_relief_2phase_subcooled Q P1 P2 Ps rho1 rho9 Kd Kb Kc Kv = Ok r /\ prv_crit r = false /\ 0 < prv_A r /\
    (P2 < P1 -> prv_A r < 1667 / 100 * Q * rho1 / (Kd * Kb * Kc * Kv * sqrt (2 * rho1 * (P1 * 10 ^ 5 - P2 * 10 ^ 5)))).
Proof.
  intros HQ HS H2 H1 HR Hd Hb Hc Hk HN HT. set (ws := 9 * (rho1 / rho9 - 1)) in *. assert (W : 0 < ws). { unfold ws. assert (1 < rho1 / rho9) by (apply (Rmult_lt_reg_r rho9); [lra|]; unfold Rdiv; rewrite Rmult_assoc, Rinv_l; lra). lra. }
  destruct (sub_st_b ws W) as (B & WB & _). unfold area_relief_2phase_subcooled. fold ws. assert (QQ : forall P, P * 10 ^ 5 / (P1 * 10 ^ 5) = P / P1) by (intros; field; lra). rewrite !QQ. rewrite Rltb_f by auto. rewrite pydiv_ok by (intros Z; apply HN; lra). cbn [bind]. set (es := Ps / P1) in *. assert (ES : es < 1) by (apply (Rmult_lt_reg_r P1); [lra|]; unfold es, Rdiv; rewrite Rmult_assoc, Rinv_l; lra). assert (PS : P1 * es = Ps) by (unfold es; field; lra).
  set (ec := if Rltb (sub_st ws) es then sub_eta ws es else es). assert (EC : ec <= es). { unfold ec. destruct (Rltb _ _); [|lra]. apply (C95_sub_ratio ws es); auto; lra. }
  rewrite (Rleb_f (P2 * 10 ^ 5)) by nra. eexists. split; [reflexivity|]. split; [reflexivity|]. cbn [prv_A]. set (e := P2 / P1). assert (EE : es < e <= 1). { unfold e, es. split; [apply Rmult_lt_compat_r; [apply Rinv_0_lt_compat; lra|auto]|]. apply (Rmult_le_reg_r P1); [lra|]. unfold Rdiv. rewrite Rmult_assoc, Rinv_l; lra. }
  set (t := e / es). assert (T : 1 < t) by (unfold t; apply (Rmult_lt_reg_r es); [lra|]; unfold Rdiv; rewrite Rmult_assoc, Rinv_l; lra). assert (TE : e = es * t) by (unfold t; field; lra). assert (LT : ln t < t - 1). { pose proof (exp_ineq1 (t - 1) ltac:(lra)) as L. apply exp_lt_inv. rewrite exp_ln; lra. }
  assert (LE : ln (es / e) = - ln t). { replace (es / e) with (/ t) by (unfold t; field; lra). apply ln_Rinv. lra. }
  assert (TI : es <= / t). { apply (Rmult_le_reg_r t); [lra|]. rewrite Rinv_l by lra. rewrite TE in EE. lra. } assert (TI1 : / t < 1) by (rewrite <- Rinv_1; apply Rinv_lt_contravar; lra).
  assert (DD : 1 / 2 < ws * (es / e - 1) + 1 < 1). { replace (es / e) with (/ t) by (unfold t; field; lra). split; [|nra]. nra. }
  set (N := 2 * (1 - es) + 2 * (ws * es * ln (es / e) - (ws - 1) * (es - e))). assert (EN : N = 2 * (1 - e) + 2 * (ws * es) * (t - 1 - ln t)) by (unfold N; rewrite LE, TE; ring). assert (WE : 0 < ws * es) by nra. assert (NP : 2 * (1 - e) < N) by (rewrite EN; assert (0 < t - 1 - ln t) by lra; nra).
  set (X := P1 * 10 ^ 5 * rho1). assert (XP : 0 < X) by (unfold X; apply Rmult_lt_0_compat; lra). assert (EG : sub_G ws es e (P1 * 10 ^ 5) rho1 = sqrt (N * X) / (ws * (es / e - 1) + 1)). { unfold sub_G. fold N. fold X. rewrite <- sqrt_mult by lra. reflexivity. } set (Dn := ws * (es / e - 1) + 1) in *. assert (SN : 0 < sqrt (N * X)) by (apply sqrt_lt_R0, Rmult_lt_0_compat; lra). assert (GL : sqrt (N * X) < sub_G ws es e (P1 * 10 ^ 5) rho1). { rewrite EG. apply (Rmult_lt_reg_r Dn); [lra|]. unfold Rdiv. rewrite Rmult_assoc, Rinv_l by lra. nra. }
  set (K := Kd * Kb * Kc * Kv). assert (KP : 0 < K) by (unfold K; posm). set (G := sub_G ws es e (P1 * 10 ^ 5) rho1) in *. assert (QP : 0 < 1667 / 100 * Q * rho1) by (apply Rmult_lt_0_compat; lra). split.
  - apply Rdiv_lt_0_compat; auto. apply Rmult_lt_0_compat; lra.
  - intros L. assert (LG : 0 < 2 * rho1 * (P1 * 10 ^ 5 - P2 * 10 ^ 5)) by (apply Rmult_lt_0_compat; lra). pose proof (sqrt_lt_R0 _ LG) as S0. assert (SL : sqrt (2 * rho1 * (P1 * 10 ^ 5 - P2 * 10 ^ 5)) < G). { eapply Rlt_trans; [|exact GL]. apply sqrt_lt_1; [lra|apply Rlt_le, Rmult_lt_0_compat; lra|]. replace (2 * rho1 * (P1 * 10 ^ 5 - P2 * 10 ^ 5)) with (2 * (1 - e) * X) by (unfold e, X; field; lra). apply Rmult_lt_compat_r; auto. }
    apply Rmult_lt_compat_l; auto. apply Rinv_lt_contravar; [apply Rmult_lt_0_compat; apply Rmult_lt_0_compat; lra|]. apply Rmult_lt_compat_l; lra.
Qed.

(** concrete cases: the case of the docstring (omega about 1.48), and a slightly subcooled liquid *)
Example C95_omega_ex : 0 < omega_eta (9 * (2265 / 1945 - 1)) < 1. Proof. apply C95_omega_ratio; lra. Qed.
(** omega = 1: the exact critical ratio is exp (-1/2) *)
Example C95_omega_one : om_h 1 (exp (- (1 / 2))) = 0.
Proof. unfold om_h. rewrite ln_exp. field. Qed.
Example C95_sub_undersized_ex : exists r, area_relief_2phase_subcooled 100 10 (19 / 2) 9 1000 900 1 1 1 1 = Ok r /\ prv_crit r = false /\
   prv_A r < 1667 / 100 * 100 * 1000 / (1 * 1 * 1 * 1 * sqrt (2 * 1000 * (10 * 10 ^ 5 - 19 / 2 * 10 ^ 5))).
Proof.
  destruct (C95_sub_undersized_refuted 100 10 (19 / 2) 9 1000 900 1 1 1 1) as (r & E & C & _ & L); try lra.
  - unfold sub_st. replace (9 * (1000 / 900 - 1)) with 1 by lra. lra.
  - exists r. split; auto. split; auto. apply L. lra.
Qed.
Print Assumptions C95_omega_exact.
Print Assumptions C95_omega_monotone.
Print Assumptions C95_omega_ratio.
Print Assumptions C95_omega_ratio_refuted.
Print Assumptions C95_small_omega_refuted.
Print Assumptions C95_sub_ratio.
Print Assumptions C95_sub_limits.
Print Assumptions C95_sub_high.
Print Assumptions C95_sub_zero_division_refuted.
Print Assumptions C95_sub_undersized_refuted.
