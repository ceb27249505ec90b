(** C54 (Tait), C55 (anchor points), C85 (real results), C86 (fit), C87 (property equations). *)
From Coq Require Import Reals Lra Lia List Bool Arith Psatz FunctionalExtensionality.
From Verif Require Import Prelude KinModel RootsModel AcmModel AcmProps EosModel EosProps Deriv NumBounds PropModel.
Import ListNotations.
Open Scope R_scope.

(* ------------------------------------------------------------------ *)
(** * C54                                                             *)
(* ------------------------------------------------------------------ *)

Lemma tait_B_pos p T : tait_ok p -> 0 < tait_B p T.
Proof. intros (_ & _ & _ & (H & _) & _). unfold tait_B. apply Rmult_lt_0_compat; [|apply exp_pos]. assert (0 < 10 ^ 7) by (apply pow_lt; lra). lra. Qed.
Lemma tait_arg p T P : tait_ok p -> 0 <= P -> 1 <= 1 + P / tait_B p T.
Proof. intros H HP. pose proof (tait_B_pos p T H). assert (0 <= P / tait_B p T) by (apply Rmult_le_pos; auto; left; now apply Rinv_0_lt_compat). lra. Qed.

Theorem C54_beta p T P : tait_ok p -> 0 <= P -> tait_eval p T P <> 0 ->
  D (fun P => tait_eval p T P) P (- tait_eval p T P * tait_beta p T P).
Proof.
  intros H HP HV. pose proof (tait_B_pos p T H) as HB. pose proof (tait_arg p T P H HP) as HA.
  unfold tait_eval, tait_beta in *. cbv zeta in *. set (B := tait_B p T) in *. set (V := tA0 p + _ + _) in *.
  assert (N1 : 1 - tait_C * ln (1 + P / B) <> 0) by (intros E; rewrite E in HV; lra).
  eapply D_eq.
  - apply (D_scal V (fun P => 1 - tait_C * ln (1 + P / B))). apply (D_minus (fun _ => 1) (fun P => tait_C * ln (1 + P / B))); [apply D_const|].
    apply (D_scal tait_C (fun P => ln (1 + P / B))). apply (D_ln (fun P => 1 + P / B)); [|lra].
    apply (D_plus (fun _ => 1) (fun P => P / B)); [apply D_const|]. apply (D_ext (fun P => / B * P)); [intros; unfold Rdiv; ring|]. apply (D_scal (/ B) (fun P => P)). apply D_id.
  - field. repeat split; try lra; nra.
Qed.
Lemma D_tait_B p T : D (fun T => tait_B p T) T (- tB1 p * tait_B p T).
Proof.
  unfold tait_B. eapply D_eq.
  - apply (D_scal (tB0 p) (fun T => exp (- tB1 p * (T - 27315 / 100)))). apply (D_exp (fun T => - tB1 p * (T - 27315 / 100))).
    apply (D_scal (- tB1 p) (fun T => T - 27315 / 100)). apply (D_minus (fun T => T) (fun _ => 27315 / 100)); [apply D_id|apply D_const].
  - ring.
Qed.
Theorem C54_alpha p T P : tait_ok p -> 0 <= P -> tait_eval p T P <> 0 ->
  D (fun T => tait_eval p T P) T (tait_eval p T P * tait_alpha p T P).
Proof.
  intros H HP HV. pose proof (tait_B_pos p T H) as HB. pose proof (tait_arg p T P H HP) as HA. pose proof (D_tait_B p T) as DB.
  unfold tait_eval, tait_alpha, tait_beta in *. cbv zeta in *. set (TC := T - 27315 / 100) in *.
  set (V := tA0 p + tA1 p * TC + tA2 p * TC ^ 2) in *.
  assert (N1 : 1 - tait_C * ln (1 + P / tait_B p T) <> 0) by (intros E; rewrite E in HV; lra).
  assert (N2 : V <> 0) by (intros E; rewrite E in HV; lra).
  assert (DT : D (fun T => T - 27315 / 100) T 1) by (eapply D_eq; [apply (D_minus (fun T => T) (fun _ => 27315 / 100)); [apply D_id|apply D_const]|ring]).
  assert (DV : D (fun T => tA0 p + tA1 p * (T - 27315 / 100) + tA2 p * (T - 27315 / 100) ^ 2) T (tA1 p + 2 * tA2 p * TC)).
  { eapply D_eq.
    - apply (D_plus (fun T => tA0 p + tA1 p * (T - 27315 / 100)) (fun T => tA2 p * (T - 27315 / 100) ^ 2)).
      + apply (D_plus (fun _ => tA0 p) (fun T => tA1 p * (T - 27315 / 100))); [apply D_const|]. apply (D_scal (tA1 p) (fun T => T - 27315 / 100)). exact DT.
      + apply (D_scal (tA2 p) (fun T => (T - 27315 / 100) ^ 2)). apply (D_ext (fun T => (T - 27315 / 100) * (T - 27315 / 100))); [intros; ring|].
        apply (D_mult (fun T => T - 27315 / 100) (fun T => T - 27315 / 100)); exact DT.
    - unfold TC. ring. }
  eapply D_eq.
  - apply (D_mult (fun T => tA0 p + tA1 p * (T - 27315 / 100) + tA2 p * (T - 27315 / 100) ^ 2) (fun T => 1 - tait_C * ln (1 + P / tait_B p T))); [exact DV|].
    apply (D_minus (fun _ => 1) (fun T => tait_C * ln (1 + P / tait_B p T))); [apply D_const|].
    apply (D_scal tait_C (fun T => ln (1 + P / tait_B p T))). apply (D_ln (fun T => 1 + P / tait_B p T)); [|lra].
    apply (D_plus (fun _ => 1) (fun T => P / tait_B p T)); [apply D_const|]. apply (D_div (fun _ => P) (fun T => tait_B p T)); [apply D_const|exact DB|lra].
  - cbv beta. fold TC. change (tA0 p + tA1 p * TC + tA2 p * TC ^ 2) with V. set (B := tait_B p T) in *. set (L := ln (1 + P / B)) in *. field. repeat split; try lra; nra.
Qed.
(** the volume decreases with pressure and the compressibility is positive where the volume is *)
Theorem C54_decreasing p T P1 P2 : tait_ok p -> 0 <= P1 < P2 -> 0 < tait_eval p T 0 -> tait_eval p T P2 < tait_eval p T P1.
Proof.
  intros H HP HV. pose proof (tait_B_pos p T H) as HB. pose proof (tait_arg p T P1 H ltac:(lra)) as HA.
  unfold tait_eval in *. cbv zeta in *. set (V := tA0 p + _ + _) in *. unfold Rdiv at 1 in HV. rewrite Rmult_0_l, Rplus_0_r, ln_1, Rmult_0_r, Rminus_0_r, Rmult_1_r in HV.
  apply Rmult_lt_compat_l; auto. assert (ln (1 + P1 / tait_B p T) < ln (1 + P2 / tait_B p T)).
  { apply ln_increasing; [lra|]. apply Rplus_lt_compat_l. unfold Rdiv. apply Rmult_lt_compat_r; [now apply Rinv_0_lt_compat|lra]. }
  unfold tait_C. lra.
Qed.
Theorem C54_beta_positive p T P : tait_ok p -> 0 <= P -> 0 < tait_eval p T 0 -> 0 < tait_eval p T P -> 0 < tait_beta p T P.
Proof.
  intros H HP HV0 HV. pose proof (tait_B_pos p T H) as HB.
  unfold tait_eval, tait_beta in *. cbv zeta in *. set (V := tA0 p + _ + _) in *. unfold Rdiv at 1 in HV0. rewrite Rmult_0_l, Rplus_0_r, ln_1, Rmult_0_r, Rminus_0_r, Rmult_1_r in HV0.
  apply Rdiv_lt_0_compat; [apply Rdiv_lt_0_compat; [unfold tait_C|]; lra|]. apply (Rmult_lt_reg_l V); lra.
Qed.
(** every accepted parameter set gives a positive volume between 0 and 249 degC up to 10^4 times B *)
Theorem C54_positive p T P : tait_ok p -> 27315 / 100 <= T <= 27315 / 100 + 249 -> 0 <= P <= 10 ^ 4 * tait_B p T -> 0 < tait_eval p T P.
Proof.
  intros H HT HP. pose proof (tait_B_pos p T H) as HB. pose proof (tait_arg p T P H ltac:(lra)) as HA. destruct H as (H0 & H1 & H2 & _).
  unfold tait_eval. cbv zeta. set (TC := T - 27315 / 100). assert (0 <= TC <= 249) by (unfold TC; lra). apply Rmult_lt_0_compat.
  - assert (/ 10 ^ 7 * TC <= tA1 p * TC) by (apply Rmult_le_compat_r; lra). assert (0 <= TC ^ 2) by nra. assert (- (2 / 10 ^ 9) * TC ^ 2 <= tA2 p * TC ^ 2) by (apply Rmult_le_compat_r; lra).
    assert (TC ^ 2 <= 249 * TC) by nra. assert (/ 10 ^ 4 = 1000 * / 10 ^ 7) by field. assert (2 / 10 ^ 9 = / 50 * / 10 ^ 7) by field.
    set (e := / 10 ^ 7) in *. assert (0 < e) by (unfold e; apply Rinv_0_lt_compat; apply pow_lt; lra). nra.
  - assert (L : ln (1 + P / tait_B p T) <= 10).
    { rewrite <- (ln_exp 10). apply Rcomplements.ln_le; [lra|]. assert (P / tait_B p T <= 10 ^ 4). { apply (Rmult_le_reg_r (tait_B p T)); auto. unfold Rdiv. rewrite Rmult_assoc, Rinv_l by lra. lra. }
      assert (271 / 100 <= exp 1) by (apply exp_lower; unfold q6; lra). replace 10 with (INR 10 * 1) at 1 by (cbn; lra). rewrite exp_mult_pow.
      assert ((271 / 100) ^ 10 <= exp 1 ^ 10) by (apply pow_incr; lra). lra. }
    unfold tait_C. lra.
Qed.
Example C54_example : let p := mkTait (8 / 10 ^ 4) (5 / 10 ^ 7) (/ 10 ^ 9) (2 * 10 ^ 8) (4 / 10 ^ 3) in tait_ok p /\ tait_eval p (27315 / 100) 0 = 8 / 10 ^ 4.
Proof.
  cbv zeta. split; [unfold tait_ok; cbn [tA0 tA1 tA2 tB0 tB1]; repeat split; lra|]. unfold tait_eval. cbn [tA0 tA1 tA2 tB0 tB1].
  match goal with |- context [0 / ?b] => replace (0 / b) with 0 by (unfold Rdiv; ring) end. rewrite Rplus_0_r, ln_1. lra.
Qed.

(* ------------------------------------------------------------------ *)
(** * C55                                                             *)
(* ------------------------------------------------------------------ *)

Lemma D_pow (n : nat) x : D (fun t => t ^ S n) x (INR (S n) * x ^ n).
Proof. apply Coquelicot.Derive.is_derive_Reals. apply (derivable_pt_lim_pow x (S n)). Qed.
Lemma D_fLK a b c d x : 0 < x -> D (fun t => a - b / t - c * ln t + d * t ^ 6) x (b / x ^ 2 - c / x + 6 * d * x ^ 5).
Proof.
  intros H. eapply D_eq.
  - apply (D_plus (fun t => a - b / t - c * ln t) (fun t => d * t ^ 6)); [|apply (D_scal d (fun t => t ^ 6)); apply (D_pow 5)].
    apply (D_minus (fun t => a - b / t) (fun t => c * ln t)); [|apply (D_scal c ln); apply (D_ln (fun t => t)); [apply D_id|lra]].
    apply (D_minus (fun _ => a) (fun t => b / t)); [apply D_const|]. apply (D_div (fun _ => b) (fun t => t)); [apply D_const|apply D_id|lra].
  - replace (INR 6) with 6 by (cbn; lra). field. lra.
Qed.
Lemma fLK0_incr s t : 0 < s < t -> t <= 1 -> fLK0 s < fLK0 t.
Proof.
  intros H H1. unfold fLK0. apply (mono_strict (fun t => 592714 / 100000 - 609648 / 100000 / t - 128862 / 100000 * ln t + 169347 / 1000000 * t ^ 6)
    (fun x => 609648 / 100000 / x ^ 2 - 128862 / 100000 / x + 6 * (169347 / 1000000) * x ^ 5)); [lra|intros; apply D_fLK; lra|].
  intros x Hx. assert (0 < x ^ 5) by (apply pow_lt; lra). replace (609648 / 100000 / x ^ 2 - 128862 / 100000 / x) with ((609648 / 100000 - 128862 / 100000 * x) * / x ^ 2) by (field; lra).
  assert (0 < (609648 / 100000 - 128862 / 100000 * x) * / x ^ 2) by (apply Rmult_lt_0_compat; [lra|apply Rinv_0_lt_compat; apply pow_lt; lra]). lra.
Qed.
Lemma fLK1_incr s t : 0 < s < t -> t <= 1 -> fLK1 s < fLK1 t.
Proof.
  intros H H1. unfold fLK1. apply (mono_strict (fun t => 152518 / 10000 - 156875 / 10000 / t - 134721 / 10000 * ln t + 43577 / 100000 * t ^ 6)
    (fun x => 156875 / 10000 / x ^ 2 - 134721 / 10000 / x + 6 * (43577 / 100000) * x ^ 5)); [lra|intros; apply D_fLK; lra|].
  intros x Hx. assert (0 < x ^ 5) by (apply pow_lt; lra). replace (156875 / 10000 / x ^ 2 - 134721 / 10000 / x) with ((156875 / 10000 - 134721 / 10000 * x) * / x ^ 2) by (field; lra).
  assert (0 < (156875 / 10000 - 134721 / 10000 * x) * / x ^ 2) by (apply Rmult_lt_0_compat; [lra|apply Rinv_0_lt_compat; apply pow_lt; lra]). lra.
Qed.
Lemma fLK1_neg t : 0 < t <= 9 / 10 -> fLK1 t < 0.
Proof.
  intros H. apply Rle_lt_trans with (fLK1 (9 / 10)).
  - destruct (proj2 H) as [L| ->]; [|lra]. left. apply fLK1_incr; lra.
  - unfold fLK1. assert (- (107 / 1000) <= ln (9 / 10)).
    { rewrite <- (ln_exp (- (107 / 1000))). apply Rcomplements.ln_le; [apply exp_pos|]. rewrite exp_Ropp. replace (9 / 10) with (/ (10 / 9)) by field. apply Rinv_le_contravar; [lra|]. apply exp_lower; unfold q6; lra. }
    lra.
Qed.
(** the Lee-Kesler acentric factor reproduces the normal boiling point *)
Theorem C55_Lee_Kesler Tb Tc Pc : 0 < Tb <= 9 / 10 * Tc -> 0 < Pc -> PL_Lee_Kesler Tb Tb Tc Pc = 101325.
Proof.
  intros H HP. assert (Q : 0 < Tb / Tc <= 9 / 10). { split; [apply Rdiv_lt_0_compat; lra|]. apply (Rmult_le_reg_r Tc); [lra|]. unfold Rdiv. rewrite Rmult_assoc, Rinv_l by lra. lra. }
  pose proof (fLK1_neg _ Q). unfold PL_Lee_Kesler. cbv zeta.
  replace (fLK0 (Tb / Tc) + (- ln (Pc / 101325) - fLK0 (Tb / Tc)) / fLK1 (Tb / Tc) * fLK1 (Tb / Tc)) with (- ln (Pc / 101325)) by (field; lra).
  rewrite exp_Ropp, exp_ln by lra. field. lra.
Qed.
(** and its vapour pressure increases up to Tc when that acentric factor is nonnegative *)
Theorem C55_Lee_Kesler_increasing T1 T2 Tb Tc Pc : 0 < Tb <= 9 / 10 * Tc -> 0 < Pc -> exp (- fLK0 (Tb / Tc)) <= Pc / 101325 -> 0 < T1 < T2 -> T2 <= Tc ->
  PL_Lee_Kesler T1 Tb Tc Pc < PL_Lee_Kesler T2 Tb Tc Pc.
Proof.
  intros H HP W HT H2. assert (Q : 0 < Tb / Tc <= 9 / 10). { split; [apply Rdiv_lt_0_compat; lra|]. apply (Rmult_le_reg_r Tc); [lra|]. unfold Rdiv. rewrite Rmult_assoc, Rinv_l by lra. lra. }
  pose proof (fLK1_neg _ Q) as N. unfold PL_Lee_Kesler. cbv zeta. set (w := (- ln (Pc / 101325) - fLK0 (Tb / Tc)) / fLK1 (Tb / Tc)).
  assert (Hw : 0 <= w).
  { unfold w. assert (- fLK0 (Tb / Tc) <= ln (Pc / 101325)) by (rewrite <- (ln_exp (- fLK0 (Tb / Tc))); apply Rcomplements.ln_le; auto; apply exp_pos).
    replace ((- ln (Pc / 101325) - fLK0 (Tb / Tc)) / fLK1 (Tb / Tc)) with ((ln (Pc / 101325) + fLK0 (Tb / Tc)) * / - fLK1 (Tb / Tc)) by (field; lra).
    apply Rmult_le_pos; [lra|]. left. apply Rinv_0_lt_compat. lra. }
  assert (R1 : 0 < T1 / Tc < T2 / Tc). { split; [apply Rdiv_lt_0_compat; lra|]. unfold Rdiv. apply Rmult_lt_compat_r; [apply Rinv_0_lt_compat|]; lra. }
  assert (R2 : T2 / Tc <= 1). { apply (Rmult_le_reg_r Tc); [lra|]. unfold Rdiv. rewrite Rmult_assoc, Rinv_l by lra. lra. }
  pose proof (fLK0_incr _ _ R1 R2). pose proof (fLK1_incr _ _ R1 R2). apply Rmult_lt_compat_l; auto. apply exp_increasing. nra.
Qed.
Lemma Rinv_r_div x : x <> 0 -> x / x = 1. Proof. intros. now apply Rinv_r. Qed.
(** Wilson *)
Theorem C55_Wilson Tc Pc w : Tc <> 0 -> PL_Wilson Tc Tc Pc w = Pc.
Proof. intros H. unfold PL_Wilson. rewrite Rinv_r_div by auto. replace (1 - 1) with 0 by ring. rewrite Rmult_0_r, exp_0. ring. Qed.
Theorem C55_Wilson_increasing T1 T2 Tc Pc w : 0 < T1 < T2 -> 0 < Tc -> 0 < Pc -> -1 < w -> PL_Wilson T1 Tc Pc w < PL_Wilson T2 Tc Pc w.
Proof.
  intros HT Hc HP Hw. unfold PL_Wilson. apply Rmult_lt_compat_l; auto. apply exp_increasing. apply Rmult_lt_compat_l; [lra|].
  assert (Tc / T2 < Tc / T1); [|lra]. unfold Rdiv. apply Rmult_lt_compat_l; auto. apply Rinv_lt_contravar; [apply Rmult_lt_0_compat|]; lra.
Qed.
Lemma fpow0 y : fpow 0 y = Flt 0.
Proof. unfold fpow. destruct (Rltb 0 0) eqn:E; [apply Rltb_true in E; lra|]. now rewrite (proj2 (Reqb_true 0 0) eq_refl). Qed.
Lemma fpow_pos x y : 0 < x -> fpow x y = Flt (Rpower x y).
Proof. intros H. unfold fpow. now rewrite (proj2 (Rltb_true _ _) H). Qed.
Lemma fpow_neg x y : x < 0 -> fpow x y = NotReal.
Proof. intros H. unfold fpow. destruct (Rltb 0 x) eqn:E; [apply Rltb_true in E; lra|]. destruct (Reqb x 0) eqn:E2; [apply Reqb_true in E2; lra|reflexivity]. Qed.
Lemma fpow_real x y : (exists r, fpow x y = Flt r) <-> 0 <= x.
Proof.
  split; [intros (r & H); destruct (Rlt_dec x 0) as [L|L]; [rewrite fpow_neg in H by auto; discriminate|lra]|].
  intros [H| <-]; [rewrite fpow_pos by auto; eauto|rewrite fpow0; eauto].
Qed.
(** Ambrose-Walton is a Wagner 2.5-5 equation whose coefficients are quadratic in the acentric factor *)
Theorem C55_AW_is_Wagner T Tc Pc w :
  PL_Ambrose_Walton T Tc Pc w =
  Wagner25 T (- (597616 / 100000) - 503365 / 100000 * w - 64771 / 100000 * w ^ 2) (129874 / 100000 + 111505 / 100000 * w + 241539 / 100000 * w ^ 2)
    (- (60394 / 100000) - 541217 / 100000 * w - 426979 / 100000 * w ^ 2) (- (106841 / 100000) - 746628 / 100000 * w + 325259 / 100000 * w ^ 2) Pc Tc.
Proof.
  unfold PL_Ambrose_Walton, Wagner25, aw_f. cbv zeta. destruct (fpow (1 - T / Tc) (3 / 2)) as [p|]; [|reflexivity]. destruct (fpow (1 - T / Tc) (5 / 2)) as [q|]; [|reflexivity].
  cbn [pmap pmap2]. do 3 f_equal. unfold Rdiv. ring.
Qed.
Theorem C55_Wagner a b c d Pc Tc : Tc <> 0 -> Wagner25 Tc a b c d Pc Tc = Flt Pc /\ Wagner36 Tc a b c d Pc Tc = Flt Pc.
Proof.
  intros H. unfold Wagner25, Wagner36. cbv zeta. rewrite Rinv_r_div by auto. replace (1 - 1) with 0 by ring. rewrite !fpow0. cbn [pmap pmap2].
  split; f_equal; match goal with |- Pc * exp ?x = Pc => replace x with 0 by (unfold Rdiv; ring) end; rewrite exp_0; ring.
Qed.
Theorem C55_AW Tc Pc w : Tc <> 0 -> PL_Ambrose_Walton Tc Tc Pc w = Flt Pc.
Proof. intros H. rewrite C55_AW_is_Wagner. now apply C55_Wagner. Qed.
(** Watson *)
Theorem C55_Watson_same h T Tc : T <> Tc -> 0 < Tc -> DHVL_Watson h T T Tc = Flt h.
Proof.
  intros H HT. unfold DHVL_Watson. assert (1 - T / Tc <> 0). { intros E. apply H. assert (T / Tc = 1) by lra. apply (Rmult_eq_reg_r (/ Tc)); [|apply Rinv_neq_0_compat; lra]. rewrite Rinv_r by lra. exact H0. }
  rewrite Rinv_r_div by auto. rewrite fpow_pos by lra. rewrite rp_one. cbn. f_equal. ring.
Qed.
Lemma tr_pos T Tc : 0 < Tc -> T < Tc -> 0 < 1 - T / Tc.
Proof. intros. assert (T / Tc < 1); [|lra]. apply (Rmult_lt_reg_r Tc); auto. unfold Rdiv. rewrite Rmult_assoc, Rinv_l by lra. lra. Qed.
Lemma tr_neg T Tc : 0 < Tc -> Tc < T -> 1 - T / Tc < 0.
Proof. intros. assert (1 < T / Tc); [|lra]. apply (Rmult_lt_reg_r Tc); auto. unfold Rdiv. rewrite Rmult_assoc, Rinv_l by lra. lra. Qed.
Theorem C55_Watson_compose h T1 T2 T3 Tc h2 : 0 < Tc -> T1 < Tc -> T2 < Tc -> DHVL_Watson h T1 T2 Tc = Flt h2 -> DHVL_Watson h2 T2 T3 Tc = DHVL_Watson h T1 T3 Tc.
Proof.
  intros HT H1 H2 H. pose proof (tr_pos _ _ HT H1) as P1. pose proof (tr_pos _ _ HT H2) as P2. unfold DHVL_Watson in *.
  rewrite fpow_pos in H by (apply Rdiv_lt_0_compat; auto). cbn in H. injection H as <-.
  destruct (Rtotal_order T3 Tc) as [L|[-> |L]].
  - pose proof (tr_pos _ _ HT L) as P3. rewrite !fpow_pos by (apply Rdiv_lt_0_compat; auto). cbn [pmap]. f_equal.
    replace ((1 - T3 / Tc) / (1 - T1 / Tc)) with ((1 - T2 / Tc) / (1 - T1 / Tc) * ((1 - T3 / Tc) / (1 - T2 / Tc))) by (field; repeat split; nra).
    rewrite <- Rpower_mult_distr by (apply Rdiv_lt_0_compat; auto). ring.
  - rewrite Rinv_r_div by lra. replace (1 - 1) with 0 by ring. replace (0 / (1 - T2 / Tc)) with 0 by (unfold Rdiv; ring). replace (0 / (1 - T1 / Tc)) with 0 by (unfold Rdiv; ring). rewrite fpow0. cbn. f_equal. ring.
  - pose proof (tr_neg _ _ HT L) as P3. rewrite !fpow_neg; [reflexivity| |]; unfold Rdiv; apply Ropp_lt_cancel; rewrite Ropp_0, Ropp_mult_distr_l; (apply Rmult_lt_0_compat; [|apply Rinv_0_lt_compat; auto]); unfold Rdiv in P3; lra.
Qed.
Theorem C55_Watson_decreasing h T1 T2 T3 Tc h2 h3 : 0 < Tc -> T1 < Tc -> T2 < T3 -> 0 < h -> DHVL_Watson h T1 T2 Tc = Flt h2 -> DHVL_Watson h T1 T3 Tc = Flt h3 -> h3 < h2.
Proof.
  intros HT H1 H2 Hh E2 E3. pose proof (tr_pos _ _ HT H1) as P1. unfold DHVL_Watson in *.
  assert (L : (1 - T3 / Tc) / (1 - T1 / Tc) < (1 - T2 / Tc) / (1 - T1 / Tc)).
  { unfold Rdiv. apply Rmult_lt_compat_r; [now apply Rinv_0_lt_compat|]. pose proof (Rinv_0_lt_compat Tc HT). nra. }
  set (a := (1 - T2 / Tc) / (1 - T1 / Tc)) in *. set (b := (1 - T3 / Tc) / (1 - T1 / Tc)) in *.
  destruct (proj1 (fpow_real b (38 / 100))) as [B|B]; [destruct (fpow b (38 / 100)); [eauto|discriminate]| |].
  - rewrite fpow_pos in E2 by lra. rewrite fpow_pos in E3 by auto. cbn in *. injection E2 as <-. injection E3 as <-. apply Rmult_lt_compat_l; auto. apply rp_base; lra.
  - rewrite <- B, fpow0 in E3. rewrite fpow_pos in E2 by lra. cbn in *. injection E2 as <-. injection E3 as <-. rewrite Rmult_0_r. apply Rmult_lt_0_compat; auto. apply rp_pos.
Qed.
Theorem C55_Watson_Tc h T1 Tc : Tc <> 0 -> DHVL_Watson h T1 Tc Tc = Flt 0.
Proof. intros H. unfold DHVL_Watson. rewrite Rinv_r_div by auto. replace (1 - 1) with 0 by ring. unfold Rdiv. rewrite Rmult_0_l, fpow0. cbn. f_equal. ring. Qed.
Theorem C55_Pitzer_Tc Tc w : Tc <> 0 -> DHVL_Pitzer Tc Tc w = Flt 0.
Proof. intros H. unfold DHVL_Pitzer. cbv zeta. rewrite Rinv_r_div by auto. replace (1 - 1) with 0 by ring. rewrite !fpow0. cbn. f_equal. ring. Qed.
(** Rackett *)
Theorem C55_Rackett_arguments T Tc Pc z w : VL_Rackett T Tc Pc z w = Err ValueError <-> (z = None /\ w = None) \/ (z <> None /\ w <> None).
Proof.
  unfold VL_Rackett. destruct z, w; cbn [bind]; split; intros H; try discriminate; try (right; split; congruence); try (left; split; congruence); try reflexivity;
    try (destruct (fpow (1 - T / Tc) (2 / 7)); discriminate); destruct H as [(? & ?)|(? & ?)]; congruence.
Qed.
Theorem C55_Rackett_Tc Tc Pc z : Tc <> 0 -> 0 < z -> VL_Rackett Tc Tc Pc (Some z) None = Ok (Flt (z * Rgas * Tc / Pc)).
Proof.
  intros H Hz. unfold VL_Rackett. cbn [bind]. rewrite Rinv_r_div by auto. replace (1 - 1) with 0 by ring. rewrite fpow0. rewrite Rplus_0_r, fpow_pos, Rpower_1 by auto.
  cbn. do 2 f_equal. unfold Rdiv. ring.
Qed.
Theorem C55_Rackett_w T Tc Pc w : VL_Rackett T Tc Pc None (Some w) = VL_Rackett T Tc Pc (Some (29056 / 100000 - 8775 / 100000 * w)) None.
Proof. reflexivity. Qed.
Theorem C55_Rackett_increasing T1 T2 Tc Pc z v1 v2 : 0 < Tc -> 0 < Pc -> 0 < z < 1 -> T1 < T2 ->
  VL_Rackett T1 Tc Pc (Some z) None = Ok (Flt v1) -> VL_Rackett T2 Tc Pc (Some z) None = Ok (Flt v2) -> 0 < v1 < v2.
Proof.
  intros HT HP Hz H E1 E2. unfold VL_Rackett in *. cbn [bind] in *. pose proof Rgas_pos as HR.
  assert (L : 1 - T2 / Tc < 1 - T1 / Tc) by (unfold Rdiv; pose proof (Rinv_0_lt_compat Tc HT); nra).
  set (a := 1 - T1 / Tc) in *. set (b := 1 - T2 / Tc) in *.
  assert (B : 0 <= b) by (destruct (fpow b (2 / 7)) eqn:E; [apply (proj1 (fpow_real b (2 / 7))); eauto|discriminate]).
  rewrite fpow_pos in E1 by lra. rewrite fpow_pos in E1 by lra. cbn in E1.
  assert (K : 0 < Rgas * Tc / Pc) by (apply Rdiv_lt_0_compat; auto; now apply Rmult_lt_0_compat).
  assert (E1' : v1 = Rgas * Tc / Pc * Rpower z (1 + Rpower a (2 / 7))) by (injection E1; auto). rewrite E1'.
  split; [apply Rmult_lt_0_compat; auto; apply rp_pos|].
  destruct B as [B|B].
  - rewrite !fpow_pos in E2 by lra. cbn in E2. assert (E2' : v2 = Rgas * Tc / Pc * Rpower z (1 + Rpower b (2 / 7))) by (injection E2; auto). rewrite E2'.
    apply Rmult_lt_compat_l; auto. apply rp_exp_decr; auto. apply Rplus_lt_compat_l. apply rp_base; lra.
  - rewrite <- B, fpow0 in E2. rewrite fpow_pos in E2 by lra. cbn in E2. assert (E2' : v2 = Rgas * Tc / Pc * Rpower z (1 + 0)) by (injection E2; auto). rewrite E2'.
    apply Rmult_lt_compat_l; auto. apply rp_exp_decr; auto. apply Rplus_lt_compat_l. apply rp_pos.
Qed.
Example C55_example : DHVL_Watson 5 300 500 500 = Flt 0 /\ VL_Rackett 500 500 1 (Some (1 / 4)) None = Ok (Flt (1 / 4 * Rgas * 500 / 1)).
Proof. split; [apply C55_Watson_Tc; lra|apply C55_Rackett_Tc; lra]. Qed.

(* ------------------------------------------------------------------ *)
(** * C85: the correlations return real numbers only on part of their accepted inputs *)
(* ------------------------------------------------------------------ *)

Lemma tr_nonneg T Tc : 0 < Tc -> (0 <= 1 - T / Tc <-> T <= Tc).
Proof.
  intros H. destruct (Rtotal_order T Tc) as [L|[-> |L]].
  - pose proof (tr_pos _ _ H L). lra.
  - rewrite Rinv_r_div by lra. lra.
  - pose proof (tr_neg _ _ H L). lra.
Qed.
Lemma pmap_real f v : (exists r, pmap f v = Flt r) <-> exists r, v = Flt r.
Proof. destruct v; cbn; split; intros (r' & E); eauto; discriminate. Qed.
Lemma pmap2_real f v w : (exists r, pmap2 f v w = Flt r) <-> (exists r, v = Flt r) /\ (exists r, w = Flt r).
Proof. destruct v, w; cbn; split; try (intros (r' & E); discriminate); try (intros (_ & (? & ?)); discriminate); try (intros ((? & ?) & _); discriminate); intros; try split; eauto. Qed.
(** temperature-dependent correlations are real exactly up to the critical temperature *)
Theorem C85_below_Tc T Tc Pc w h T1 a b c d : 0 < Tc -> T1 < Tc ->
  ((exists r, PL_Ambrose_Walton T Tc Pc w = Flt r) <-> T <= Tc) /\ ((exists r, DHVL_Pitzer T Tc w = Flt r) <-> T <= Tc) /\
  ((exists r, DHVL_Watson h T1 T Tc = Flt r) <-> T <= Tc) /\ ((exists r, Wagner25 T a b c d Pc Tc = Flt r) <-> T <= Tc) /\
  ((exists r, Wagner36 T a b c d Pc Tc = Flt r) <-> T <= Tc).
Proof.
  intros H H1. pose proof (tr_nonneg T Tc H) as Q.
  assert (W25 : forall a b c d, (exists r, Wagner25 T a b c d Pc Tc = Flt r) <-> T <= Tc).
  { intros. unfold Wagner25. cbv zeta. rewrite pmap2_real, !fpow_real, Q. tauto. }
  split; [|split; [|split; [|split]]].
  - rewrite C55_AW_is_Wagner. apply W25.
  - unfold DHVL_Pitzer. cbv zeta. rewrite pmap2_real, !fpow_real, Q. tauto.
  - unfold DHVL_Watson. rewrite pmap_real, fpow_real, <- Q. pose proof (tr_pos _ _ H H1) as P. split; intros L.
    + apply Rmult_le_compat_r with (r := 1 - T1 / Tc) in L; [|lra]. rewrite Rmult_0_l in L. unfold Rdiv at 1 in L. rewrite Rmult_assoc, Rinv_l in L by lra. lra.
    + apply Rmult_le_pos; auto. left. now apply Rinv_0_lt_compat.
  - apply W25.
  - unfold Wagner36. cbv zeta. rewrite pmap_real, fpow_real. exact Q.
Qed.
Theorem C85_Rackett T Tc Pc z : 0 < Tc -> 0 < z -> (exists r, VL_Rackett T Tc Pc (Some z) None = Ok (Flt r)) <-> T <= Tc.
Proof.
  intros H Hz. rewrite <- (tr_nonneg T Tc H), <- (fpow_real (1 - T / Tc) (2 / 7)). unfold VL_Rackett. cbn [bind].
  destruct (fpow (1 - T / Tc) (2 / 7)); [|split; intros (r & E); discriminate].
  rewrite fpow_pos by auto. cbn. split; intros; eauto.
Qed.
(** the scalar Lucas viscosity is real exactly for Zc <= 0.292, even without a dipole moment; the mixture
    version accepts any Zc for small dipole moments *)
Theorem C85_Lucas T P M Tc Pc Zc dm : (exists r, MUV_Lucas T P M Tc Pc Zc dm = Flt r) <-> Zc <= 292 / 1000.
Proof. unfold MUV_Lucas, Lucas_FP0. rewrite !pmap_real, fpow_real. split; lra. Qed.
Theorem C85_Lucas_mixture N T P y M Tc Pc Zc : exists r, MUVMX_Lucas N T P y M Tc Pc Zc (fun _ => 0) = Flt r.
Proof.
  unfold MUVMX_Lucas. cbv zeta. apply pmap_real. assert (H : forall i, exists r, Lucas_FP0_arr (T / Tc i) (Tc i) (Pc i) (Zc i) 0 = Flt r).
  { intros i. unfold Lucas_FP0_arr. destruct (fpow _ _); eauto. replace (Lucas_dmr 0 (Pc i) (Tc i)) with 0 by (unfold Lucas_dmr, Rdiv; ring). rewrite (proj2 (Rleb_true 0 (22 / 1000))) by lra. eauto. }
  induction N as [|N (r & IH)]; cbn [psum]; [eauto|]. rewrite IH. destruct (H N) as (q & ->). cbn. eauto.
Qed.
(** Kistiakowsky-Vetere for hydrocarbons *)
Theorem C85_KV Tb M : (exists r, DHVL_Kistiakowsky_Vetere Tb (Some M) KvHydrocarbon = Ok (Flt r)) <-> Rpower (263 * (M * 1000)) (581 / 1000) <= Tb.
Proof.
  unfold DHVL_Kistiakowsky_Vetere. cbv zeta. split.
  - intros (r & E). assert (E' : exists r, pmap (fun p => (5820 / 100 + 137 / 10 * log10 (M * 1000) + 649 / 100 / (M * 1000) * p) * Tb)
                (fpow (Tb - Rpower (263 * (M * 1000)) (581 / 1000)) (1037 / 1000)) = Flt r) by (exists r; congruence). apply pmap_real, fpow_real in E'. lra.
  - intros H. destruct (proj2 (fpow_real (Tb - Rpower (263 * (M * 1000)) (581 / 1000)) (1037 / 1000))) as (r & E); [lra|]. rewrite E. cbn. eauto.
Qed.
(** n-octane (Tb = 398.83 K, M = 0.11423 kg/mol): not a real number *)
Theorem C85_KV_refuted : exists Tb M, 0 < Tb /\ 0 < M /\ DHVL_Kistiakowsky_Vetere Tb (Some M) KvHydrocarbon = Ok NotReal.
Proof.
  exists (39883 / 100), (11423 / 100000). split; [lra|]. split; [lra|]. unfold DHVL_Kistiakowsky_Vetere. cbv zeta. rewrite fpow_neg; [reflexivity|].
  assert (H : 39883 / 100 < Rpower (263 * (11423 / 100000 * 1000)) (INR 61 / INR 105)) by (apply rpow_gt; [lra|lra|lia|lra]).
  assert (Rpower (263 * (11423 / 100000 * 1000)) (INR 61 / INR 105) < Rpower (263 * (11423 / 100000 * 1000)) (581 / 1000)) by (apply Rpower_lt; [lra|]; replace (INR 61 / INR 105) with (61 / 105) by (rewrite !INR_IZR_INZ; reflexivity); lra).
  lra.
Qed.
(** supercritical temperature, and hydrogen cyanide-like Zc > 0.292 without dipole moment *)
Theorem C85_refuted : (exists T Tc w, 0 < Tc < T /\ DHVL_Pitzer T Tc w = NotReal) /\
  (exists T P M Tc Pc Zc, 0 < T /\ 0 < P /\ 0 < M /\ 0 < Tc /\ 0 < Pc /\ 0 < Zc < 1 /\ MUV_Lucas T P M Tc Pc Zc 0 = NotReal).
Proof.
  split.
  - exists 600, 500, 0. split; [lra|]. unfold DHVL_Pitzer. cbv zeta. rewrite fpow_neg by lra. reflexivity.
  - exists 300, 1, 1, 500, 1, (3 / 10). do 6 (split; [lra|]). unfold MUV_Lucas, Lucas_FP0. rewrite fpow_neg by lra. reflexivity.
Qed.
Example C85_example : exists r, DHVL_Pitzer 400 500 (1 / 5) = Flt r.
Proof. apply (C85_below_Tc 400 500 1 (1 / 5) 1 300 1 1 1 1); lra. Qed.

(* ------------------------------------------------------------------ *)
(** * C86: fit                                                        *)
(* ------------------------------------------------------------------ *)

Lemma assign_out names vals p n : ~ In n names -> assign names vals p n = p n.
Proof.
  revert vals p. induction names as [|m ns IH]; intros [|v vs] p H; cbn; auto. rewrite IH by (intros X; apply H; now right).
  unfold upd. destruct (Nat.eq_dec n m) as [-> |]; [exfalso; apply H; now left|reflexivity].
Qed.
Lemma assign_in names vals p : NoDup names -> length vals = length names -> map (assign names vals p) names = vals.
Proof.
  revert vals p. induction names as [|m ns IH]; intros [|v vs] p ND L; cbn in L |- *; try discriminate; auto. injection L as L.
  inversion ND as [|? ? H1 H2]; subst. f_equal; [|now apply IH]. rewrite assign_out by auto. unfold upd. now destruct (Nat.eq_dec m m).
Qed.
Lemma fit_names_nodup pinfo fo : NoDup (map fst pinfo) -> NoDup (fit_names pinfo fo).
Proof.
  intros H. assert (H1 : NoDup (map fst (filter snd pinfo))).
  { induction pinfo as [|(n, b) l IH]; cbn in *; [constructor|]. inversion H as [|? ? A B]; subst. destruct b; cbn; auto. constructor; auto.
    intros C. apply A. apply in_map_iff in C. destruct C as ((n', b') & E & C). apply filter_In in C. apply in_map_iff. exists (n', b'). tauto. }
  unfold fit_names. destruct fo as [[|x l]|]; auto. now apply NoDup_filter.
Qed.
(** the object takes the optimum on the fitted names, nothing else changes, and the range becomes that of the data *)
Theorem C86_object orc pinfo fo lo hi s s' r : NoDup (map fst pinfo) -> (forall p0 c, orc p0 = Ok c -> length (cv_popt c) = length p0) ->
  eq_fit orc pinfo fo lo hi s = Ok (s', r) ->
  (exists c, orc (map (eq_p s) (fit_names pinfo fo)) = Ok c /\ map (eq_p s') (fit_names pinfo fo) = cv_popt c) /\
  (forall n, ~ In n (fit_names pinfo fo) -> eq_p s' n = eq_p s n) /\ eq_Tmin s' = lo /\ eq_Tmax s' = hi.
Proof.
  intros ND HL H. unfold eq_fit in H. destruct (orc (map (eq_p s) (fit_names pinfo fo))) as [c|e] eqn:E; [|discriminate]. cbn [bind] in H. injection H as <- <-. cbn [eq_p eq_Tmin eq_Tmax].
  split; [exists c; split; auto; apply assign_in; [now apply fit_names_nodup|rewrite (HL _ _ E); apply map_length]|]. split; [|auto]. intros. now apply assign_out.
Qed.
(** fitted names: those marked "fit", restricted to fit_only when given and not empty *)
Theorem C86_names pinfo fo n : In n (fit_names pinfo fo) <-> In (n, true) pinfo /\ (forall l, fo = Some l -> l <> [] -> In n l).
Proof.
  assert (H1 : In n (map fst (filter snd pinfo)) <-> In (n, true) pinfo).
  { rewrite in_map_iff. split; [intros ((n', b) & <- & H); apply filter_In in H; destruct H as (H & E); cbn in *; subst; auto|intros H; exists (n, true); split; auto; now apply filter_In]. }
  unfold fit_names. destruct fo as [[|x l]|].
  - rewrite H1. split; [intros H; split; auto; intros l E N; congruence|tauto].
  - rewrite filter_In, H1, existsb_exists. split.
    + intros (I1 & m & B & C). apply Nat.eqb_eq in C. subst m. split; auto. intros l' E _. injection E as <-. auto.
    + intros (I1 & B). split; auto. exists n. split; [|apply Nat.eqb_refl]. apply (B (x :: l)); auto. discriminate.
  - rewrite H1. split; [intros H; split; auto; intros l E; discriminate|tauto].
Qed.
(** the returned "parameters" are those of the last evaluation of the fit function, so they equal the fitted
    ones when that evaluation was at the optimum *)
Theorem C86_returned_last orc pinfo fo lo hi s s' r c cs : NoDup (map fst pinfo) -> (forall p, In p cs -> length p = length (fit_names pinfo fo)) -> length (cv_popt c) = length (fit_names pinfo fo) ->
  orc (map (eq_p s) (fit_names pinfo fo)) = Ok c -> cv_calls c = cs ++ [cv_popt c] ->
  eq_fit orc pinfo fo lo hi s = Ok (s', r) -> forall n, r n = eq_p s' n.
Proof.
  intros ND HC HP E EC H n. unfold eq_fit in H. rewrite E in H. cbn [bind] in H. injection H as <- <-. cbn [eq_p]. rewrite EC, fold_left_app. cbn [fold_left].
  set (names := fit_names pinfo fo) in *. destruct (in_dec Nat.eq_dec n names) as [I|I].
  - assert (Q : forall p q, map (assign names (cv_popt c) p) names = map (assign names (cv_popt c) q) names) by (intros; rewrite !assign_in; auto; now apply fit_names_nodup).
    specialize (Q (fold_left (fun d p => assign names p d) cs (eq_p s)) (eq_p s)). clear - Q I. induction names as [|m ns IH]; [destruct I|].
    assert (G : forall (f g : nat -> R) l, map f l = map g l -> forall n, In n l -> f n = g n).
    { intros f g l. induction l as [|y l IHl]; intros E k Hk; [destruct Hk|]. cbn in E. injection E as E1 E2. destruct Hk as [<- |Hk]; auto. }
    exact (G _ _ _ Q n I).
  - rewrite !assign_out by auto. clear - I. induction cs as [|p cs IH] using rev_ind; [reflexivity|]. rewrite fold_left_app. cbn. rewrite assign_out; auto.
Qed.
(** but not otherwise (e.g. when the last evaluations are the finite-difference steps of a Jacobian): result["parameters"]
    then differs from the fitted object *)
Theorem C86_returned_refuted : exists orc pinfo lo hi s s' r, (forall p0 c, orc p0 = Ok c -> length (cv_popt c) = length p0 /\ In (cv_popt c) (cv_calls c)) /\ NoDup (map fst pinfo) /\
  eq_fit orc pinfo None lo hi s = Ok (s', r) /\ r 0%nat <> eq_p s' 0%nat.
Proof.
  exists (fun p0 => match p0 with [x] => Ok (mkCurve [[x]; [x + 1]] [x]) | _ => Err ValueError end), [(0%nat, true)], 0, 1, (mkEq (fun _ => 1) 0 1). do 2 eexists.
  split; [|split; [|split; [reflexivity|]]].
  - intros [|x [|y l]] c E; try discriminate. injection E as <-. cbn. auto.
  - cbn. constructor; [intros []|constructor].
  - cbn. unfold upd. cbn. lra.
Qed.
Example C86_example : fit_names [(0, true); (1, false); (2, true)]%nat (Some [2; 1])%nat = [2]%nat.
Proof. reflexivity. Qed.

(* ------------------------------------------------------------------ *)
(** * C87: relations between the property equations                   *)
(* ------------------------------------------------------------------ *)

(** DIPPR101 with C = D = 0 and E = 1, and Yaws with C = D = 0, are Antoine's equation without offset *)
Theorem C87_Antoine T A B E : DIPPR101 T A (- B) 0 0 E = Antoine T A B 0 false /\ Yaws T A (- B) 0 0 false = Antoine T A B 0 false /\ Yaws T A (- B) 0 0 true = Antoine T A B 0 true.
Proof. unfold DIPPR101, Antoine, Yaws, base_pow. rewrite Rplus_0_r. repeat split; f_equal; unfold Rdiv; ring. Qed.
(** decimal and natural Antoine parameters *)
Theorem C87_base T A B C : Antoine T A B C true = Antoine T (A * ln 10) (B * ln 10) C false.
Proof. unfold Antoine, base_pow, Rpower. f_equal. unfold Rdiv. ring. Qed.
(** Antoine is increasing in T above -C, and inverts to the usual boiling temperature formula *)
Theorem C87_Antoine_increasing T1 T2 A B C b : 0 < B -> - C < T1 < T2 -> Antoine T1 A B C b < Antoine T2 A B C b.
Proof.
  intros HB H. assert (L : A - B / (T1 + C) < A - B / (T2 + C)).
  { assert (B / (T2 + C) < B / (T1 + C)); [|lra]. unfold Rdiv. apply Rmult_lt_compat_l; auto. apply Rinv_lt_contravar; [apply Rmult_lt_0_compat|]; lra. }
  unfold Antoine, base_pow. destruct b; [|now apply exp_increasing]. unfold Rpower. apply exp_increasing. apply Rmult_lt_compat_r; auto. rewrite <- ln_1. apply ln_increasing; lra.
Qed.
Theorem C87_Antoine_inverse T A B C : T + C <> 0 -> B <> 0 -> T = B / (A - ln (Antoine T A B C false)) - C.
Proof. intros H HB. unfold Antoine, base_pow. rewrite ln_exp. field. split; auto. replace (A * (T + C) - (A * (T + C) - B)) with B by ring. exact HB. Qed.
(** DIPPR105 is the reciprocal of Rackett's volume *)
Theorem C87_Rackett T Tc Pc z : 0 < z -> 0 < Pc -> 0 < Tc ->
  match VL_Rackett T Tc Pc (Some z) None, DIPPR105 T (Pc * z / (Rgas * Tc)) z Tc (2 / 7) with
  | Ok (Flt v), Flt rho => rho * v = z | Ok NotReal, NotReal => True | _, _ => False end.
Proof.
  intros Hz HP HT. pose proof Rgas_pos as HR. unfold VL_Rackett, DIPPR105. cbn [bind]. destruct (fpow (1 - T / Tc) (2 / 7)) as [p|]; cbn [pmap]; [|trivial]. rewrite fpow_pos by auto. cbn [pmap].
  pose proof (rp_pos z (1 + p)). field. repeat split; lra.
Qed.
(** DIPPR106 with B = 0.38 and C = D = E = 0 is Watson's equation *)
Theorem C87_Watson h T1 T2 Tc q : 0 < Tc -> T1 < Tc -> DHVL_Watson h T1 T2 Tc = Flt q -> DIPPR106 T2 (h / Rpower (1 - T1 / Tc) (38 / 100)) (38 / 100) 0 0 0 Tc = Flt q.
Proof.
  intros HT H1 H. pose proof (tr_pos _ _ HT H1) as P1. unfold DHVL_Watson, DIPPR106 in *. cbv zeta in *.
  replace (38 / 100 + T2 / Tc * (0 + T2 / Tc * (0 + 0 * (T2 / Tc)))) with (38 / 100) by ring.
  destruct (Rtotal_order T2 Tc) as [L|[-> |L]].
  - pose proof (tr_pos _ _ HT L) as P2. rewrite fpow_pos in H by (now apply Rdiv_lt_0_compat). rewrite fpow_pos by auto. cbn in *. injection H as <-. f_equal.
    set (a := 1 - T1 / Tc) in *. set (b := 1 - T2 / Tc) in *. replace (b / a) with (b * / a) by reflexivity.
    rewrite <- (Rpower_mult_distr b (/ a)) by (auto; now apply Rinv_0_lt_compat). unfold Rpower at 4. rewrite ln_Rinv by auto.
    replace (38 / 100 * - ln a) with (- (38 / 100 * ln a)) by ring. rewrite exp_Ropp. unfold Rpower. unfold Rdiv. ring.
  - rewrite Rinv_r_div in * by lra. replace (1 - 1) with 0 in * by ring. unfold Rdiv at 1 in H. rewrite Rmult_0_l, fpow0 in H. rewrite fpow0. cbn in *. rewrite <- H. f_equal. ring.
  - pose proof (tr_neg _ _ HT L) as P3. rewrite fpow_neg in H; [discriminate|]. unfold Rdiv at 1. pose proof (Rinv_0_lt_compat _ P1). nra.
Qed.
(** DIPPR107 (Aly-Lee): even in C and in E, so the sign of these parameters is not identifiable *)
Theorem C87_AlyLee T A B C D E : DIPPR107 T A B (- C) D (- E) = DIPPR107 T A B C D E.
Proof.
  unfold DIPPR107. replace (- C / T) with (- (C / T)) by (unfold Rdiv; ring). replace (- E / T) with (- (E / T)) by (unfold Rdiv; ring).
  assert (S : forall x, sinh (- x) = - sinh x) by (intros; unfold sinh; rewrite Ropp_involutive; field). assert (K : forall x, cosh (- x) = cosh x) by (intros; unfold cosh; rewrite Ropp_involutive; field).
  rewrite S, K. unfold Rdiv. rewrite Rinv_opp. ring.
Qed.
Example C87_example : Antoine 300 1 0 5 true = 10.
Proof. unfold Antoine, base_pow. replace (1 - 0 / (300 + 5)) with 1 by field. apply Rpower_1. lra. Qed.

Print Assumptions C54_alpha.
Print Assumptions C55_Lee_Kesler_increasing.
Print Assumptions C85_KV_refuted.
Print Assumptions C86_returned_last.
Print Assumptions C87_Watson.
