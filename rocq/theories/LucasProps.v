(** C117: the gas viscosity of Lucas as a function of temperature and pressure. *)
From Coq Require Import Reals Lra Lia Bool Arith Psatz.
From Coquelicot Require Import Coquelicot.
From Verif Require Import Prelude Deriv NumBounds LnBounds HmtProps PropModel.
Open Scope R_scope.

Lemma exp_up1 x : 1 + x <= exp x.
Proof. apply exp_ineq1_le. Qed.
(** e^(-x) <= 1 - x + x^2/2 *)
Lemma exp_neg2 x : 0 <= x -> exp (- x) <= 1 - x + x ^ 2 / 2.
Proof.
  intros H. pose proof (mono_incr (fun t => 1 - t + t ^ 2 / 2 - exp (- t)) (fun t => - 1 + t + exp (- t)) 0 x H) as M. cbv beta in M.
  rewrite Ropp_0, exp_0 in M. assert (1 - 0 + 0 ^ 2 / 2 - 1 <= 1 - x + x ^ 2 / 2 - exp (- x)); [|lra]. apply M.
  - intros t _. unfold D. auto_derive; auto. field.
  - intros t _. pose proof (exp_up1 (- t)). lra.
Qed.
(** the low-pressure factor is positive at every temperature *)
Theorem C117_low_pressure_factor T FP0 : 0 < T -> 0 < FP0 -> 0 < Lucas_Z1 T FP0.
Proof.
  intros H HF. unfold Lucas_Z1. apply Rmult_lt_0_compat; [|exact HF]. pose proof (exp_pos (- (4058 / 1000) * T)) as P4. destruct (Rle_lt_dec (1 / 4) T) as [L|L].
  - assert (B : 421 / 1000 <= Rpower T (618 / 1000)).
    { apply Rle_trans with (Rpower (1 / 4) (618 / 1000)); [|apply rp_base_le; lra]. unfold Rpower. replace (1 / 4) with (/ (2 * 2)) by field. rewrite ln_Rinv, ln_mult by lra. pose proof ln_2_bounds.
      replace (618 / 1000 * - (ln 2 + ln 2)) with (- (1236 / 1000 * ln 2)) by field. rewrite exp_Ropp. rewrite <- (Rinv_inv (421 / 1000)). apply Rinv_le_contravar; [apply exp_pos|].
      apply Rle_trans with (exp (8568 / 10000)); [apply exp_le; lra|]. replace (8568 / 10000) with (4284 / 10000 + 4284 / 10000) by field. rewrite exp_plus. assert (X : exp (4284 / 10000) <= 15349 / 10000) by (apply exp_upper; unfold q5; lra). pose proof (exp_pos (4284 / 10000)). assert (exp (4284 / 10000) * exp (4284 / 10000) <= 15349 / 10000 * (15349 / 10000)) by nra. lra. }
    assert (E : exp (- (449 / 1000) * T) <= 1) by (rewrite <- exp_0; apply exp_le; lra). lra.
  - assert (B : 169 / 100 * T <= Rpower T (618 / 1000)).
    { replace (618 / 1000) with (1 + - (382 / 1000)) by field. rewrite Rpower_plus, Rpower_1 by lra. rewrite Rmult_comm. apply Rmult_le_compat_l; [lra|]. apply Rle_trans with (Rpower (1 / 4) (- (382 / 1000))).
      - unfold Rpower. replace (1 / 4) with (/ (2 * 2)) by field. rewrite ln_Rinv, ln_mult by lra. pose proof ln_2_bounds. apply Rle_trans with (exp (5295 / 10000)); [apply exp_lower; unfold q6; lra|apply exp_le; lra].
      - unfold Rpower. apply exp_le. assert (ln T <= ln (1 / 4)) by (left; now apply ln_increasing). nra. }
    pose proof (exp_up1 (- (4058 / 1000) * T)) as E1. pose proof (exp_neg2 (449 / 1000 * T)) as E2. replace (- (449 / 1000 * T)) with (- (449 / 1000) * T) in E2 by ring. nra.
Qed.
Definition Lucas_xi (M Tc Pc : R) : R := 1760000 * Rpower (Tc / ((M * 1000) ^ 3 * (Pc / 100000) ^ 4)) (1 / 6).
Lemma xi_pos M Tc Pc : 0 < Lucas_xi M Tc Pc.
Proof. unfold Lucas_xi. pose proof (rp_pos (Tc / ((M * 1000) ^ 3 * (Pc / 100000) ^ 4)) (1 / 6)). lra. Qed.
(** the two expressions for Z2 *)
Definition Z2_sub (T P : R) : R := 600 / 1000 + 760 / 1000 * Rpower P (3262 / 1000 + 1498 / 100 * Rpower P (5508 / 1000)) + (6990 / 1000 * Rpower P (1390 / 1000 + 5746 / 1000 * P) - 6 / 10) * (1 - T).
Definition La (T : R) : R := 1245 / 1000000 / T * exp (51726 / 10000 * Rpower T (- (3286 / 10000))).
Definition Lc (T : R) : R := 4489 / 10000 / T * exp (30578 / 10000 * Rpower T (- (377332 / 10000))).
Definition Ld (T : R) : R := 17368 / 10000 / T * exp (22310 / 10000 * Rpower T (- (76351 / 10000))).
Definition Lf (T : R) : R := 9425 / 10000 * exp (- (1853 / 10000) * Rpower T (4489 / 10000)).
Definition Lden (T P : R) : R := La T * (16553 / 10000 * T - 12723 / 10000) * Rpower P (Lf T) + 1 / (1 + Lc T * Rpower P (Ld T)).
Definition Z2_sup (T P FP0 : R) : R := Lucas_Z1 T FP0 * (1 + La T * Rpower P (13088 / 10000) / Lden T P).
Lemma mu_sub T P M Tc Pc FP0 : T <= 1 -> P < 1 -> Lucas_mu T P M Tc Pc FP0 = Z2_sub T P * ((1 + (FP0 - 1) / (Z2_sub T P / Lucas_Z1 T FP0) ^ 3) / FP0) / Lucas_xi M Tc Pc.
Proof. intros H1 H2. unfold Lucas_mu. rewrite (proj2 (Rleb_true T 1)) by auto. rewrite (proj2 (Rltb_true P 1)) by auto. reflexivity. Qed.
Lemma mu_sup T P M Tc Pc FP0 : 1 < T \/ 1 <= P -> Lucas_mu T P M Tc Pc FP0 = Z2_sup T P FP0 * ((1 + (FP0 - 1) / (Z2_sup T P FP0 / Lucas_Z1 T FP0) ^ 3) / FP0) / Lucas_xi M Tc Pc.
Proof.
  intros H. unfold Lucas_mu. assert (E : Rleb T 1 && Rltb P 1 = false); [|rewrite E; reflexivity]. destruct H as [H|H]; [rewrite (proj2 (Rleb_false T 1)) by auto; reflexivity|]. rewrite (proj2 (Rltb_false P 1)) by auto. apply andb_false_r.
Qed.
Lemma La_pos T : 0 < T -> 0 < La T.
Proof. intros H. unfold La. apply Rmult_lt_0_compat; [apply Rdiv_lt_0_compat; lra|apply exp_pos]. Qed.
Lemma Lc_pos T : 0 < T -> 0 < Lc T.
Proof. intros H. unfold Lc. apply Rmult_lt_0_compat; [apply Rdiv_lt_0_compat; lra|apply exp_pos]. Qed.
Lemma Ld_pos T : 0 < T -> 0 < Ld T.
Proof. intros H. unfold Ld. apply Rmult_lt_0_compat; [apply Rdiv_lt_0_compat; lra|apply exp_pos]. Qed.
Lemma Lf_lt T : 0 < T -> 0 < Lf T < 9425 / 10000.
Proof. intros H. unfold Lf. pose proof (exp_pos (- (1853 / 10000) * Rpower T (4489 / 10000))). pose proof (rp_pos T (4489 / 10000)). assert (exp (- (1853 / 10000) * Rpower T (4489 / 10000)) < 1) by (rewrite <- exp_0; apply exp_increasing; lra). lra. Qed.
Lemma Lden_pos T P : 12723 / 16553 <= T -> 0 < Lden T P.
Proof.
  intros H. unfold Lden. assert (T0 : 0 < T) by lra. pose proof (La_pos T T0). pose proof (Lc_pos T T0). pose proof (rp_pos P (Lf T)). pose proof (rp_pos P (Ld T)). assert (0 <= La T * (16553 / 10000 * T - 12723 / 10000) * Rpower P (Lf T)). { apply Rmult_le_pos; [|lra]. apply Rmult_le_pos; lra. }
  assert (0 < 1 / (1 + Lc T * Rpower P (Ld T))). { apply Rdiv_lt_0_compat; [lra|]. assert (0 < Lc T * Rpower P (Ld T)) by (now apply Rmult_lt_0_compat). lra. } lra.
Qed.
Lemma Z2_sub_low T P : 0 < T <= 1 -> 6 / 10 * T < Z2_sub T P.
Proof. intros H. unfold Z2_sub. pose proof (rp_pos P (3262 / 1000 + 1498 / 100 * Rpower P (5508 / 1000))). pose proof (rp_pos P (1390 / 1000 + 5746 / 1000 * P)). assert (0 <= Rpower P (1390 / 1000 + 5746 / 1000 * P) * (1 - T)) by (apply Rmult_le_pos; lra). lra. Qed.
Lemma Z2_sup_low T P FP0 : 12723 / 16553 <= T -> 0 < FP0 -> Lucas_Z1 T FP0 < Z2_sup T P FP0.
Proof.
  intros H HF. unfold Z2_sup. assert (T0 : 0 < T) by lra. pose proof (C117_low_pressure_factor T FP0 T0 HF). pose proof (La_pos T T0). pose proof (Lden_pos T P H). pose proof (rp_pos P (13088 / 10000)). assert (0 < La T * Rpower P (13088 / 10000) / Lden T P) by (apply Rdiv_lt_0_compat; [now apply Rmult_lt_0_compat|auto]). nra.
Qed.
(** the states for which the correlation is used as intended: below the critical temperature and pressure, or above 0.769 Tc *)
Definition in_range (T P : R) : Prop := (T <= 1 /\ P < 1) \/ 12723 / 16553 <= T.
Theorem C117_positive T P M Tc Pc FP0 : 0 < T -> in_range T P -> 1 <= FP0 -> 0 < Lucas_mu T P M Tc Pc FP0.
Proof.
  intros T0 HR HF. assert (G : forall z, 0 < z -> 0 < z * ((1 + (FP0 - 1) / (z / Lucas_Z1 T FP0) ^ 3) / FP0) / Lucas_xi M Tc Pc).
  { intros z Hz. apply Rdiv_lt_0_compat; [|apply xi_pos]. apply Rmult_lt_0_compat; [exact Hz|]. apply Rdiv_lt_0_compat; [|lra]. assert (0 < (z / Lucas_Z1 T FP0) ^ 3) by (apply pow_lt, Rdiv_lt_0_compat; [auto|apply C117_low_pressure_factor; lra]). assert (0 <= (FP0 - 1) / (z / Lucas_Z1 T FP0) ^ 3) by (apply Rdiv_le_0_compat; lra). lra. }
  destruct (Rle_lt_dec T 1) as [L|L]; [destruct (Rlt_le_dec P 1) as [U|U]|].
  - rewrite mu_sub by auto. apply G. pose proof (Z2_sub_low T P). lra.
  - rewrite mu_sup by auto. apply G. destruct HR as [(_ & HR)|HR]; [lra|]. pose proof (Z2_sup_low T P FP0 HR). pose proof (C117_low_pressure_factor T FP0 T0). lra.
  - rewrite mu_sup by auto. apply G. assert (HR' : 12723 / 16553 <= T) by lra. pose proof (Z2_sup_low T P FP0 HR'). pose proof (C117_low_pressure_factor T FP0 T0). lra.
Qed.
Lemma FP0_ge1 Tr d q : 0 <= q -> 1 <= Lucas_FP0_val Tr d q.
Proof. intros H. unfold Lucas_FP0_val. cbv zeta. pose proof (Rabs_pos (96 / 100 + 1 / 10 * (Tr - 7 / 10))). destruct (Rleb d (22 / 1000)), (Rleb (75 / 1000) d); try lra; nra. Qed.
Theorem C117_positive_pure T P M Tc Pc Zc dm mu : 0 < T -> 0 < Tc -> in_range (T / Tc) (P / Pc) -> MUV_Lucas T P M Tc Pc Zc dm = Flt mu -> 0 < mu.
Proof.
  intros HT HC HR H. unfold MUV_Lucas, Lucas_FP0 in H. destruct (fpow (292 / 1000 - Zc) (172 / 100)) as [q|] eqn:E; [|discriminate]. cbn [pmap] in H. injection H as <-. apply C117_positive; auto; [now apply Rdiv_lt_0_compat|]. apply FP0_ge1.
  unfold fpow in E. repeat (match type of E with (if ?b then _ else _) = _ => destruct b end); try discriminate; injection E; intros <-; try lra; left; apply exp_pos.
Qed.

(** ** Pressure *)
Lemma x_lnx y : - exp (- (2)) <= exp y * (1 + y).
Proof. pose proof (exp_up1 (- (y + 2))) as H. pose proof (exp_pos y) as P. assert (E : exp y * exp (- (y + 2)) = exp (- (2))) by (rewrite <- exp_plus; f_equal; ring). rewrite <- E. nra. Qed.
Lemma exp_m2 : exp (- (2)) <= 1 / 5.
Proof.
  rewrite exp_Ropp. replace (1 / 5) with (/ 5) by field. apply Rinv_le_contravar; [lra|]. replace 2 with (1 / 2 + 1 / 2 + (1 / 2 + 1 / 2)) by field. rewrite !exp_plus. assert (16 / 10 <= exp (1 / 2)) by (apply exp_lower; unfold q6; lra). set (e := exp (1 / 2)) in *. assert (5 / 2 <= e * e) by nra. nra.
Qed.
(** p^(m + k p^n) increases for k < 5 m, although the exponent grows as well *)
Lemma pow_pow_mono m k n p q : 0 < p -> p < q -> 0 < n -> 0 < k -> k < 5 * m -> Rpower p (m + k * Rpower p n) < Rpower q (m + k * Rpower q n).
Proof.
  intros Hp Hq Hn Hk Hm. unfold Rpower at 1 3. apply exp_increasing. assert (X := exp_m2).
  apply (mono_strict (fun t => (m + k * Rpower t n) * ln t) (fun t => (m + k * (exp (n * ln t) * (1 + n * ln t))) / t) p q Hq).
  - intros t Ht. unfold Rpower, D. auto_derive; [lra|]. field. lra.
  - intros t Ht. apply Rdiv_lt_0_compat; [|lra]. pose proof (x_lnx (n * ln t)) as L. assert (k * - (1 / 5) <= k * (exp (n * ln t) * (1 + n * ln t))) by (apply Rmult_le_compat_l; lra). lra.
Qed.
Lemma Z2_sub_mono T p q : 0 < p -> p < q -> T <= 1 -> Z2_sub T p < Z2_sub T q.
Proof.
  intros Hp Hq HT. unfold Z2_sub. pose proof (pow_pow_mono (3262 / 1000) (1498 / 100) (5508 / 1000) p q Hp Hq) as A. pose proof (pow_pow_mono (1390 / 1000) (5746 / 1000) 1 p q Hp Hq) as B. rewrite !Rpower_1 in B by lra.
  assert (A' := A ltac:(lra) ltac:(lra) ltac:(lra)). assert (B' := B ltac:(lra) ltac:(lra) ltac:(lra)). set (a1 := Rpower p _) in A'. set (a2 := Rpower q _) in A'. set (b1 := Rpower p _) in B'. set (b2 := Rpower q _) in B'. fold a1 a2 b1 b2. assert (b1 * (1 - T) <= b2 * (1 - T)) by (apply Rmult_le_compat_r; lra). lra.
Qed.
Lemma Z2_sup_mono T p q FP0 : 0 < p -> p < q -> 12723 / 16553 <= T -> 0 < FP0 -> Z2_sup T p FP0 < Z2_sup T q FP0.
Proof.
  intros Hp Hq HT HF. assert (T0 : 0 < T) by lra. unfold Z2_sup. apply Rmult_lt_compat_l; [now apply C117_low_pressure_factor|]. apply Rplus_lt_compat_l.
  assert (E : forall x, 0 < x -> La T * Rpower x (13088 / 10000) / Lden T x = La T / (La T * (16553 / 10000 * T - 12723 / 10000) * Rpower x (Lf T - 13088 / 10000) + Rpower x (- (13088 / 10000)) / (1 + Lc T * Rpower x (Ld T)))).
  { intros x Hx. pose proof (Lden_pos T x HT) as DP. unfold Lden in *. unfold Rminus at 3. rewrite Rpower_plus, Rpower_Ropp. pose proof (rp_pos x (13088 / 10000)). pose proof (Lc_pos T T0). pose proof (rp_pos x (Ld T)). assert (0 < Lc T * Rpower x (Ld T)) by (now apply Rmult_lt_0_compat).
    set (u := Rpower x (13088 / 10000)) in *. set (w := 1 + Lc T * Rpower x (Ld T)) in *. set (v := La T * (16553 / 10000 * T - 12723 / 10000)) in *. set (s := Rpower x (Lf T)) in *. assert (W : 0 < w) by (unfold w; lra).
    replace (v * (s * / u) + / u / w) with ((v * s + 1 / w) / u) by (field; lra). field. repeat split; try lra; try (apply Rgt_not_eq; nra). intros Z. assert (v * s + 1 / w = (v * s * w + 1) / w) by (field; lra). rewrite H3 in DP. replace (v * s * w + 1) with 0 in DP by nra. unfold Rdiv in DP. lra. }
  rewrite !E by lra. pose proof (La_pos T T0) as A0. pose proof (Lf_lt T T0). pose proof (Lc_pos T T0). pose proof (Ld_pos T T0).
  assert (M1 : forall a, a < 0 -> Rpower q a < Rpower p a). { intros a Ha. unfold Rpower. apply exp_increasing. assert (ln p < ln q) by (now apply ln_increasing). nra. }
  pose proof (M1 (Lf T - 13088 / 10000) ltac:(lra)) as N1. pose proof (M1 (- (13088 / 10000)) ltac:(lra)) as N2. pose proof (rp_base p q (Ld T) Hp Hq ltac:(lra)) as N3.
  assert (V : 0 <= La T * (16553 / 10000 * T - 12723 / 10000)) by (apply Rmult_le_pos; lra). set (v := La T * (16553 / 10000 * T - 12723 / 10000)) in *.
  pose proof (rp_pos p (Ld T)). pose proof (rp_pos q (Ld T)). pose proof (rp_pos q (- (13088 / 10000))). pose proof (rp_pos q (Lf T - 13088 / 10000)).
  assert (W : 1 + Lc T * Rpower p (Ld T) < 1 + Lc T * Rpower q (Ld T)) by (apply Rplus_lt_compat_l, Rmult_lt_compat_l; auto). assert (0 < Lc T * Rpower p (Ld T)) by (now apply Rmult_lt_0_compat).
  set (w := 1 + Lc T * Rpower p (Ld T)) in *. set (w' := 1 + Lc T * Rpower q (Ld T)) in *. assert (W0 : 0 < w) by (unfold w; lra).
  assert (Q : Rpower q (- (13088 / 10000)) / w' < Rpower p (- (13088 / 10000)) / w). { unfold Rdiv. apply Rmult_gt_0_lt_compat; [apply Rinv_0_lt_compat; lra|lra|exact N2|]. apply Rinv_lt_contravar; [apply Rmult_lt_0_compat; lra|exact W]. }
  assert (0 < Rpower q (- (13088 / 10000)) / w') by (apply Rdiv_lt_0_compat; lra). assert (v * Rpower q (Lf T - 13088 / 10000) <= v * Rpower p (Lf T - 13088 / 10000)) by (apply Rmult_le_compat_l; lra). assert (0 <= v * Rpower q (Lf T - 13088 / 10000)) by (apply Rmult_le_pos; lra).
  unfold Rdiv at 1 4. apply Rmult_lt_compat_l; [exact A0|]. apply Rinv_lt_contravar; [apply Rmult_lt_0_compat; lra|lra].
Qed.
Lemma mu_sub1 T P M Tc Pc : T <= 1 -> P < 1 -> Lucas_mu T P M Tc Pc 1 = Z2_sub T P / Lucas_xi M Tc Pc.
Proof. intros H1 H2. rewrite mu_sub by auto. rewrite Rminus_eq_0. unfold Rdiv. rewrite Rmult_0_l, Rplus_0_r, Rinv_1, !Rmult_1_r. reflexivity. Qed.
Lemma mu_sup1 T P M Tc Pc : 1 < T \/ 1 <= P -> Lucas_mu T P M Tc Pc 1 = Z2_sup T P 1 / Lucas_xi M Tc Pc.
Proof. intros H1. rewrite mu_sup by auto. rewrite Rminus_eq_0. unfold Rdiv. rewrite Rmult_0_l, Rplus_0_r, Rinv_1, !Rmult_1_r. reflexivity. Qed.
Lemma div_lt x y z : 0 < z -> x < y -> x / z < y / z.
Proof. intros Hz H. unfold Rdiv. apply Rmult_lt_compat_r; [now apply Rinv_0_lt_compat|exact H]. Qed.
Lemma div_le x y z : 0 < z -> x <= y -> x / z <= y / z.
Proof. intros Hz H. unfold Rdiv. apply Rmult_le_compat_r; [left; now apply Rinv_0_lt_compat|exact H]. Qed.
(** nonpolar gas below the critical point *)
Theorem C117_pressure_subcritical T p q M Tc Pc : T <= 1 -> 0 < p -> p < q -> q < 1 -> Lucas_mu T p M Tc Pc 1 < Lucas_mu T q M Tc Pc 1.
Proof. intros HT Hp Hq H1. rewrite !mu_sub1 by lra. apply div_lt; [apply xi_pos|]. apply Z2_sub_mono; lra. Qed.
(** above the critical temperature, also for polar gases *)
Theorem C117_pressure_supercritical T p q M Tc Pc FP0 : 1 < T -> 0 < p -> p < q -> 1 <= FP0 <= 3 / 2 -> Lucas_mu T p M Tc Pc FP0 < Lucas_mu T q M Tc Pc FP0.
Proof.
  intros HT Hp Hq HF. rewrite !mu_sup by lra. apply div_lt; [apply xi_pos|]. assert (HR : 12723 / 16553 <= T) by lra. pose proof (Z2_sup_mono T p q FP0 Hp Hq HR ltac:(lra)) as M1. pose proof (Z2_sup_low T p FP0 HR ltac:(lra)) as L1. pose proof (C117_low_pressure_factor T FP0 ltac:(lra) ltac:(lra)) as Z0.
  set (z := Z2_sup T p FP0) in *. set (w := Z2_sup T q FP0) in *. set (c := Lucas_Z1 T FP0) in *. set (k := FP0 - 1). assert (K : 0 <= k <= 1 / 2) by (unfold k; lra).
  assert (E : forall x, 0 < x -> x * ((1 + k / (x / c) ^ 3) / FP0) = (x + k * c ^ 3 / x ^ 2) / FP0) by (intros x Hx; field; lra). rewrite !E by lra. apply div_lt; [lra|].
  assert (A1 : 0 < c / z < 1) by (split; [apply Rdiv_lt_0_compat; lra|]; apply (Rmult_lt_reg_r z); [lra|]; unfold Rdiv; rewrite Rmult_assoc, Rinv_l by lra; lra). assert (A2 : 0 < c / w < 1) by (split; [apply Rdiv_lt_0_compat; lra|]; apply (Rmult_lt_reg_r w); [lra|]; unfold Rdiv; rewrite Rmult_assoc, Rinv_l by lra; lra).
  assert (D : k * c ^ 3 / z ^ 2 - k * c ^ 3 / w ^ 2 = (w - z) * (k * ((c / z) ^ 2 * (c / w) + (c / z) * (c / w) ^ 2))) by (field; lra).
  assert (B1 : (c / z) ^ 2 * (c / w) < 1). { assert ((c / z) ^ 2 < 1) by nra. assert (0 <= (c / z) ^ 2) by apply pow2_ge_0. nra. } assert (B2 : c / z * (c / w) ^ 2 < 1). { assert ((c / w) ^ 2 < 1) by nra. assert (0 <= (c / w) ^ 2) by apply pow2_ge_0. nra. }
  assert (B0 : 0 <= (c / z) ^ 2 * (c / w) + (c / z) * (c / w) ^ 2). { assert (0 <= (c / w) ^ 2) by apply pow2_ge_0. assert (0 <= (c / z) ^ 2) by apply pow2_ge_0. nra. }
  set (s := (c / z) ^ 2 * (c / w) + c / z * (c / w) ^ 2) in *. assert (S2 : s < 2) by (unfold s; lra). assert (k * s <= 1 / 2 * s) by (apply Rmult_le_compat_r; lra). assert ((w - z) * (k * s) < (w - z) * 1) by (apply Rmult_lt_compat_l; lra). lra.
Qed.
(** at low pressure a supercritical gas has the viscosity Z1 / xi, a subcritical nonpolar one 0.6 Tr / xi *)
Theorem C117_low_pressure T P M Tc Pc : 0 < P < 1 ->
  (1 < T -> Lucas_Z1 T 1 / Lucas_xi M Tc Pc < Lucas_mu T P M Tc Pc 1 <= Lucas_Z1 T 1 / Lucas_xi M Tc Pc * (1 + La T * (1 + Lc T) * P)) /\
  (0 < T <= 1 -> 6 / 10 * T / Lucas_xi M Tc Pc < Lucas_mu T P M Tc Pc 1 <= (6 / 10 * T + 775 / 100 * P) / Lucas_xi M Tc Pc).
Proof.
  intros HP. pose proof (xi_pos M Tc Pc) as X0. assert (RP : forall e, 1 < e -> Rpower P e <= P) by (intros e He; rewrite <- (Rpower_1 P) at 2 by lra; left; apply rp_exp_decr; lra). split; intros HT.
  - assert (HR : 12723 / 16553 <= T) by lra. rewrite mu_sup1 by auto. split; [apply div_lt; [auto|]; apply Z2_sup_low; lra|]. pose proof (C117_low_pressure_factor T 1 ltac:(lra) ltac:(lra)) as Z0. unfold Z2_sup.
    replace (Lucas_Z1 T 1 / Lucas_xi M Tc Pc * (1 + La T * (1 + Lc T) * P)) with (Lucas_Z1 T 1 * (1 + La T * (1 + Lc T) * P) / Lucas_xi M Tc Pc) by (field; lra). apply div_le; [exact X0|]. apply Rmult_le_compat_l; [lra|]. apply Rplus_le_compat_l.
    pose proof (La_pos T ltac:(lra)) as A0. pose proof (Lc_pos T ltac:(lra)) as C0. pose proof (Ld_pos T ltac:(lra)) as D0. pose proof (Lden_pos T P HR) as DP. assert (DL : / (1 + Lc T) <= Lden T P). { unfold Lden. pose proof (rp_lt1 P (Ld T) ltac:(lra) D0) as R1. pose proof (rp_pos P (Ld T)). assert (0 <= La T * (16553 / 10000 * T - 12723 / 10000) * Rpower P (Lf T)) by (apply Rmult_le_pos; [apply Rmult_le_pos; lra|left; apply rp_pos]). assert (/ (1 + Lc T) <= 1 / (1 + Lc T * Rpower P (Ld T))) by (unfold Rdiv; rewrite Rmult_1_l; apply Rinv_le_contravar; nra). lra. }
    assert (RP1 := RP (13088 / 10000) ltac:(lra)). pose proof (rp_pos P (13088 / 10000)). apply (Rmult_le_reg_r (Lden T P)); [exact DP|]. replace (La T * Rpower P (13088 / 10000) / Lden T P * Lden T P) with (La T * Rpower P (13088 / 10000)) by (field; lra).
    apply Rle_trans with (La T * P); [apply Rmult_le_compat_l; lra|]. assert (I : 1 <= (1 + Lc T) * Lden T P). { apply Rle_trans with ((1 + Lc T) * / (1 + Lc T)); [rewrite Rinv_r by lra; lra|]. apply Rmult_le_compat_l; lra. } replace (La T * (1 + Lc T) * P * Lden T P) with (La T * P * ((1 + Lc T) * Lden T P)) by ring. assert (0 < La T * P) by (apply Rmult_lt_0_compat; lra). nra.
  - rewrite mu_sub1 by lra. split; [apply div_lt; [auto|]; now apply Z2_sub_low|]. apply div_le; [exact X0|]. unfold Z2_sub. pose proof (rp_pos P (5508 / 1000)). pose proof (RP (3262 / 1000 + 1498 / 100 * Rpower P (5508 / 1000)) ltac:(lra)) as R1. pose proof (RP (1390 / 1000 + 5746 / 1000 * P) ltac:(lra)) as R2. pose proof (rp_pos P (1390 / 1000 + 5746 / 1000 * P)).
    set (u := Rpower P (3262 / 1000 + 1498 / 100 * Rpower P (5508 / 1000))) in *. set (v := Rpower P (1390 / 1000 + 5746 / 1000 * P)) in *. assert (v * (1 - T) <= P * 1) by nra. lra.
Qed.

(** ** Compressed liquids *)
Lemma rp_neg_low T a (n : nat) : 0 < T < 1 -> INR n <= a -> (/ T) ^ n <= Rpower T (- a).
Proof. intros HT Ha. rewrite <- Rpower_pow by (apply Rinv_0_lt_compat; lra). unfold Rpower. rewrite ln_Rinv by lra. apply exp_le. assert (ln T < 0) by (rewrite <- ln_1; apply ln_increasing; lra). nra. Qed.
(** between Tc/4 and 3 Tc/4 and above the critical pressure the viscosity of a nonpolar fluid is negative *)
Theorem C117_negative T P M Tc Pc : 1 / 4 <= T <= 3 / 4 -> 1 <= P -> Lucas_mu T P M Tc Pc 1 < 0.
Proof.
  intros HT HP. rewrite mu_sup1 by auto. pose proof (xi_pos M Tc Pc) as X0. pose proof (C117_low_pressure_factor T 1 ltac:(lra) ltac:(lra)) as Z0. cut (Z2_sup T P 1 < 0). { intros H. unfold Rdiv. assert (0 < / Lucas_xi M Tc Pc) by (now apply Rinv_0_lt_compat). nra. }
  unfold Z2_sup. cut (La T * Rpower P (13088 / 10000) / Lden T P < -1); [intros H; nra|]. pose proof (La_pos T ltac:(lra)) as A0. pose proof (Lf_lt T ltac:(lra)) as F0. pose proof (Ld_pos T ltac:(lra)) as D0.
  assert (IT : / (3 / 4) <= / T) by (apply Rinv_le_contravar; lra). replace (/ (3 / 4)) with (4 / 3) in IT by field.
  assert (AL : 1 / 100 <= La T). { unfold La. assert (1 <= Rpower T (- (3286 / 10000))) by (apply (rp_neg_low T (3286 / 10000) 0); cbn; lra). assert (61 / 10 <= exp (51726 / 10000 * Rpower T (- (3286 / 10000)))) by (eapply Rle_trans; [|apply exp_up1]; lra). assert (1245 / 1000000 * (4 / 3) <= 1245 / 1000000 / T) by (unfold Rdiv at 3; apply Rmult_le_compat_l; lra). nra. }
  assert (CL : 10000 <= Lc T). { unfold Lc. assert (R : 5590 <= Rpower T (- (377332 / 10000))). { eapply Rle_trans; [|apply (rp_neg_low T (377332 / 10000) 30); [lra|rewrite INR_IZR_INZ; cbn; lra]]. apply Rle_trans with ((4 / 3) ^ 30); [|apply pow_incr; lra]. replace (4 / 3) with (/ 3 * 4) by field. rewrite Rpow_mult_distr, pow_inv. apply (Rmult_le_reg_l (3 ^ 30)); [apply pow_lt; lra|]. rewrite <- Rmult_assoc, Rinv_r, Rmult_1_l by (apply pow_nonzero; lra). rewrite !pow_IZR, <- mult_IZR. apply IZR_le. vm_compute. discriminate. }
    assert (17000 <= exp (30578 / 10000 * Rpower T (- (377332 / 10000)))) by (eapply Rle_trans; [|apply exp_up1]; lra). assert (4489 / 10000 * (4 / 3) <= 4489 / 10000 / T) by (unfold Rdiv at 3; apply Rmult_le_compat_l; lra). nra. }
  assert (RD : 1 <= Rpower P (Ld T)) by (rewrite <- (rp_one (Ld T)); apply rp_base_le; lra). assert (RF : 1 <= Rpower P (Lf T)) by (rewrite <- (rp_one (Lf T)); apply rp_base_le; lra).
  assert (EF : Rpower P (13088 / 10000) = Rpower P (13088 / 10000 - Lf T) * Rpower P (Lf T)) by (rewrite <- Rpower_plus; f_equal; ring). assert (RE : 1 <= Rpower P (13088 / 10000 - Lf T)) by (rewrite <- (rp_one (13088 / 10000 - Lf T)); apply rp_base_le; lra).
  assert (DE : 0 < 1 / (1 + Lc T * Rpower P (Ld T)) <= 1 / 10000). { assert (10000 <= Lc T * Rpower P (Ld T)) by nra. split; [apply Rdiv_lt_0_compat; lra|]. unfold Rdiv. rewrite !Rmult_1_l. apply Rinv_le_contravar; lra. }
  unfold Lden. rewrite EF. set (g := Rpower P (13088 / 10000 - Lf T)) in *. set (s := Rpower P (Lf T)) in *. set (dl := 1 / (1 + Lc T * Rpower P (Ld T))) in *. set (a := La T) in *. set (b := 16553 / 10000 * T - 12723 / 10000). assert (Hb : - (9 / 10) <= b <= - (3 / 100)) by (unfold b; lra).
  assert (AS : 1 / 100 <= a * s) by nra. assert (DN : a * b * s + dl < 0) by nra. assert (DG : a * (g * s) > - (a * b * s + dl)). { assert (a * s <= a * (g * s)) by nra. nra. }
  apply (Rmult_lt_reg_r (- (a * b * s + dl))); [lra|]. replace (a * (g * s) / (a * b * s + dl) * - (a * b * s + dl)) with (- (a * (g * s))) by (field; lra). lra.
Qed.
Theorem C117_liquid_refuted : exists T P M Tc Pc Zc mu, 0 < T /\ 0 < P /\ 0 < M /\ 0 < Tc /\ 0 < Pc /\ 0 < Zc < 292 / 1000 /\ MUV_Lucas T P M Tc Pc Zc 0 = Flt mu /\ mu < 0.
Proof.
  exists 282, 5000000, (28 / 1000), 564, 5000000, (28 / 100). exists (Lucas_mu (1 / 2) 1 (28 / 1000) 564 5000000 1). do 6 (split; [lra|]). split; [|apply C117_negative; lra]. unfold MUV_Lucas, Lucas_FP0. replace (282 / 564) with (1 / 2) by field. replace (5000000 / 5000000) with 1 by field.
  unfold fpow. rewrite (proj2 (Rltb_true 0 (292 / 1000 - 28 / 100))) by lra. cbn [pmap]. do 2 f_equal. unfold Lucas_FP0_val, Lucas_dmr. replace (5246 / 100 * 0 ^ 2 * (5000000 / 100000) / 564 ^ 2) with 0 by field. rewrite (proj2 (Rleb_true 0 (22 / 1000))) by lra. rewrite (proj2 (Rleb_false (75 / 1000) 0)) by lra. cbv zeta. ring.
Qed.
(** on the isotherm 0.9 Tc the viscosity jumps by more than 10 % at the critical pressure *)
Theorem C117_jump_refuted P M Tc Pc : 0 < P < 1 -> 11 / 10 * Lucas_mu (9 / 10) P M Tc Pc 1 < Lucas_mu (9 / 10) 1 M Tc Pc 1.
Proof.
  intros HP. rewrite mu_sub1, mu_sup1 by lra. replace (11 / 10 * (Z2_sub (9 / 10) P / Lucas_xi M Tc Pc)) with (11 / 10 * Z2_sub (9 / 10) P / Lucas_xi M Tc Pc) by (pose proof (xi_pos M Tc Pc); field; lra). apply div_lt; [apply xi_pos|].
  apply Rle_lt_trans with (11 / 10 * 2).
  - apply Rmult_le_compat_l; [lra|]. unfold Z2_sub. assert (R : forall e, 0 < e -> Rpower P e < 1) by (intros e He; apply rp_lt1; auto). pose proof (rp_pos P (5508 / 1000)). pose proof (R (3262 / 1000 + 1498 / 100 * Rpower P (5508 / 1000)) ltac:(lra)). pose proof (R (1390 / 1000 + 5746 / 1000 * P) ltac:(lra)). lra.
  - unfold Z2_sup, Lden. rewrite !rp_one, !Rmult_1_r. set (T := 9 / 10).
    assert (ZL : 505 / 1000 <= Lucas_Z1 T 1). { unfold Lucas_Z1. rewrite Rmult_1_r. pose proof (exp_pos (- (4058 / 1000) * T)). assert (9 / 10 <= Rpower T (618 / 1000)). { apply Rle_trans with (Rpower T 1); [rewrite Rpower_1; unfold T; lra|]. left. apply rp_exp_decr; unfold T; lra. }
      assert (exp (- (449 / 1000) * T) <= 6677 / 10000). { replace (- (449 / 1000) * T) with (- (4041 / 10000)) by (unfold T; field). rewrite exp_Ropp. rewrite <- (Rinv_inv (6677 / 10000)). apply Rinv_le_contravar; [apply Rinv_0_lt_compat; lra|]. apply exp_lower; unfold q6; lra. } lra. }
    assert (AL : 20 / 100 <= La T). { unfold La. assert (1 <= Rpower T (- (3286 / 10000))) by (apply (rp_neg_low T (3286 / 10000) 0); unfold T; cbn; lra). assert (E5 : 147 <= exp 5). { replace 5 with (INR 10 * (1 / 2)) by (rewrite INR_IZR_INZ; cbn; field). rewrite exp_mult_pow. apply Rle_trans with ((1648 / 1000) ^ 10); [lra|]. apply pow_incr. split; [lra|apply exp_lower; unfold q6; lra]. }
      assert (147 <= exp (51726 / 10000 * Rpower T (- (3286 / 10000)))) by (eapply Rle_trans; [exact E5|apply exp_le; lra]). unfold T at 1. lra. }
    assert (CL : 70 <= Lc T). { unfold Lc. assert (R : 48 <= Rpower T (- (377332 / 10000))). { eapply Rle_trans; [|apply (rp_neg_low T (377332 / 10000) 37); [unfold T; lra|rewrite INR_IZR_INZ; cbn; lra]]. unfold T. replace (/ (9 / 10)) with (/ 9 * 10) by field. rewrite Rpow_mult_distr, pow_inv. apply (Rmult_le_reg_l (9 ^ 37)); [apply pow_lt; lra|]. rewrite <- (Rmult_assoc (9 ^ 37)), Rinv_r, Rmult_1_l by (apply pow_nonzero; lra). rewrite !pow_IZR, <- mult_IZR. apply IZR_le. vm_compute. discriminate. }
      assert (147 <= exp (30578 / 10000 * Rpower T (- (377332 / 10000)))) by (eapply Rle_trans; [|apply exp_up1]; lra). unfold T at 1. lra. }
    assert (DE : 0 < 1 / (1 + Lc T) <= 1 / 71). { split; [apply Rdiv_lt_0_compat; lra|]. unfold Rdiv. rewrite !Rmult_1_l. apply Rinv_le_contravar; lra. }
    set (dl := 1 / (1 + Lc T)) in *. set (a := La T) in *. replace (16553 / 10000 * T - 12723 / 10000) with (21747 / 100000) by (unfold T; field). assert (Q : 345 / 100 <= a / (a * (21747 / 100000) + dl)). { apply (Rmult_le_reg_r (a * (21747 / 100000) + dl)); [lra|]. replace (a / (a * (21747 / 100000) + dl) * (a * (21747 / 100000) + dl)) with a by (field; lra). lra. } nra.
Qed.
Lemma exp_in (x lo hi : R) (n : nat) : 0 <= x -> 0 < lo -> 0 < hi -> lo * q6 x <= 1 -> 1 <= hi * q5 x -> lo ^ n <= exp (INR n * x) <= hi ^ n.
Proof. intros H L U A B. rewrite exp_mult_pow. split; apply pow_incr; split; try (left; apply exp_pos); try lra; [now apply exp_lower|now apply exp_upper]. Qed.
(** the constants: at the critical point Z2 is 1.344 *)
Example C117_critical M Tc Pc : 1340 / 1000 <= Lucas_mu 1 1 M Tc Pc 1 * Lucas_xi M Tc Pc <= 1348 / 1000.
Proof.
  rewrite mu_sup1 by lra. replace (Z2_sup 1 1 1 / Lucas_xi M Tc Pc * Lucas_xi M Tc Pc) with (Z2_sup 1 1 1) by (field; pose proof (xi_pos M Tc Pc); lra). unfold Z2_sup, Lden, La, Lc, Lucas_Z1. rewrite !rp_one. rewrite !Rmult_1_r.
  assert (E1 : 176 <= exp (51726 / 10000) <= 1765 / 10). { replace (51726 / 10000) with (INR 10 * (51726 / 100000)) by (rewrite INR_IZR_INZ; cbn; field). pose proof (exp_in (51726 / 100000) (16773 / 10000) (16775 / 10000) 10 ltac:(lra) ltac:(lra) ltac:(lra) ltac:(unfold q6; lra) ltac:(unfold q5; lra)) as H. lra. }
  assert (E2 : 2127 / 100 <= exp (30578 / 10000) <= 2129 / 100). { replace (30578 / 10000) with (INR 6 * (30578 / 60000)) by (rewrite INR_IZR_INZ; cbn; field). pose proof (exp_in (30578 / 60000) (16646 / 10000) (16648 / 10000) 6 ltac:(lra) ltac:(lra) ltac:(lra) ltac:(unfold q6; lra) ltac:(unfold q5; lra)) as H. lra. }
  assert (E3 : 578 / 10 <= exp (4058 / 1000) <= 5792 / 100). { replace (4058 / 1000) with (INR 8 * (4058 / 8000)) by (rewrite INR_IZR_INZ; cbn; field). pose proof (exp_in (4058 / 8000) (16606 / 10000) (16609 / 10000) 8 ltac:(lra) ltac:(lra) ltac:(lra) ltac:(unfold q6; lra) ltac:(unfold q5; lra)) as H. lra. }
  assert (E4 : 15667 / 10000 <= exp (449 / 1000) <= 15669 / 10000). { replace (449 / 1000) with (INR 1 * (449 / 1000)) by (cbn; ring). pose proof (exp_in (449 / 1000) (15667 / 10000) (15669 / 10000) 1 ltac:(lra) ltac:(lra) ltac:(lra) ltac:(unfold q6; lra) ltac:(unfold q5; lra)) as H. lra. }
  assert (I : forall l x u, 0 < l -> l <= x <= u -> / u <= / x <= / l) by (intros l x u Hl (H1 & H2); split; apply Rinv_le_contravar; lra).
  rewrite !exp_Ropp. apply I in E3; [|lra]. apply I in E4; [|lra]. set (e1 := exp (51726 / 10000)) in *. set (e2 := exp (30578 / 10000)) in *. set (e3 := / exp (4058 / 1000)) in *. set (e4 := / exp (449 / 1000)) in *.
  set (z := 807 / 1000 - 357 / 1000 * e4 + 340 / 1000 * e3 + 18 / 1000). assert (Hz : 6029 / 10000 <= z <= 6032 / 10000) by (unfold z; lra).
  set (a := 1245 / 1000000 / 1 * e1). assert (Ha : 2191 / 10000 <= a <= 2198 / 10000) by (unfold a; lra). set (c := 4489 / 10000 / 1 * e2). assert (Hc : 954 / 100 <= c <= 956 / 100) by (unfold c; lra).
  assert (Hd : 946 / 10000 <= 1 / (1 + c) <= 9489 / 100000). { unfold Rdiv. rewrite !Rmult_1_l. destruct (I (1054 / 100) (1 + c) (1056 / 100)) as (I1 & I2); lra. } set (d := 1 / (1 + c)) in *.
  set (b := a * (16553 / 10000 - 12723 / 10000) + d). assert (Hb : 0 < b) by (unfold b; lra). assert (Q : 1225 / 1000 <= a / b <= 1233 / 1000). { split; apply (Rmult_le_reg_r b); try exact Hb; replace (a / b * b) with a by (field; lra); unfold b; lra. }
  assert (HB : a * (16553 / 10000 * 1 - 12723 / 10000) + d = b) by (unfold b; ring). try rewrite HB. fold b. nra.
Qed.
Print Assumptions C117_negative.
Print Assumptions C117_pressure_supercritical.
