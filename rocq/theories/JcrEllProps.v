(** C99: the confidence region of an S that is not circular: rays met near their boundary, star-shaped and elliptical regions. *)
From Coq Require Import Reals Lra Lia List Bool Arith Psatz FunctionalExtensionality.
From Coquelicot Require Import Coquelicot.
From Verif Require Import Prelude Deriv NumBounds HmtProps RootsModel RootsProofs RootsConvProps SecLocProps CopoModel JcrModel JcrProps.
Import ListNotations.
Open Scope R_scope.

Lemma ln_le_mono x y : 0 < x <= y -> ln x <= ln y.
Proof. intros (H0 & [H|H]); [left; now apply ln_increasing|subst; lra]. Qed.
(** S need not be quadratic: near its boundary value the slope of S / (B S(c)) against ln r varies by less than the factor 1.9,
    and the guess is in that neighbourhood *)
Theorem C99_ray_general sse c B rtol th r0 rho w m M : eps <= Rabs (sse c) -> 0 < B -> 0 < rho -> 0 < w <= 1 -> 1 / 10 ^ 4 <= m <= M -> M <= 1000 -> M <= 19 / 10 * m -> 1 / 10 ^ 4 <= rtol <= 1 / 10 ->
  sse (point c th rho) = sse c * B ->
  (forall r1 r2, rho * exp (- w) <= r1 -> r1 < r2 -> r2 <= rho * exp w -> m * ln (r2 / r1) <= (sse (point c th r2) - sse (point c th r1)) / (sse c * B) <= M * ln (r2 / r1)) ->
  rho * exp (- w) <= r0 -> r0 * (102 / 100) <= rho * exp w ->
  exists x, find_radius sse c B rtol th r0 = (true, Fin x) /\ Rabs (x - ln rho) <= Rmax (1 / 10 ^ 4 / m) ((M / m - 1) * (rtol * (M / m))).
Proof.
  intros Hs HB Hrho Hw Hm HM HMm Hr HR HS G0 G1. assert (S0 : sse c <> 0) by (intros Z; rewrite Z, Rabs_R0 in Hs; pose proof eps0; lra).
  assert (EW : 0 < rho * exp (- w)) by (apply Rmult_lt_0_compat; [auto|apply exp_pos]). rewrite find_fin by (auto; lra).
  assert (LW : forall s, ln (rho * exp s) = ln rho + s) by (intros s; rewrite ln_mult, ln_exp; auto; apply exp_pos).
  set (L := ln rho). set (g := ray sse c B th). assert (GL : g L = 0).
  { unfold g, ray, L. rewrite exp_ln by auto. change (fst c + rho * cos th, snd c + rho * sin th) with (point c th rho). rewrite HR. field. auto with real. }
  assert (EB : forall x, L - w <= x <= L + w -> rho * exp (- w) <= exp x <= rho * exp w).
  { intros x Hx. rewrite <- (exp_ln rho) by auto. fold L. rewrite <- !exp_plus. split; apply exp_le; lra. }
  assert (SL : slopes g L w m M).
  { intros u v Hu Huv Hv. destruct (HS (exp u) (exp v)) as (A & C); [apply EB; lra|apply exp_increasing; auto|apply EB; lra|].
    assert (EQ : ln (exp v / exp u) = v - u) by (unfold Rdiv; rewrite ln_mult, ln_Rinv, !ln_exp; [ring|apply exp_pos|apply exp_pos|apply Rinv_0_lt_compat, exp_pos]). rewrite EQ in A, C.
    assert (EG : g v - g u = (sse (point c th (exp v)) - sse (point c th (exp u))) / (sse c * B)) by (unfold g, ray, point; cbn [fst snd]; field; lra). rewrite EG. lra. }
  set (tau := ln (1 + rtol)). pose proof (ln_b rtol ltac:(lra)) as TB. fold tau in TB. assert (T1 : 9 / 10 ^ 5 <= tau) by nra. rewrite (Rabs_right tau) by lra.
  set (x1 := ln r0). set (x0 := ln (r0 * (102 / 100))). assert (X0 : x0 = x1 + ln (1 + 2 / 100)). { unfold x0, x1. rewrite ln_mult by lra. do 2 f_equal. lra. } pose proof (ln_b (2 / 100) ltac:(lra)) as LB.
  assert (X1 : L - w <= x1). { replace (L - w) with (ln (rho * exp (- w))) by (rewrite LW; unfold L; ring). apply ln_le_mono. lra. }
  assert (X2 : x0 <= L + w). { replace (L + w) with (ln (rho * exp w)) by (rewrite LW; reflexivity). apply ln_le_mono. lra. }
  assert (MM : 1 <= M / m <= 19 / 10). { split; [apply (Rmult_le_reg_r m)|apply (Rmult_le_reg_r m)]; try lra; replace (M / m * m) with M by (field; lra); lra. }
  assert (mM : 10 / 19 <= m / M). { apply (Rmult_le_reg_r M); try lra; replace (m / M * M) with m by (field; lra); lra. }
  destruct (C113_secant_local g L w m M x0 x1 tau (1 / 10 ^ 4) 100) as (tr & q & z & A & C & D & F & I & J); auto; try lra; try lia.
  - apply Rabs_le. lra.
  - apply Rabs_le. lra.
  - pose proof eps_lt. pose proof eps0. assert (1 / 10 ^ 9 <= m * Rmin tau (Rabs (x1 - x0))).
    { assert (9 / 10 ^ 5 <= Rmin tau (Rabs (x1 - x0))) by (apply Rmin_glb; [auto|rewrite Rabs_left; lra]). replace (1 / 10 ^ 9) with (1 / 10 ^ 4 * (1 / 10 ^ 5)) by lra. apply Rmult_le_compat; lra. }
    assert (eps * Rmax (M * w) 1 <= 1 / 10 ^ 15 * 1000); [|lra]. apply Rmult_le_compat; try lra; [eapply Rle_trans; [|apply Rmax_r]; lra|]. apply Rmax_lub; [|lra]. apply Rle_trans with (1000 * 1); [apply Rmult_le_compat; lra|lra].
  - cbn [Nat.sub]. assert (P : (M / m - 1) ^ 99 <= (9 / 10) ^ 99) by (apply pow_incr; lra). assert ((9 / 10) ^ 99 <= 4 / 10 ^ 5) by lra. assert (0 <= (M / m - 1) ^ 99) by (apply pow_le; lra).
    apply Rle_trans with (1 * (4 / 10 ^ 5)); [apply Rmult_le_compat; lra|]. apply Rle_trans with (9 / 10 ^ 5 * (10 / 19)); [lra|]. apply Rmult_le_compat; lra.
  - exists z. unfold sec_res. rewrite A. cbn [snd]. rewrite C, D. split; [reflexivity|]. eapply Rle_trans; [exact J|]. apply Rmax_lub; [apply Rmax_l|]. eapply Rle_trans; [|apply Rmax_r]. apply Rmult_le_compat_l; [lra|]. apply Rmult_le_compat_r; lra.
Qed.

(** ** S quadratic along the ray, guess near the boundary or beyond it *)
Lemma exp_3 : exp (3 / 10) <= 135 / 100 /\ 74 / 100 <= exp (- (3 / 10)).
Proof.
  assert (A : exp (3 / 10) <= 135 / 100) by (apply exp_upper; unfold q5; lra). split; auto. rewrite exp_Ropp. apply (Rmult_le_reg_r (exp (3 / 10))); [apply exp_pos|].
  rewrite Rinv_l by (pose proof (exp_pos (3 / 10)); lra). lra.
Qed.
Lemma exp_15 : 116 / 100 <= exp (15 / 100) /\ exp (- (15 / 100)) <= 865 / 1000.
Proof.
  assert (A : 116 / 100 <= exp (15 / 100)) by (apply exp_lower; unfold q6; lra). split; auto. rewrite exp_Ropp. apply (Rmult_le_reg_r (exp (15 / 100))); [apply exp_pos|].
  rewrite Rinv_l by (pose proof (exp_pos (15 / 100)); lra). lra.
Qed.
(** e^(2x) between two points: slope between twice the values at the ends *)
Lemma exp2_slope a b u v : a <= u -> u < v -> v <= b -> 2 * exp (2 * a) * (v - u) <= exp (2 * v) - exp (2 * u) <= 2 * exp (2 * b) * (v - u).
Proof.
  intros H1 H2 H3. pose proof (exp_pos (2 * u)) as P. pose proof (exp_pos (2 * v)) as P'. assert (E : exp (2 * v) = exp (2 * u) * exp (2 * (v - u))) by (rewrite <- exp_plus; f_equal; ring). assert (E' : exp (2 * u) = exp (2 * v) * exp (- (2 * (v - u)))) by (rewrite <- exp_plus; f_equal; ring).
  pose proof (exp_1p (2 * (v - u))) as A. pose proof (exp_1p (- (2 * (v - u)))) as A'. assert (exp (2 * a) <= exp (2 * u)) by (apply exp_le; lra). assert (exp (2 * v) <= exp (2 * b)) by (apply exp_le; lra). split.
  - assert (exp (2 * u) * (1 + 2 * (v - u)) <= exp (2 * v)) by (rewrite E; apply Rmult_le_compat_l; lra). assert (exp (2 * a) * (v - u) <= exp (2 * u) * (v - u)) by (apply Rmult_le_compat_r; lra). lra.
  - assert (exp (2 * v) * (1 + - (2 * (v - u))) <= exp (2 * u)) by (rewrite E'; apply Rmult_le_compat_l; lra). assert (exp (2 * v) * (v - u) <= exp (2 * b) * (v - u)) by (apply Rmult_le_compat_r; lra). lra.
Qed.
Theorem C99_ray_near sse c B rtol th r0 kappa rho : eps <= Rabs (sse c) -> 0 < kappa -> 0 < rho -> kappa * rho ^ 2 = B - 1 -> B <= 1000 * (B - 1) -> 1 / 10 ^ 4 <= rtol <= 1 / 10 ->
  (forall r, 0 < r -> sse (point c th r) = sse c * (1 + kappa * r ^ 2)) -> 87 / 100 * rho <= r0 <= 113 / 100 * rho ->
  exists x, find_radius sse c B rtol th r0 = (true, Fin x) /\ Rabs (x - ln rho) <= Rmax (7 / 10 ^ 5 * (B / (B - 1))) (16 / 10 * rtol).
Proof.
  intros Hs Hk Hrho HB HB2 Hr HS Hg. assert (S0 : sse c <> 0) by (intros Z; rewrite Z, Rabs_R0 in Hs; pose proof eps0; lra).
  assert (B1 : 1 < B) by (assert (0 < kappa * rho ^ 2) by (apply Rmult_lt_0_compat; [lra|apply pow_lt; lra]); lra).
  set (e := (B - 1) / B). assert (He : 1 / 1000 <= e < 1). { unfold e. split; [apply (Rmult_le_reg_r B)|apply (Rmult_lt_reg_r B)]; try lra; replace ((B - 1) / B * B) with (B - 1) by (field; lra); lra. }
  destruct exp_3 as (E1 & E2). destruct exp_15 as (E3 & E4). set (m := 2 * e * exp (- (3 / 10))). set (M := 2 * e * exp (3 / 10)).
  assert (PM : exp (- (3 / 10)) * exp (3 / 10) = 1) by (rewrite <- exp_plus, <- exp_0; f_equal; ring). assert (P3 : 1 <= exp (3 / 10)) by (rewrite <- exp_0; apply exp_le; lra).
  assert (Hm : 148 / 100 * e <= m) by (unfold m; nra). assert (HM : M <= 27 / 10 * e) by (unfold M; nra).
  assert (RQ : M = exp (3 / 10) * exp (3 / 10) * m) by (unfold M, m; transitivity (2 * e * exp (3 / 10) * (exp (- (3 / 10)) * exp (3 / 10))); [rewrite PM; ring|ring]).
  assert (RA : M / m = exp (3 / 10) * exp (3 / 10)). { transitivity (exp (3 / 10) * exp (3 / 10) * m / m); [now rewrite <- RQ|field; lra]. }
  assert (R1 : 1 <= M / m <= 1823 / 1000) by (rewrite RA; nra).
  assert (mM : m <= M <= 19 / 10 * m). { assert (Q : M = M / m * m) by (field; lra). assert (m0 : 0 <= m) by lra. rewrite Q. clear - R1 m0. set (z := M / m) in *. clearbody z m. split; nra. }
  destruct (C99_ray_general sse c B rtol th r0 rho (15 / 100) m M) as (x & F & X); auto; try lra.
  - rewrite HS by auto. rewrite HB. ring.
  - intros r1 r2 A1 A2 A3. assert (Q1 : 0 < r1) by (pose proof (Rmult_lt_0_compat rho (exp (- (15 / 100))) Hrho (exp_pos _)); lra). rewrite !HS by lra.
    set (u := ln (r1 / rho)). set (v := ln (r2 / rho)). assert (Pu : 0 < r1 / rho) by (apply Rdiv_lt_0_compat; lra). assert (Pv : 0 < r2 / rho) by (apply Rdiv_lt_0_compat; lra).
    assert (EQ : ln (r2 / r1) = v - u). { unfold u, v. replace (r2 / r1) with (r2 / rho * / (r1 / rho)) by (field; lra). rewrite ln_mult by (try apply Rinv_0_lt_compat; auto). rewrite ln_Rinv by auto. ring. } rewrite EQ.
    assert (SQ : forall y, 0 < y -> exp (2 * ln y) = y ^ 2) by (intros y Hy; replace (2 * ln y) with (ln y + ln y) by ring; rewrite exp_plus, exp_ln by auto; ring).
    replace ((sse c * (1 + kappa * r2 ^ 2) - sse c * (1 + kappa * r1 ^ 2)) / (sse c * B)) with (e * ((r2 / rho) ^ 2 - (r1 / rho) ^ 2)) by (unfold e; rewrite <- HB; field; repeat split; lra).
    rewrite <- !SQ by auto. fold u v. destruct (exp2_slope (- (15 / 100)) (15 / 100) u v) as (Z1 & Z2).
    + rewrite <- (ln_exp (- (15 / 100))). unfold u. apply ln_le_mono. split; [apply exp_pos|]. apply (Rmult_le_reg_r rho); auto. replace (r1 / rho * rho) with r1 by (field; lra). lra.
    + unfold u, v. apply ln_increasing; auto. apply (Rmult_lt_reg_r rho); auto. replace (r1 / rho * rho) with r1 by (field; lra). replace (r2 / rho * rho) with r2 by (field; lra). lra.
    + rewrite <- (ln_exp (15 / 100)). unfold v. apply ln_le_mono. split; [auto|]. apply (Rmult_le_reg_r rho); auto. replace (r2 / rho * rho) with r2 by (field; lra). lra.
    + replace (2 * - (15 / 100)) with (- (3 / 10)) in Z1 by lra. replace (2 * (15 / 100)) with (3 / 10) in Z2 by lra. unfold m, M. split.
      * replace (2 * e * exp (- (3 / 10)) * (v - u)) with (e * (2 * exp (- (3 / 10)) * (v - u))) by ring. apply Rmult_le_compat_l; lra.
      * replace (2 * e * exp (3 / 10) * (v - u)) with (e * (2 * exp (3 / 10) * (v - u))) by ring. apply Rmult_le_compat_l; lra.
  - nra.
  - nra.
  - exists x. split; [exact F|]. eapply Rle_trans; [exact X|]. apply Rmax_lub.
    + eapply Rle_trans; [|apply Rmax_l]. apply (Rmult_le_reg_r m); [lra|]. replace (1 / 10 ^ 4 / m * m) with (1 / 10 ^ 4) by (field; lra).
      assert (Q : B / (B - 1) * e = 1) by (unfold e; field; lra). assert (0 < B / (B - 1)) by (apply Rdiv_lt_0_compat; lra). assert (B / (B - 1) * (148 / 100 * e) <= B / (B - 1) * m) by (apply Rmult_le_compat_l; lra). lra.
    + eapply Rle_trans; [|apply Rmax_r]. set (k := M / m) in *. assert ((k - 1) * k <= 16 / 10) by nra. replace ((k - 1) * (rtol * k)) with ((k - 1) * k * rtol) by ring. apply Rmult_le_compat_r; lra.
Qed.

(** ** S quadratic along the ray, guess well inside the boundary: three steps lead into the neighbourhood *)
Lemma sl_cases g tolx tolf n k x0 x1 nx x2 f2 tr dd : eps * (1 + Rabs (g x0) + Rabs (g x1)) < Rabs (g x1 - g x0) -> x1 - g x1 * (x1 - x0) / (g x1 - g x0) = nx ->
  let o := sec_res (secant_loop g tolx tolf (S n) k x0 (g x0) x1 (g x1) x2 f2 tr) dd in
  (Rabs (nx - x1) <= tolx /\ o = (true, Fin nx)) \/ (Rabs (g nx) <= tolf /\ o = (true, Fin nx)) \/
  (tolx < Rabs (nx - x1) /\ tolf < Rabs (g nx) /\ exists k' x2' f2' tr', o = sec_res (secant_loop g tolx tolf n k' x1 (g x1) nx (g nx) x2' f2' tr') dd).
Proof.
  intros HE HN. cbn [secant_loop]. rewrite zero_slope_no by exact HE. cbv zeta. rewrite HN. destruct (Rleb (Rabs (nx - x1)) tolx) eqn:E1; [apply Rleb_true in E1; left; auto|]. apply Rleb_false in E1.
  destruct (Rleb (Rabs (g nx)) tolf) eqn:E2; [apply Rleb_true in E2; right; left; auto|]. apply Rleb_false in E2. right. right. split; [auto|]. split; [auto|]. repeat eexists.
Qed.
(** convexity of the exponential *)
Lemma exp_conv x l : 0 <= l <= 1 -> exp (l * x) - 1 <= l * (exp x - 1).
Proof.
  intros H. set (c := l * x). pose proof (exp_pos c) as P. assert (A : exp c * (1 - c) <= 1). { pose proof (exp_1p (- c)). assert (exp c * exp (- c) = 1) by (rewrite <- exp_plus, <- exp_0; f_equal; ring). nra. }
  assert (C : exp c * (1 + x - c) <= exp x). { pose proof (exp_1p (x - c)). assert (E : exp x = exp c * exp (x - c)) by (rewrite <- exp_plus; f_equal; ring). rewrite E. apply Rmult_le_compat_l; lra. }
  assert (l * (exp c * (1 + x - c)) <= l * exp x) by (apply Rmult_le_compat_l; lra). assert ((1 - l) * (exp c * (1 - c)) <= (1 - l) * 1) by (apply Rmult_le_compat_l; lra). assert (l * (exp c * (1 + x - c)) + (1 - l) * (exp c * (1 - c)) = exp c) by (unfold c; ring). lra.
Qed.
Lemma exp_925 : exp (925 / 1000) <= 2523 / 1000 /\ exp (- (925 / 1000)) <= 3967 / 10000.
Proof.
  split. { replace (925 / 1000) with (925 / 2000 + 925 / 2000) by lra. rewrite exp_plus. assert (exp (925 / 2000) <= 15883 / 10000) by (apply exp_upper; unfold q5; lra). pose proof (exp_pos (925 / 2000)). nra. }
  assert (A : 25215 / 10000 <= exp (925 / 1000)). { replace (925 / 1000) with (925 / 2000 + 925 / 2000) by lra. rewrite exp_plus. assert (158796 / 100000 <= exp (925 / 2000)) by (apply exp_lower; unfold q6; lra). nra. }
  rewrite exp_Ropp. apply (Rmult_le_reg_r (exp (925 / 1000))); [apply exp_pos|]. rewrite Rinv_l by (pose proof (exp_pos (925 / 1000)); lra). lra.
Qed.
Lemma exp_6 : exp (6 / 10) <= 18225 / 10000.
Proof. replace (6 / 10) with (3 / 10 + 3 / 10) by lra. rewrite exp_plus. assert (exp (3 / 10) <= 1350 / 1000) by (apply exp_upper; unfold q5; lra). pose proof (exp_pos (3 / 10)). nra. Qed.
(** p = e^(2s) - 1 to the right, q = 1 - e^(-2t) to the left of the zero *)
Lemma right_b s : 0 <= s <= 3 / 10 -> 2 * s <= exp (2 * s) - 1 <= 275 / 100 * s.
Proof.
  intros H. split; [pose proof (exp_1p (2 * s)); lra|]. pose proof (exp_conv (6 / 10) (s / (3 / 10)) ltac:(lra)) as C. replace (s / (3 / 10) * (6 / 10)) with (2 * s) in C by field. pose proof exp_6. nra.
Qed.
Lemma left_b t : 0 <= t <= 4625 / 10000 -> 1304 / 1000 * t <= 1 - exp (- (2 * t)) <= 2 * t.
Proof.
  intros H. split; [|pose proof (exp_1p (- (2 * t))); lra]. pose proof (exp_conv (- (925 / 1000)) (t / (4625 / 10000)) ltac:(lra)) as C. replace (t / (4625 / 10000) * - (925 / 1000)) with (- (2 * t)) in C by field. destruct exp_925 as (_ & E). nra.
Qed.
Lemma left_15 t : 0 <= t <= 15 / 100 -> 148 / 100 * t <= 1 - exp (- (2 * t)).
Proof.
  intros H. destruct exp_3 as (_ & E). pose proof (exp2_slope (- (15 / 100)) 0 (- t) 0) as S. replace (2 * - (15 / 100)) with (- (3 / 10)) in S by field. replace (2 * - t) with (- (2 * t)) in S by ring. replace (2 * 0) with 0 in S by ring. rewrite exp_0 in S.
  destruct (Req_dec t 0) as [-> |N]; [replace (- (2 * 0)) with 0 by ring; rewrite exp_0; lra|]. destruct S as (S & _); try lra. nra.
Qed.
Lemma low_conv a L tau t h : 0 < a -> let w := a * exp (2 * L) in 1 / 1000 <= w <= 1 -> 9 / 10 ^ 5 <= tau <= 1 / 10 -> 139 / 1000 <= t <= 4625 / 10000 -> 19 / 1000 <= h <= 2 / 100 ->
  let g := fun x => a * (exp (2 * x) - exp (2 * L)) in forall k x2 f2 tr d,
  exists z, sec_res (secant_loop g tau (1 / 10 ^ 4) 100 k (L - t + h) (g (L - t + h)) (L - t) (g (L - t)) x2 f2 tr) d = (true, Fin z) /\ Rabs (z - L) <= Rmax (1 / 10 ^ 4 / (148 / 100 * w)) (16 / 10 * tau).
Proof.
  intros Ha w Hw Ht Htt Hh g k x2 f2 tr d. pose proof eps0 as EP. pose proof eps_lt as EL.
  assert (GE : forall e, g (L + e) = w * (exp (2 * e) - 1)). { intros e. unfold g, w. rewrite Rmult_plus_distr_l, exp_plus. ring. }
  assert (GN : forall e, g (L - e) = w * (exp (- (2 * e)) - 1)). { intros e. replace (L - e) with (L + - e) by ring. rewrite GE. do 3 f_equal. ring. }
  assert (TOL : forall T, T <= 1 / 10 ^ 4 / (148 / 100 * w) \/ T <= 16 / 10 * tau -> T <= Rmax (1 / 10 ^ 4 / (148 / 100 * w)) (16 / 10 * tau)). { intros T [H|H]; [eapply Rle_trans; [exact H|apply Rmax_l]|eapply Rle_trans; [exact H|apply Rmax_r]]. }
  assert (TF : forall T, 148 / 100 * T * w <= 1 / 10 ^ 4 -> T <= 1 / 10 ^ 4 / (148 / 100 * w)). { intros T H. apply (Rmult_le_reg_r (148 / 100 * w)); [lra|]. replace (1 / 10 ^ 4 / (148 / 100 * w) * (148 / 100 * w)) with (1 / 10 ^ 4) by (field; lra). lra. }
  (* first step: from the left to the right of the zero *)
  set (E := exp (2 * t)). set (H := exp (2 * h) - 1). assert (E0 : exp (- (2 * t)) = / E) by apply exp_Ropp. assert (EP0 : 0 < E) by apply exp_pos.
  assert (HH : 2 * h <= H) by (unfold H; pose proof (exp_1p (2 * h)); lra). assert (ET : E - 1 <= 3294 / 1000 * t). { unfold E. pose proof (exp_conv (925 / 1000) (t / (4625 / 10000)) ltac:(lra)) as C. replace (t / (4625 / 10000) * (925 / 1000)) with (2 * t) in C by field. destruct exp_925 as (X & _). nra. }
  assert (HT : H <= h / t * (E - 1)). { unfold H, E. pose proof (exp_conv (2 * t) (h / t)) as C. replace (h / t * (2 * t)) with (2 * h) in C by (field; lra). apply C. split; [apply Rle_div_r; lra|apply Rle_div_l; lra]. }
  set (s := (E - 1) * h / H - t). assert (S0 : 0 <= s). { unfold s. assert (t <= (E - 1) * h / H); [|lra]. apply Rle_div_r; [lra|]. apply Rle_trans with (t * (h / t * (E - 1))); [apply Rmult_le_compat_l; lra|]. right. field. lra. }
  assert (S1 : s <= 3 / 10). { unfold s. assert ((E - 1) * h / H <= 1647 / 1000 * t); [|lra]. apply Rle_div_l; [lra|]. apply Rle_trans with (3294 / 1000 * t * h); [apply Rmult_le_compat_r; lra|]. nra. }
  assert (H1 : H <= 55 / 1000). { unfold H. pose proof (right_b h ltac:(lra)). lra. }
  assert (EB : E <= 2524 / 1000) by lra. assert (EI : 39 / 100 <= / E) by (apply (Rmult_le_reg_r E); auto; rewrite Rinv_l by lra; lra). assert (EI1 : / E <= 1) by (apply (Rmult_le_reg_r E); auto; rewrite Rinv_l by lra; unfold E; pose proof (exp_1p (2 * t)); lra).
  assert (X0 : g (L - t + h) = w * ((1 + H) * / E - 1)). { replace (L - t + h) with (L + (h - t)) by ring. rewrite GE. f_equal. f_equal. rewrite <- E0. unfold H. replace (1 + (exp (2 * h) - 1)) with (exp (2 * h)) by ring. rewrite <- exp_plus. f_equal. ring. }
  assert (X1 : g (L - t) = w * (/ E - 1)) by now rewrite GN, E0.
  assert (DF : g (L - t) - g (L - t + h) = - (w * (H * / E))) by (rewrite X0, X1; ring). assert (PH : 1 / 100 <= H * / E) by nra. assert (PW : 1 / 10 ^ 5 <= w * (H * / E)) by nra.
  destruct (sl_cases g tau (1 / 10 ^ 4) 99 k (L - t + h) (L - t) (L + s) x2 f2 tr d) as [(C & _)|[(C & ->)|(_ & C & k1 & y1 & z1 & t1 & ->)]].
  { rewrite DF, Rabs_Ropp, (Rabs_pos_eq (w * _)) by lra. assert (Rabs (g (L - t + h)) <= 1). { rewrite X0. apply Rabs_le. split; nra. } assert (Rabs (g (L - t)) <= 1). { rewrite X1. apply Rabs_le. split; nra. } assert (eps * (1 + Rabs (g (L - t + h)) + Rabs (g (L - t))) <= eps * 3) by (apply Rmult_le_compat_l; lra). lra. }
  { rewrite DF, X1. unfold s. field. lra. }
  { exfalso. replace (L + s - (L - t)) with (s + t) in C by ring. rewrite Rabs_pos_eq in C by lra. lra. }
  { exists (L + s). split; [reflexivity|]. apply TOL. left. apply TF. replace (L + s - L) with s by ring. rewrite Rabs_pos_eq by lra. rewrite GE, Rabs_pos_eq in C by (pose proof (right_b s ltac:(lra)); nra). pose proof (right_b s ltac:(lra)). nra. }
  (* second step: from both sides *)
  pose proof (right_b s ltac:(lra)) as PB. pose proof (left_b t ltac:(lra)) as QB. rewrite E0 in QB. rewrite GE, Rabs_pos_eq in C by nra. set (p := exp (2 * s) - 1) in *. set (q := 1 - / E) in *.
  assert (P0 : 0 < p) by nra. assert (Q0 : 1 / 10 <= q) by nra. assert (S2 : 0 < s) by nra. set (t' := (p * t - s * q) / (p + q)).
  assert (T0 : 0 <= t'). { unfold t'. apply Rle_div_r; [lra|]. rewrite Rmult_0_l. assert (s * q <= s * (2 * t)) by (apply Rmult_le_compat_l; lra). assert (2 * s * t <= p * t) by (apply Rmult_le_compat_r; lra). lra. }
  assert (T1 : t' <= 15 / 100). { unfold t'. apply Rle_div_l; [lra|]. assert (BI : 0 <= - (1446 / 1000) * (s * t) + 1956 / 10000 * t + 4125 / 10000 * s). { assert (0 <= (3 / 10 - s) * t) by (apply Rmult_le_pos; lra). assert (0 <= (4625 / 10000 - t) * s) by (apply Rmult_le_pos; lra). assert (0 <= s * t) by nra. nra. }
    destruct (Rle_dec t (15 / 100)) as [C1|C1]; [assert (p * t <= p * (15 / 100)) by (apply Rmult_le_compat_l; lra); assert (0 <= s * q) by (apply Rmult_le_pos; lra); lra|]. assert (p * (t - 15 / 100) <= 275 / 100 * s * (t - 15 / 100)) by (apply Rmult_le_compat_r; lra). assert (1304 / 1000 * t * (s + 15 / 100) <= q * (s + 15 / 100)) by (apply Rmult_le_compat_r; lra). nra. }
  assert (X2 : g (L + s) = w * p) by (rewrite GE; reflexivity). assert (X1' : g (L - t) = - (w * q)) by (rewrite X1; unfold q; ring).
  destruct (sl_cases g tau (1 / 10 ^ 4) 98 k1 (L - t) (L + s) (L - t') y1 z1 t1 d) as [(C1 & ->)|[(C1 & ->)|(_ & C1 & k2 & y2 & z2 & t2 & ->)]].
  { rewrite X1', X2. rewrite Rabs_Ropp. rewrite !Rabs_pos_eq by nra. assert (w * q <= 1) by (unfold q; nra). assert (w * p <= 1) by nra. assert (1 / 10 ^ 4 <= w * q) by nra. assert (eps * (1 + w * q + w * p) <= eps * 3) by (apply Rmult_le_compat_l; lra). nra. }
  { rewrite X1', X2. unfold t'. field. split; nra. }
  { exists (L - t'). split; [reflexivity|]. apply TOL. right. replace (L - t' - L) with (- t') by ring. rewrite Rabs_Ropp, Rabs_pos_eq by lra. replace (L - t' - (L + s)) with (- (t' + s)) in C1 by ring. rewrite Rabs_Ropp, Rabs_pos_eq in C1 by lra. lra. }
  { exists (L - t'). split; [reflexivity|]. apply TOL. left. apply TF. replace (L - t' - L) with (- t') by ring. rewrite Rabs_Ropp, Rabs_pos_eq by lra. pose proof (left_15 t' ltac:(lra)) as B. rewrite GN in C1. replace (w * (exp (- (2 * t')) - 1)) with (- (w * (1 - exp (- (2 * t'))))) in C1 by ring. rewrite Rabs_Ropp, Rabs_pos_eq in C1 by nra. nra. }
  (* third step *)
  pose proof (left_15 t' ltac:(lra)) as QB'. pose proof (left_b t' ltac:(lra)) as QB2. assert (X3 : g (L - t') = - (w * (1 - exp (- (2 * t'))))) by (rewrite GN; ring). rewrite X3, Rabs_Ropp, Rabs_pos_eq in C1 by nra. set (q' := 1 - exp (- (2 * t'))) in *.
  assert (Q0' : 0 < q') by nra. assert (T2 : 0 < t') by nra. set (v := (p * t' - s * q') / (p + q')).
  assert (V0 : 0 <= v). { unfold v. apply Rle_div_r; [lra|]. rewrite Rmult_0_l. assert (s * q' <= s * (2 * t')) by (apply Rmult_le_compat_l; lra). assert (2 * s * t' <= p * t') by (apply Rmult_le_compat_r; lra). lra. }
  assert (V1 : t' - v = q' * (s + t') / (p + q')) by (unfold v; field; lra). assert (V2 : 0 < t' - v) by (rewrite V1; apply Rdiv_lt_0_compat; nra).
  destruct (sl_cases g tau (1 / 10 ^ 4) 97 k2 (L + s) (L - t') (L - v) y2 z2 t2 d) as [(C2 & ->)|[(C2 & ->)|(C3 & C2 & k3 & y3 & z3 & t3 & ->)]].
  { rewrite X3, X2. replace (- (w * q') - w * p) with (- (w * (p + q'))) by ring. rewrite !Rabs_Ropp. rewrite !Rabs_pos_eq by nra. assert (w * q' <= 1) by nra. assert (w * p <= 1) by nra. assert (eps * (1 + w * p + w * q') <= eps * 3) by (apply Rmult_le_compat_l; lra). nra. }
  { rewrite X3, X2. unfold v. field. split; nra. }
  { exists (L - v). split; [reflexivity|]. apply TOL. right. replace (L - v - L) with (- v) by ring. rewrite Rabs_Ropp, Rabs_pos_eq by lra. replace (L - v - (L - t')) with (t' - v) in C2 by ring. rewrite Rabs_pos_eq in C2 by lra.
    assert (t' <= 26 / 10 * (t' - v)); [|lra]. rewrite V1. replace (26 / 10 * (q' * (s + t') / (p + q'))) with (26 / 10 * (q' * (s + t')) / (p + q')) by (field; lra). apply (proj1 (Rle_div_r t' (26 / 10 * (q' * (s + t'))) (p + q') ltac:(lra))). assert (t' * p <= t' * (275 / 100 * s)) by (apply Rmult_le_compat_l; lra). assert (148 / 100 * t' * s <= q' * s) by (apply Rmult_le_compat_r; lra). assert (0 <= q' * t') by nra. assert (0 <= t' * s) by nra. nra. }
  { exists (L - v). split; [reflexivity|]. apply TOL. left. apply TF. replace (L - v - L) with (- v) by ring. rewrite Rabs_Ropp, Rabs_pos_eq by lra. pose proof (left_15 v ltac:(lra)) as B. rewrite GN in C2. replace (w * (exp (- (2 * v)) - 1)) with (- (w * (1 - exp (- (2 * v))))) in C2 by ring. rewrite Rabs_Ropp, Rabs_pos_eq in C2 by nra. nra. }
  (* the neighbourhood *)
  destruct exp_3 as (E1 & E2). set (m := 2 * w * exp (- (3 / 10))). set (M := 2 * w * exp (3 / 10)). assert (Hm : 148 / 100 * w <= m) by (unfold m; nra). assert (HM : M <= 27 / 10 * w) by (unfold M; nra).
  assert (PM : exp (- (3 / 10)) * exp (3 / 10) = 1) by (rewrite <- exp_plus, <- exp_0; f_equal; ring). assert (P3 : 1 <= exp (3 / 10)) by (rewrite <- exp_0; apply exp_le; lra).
  assert (RQ : M = exp (3 / 10) * exp (3 / 10) * m) by (unfold M, m; transitivity (2 * w * exp (3 / 10) * (exp (- (3 / 10)) * exp (3 / 10))); [rewrite PM; ring|ring]).
  assert (RA : M / m = exp (3 / 10) * exp (3 / 10)). { transitivity (exp (3 / 10) * exp (3 / 10) * m / m); [now rewrite <- RQ|field; lra]. } assert (R1 : 1 <= M / m <= 1823 / 1000) by (rewrite RA; nra).
  assert (mM : m <= M <= 19 / 10 * m). { assert (Q : M = M / m * m) by (field; lra). assert (m0 : 0 <= m) by lra. rewrite Q. clear - R1 m0. set (z := M / m) in *. clearbody z m. split; nra. } assert (R2 : 1 / 2 <= m / M) by (apply (proj1 (Rle_div_r (1 / 2) m M ltac:(lra))); lra).
  assert (SL : slopes g L (15 / 100) m M). { intros u u' Hu Huu Hu'. pose proof (exp2_slope (L - 15 / 100) (L + 15 / 100) u u' Hu Huu Hu') as (A1 & A2). unfold g, m, M, w. replace (2 * (L - 15 / 100)) with (2 * L + - (3 / 10)) in A1 by field. replace (2 * (L + 15 / 100)) with (2 * L + 3 / 10) in A2 by field. rewrite exp_plus in A1, A2.
    replace (a * (exp (2 * u') - exp (2 * L)) - a * (exp (2 * u) - exp (2 * L))) with (a * (exp (2 * u') - exp (2 * u))) by ring. split.
    - replace (2 * (a * exp (2 * L)) * exp (- (3 / 10)) * (u' - u)) with (a * (2 * (exp (2 * L) * exp (- (3 / 10))) * (u' - u))) by ring. apply Rmult_le_compat_l; lra.
    - replace (2 * (a * exp (2 * L)) * exp (3 / 10) * (u' - u)) with (a * (2 * (exp (2 * L) * exp (3 / 10)) * (u' - u))) by ring. apply Rmult_le_compat_l; lra. }
  assert (GL : g L = 0) by (unfold g; ring).
  destruct (secant_local g L (15 / 100) m M tau (1 / 10 ^ 4) tau 97 ltac:(lra) ltac:(lra) GL ltac:(lra) ltac:(lra) SL ltac:(lra)) with (k := k3) (x0 := L - t') (x1 := L - v) (x2 := y3) (f2 := z3) (tr := t3) as (tr' & o & z & A & B & D & F & G & I).
  - assert (Rmax (M * (15 / 100)) 1 <= 1) by (apply Rmax_lub; lra). assert (eps * Rmax (M * (15 / 100)) 1 <= eps * 1) by (apply Rmult_le_compat_l; lra). assert (1 / 1000 * (9 / 10 ^ 5) <= m * tau) by (apply Rmult_le_compat; lra). lra.
  - apply Rabs_le. lra.
  - apply Rabs_le. lra.
  - lra.
  - lia.
  - cbn [Nat.sub]. replace (L - v - L) with (- v) by ring. rewrite Rabs_Ropp, Rabs_pos_eq by lra. assert (P : (M / m - 1) ^ 96 <= (9 / 10) ^ 96) by (apply pow_incr; lra). assert ((9 / 10) ^ 96 <= 5 / 10 ^ 5) by lra. assert (0 <= (M / m - 1) ^ 96) by (apply pow_le; lra).
    apply Rle_trans with (15 / 100 * (5 / 10 ^ 5)); [apply Rmult_le_compat; lra|]. apply Rle_trans with (9 / 10 ^ 5 * (1 / 2)); [lra|]. apply Rmult_le_compat; lra.
  - exists z. unfold sec_res. rewrite A. cbn [snd]. rewrite B, D. split; [reflexivity|]. apply TOL. destruct I as [I|I].
    + left. apply TF. destruct (slope_root g L (15 / 100) m M z SL GL ltac:(lra) G) as (c & Hc & Ec). rewrite Ec, Rabs_mult, (Rabs_pos_eq c) in I by lra. pose proof (Rabs_pos (z - L)). assert (148 / 100 * w * Rabs (z - L) <= c * Rabs (z - L)) by (apply Rmult_le_compat_r; lra). lra.
    + right. eapply Rle_trans; [exact I|]. set (kk := M / m) in *. assert ((kk - 1) * kk <= 16 / 10) by nra. replace ((kk - 1) * (tau * kk)) with ((kk - 1) * kk * tau) by ring. apply Rmult_le_compat_r; lra.
Qed.
Theorem C99_ray_low sse c B rtol th r0 kappa rho : eps <= Rabs (sse c) -> 0 < kappa -> 0 < rho -> kappa * rho ^ 2 = B - 1 -> B <= 1000 * (B - 1) -> 1 / 10 ^ 4 <= rtol <= 1 / 10 ->
  (forall r, 0 < r -> sse (point c th r) = sse c * (1 + kappa * r ^ 2)) -> 63 / 100 * rho <= r0 <= 87 / 100 * rho ->
  exists x, find_radius sse c B rtol th r0 = (true, Fin x) /\ Rabs (x - ln rho) <= Rmax (7 / 10 ^ 5 * (B / (B - 1))) (16 / 10 * rtol).
Proof.
  intros Hs Hk Hrho HB HB2 Hr HS Hg. assert (S0 : sse c <> 0) by (intros Z; rewrite Z, Rabs_R0 in Hs; pose proof eps0; lra).
  assert (B1 : 1 < B) by (assert (0 < kappa * rho ^ 2) by (apply Rmult_lt_0_compat; [lra|apply pow_lt; lra]); lra).
  rewrite find_fin by (auto; lra). set (L := ln rho). set (a := kappa / B). assert (Ha : 0 < a) by (apply Rdiv_lt_0_compat; lra).
  assert (SQ : forall x, exp (2 * x) = exp x ^ 2) by (intros x; replace (2 * x) with (x + x) by ring; rewrite exp_plus; ring).
  assert (EL : exp (2 * L) = rho ^ 2) by (rewrite SQ; unfold L; now rewrite exp_ln by lra).
  set (g := fun x => a * (exp (2 * x) - exp (2 * L))). assert (ER : ray sse c B th = g).
  { extensionality x. unfold ray, g. change (fst c + exp x * cos th, snd c + exp x * sin th) with (point c th (exp x)). rewrite HS by apply exp_pos. rewrite EL, SQ. unfold a. replace (sse c * (1 + kappa * exp x ^ 2) / sse c / B - 1) with ((kappa * exp x ^ 2 - (B - 1)) / B) by (field; lra). rewrite <- HB. field. lra. }
  rewrite ER. set (tau := ln (1 + rtol)). pose proof (ln_b rtol ltac:(lra)) as TB. fold tau in TB. assert (T1 : 9 / 10 ^ 5 <= tau) by nra. rewrite (Rabs_right tau) by lra.
  assert (MA : a * exp (2 * L) = (B - 1) / B) by (rewrite EL, <- HB; unfold a; field; lra). set (w := (B - 1) / B) in *. assert (He : 1 / 1000 <= w <= 1). { unfold w. split; [apply (proj1 (Rle_div_r (1 / 1000) (B - 1) B ltac:(lra)))|apply (proj2 (Rle_div_l (B - 1) 1 B ltac:(lra)))]; lra. }
  set (t := ln rho - ln r0). set (h := ln (1 + 2 / 100)). pose proof (ln_b (2 / 100) ltac:(lra)) as LB. fold h in LB. assert (X0 : ln (r0 * (102 / 100)) = L - t + h). { rewrite ln_mult by lra. unfold t, L, h. replace (102 / 100) with (1 + 2 / 100) by lra. ring. } assert (X1 : ln r0 = L - t) by (unfold t, L; ring). rewrite X0, X1.
  assert (Tt : 139 / 1000 <= t <= 4625 / 10000).
  { assert (Et : t = ln (rho / r0)) by (unfold t, Rdiv; rewrite ln_mult, ln_Rinv by (try apply Rinv_0_lt_compat; lra); ring). rewrite Et. split.
    - rewrite <- (ln_exp (139 / 1000)). apply ln_le_mono. split; [apply exp_pos|]. apply Rle_trans with (1149425 / 1000000); [|apply (proj1 (Rle_div_r (1149425 / 1000000) rho r0 ltac:(lra))); lra]. apply exp_upper; unfold q5; lra.
    - rewrite <- (ln_exp (4625 / 10000)). apply ln_le_mono. split; [apply Rdiv_lt_0_compat; lra|]. apply Rle_trans with (100 / 63); [apply (proj2 (Rle_div_l rho (100 / 63) r0 ltac:(lra))); lra|]. apply exp_lower; unfold q6; lra. }
  assert (TF : 1 / 10 ^ 4 / (148 / 100 * w) <= 7 / 10 ^ 5 * (B / (B - 1))). { apply (proj2 (Rle_div_l (1 / 10 ^ 4) (7 / 10 ^ 5 * (B / (B - 1))) (148 / 100 * w) ltac:(lra))). replace (7 / 10 ^ 5 * (B / (B - 1)) * (148 / 100 * w)) with (7 / 10 ^ 5 * (148 / 100)) by (unfold w; field; lra). lra. }
  assert (FIN : forall z, Rabs (z - L) <= Rmax (1 / 10 ^ 4 / (148 / 100 * w)) (16 / 10 * tau) -> Rabs (z - L) <= Rmax (7 / 10 ^ 5 * (B / (B - 1))) (16 / 10 * rtol)).
  { intros z H. eapply Rle_trans; [exact H|]. apply Rmax_lub; [eapply Rle_trans; [exact TF|apply Rmax_l]|eapply Rle_trans; [|apply Rmax_r]; lra]. }
  assert (GN : forall e, 0 <= e <= 4625 / 10000 -> 148 / 100 * e * w <= Rabs (g (L - e)) \/ 15 / 100 < e /\ 1 / 10 ^ 4 < Rabs (g (L - e))).
  { intros e He0. assert (Q : g (L - e) = - (w * (1 - exp (- (2 * e))))). { unfold g. replace (2 * (L - e)) with (2 * L + - (2 * e)) by ring. rewrite exp_plus, <- MA. ring. } rewrite Q, Rabs_Ropp, Rabs_pos_eq by (pose proof (left_b e ltac:(lra)); nra). destruct (Rle_dec e (15 / 100)) as [C|C]; [left; pose proof (left_15 e ltac:(lra)); nra|right; split; [lra|]; pose proof (left_b e ltac:(lra)); nra]. }
  unfold root_secant. destruct (Rleb (Rabs (g (L - t + h))) (1 / 10 ^ 4)) eqn:E0.
  { exfalso. apply Rleb_true in E0. replace (L - t + h) with (L - (t - h)) in E0 by ring. destruct (GN (t - h)) as [C|C]; [lra| |lra]. nra. }
  destruct (Rleb (Rabs (g (L - t))) (1 / 10 ^ 4)) eqn:E1. { exfalso. apply Rleb_true in E1. destruct (GN t) as [C|C]; [lra| |lra]. nra. }
  destruct (low_conv a L tau t h Ha) with (k := 0%nat) (x2 := NaN) (f2 := NaN) (tr := [L - t + h; L - t]) (d := NaN) as (z & Z1 & Z2); try lra. rewrite MA in Z2. exists z. split; [exact Z1|]. now apply FIN.
Qed.
(** both together: guesses from 0.63 rho to 100 rho *)
Theorem C99_ray_range sse c B rtol th r0 kappa rho : eps <= Rabs (sse c) -> 0 < kappa -> 0 < rho -> kappa * rho ^ 2 = B - 1 -> B <= 1000 * (B - 1) -> 1 / 10 ^ 4 <= rtol <= 1 / 20 ->
  (forall r, 0 < r -> sse (point c th r) = sse c * (1 + kappa * r ^ 2)) -> 63 / 100 * rho <= r0 <= 100 * rho ->
  exists x, find_radius sse c B rtol th r0 = (true, Fin x) /\ - Rmax (7 / 10 ^ 5 * (B / (B - 1))) (16 / 10 * rtol) <= x - ln rho <= Rmax (7 / 10 ^ 5 * (B / (B - 1))) (5 * rtol).
Proof.
  intros Hs Hk Hrho HB HB2 Hr HS Hg. destruct (Rle_dec rho r0) as [C|C].
  - destruct (C99_ray sse c B rtol th r0 kappa rho) as (x & F & X1 & X2); auto; try lra. exists x. split; [exact F|].
    assert (L1 : ln rho <= x) by (rewrite <- (ln_exp x); apply ln_le_mono; lra). set (d := x - ln rho) in *. assert (D0 : 0 <= d) by (unfold d; lra).
    assert (EX : exp x = rho * exp d) by (unfold d; rewrite <- (exp_ln rho) at 1 by auto; rewrite <- exp_plus; f_equal; ring). rewrite EX in X2. pose proof (exp_1p d) as P. pose proof (exp_pos d) as P0.
    assert (SQ : (rho * exp d) ^ 2 = rho ^ 2 * exp (2 * d)) by (replace (2 * d) with (d + d) by ring; rewrite exp_plus; ring). rewrite SQ in X2. pose proof (exp_1p (2 * d)) as P2. assert (R2 : 0 < rho ^ 2) by (apply pow_lt; auto).
    assert (B1 : 1 < B) by (assert (0 < kappa * rho ^ 2) by (apply Rmult_lt_0_compat; lra); lra). assert (0 < B / (B - 1)) by (apply Rdiv_lt_0_compat; lra).
    split; [pose proof (Rmax_r (7 / 10 ^ 5 * (B / (B - 1))) (16 / 10 * rtol)); lra|]. destruct X2 as [X2|X2].
    + eapply Rle_trans; [|apply Rmax_r]. assert (Y : exp (2 * d) * (1 - 6 * rtol) <= 1) by (apply (Rmult_le_reg_l (rho ^ 2)); lra). assert ((1 + 2 * d) * (1 - 6 * rtol) <= 1) by nra. nra.
    + eapply Rle_trans; [|apply Rmax_l]. assert (Y : exp (2 * d) <= 1 + 1 / 10 ^ 4 * (B / (B - 1))) by (apply (Rmult_le_reg_l (rho ^ 2)); lra). lra.
  - assert (N : exists x, find_radius sse c B rtol th r0 = (true, Fin x) /\ Rabs (x - ln rho) <= Rmax (7 / 10 ^ 5 * (B / (B - 1))) (16 / 10 * rtol)).
    { destruct (Rle_dec (87 / 100 * rho) r0) as [C1|C1]; [apply (C99_ray_near sse c B rtol th r0 kappa rho)|apply (C99_ray_low sse c B rtol th r0 kappa rho)]; auto; lra. }
    destruct N as (x & F & X). exists x. split; [exact F|]. apply rabs_between in X. split; [lra|]. eapply Rle_trans; [apply X|]. apply Rmax_lub; [apply Rmax_l|]. eapply Rle_trans; [|apply Rmax_r]. lra.
Qed.

(** ** Star-shaped regions *)
Lemma radii_chain find g0 (f : nat -> R) (P Q : R -> R -> Prop) : forall n s g, P (f s) g ->
  (forall i g, P (f i) g -> exists x, find (f i) g = (true, Fin x) /\ Q (f i) (exp x)) -> (forall i r, (s <= i)%nat -> (S i < s + n)%nat -> Q (f i) r -> P (f (S i)) r) ->
  Forall2 (fun th o => exists r, o = Some r /\ Q th r) (map f (seq s n)) (radii find g0 g (map f (seq s n))).
Proof.
  induction n as [|n IH]; intros s g H0 H1 H2; cbn [seq map radii]; [constructor|]. destruct (H1 s g H0) as (x & E & HQ). rewrite E. constructor; [eauto|].
  destruct n as [|n]; [constructor|]. apply IH; auto; [apply H2; auto; lia|]. intros i r A B C. apply H2; auto; lia.
Qed.
(** the i-th direction *)
Definition angle (n i : nat) : R := INR i * (2 * PI / INR (n - 1)).
Lemma near_exp d : 0 <= d <= 16 / 1000 -> 984 / 1000 <= exp (- d).
Proof. intros H. pose proof (exp_1p (- d)). lra. Qed.
Lemma far_exp d : 0 <= d <= 5 / 100 -> exp d <= 11 / 10.
Proof. intros H. apply Rle_trans with (exp (5 / 100)); [apply exp_le; lra|apply exp_upper; unfold q5; lra]. Qed.
(** S is quadratic along every ray, with boundary radius rho(th); from one direction to the next the radius grows by at most 56 per cent (and
    shrinks at most by a factor of 70); the first guess is between 0.63 and 100 times the first radius.  Then every point is found, on
    its ray, at the right radius up to the tolerances *)
Theorem C99_star Fq sse c ndata alpha width npoints rtol (rho : R -> R) : args_ok ndata alpha npoints rtol -> rtol <= 1 / 100 -> eps <= Rabs (sse c) ->
  let B := bound Fq ndata alpha in 1 < B -> B <= 100 * (B - 1) -> (forall th, 0 < rho th) ->
  (forall th r, 0 < r -> sse (point c th r) = sse c * (1 + (B - 1) * (r / rho th) ^ 2)) ->
  (forall i, (S i < npoints)%nat -> rho (angle npoints (S i)) <= 156 / 100 * rho (angle npoints i) /\ rho (angle npoints i) <= 70 * rho (angle npoints (S i))) ->
  63 / 100 * rho 0 <= guess0 width (fst c) <= 100 * rho 0 ->
  exists pts, confidence_region Fq sse 2 c ndata alpha width npoints rtol = Ok pts /\ length pts = npoints /\ forall i, (i < npoints)%nat -> exists th r, nth_error (angles npoints) i = Some th /\ nth_error pts i = Some (Some (point c th r)) /\
    0 < r /\ Rabs (ln (r / rho th)) <= Rmax (7 / 10 ^ 5 * (B / (B - 1))) (5 * rtol).
Proof.
  intros Ha Hrt Hs B B1 B2 HP HS HC HG. pose proof Ha as (_ & _ & _ & Hr). assert (BB : 0 < B / (B - 1) <= 100). { split; [apply Rdiv_lt_0_compat; lra|]. apply (Rmult_le_reg_r (B - 1)); [lra|]. replace (B / (B - 1) * (B - 1)) with B by (field; lra). lra. }
  set (lo := Rmax (7 / 10 ^ 5 * (B / (B - 1))) (16 / 10 * rtol)). set (hi := Rmax (7 / 10 ^ 5 * (B / (B - 1))) (5 * rtol)).
  assert (Hlo : 0 <= lo <= 16 / 1000). { unfold lo. split; [eapply Rle_trans; [|apply Rmax_r]; lra|apply Rmax_lub; lra]. } assert (Hhi : 0 <= hi <= 5 / 100). { unfold hi. split; [eapply Rle_trans; [|apply Rmax_r]; lra|apply Rmax_lub; lra]. }
  assert (LH : lo <= hi). { unfold lo, hi. apply Rmax_lub; [apply Rmax_l|]. eapply Rle_trans; [|apply Rmax_r]. lra. }
  set (Q := fun th r => 0 < r /\ - lo <= ln (r / rho th) <= hi). set (P := fun th g => 63 / 100 * rho th <= g <= 100 * rho th).
  assert (F : Forall2 (fun th o => exists r, o = Some r /\ Q th r) (angles npoints) (radii (find_radius sse c (bound Fq ndata alpha) rtol) (guess0 width (fst c)) (guess0 width (fst c)) (angles npoints))).
  { fold B. unfold angles. change (fun i => INR i * (2 * PI / INR (npoints - 1))) with (angle npoints). apply (radii_chain _ _ (angle npoints) P Q).
    - unfold P, angle. replace (INR 0 * (2 * PI / INR (npoints - 1))) with 0 by (cbn [INR]; ring). exact HG.
    - intros i g HPg. set (th := angle npoints i) in *. pose proof (HP th) as R0. assert (R2 : 0 < rho th ^ 2) by (apply pow_lt; auto).
      destruct (C99_ray_range sse c B rtol th g ((B - 1) / rho th ^ 2) (rho th)) as (x & E & X); auto; try lra; [apply Rdiv_lt_0_compat; lra|field; lra|intros r Hr0; rewrite HS by auto; field; lra|].
      exists x. split; [exact E|]. unfold Q. split; [apply exp_pos|]. unfold Rdiv. rewrite ln_mult, ln_exp, ln_Rinv by (try apply exp_pos; try apply Rinv_0_lt_compat; auto). exact X.
    - intros i r _ Hi (R0 & HQ). cbn [Nat.add] in Hi. destruct (HC i Hi) as (C1 & C2). set (th := angle npoints i) in *. set (th' := angle npoints (S i)) in *. pose proof (HP th) as T0. pose proof (HP th') as T1.
      assert (ER : r = rho th * exp (ln (r / rho th))) by (rewrite exp_ln by (apply Rdiv_lt_0_compat; auto); field; lra). set (d := ln (r / rho th)) in *.
      assert (984 / 1000 <= exp d). { apply Rle_trans with (exp (- lo)); [now apply near_exp|apply exp_le; lra]. } assert (exp d <= 11 / 10). { apply Rle_trans with (exp hi); [apply exp_le; lra|now apply far_exp]. }
      unfold P. rewrite ER. split; nra. }
  destruct (region_all Fq sse c ndata alpha width npoints rtol Q Ha Hs F) as (pts & E & L & H). exists pts. split; [exact E|]. split; [exact L|]. intros i Hi. destruct (H i Hi) as (th & r & A1 & A2 & A3 & A4).
  exists th, r. split; [exact A1|]. split; [exact A2|]. split; [exact A3|]. apply Rabs_le. fold hi. lra.
Qed.

(** ** Elliptical regions *)
(** S is a paraboloid with the quadratic form (a, b; b, d) in units of S(c) *)
Definition elliptical (sse : R * R -> R) (c : R * R) (a b d : R) : Prop :=
  0 < a /\ 0 < a * d - b * b /\ forall p, sse p = sse c * (1 + a * (fst p - fst c) ^ 2 + 2 * b * (fst p - fst c) * (snd p - snd c) + d * (snd p - snd c) ^ 2).
(** the form in the direction th *)
Definition form (a b d th : R) : R := a * cos th ^ 2 + 2 * b * cos th * sin th + d * sin th ^ 2.
Lemma form_pos a b d th : 0 < a -> 0 < a * d - b * b -> 0 < form a b d th.
Proof.
  intros Ha Hd. unfold form. pose proof (sin2_cos2 th) as SC. unfold Rsqr in SC. set (x := cos th) in *. set (y := sin th) in *.
  apply (Rmult_lt_reg_l a); auto. rewrite Rmult_0_r. replace (a * (a * x ^ 2 + 2 * b * x * y + d * y ^ 2)) with ((a * x + b * y) ^ 2 + (a * d - b * b) * y ^ 2) by ring.
  destruct (Req_dec y 0) as [Y|Y]; [|assert (0 < y ^ 2) by nra; pose proof (pow2_ge_0 (a * x + b * y)); nra]. rewrite Y in *. assert (x <> 0) by (intros X; rewrite X in SC; lra). assert (0 < (a * x) ^ 2) by (assert (a * x <> 0) by (apply Rmult_integral_contrapositive_currified; lra); nra). nra.
Qed.
(** two directions at the distance h; k bounds the eccentricity: k = sqrt K - 1 / sqrt K for the ratio K of the eigenvalues *)
Lemma form_ratio a b d th h k : 0 < a -> 0 < a * d - b * b -> 0 <= k -> (a + d) ^ 2 <= (4 + k ^ 2) * (a * d - b * b) -> Rabs h <= 8 / 100 -> k * Rabs h <= 79 / 100 ->
  form a b d (th + h) <= (156 / 100) ^ 2 * form a b d th.
Proof.
  intros Ha Hd Hk HT Hh Hkh. pose proof (form_pos a b d th Ha Hd) as P. pose proof (form_pos a b d (th + PI / 2) Ha Hd) as P'. unfold form in *. rewrite cos_plus, sin_plus in *. rewrite cos_PI2, sin_PI2 in P'.
  pose proof (sin2_cos2 th) as SC. pose proof (sin2_cos2 h) as SH. unfold Rsqr in SC, SH.
  assert (SG : forall z, 0 < z <= 8 / 100 -> Rabs (sin z) <= z). { intros z Hz. pose proof PI2_3_2. pose proof PI_RGT_0. assert (0 <= sin z) by (apply sin_ge_0; lra). rewrite Rabs_pos_eq by auto. left. apply sin_lt_x. lra. }
  assert (SB : Rabs (sin h) <= Rabs h). { destruct (Rtotal_order h 0) as [C|[C|C]]; [|rewrite C, sin_0, Rabs_R0; lra|].
    - rewrite Rabs_left in Hh by lra. rewrite (Rabs_left h) by lra. replace (sin h) with (- sin (- h)) by (rewrite sin_neg; ring). rewrite Rabs_Ropp. apply SG. lra.
    - rewrite Rabs_right in Hh by lra. rewrite (Rabs_right h) by lra. apply SG. lra. }
  set (x := cos th) in *. set (y := sin th) in *. set (C := cos h) in *. set (S := sin h) in *. set (u := a * x ^ 2 + 2 * b * x * y + d * y ^ 2) in *. set (v := a * y ^ 2 - 2 * b * x * y + d * x ^ 2). set (w := (d - a) * x * y + b * (x * x - y * y)).
  assert (Pv : 0 < v) by (unfold v; lra). clear P'.
  assert (E : a * (x * C - y * S) ^ 2 + 2 * b * (x * C - y * S) * (y * C + x * S) + d * (y * C + x * S) ^ 2 = C ^ 2 * u + 2 * (S * C) * w + S ^ 2 * v) by (unfold u, v, w; ring). rewrite E. clear E.
  assert (ET : u + v = a + d) by (transitivity ((a + d) * (y * y + x * x)); [unfold u, v; ring|rewrite SC; ring]). assert (ED : u * v - w * w = a * d - b * b) by (transitivity ((a * d - b * b) * (y * y + x * x) ^ 2); [unfold u, v, w; ring|rewrite SC; ring]).
  rewrite <- ET, <- ED in HT. clearbody u v w. clear ET ED SC x y.
  assert (W : (2 * w) ^ 2 <= (k * u) ^ 2). { pose proof (pow2_ge_0 (2 * v - (2 + k ^ 2) * u)) as SQ. assert (K4 : 0 < 4 + k ^ 2) by nra. apply (Rmult_le_reg_l (4 + k ^ 2)); auto. nra. }
  assert (KU : 0 <= k * u) by nra. assert (W1 : Rabs (2 * w) <= k * u). { rewrite <- (Rabs_pos_eq (k * u)) by auto. apply Rsqr_le_abs_0. unfold Rsqr. nra. }
  assert (V1 : v <= (2 + k ^ 2) * u). { pose proof (pow2_ge_0 w). assert ((u + v) ^ 2 <= (4 + k ^ 2) * (u * v)) by nra. destruct (Rle_dec v ((2 + k ^ 2) * u)) as [|N]; auto. exfalso. apply Rnot_le_lt in N. assert (0 <= v * (v - (2 + k ^ 2) * u)) by (apply Rmult_le_pos; lra). nra. }
  set (s := Rabs S) in *. set (hh := Rabs h) in *. assert (S0 : 0 <= s) by apply Rabs_pos. assert (SS : S ^ 2 = s ^ 2) by (unfold s; now rewrite pow2_abs).
  assert (CB : Rabs C <= 1) by (apply Rabs_le; nra). assert (CR : 2 * (S * C) * w <= s * (k * u)).
  { replace (2 * (S * C) * w) with (S * C * (2 * w)) by ring. eapply Rle_trans; [apply Rle_abs|]. rewrite !Rabs_mult. fold s. pose proof (Rabs_pos C). pose proof (Rabs_pos (2 * w)). rewrite Rabs_mult in W1. assert (s * Rabs C <= s * 1) by (apply Rmult_le_compat_l; lra). apply Rle_trans with (s * 1 * (Rabs 2 * Rabs w)); [apply Rmult_le_compat_r; [rewrite <- Rabs_mult; apply Rabs_pos|lra]|]. rewrite Rmult_1_r. now apply Rmult_le_compat_l. }
  assert (CC : C ^ 2 = 1 - s ^ 2) by (rewrite <- SS; nra). rewrite CC, SS. assert (KS : s * k <= 79 / 100) by (assert (s * k <= hh * k) by (apply Rmult_le_compat_r; lra); lra). assert (S8 : s <= 8 / 100) by lra. assert (K0 : 0 <= s * k) by (apply Rmult_le_pos; lra).
  assert (V2 : s ^ 2 * v <= s ^ 2 * ((2 + k ^ 2) * u)) by (apply Rmult_le_compat_l; [apply pow2_ge_0|auto]).
  assert (T1 : s ^ 2 * ((2 + k ^ 2) * u) - s ^ 2 * u = (s ^ 2 + (s * k) ^ 2) * u) by ring. assert (T2 : s * (k * u) = s * k * u) by ring.
  assert (T3 : s ^ 2 + (s * k) ^ 2 + s * k <= 14336 / 10000) by (clear - S0 S8 K0 KS; assert (s ^ 2 <= 64 / 10000) by nra; set (z := s * k) in *; assert (z ^ 2 <= 6241 / 10000) by nra; lra). assert ((s ^ 2 + (s * k) ^ 2 + s * k) * u <= 14336 / 10000 * u) by (apply Rmult_le_compat_r; lra). nra.
Qed.
Lemma angle_S n i : angle n (S i) = angle n i + 2 * PI / INR (n - 1).
Proof. unfold angle. rewrite S_INR. ring. Qed.
(** an elliptical S: at least 101 directions, an eccentricity k small enough for their number (with 200 points, ratios of the axes up to 25), and
    a guess between 0.63 and 100 times the radius in the first direction.  Every point is found, on its ray, and S has the boundary value there up
    to the tolerances *)
Theorem C99_ellipse Fq sse c ndata alpha width npoints rtol a b d k : args_ok ndata alpha npoints rtol -> rtol <= 1 / 100 -> eps <= Rabs (sse c) -> elliptical sse c a b d ->
  let B := bound Fq ndata alpha in 1 < B -> B <= 100 * (B - 1) -> (101 <= npoints)%nat -> 0 <= k -> (a + d) ^ 2 <= (4 + k ^ 2) * (a * d - b * b) -> k * (2 * PI) <= 79 / 100 * INR (npoints - 1) ->
  63 / 100 * sqrt ((B - 1) / a) <= guess0 width (fst c) <= 100 * sqrt ((B - 1) / a) ->
  exists pts, confidence_region Fq sse 2 c ndata alpha width npoints rtol = Ok pts /\ length pts = npoints /\ forall i, (i < npoints)%nat -> exists th r, nth_error (angles npoints) i = Some th /\ nth_error pts i = Some (Some (point c th r)) /\ 0 < r /\
    exists e, Rabs e <= Rmax (14 / 10 ^ 5 * (B / (B - 1))) (10 * rtol) /\ sse (point c th r) - sse c = (sse c * B - sse c) * exp e.
Proof.
  intros Ha Hrt Hs (A0 & D0 & HS) B B1 B2 HN Hk HT HK HG. set (rho := fun th => sqrt ((B - 1) / form a b d th)). pose proof (fun th => form_pos a b d th A0 D0) as FP.
  assert (RP : forall th, 0 < rho th) by (intros th; apply sqrt_lt_R0, Rdiv_lt_0_compat; [lra|apply FP]). assert (R2 : forall th, rho th ^ 2 = (B - 1) / form a b d th) by (intros th; apply pow2_sqrt; left; apply Rdiv_lt_0_compat; [lra|apply FP]).
  assert (HS' : forall th r, 0 < r -> sse (point c th r) = sse c * (1 + (B - 1) * (r / rho th) ^ 2)).
  { intros th r Hr. rewrite HS. replace ((r / rho th) ^ 2) with (r ^ 2 / rho th ^ 2) by (field; pose proof (RP th); lra). rewrite R2. unfold point. cbn [fst snd]. pose proof (FP th). replace ((B - 1) * (r ^ 2 / ((B - 1) / form a b d th))) with (r ^ 2 * form a b d th) by (field; split; lra). unfold form. ring. }
  set (h := 2 * PI / INR (npoints - 1)). assert (N100 : 100 <= INR (npoints - 1)). { replace 100 with (INR 100) by (rewrite INR_IZR_INZ; reflexivity). apply le_INR. lia. }
  pose proof PI_RGT_0 as P0. pose proof PI_4 as P4. assert (H0 : 0 < h <= 8 / 100). { unfold h. split; [apply Rdiv_lt_0_compat; lra|]. apply (Rmult_le_reg_r (INR (npoints - 1))); [lra|]. replace (2 * PI / INR (npoints - 1) * INR (npoints - 1)) with (2 * PI) by (field; lra). lra. }
  assert (KH : k * h <= 79 / 100). { apply (Rmult_le_reg_r (INR (npoints - 1))); [lra|]. unfold h. replace (k * (2 * PI / INR (npoints - 1)) * INR (npoints - 1)) with (k * (2 * PI)) by (field; lra). lra. }
  assert (RC : forall t t', form a b d t <= (156 / 100) ^ 2 * form a b d t' -> rho t' <= 156 / 100 * rho t).
  { intros t t' H. assert (Q : rho t' ^ 2 <= (156 / 100 * rho t) ^ 2). { rewrite Rpow_mult_distr, !R2. pose proof (FP t) as F1. pose proof (FP t') as F2. apply (Rmult_le_reg_r (form a b d t * form a b d t')); [now apply Rmult_lt_0_compat|].
      replace ((B - 1) / form a b d t' * (form a b d t * form a b d t')) with ((B - 1) * form a b d t) by (field; lra). replace ((156 / 100) ^ 2 * ((B - 1) / form a b d t) * (form a b d t * form a b d t')) with ((B - 1) * ((156 / 100) ^ 2 * form a b d t')) by (field; lra). apply Rmult_le_compat_l; lra. }
    pose proof (RP t). pose proof (RP t'). apply Rnot_lt_le. intros C. assert (0 <= (rho t' - 156 / 100 * rho t) * (rho t' + 156 / 100 * rho t)) by (apply Rmult_le_pos; lra). nra. }
  destruct (C99_star Fq sse c ndata alpha width npoints rtol rho) as (pts & E & L & H); auto.
  - intros i Hi. rewrite angle_S. fold h. set (th := angle npoints i). split.
    + apply RC. replace th with (th + h + - h) at 1 by ring. apply (form_ratio a b d (th + h) (- h) k); auto; rewrite Rabs_Ropp, Rabs_pos_eq by lra; lra.
    + assert (rho th <= 156 / 100 * rho (th + h)); [|pose proof (RP (th + h)); lra]. apply RC. apply (form_ratio a b d th h k); auto; rewrite Rabs_pos_eq by lra; lra.
  - assert (E0 : form a b d 0 = a) by (unfold form; rewrite cos_0, sin_0; ring). unfold rho. rewrite E0. exact HG.
  - exists pts. split; [exact E|]. split; [exact L|]. intros i Hi. destruct (H i Hi) as (th & r & C1 & C2 & C3 & C4). exists th, r. split; [exact C1|]. split; [exact C2|]. split; [exact C3|].
    fold B in C4. exists (2 * ln (r / rho th)). pose proof (RP th) as RT. assert (PR : 0 < r / rho th) by (apply Rdiv_lt_0_compat; auto). split.
    + rewrite Rabs_mult, (Rabs_pos_eq 2) by lra. apply Rle_trans with (2 * Rmax (7 / 10 ^ 5 * (B / (B - 1))) (5 * rtol)); [lra|]. destruct (Rle_dec (7 / 10 ^ 5 * (B / (B - 1))) (5 * rtol)) as [C|C]; [rewrite Rmax_right by lra; eapply Rle_trans; [|apply Rmax_r]; lra|rewrite Rmax_left by lra; eapply Rle_trans; [|apply Rmax_l]; lra].
    + rewrite HS' by auto. replace (2 * ln (r / rho th)) with (ln (r / rho th) + ln (r / rho th)) by ring. rewrite exp_plus, exp_ln by auto. ring.
Qed.
(** an ellipse with its axes oblique; guess 1, 200 directions *)
Example C99_ellipse_case : let sse := fun p : R * R => 3 * (1 + 1 * (fst p - 1) ^ 2 + 2 * (1 / 2) * (fst p - 1) * (snd p - 2) + 4 * (snd p - 2) ^ 2) in
  exists pts, confidence_region (fun _ _ => 4) sse 2 (1, 2) 10 (1 / 20) 2 200 (1 / 100) = Ok pts /\ length pts = 200%nat /\
  forall i, (i < 200)%nat -> exists p, nth_error pts i = Some (Some p) /\ 57 / 10 <= sse p <= 64 / 10.
Proof.
  intros sse. assert (SC : sse (1, 2) = 3) by (unfold sse; cbn; field). assert (EB : bound (fun _ _ => 4) 10 (1 / 20) = 2) by (unfold bound; cbn; field). pose proof PI_4.
  assert (N : INR (200 - 1) = 199) by (rewrite INR_IZR_INZ; reflexivity).
  destruct (C99_ellipse (fun _ _ => 4) sse (1, 2) 10 (1 / 20) 2 200 (1 / 100) 1 (1 / 2) 4 2) as (pts & E & L & P).
  - repeat split; try lra; try lia.
  - lra.
  - rewrite SC, Rabs_pos_eq by lra. pose proof eps_lt. lra.
  - split; [lra|]. split; [lra|]. intros p. rewrite SC. reflexivity.
  - rewrite EB. lra.
  - rewrite EB. lra.
  - lia.
  - lra.
  - lra.
  - rewrite N. lra.
  - rewrite EB. unfold guess0. rewrite Rltb_t by lra. replace ((2 - 1) / 1) with 1 by lra. replace (2 / 2) with 1 by lra. rewrite sqrt_1, Rabs_R1. lra.
  - exists pts. split; [exact E|]. split; [exact L|]. intros i Hi. destruct (P i Hi) as (th & r & _ & A & _ & e & Be & Ee). exists (point (1, 2) th r). split; [exact A|]. rewrite EB in Be, Ee. rewrite SC in Ee. rewrite Rmax_right in Be by lra. apply rabs_between in Be.
    pose proof (exp_1p e). assert (exp e <= 112 / 100). { apply Rle_trans with (exp (1 / 10)); [apply exp_le; lra|apply exp_upper; unfold q5; lra]. } lra.
Qed.
Print Assumptions C99_ray_general. Print Assumptions C99_ellipse.
