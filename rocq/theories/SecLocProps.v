(** C113: local convergence of the secant method when the slopes near the root vary by less than a factor of two. *)
From Coq Require Import Reals Lra Lia List Bool Arith Psatz.
From Verif Require Import Prelude RootsModel RootsProofs RootsConvProps.
Import ListNotations.
Open Scope R_scope.

Lemma rabs_between x y : Rabs x <= y -> - y <= x <= y.
Proof. intros H. pose proof (Rle_abs x). pose proof (Rle_abs (- x)). rewrite Rabs_Ropp in *. lra. Qed.
(** all slopes of f on the interval of half-width dl about r lie between m and M *)
Definition slopes (f : R -> R) (r dl m M : R) : Prop :=
  forall u v, r - dl <= u -> u < v -> v <= r + dl -> m * (v - u) <= f v - f u <= M * (v - u).
Lemma slope_ex f r dl m M u v : slopes f r dl m M -> Rabs (u - r) <= dl -> Rabs (v - r) <= dl -> u <> v ->
  exists s, m <= s <= M /\ f v - f u = s * (v - u).
Proof.
  intros S Hu Hv N. apply rabs_between in Hu. apply rabs_between in Hv. exists ((f v - f u) / (v - u)). split; [|field; lra].
  destruct (Rtotal_order u v) as [L|[L|L]]; [|lra|].
  - destruct (S u v) as (A & B); try lra. split; apply (Rmult_le_reg_r (v - u)); try lra; replace ((f v - f u) / (v - u) * (v - u)) with (f v - f u) by (field; lra); lra.
  - destruct (S v u) as (A & B); try lra. replace ((f v - f u) / (v - u)) with ((f u - f v) / (u - v)) by (field; lra).
    split; apply (Rmult_le_reg_r (u - v)); try lra; replace ((f u - f v) / (u - v) * (u - v)) with (f u - f v) by (field; lra); lra.
Qed.
Lemma slope_root f r dl m M x : slopes f r dl m M -> f r = 0 -> 0 < m <= M -> Rabs (x - r) <= dl -> exists s, m <= s <= M /\ f x = s * (x - r).
Proof.
  intros S Er Hm Hx. destruct (Req_dec r x) as [<- |N]; [exists m; split; [lra|rewrite Er; ring]|].
  assert (0 <= dl) by (pose proof (Rabs_pos (x - r)); lra).
  destruct (slope_ex f r dl m M r x S) as (s & A & B); auto; [rewrite Rminus_eq_0, Rabs_R0; auto|]. exists s. split; auto. rewrite Er in B. lra.
Qed.
Lemma secant_local f r dl m M tolx tolf s n : 0 < tolx -> 0 <= tolf -> f r = 0 -> 0 < m <= M -> M < 2 * m -> slopes f r dl m M -> 0 < s <= tolx -> eps * Rmax (M * dl) 1 < m * s ->
  forall k x0 x1 x2 f2 tr, Rabs (x0 - r) <= dl -> Rabs (x1 - r) <= dl -> s <= Rabs (x1 - x0) -> (1 <= n)%nat -> Rabs (x1 - r) * (M / m - 1) ^ (n - 1) <= tolx * (m / M) ->
  exists tr' q z, secant_loop f tolx tolf n k x0 (f x0) x1 (f x1) x2 f2 tr = (tr', Ok q) /\ rr_success q = true /\ rr_x q = Fin z /\ rr_f q = Fin (f z) /\ Rabs (z - r) <= dl /\
    (Rabs (f z) <= tolf \/ Rabs (z - r) <= (M / m - 1) * (tolx * (M / m))).
Proof.
  intros Ht Hf Er Hm HM SL Hs HE. assert (EP : 0 < eps) by (unfold eps; apply Rinv_0_lt_compat, pow_lt; lra).
  set (q := M / m - 1). assert (Q : 0 <= q < 1).
  { unfold q. assert (1 <= M / m < 2); [|lra]. split; [|]; [apply (Rmult_le_reg_r m)|apply (Rmult_lt_reg_r m)]; try lra; replace (M / m * m) with M by (field; lra); lra. }
  induction n as [|n IH]; intros k x0 x1 x2 f2 tr H0 H1 HS Hn HQ; [lia|]. clear Hn. cbn [Nat.sub] in HQ. rewrite Nat.sub_0_r in HQ.
  assert (N : x0 <> x1) by (intros ->; rewrite Rminus_eq_0, Rabs_R0 in HS; lra).
  destruct (slope_ex f r dl m M x0 x1 SL H0 H1 N) as (c & Hc & Ec). destruct (slope_root f r dl m M x0 SL Er Hm H0) as (a0 & Ha0 & E0). destruct (slope_root f r dl m M x1 SL Er Hm H1) as (a1 & Ha1 & E1).
  assert (F0 : Rabs (f x0) <= M * dl). { rewrite E0, Rabs_mult, (Rabs_pos_eq a0) by lra. pose proof (Rabs_pos (x0 - r)). apply Rmult_le_compat; lra. }
  assert (F1 : Rabs (f x1) <= M * dl). { rewrite E1, Rabs_mult, (Rabs_pos_eq a1) by lra. pose proof (Rabs_pos (x1 - r)). apply Rmult_le_compat; lra. }
  cbn [secant_loop]. destruct (Rleb (Rabs (f x1 - f x0)) _) eqn:Z.
  { exfalso. apply Rleb_true in Z. rewrite Ec, Rabs_mult, (Rabs_pos_eq c) in Z by lra.
    assert (B1 : Rmax (Rmax (Rabs (f x0)) (Rabs (f x1))) 1 <= Rmax (M * dl) 1). { apply Rmax_lub; [|apply Rmax_r]. eapply Rle_trans; [|apply Rmax_l]. apply Rmax_lub; auto. }
    pose proof (Rmult_le_compat_l eps _ _ (Rlt_le _ _ EP) B1). assert (m * s <= c * Rabs (x1 - x0)) by (apply Rmult_le_compat; lra). lra. }
  cbv zeta. rewrite Ec. replace (x1 - f x1 * (x1 - x0) / (c * (x1 - x0))) with (x1 - a1 / c * (x1 - r)) by (rewrite E1; field; split; lra).
  set (z := x1 - a1 / c * (x1 - r)). set (rt := a1 / c). assert (RT : m / M <= rt <= M / m).
  { unfold rt, Rdiv. assert (IM : 0 < / M) by (apply Rinv_0_lt_compat; lra). assert (IC : 0 < / c) by (apply Rinv_0_lt_compat; lra). split.
    - apply Rmult_le_compat; try lra. apply Rinv_le_contravar; lra.
    - apply Rmult_le_compat; try lra. apply Rinv_le_contravar; lra. }
  assert (MM : 1 - q <= m / M).
  { unfold q. apply (Rmult_le_reg_r (M * m)); [apply Rmult_lt_0_compat; lra|]. replace ((1 - (M / m - 1)) * (M * m)) with (2 * M * m - M * M) by (field; lra). replace (m / M * (M * m)) with (m * m) by (field; lra). nra. }
  assert (EZ : Rabs (z - r) <= q * Rabs (x1 - r)).
  { replace (z - r) with ((1 - rt) * (x1 - r)) by (unfold z, rt; ring). rewrite Rabs_mult. apply Rmult_le_compat_r; [apply Rabs_pos|]. apply Rabs_le. unfold q in *. lra. }
  assert (DZ : Rabs (z - x1) = rt * Rabs (x1 - r)).
  { replace (z - x1) with (- (rt * (x1 - r))) by (unfold z, rt; ring). rewrite Rabs_Ropp, Rabs_mult, (Rabs_pos_eq rt); [reflexivity|]. assert (0 < m / M) by (apply Rdiv_lt_0_compat; lra). lra. }
  pose proof (Rabs_pos (x1 - r)) as P1. assert (ZD : Rabs (z - r) <= dl) by (assert (q * Rabs (x1 - r) <= 1 * Rabs (x1 - r)) by (apply Rmult_le_compat_r; lra); lra).
  assert (mM : 0 < m / M) by (apply Rdiv_lt_0_compat; lra). assert (Mm : 0 < M / m) by (apply Rdiv_lt_0_compat; lra). assert (MI : m / M * (M / m) = 1) by (field; lra).
  destruct (Rleb (Rabs (z - x1)) tolx) eqn:ET.
  { apply Rleb_true in ET. eexists _, _, z. split; [reflexivity|]. cbn. repeat (split; [reflexivity|]). split; [exact ZD|]. right.
    eapply Rle_trans; [exact EZ|]. apply Rmult_le_compat_l; [lra|]. rewrite DZ in ET. assert (m / M * Rabs (x1 - r) <= tolx) by (assert (m / M * Rabs (x1 - r) <= rt * Rabs (x1 - r)) by (apply Rmult_le_compat_r; lra); lra).
    apply (Rmult_le_reg_l (m / M)); auto. replace (m / M * (tolx * (M / m))) with (tolx * (m / M * (M / m))) by ring. rewrite MI. lra. }
  apply Rleb_false in ET. destruct (Rleb (Rabs (f z)) tolf) eqn:EF.
  { apply Rleb_true in EF. eexists _, _, z. split; [reflexivity|]. cbn. repeat (split; [reflexivity|]). split; [exact ZD|]. now left. }
  destruct n as [|n].
  { exfalso. cbn [pow] in HQ. rewrite DZ in ET. assert (rt * Rabs (x1 - r) <= M / m * (tolx * (m / M))) by (apply Rmult_le_compat; lra). replace (M / m * (tolx * (m / M))) with (tolx * (m / M * (M / m))) in H by ring. rewrite MI in H. lra. }
  destruct (IH (k + 1)%nat x1 z (Fin z) (Fin (f z)) (tr ++ [z])) as (tr' & q' & w & A & B & C & D & F & G); auto; [lra|lia| |exists tr', q', w; repeat (split; [assumption|]); assumption].
  cbn [Nat.sub]. rewrite Nat.sub_0_r. cbn [pow] in HQ. eapply Rle_trans; [|exact HQ]. assert (0 <= q ^ n) by (apply pow_le; lra).
  replace (Rabs (x1 - r) * (q * q ^ n)) with (q * Rabs (x1 - r) * q ^ n) by ring. now apply Rmult_le_compat_r.
Qed.

(** Two starting points within dl of the root, on any side of it, slopes between m and M < 2 m there: success
    after at most n iterations, where (M/m - 1)^(n-1) dl is below tolx m/M, and an error bounded by the tolerances. *)
Theorem C113_secant_local f r dl m M x0 x1 tolx tolf maxiter : 0 < tolx -> 0 <= tolf -> f r = 0 -> 0 < m <= M -> M < 2 * m -> slopes f r dl m M ->
  Rabs (x0 - r) <= dl -> Rabs (x1 - r) <= dl -> x0 <> x1 -> eps * Rmax (M * dl) 1 < m * Rmin tolx (Rabs (x1 - x0)) -> (1 <= maxiter)%nat -> dl * (M / m - 1) ^ (maxiter - 1) <= tolx * (m / M) ->
  exists tr q z, root_secant f x0 x1 tolx tolf maxiter = (tr, Ok q) /\ rr_success q = true /\ rr_x q = Fin z /\ rr_f q = Fin (f z) /\ Rabs (z - r) <= dl /\
    Rabs (z - r) <= Rmax (tolf / m) ((M / m - 1) * (tolx * (M / m))).
Proof.
  intros Ht Hf Er Hm HM SL H0 H1 N HE Hn HQ.
  assert (tf : forall z T, Rabs (z - r) <= dl -> Rabs (f z) <= tolf -> Rabs (z - r) <= Rmax (tolf / m) T).
  { intros z T Hz Fz. eapply Rle_trans; [|apply Rmax_l]. destruct (slope_root f r dl m M z SL Er Hm Hz) as (a & Ha & E). rewrite E, Rabs_mult, (Rabs_pos_eq a) in Fz by lra.
    apply (Rmult_le_reg_l m); [lra|]. replace (m * (tolf / m)) with tolf by (field; lra). assert (m * Rabs (z - r) <= a * Rabs (z - r)) by (apply Rmult_le_compat_r; [apply Rabs_pos|lra]). lra. }
  unfold root_secant. destruct (Rleb (Rabs (f x0)) tolf) eqn:E0.
  { apply Rleb_true in E0. eexists _, _, x0. split; [reflexivity|]. cbn. repeat (split; [reflexivity|]). split; [auto|now apply tf]. }
  cbv zeta. destruct (Rleb (Rabs (f x1)) tolf) eqn:E1.
  { apply Rleb_true in E1. eexists _, _, x1. split; [reflexivity|]. cbn. repeat (split; [reflexivity|]). split; [auto|now apply tf]. }
  assert (Mm : 1 <= M / m < 2). { split; [apply (Rmult_le_reg_r m)|apply (Rmult_lt_reg_r m)]; try lra; replace (M / m * m) with M by (field; lra); lra. }
  destruct (secant_local f r dl m M tolx tolf (Rmin tolx (Rabs (x1 - x0))) maxiter Ht Hf Er Hm HM SL) with (k := 0%nat) (x0 := x0) (x1 := x1) (x2 := NaN) (f2 := NaN) (tr := [x0; x1]) as (tr & q & z & A & B & C & D & F & G); auto.
  - split; [apply Rmin_glb_lt; [auto|apply Rabs_pos_lt; lra]|apply Rmin_l].
  - apply Rmin_r.
  - eapply Rle_trans; [|exact HQ]. apply Rmult_le_compat_r; [apply pow_le; lra|auto].
  - exists tr, q, z. repeat (split; [assumption|]). destruct G as [G|G]; [now apply tf|]. eapply Rle_trans; [exact G|apply Rmax_r].
Qed.
(** cube root of two from 1.2 and 1.3: slopes between 4.3 and 5.1 *)
Example C113_local_case : exists tr q z, root_secant (fun x => x * x * x - 2) (13 / 10) (12 / 10) (1 / 1000) 0 10 = (tr, Ok q) /\ rr_success q = true /\ rr_x q = Fin z /\ Rabs (z * z * z - 2) <= 1 / 100.
Proof.
  set (r := Rpower 2 (1 / 3)). assert (Er : r * r * r = 2).
  { unfold r. rewrite <- !Rpower_plus. replace (1 / 3 + 1 / 3 + 1 / 3) with 1 by field. apply Rpower_1. lra. }
  assert (Pr : 0 < r) by apply exp_pos. assert (Br : 125 / 100 < r < 127 / 100) by (split; apply Rnot_le_lt; intros C; assert (0 <= r) by lra; nra).
  assert (SL : slopes (fun x => x * x * x - 2) r (8 / 100) 4 (55 / 10)).
  { intros u v Hu Huv Hv. replace (v * v * v - 2 - (u * u * u - 2)) with ((v * v + u * v + u * u) * (v - u)) by ring. assert (117 / 100 <= u) by lra. assert (v <= 135 / 100) by lra. split; apply Rmult_le_compat_r; nra. }
  assert (EU : eps < 1 / 10 ^ 6) by (unfold eps; replace (1 / 10 ^ 6) with (/ 10 ^ 6) by field; apply Rinv_lt_contravar; [apply Rmult_lt_0_compat; apply pow_lt|]; lra). assert (EP : 0 < eps) by (unfold eps; apply Rinv_0_lt_compat, pow_lt; lra).
  destruct (C113_secant_local (fun x => x * x * x - 2) r (8 / 100) 4 (55 / 10) (13 / 10) (12 / 10) (1 / 1000) 0 10) as (tr & q & z & A & B & C & D & F & G); auto; try lra; try lia.
  - apply Rabs_le. lra.
  - apply Rabs_le. lra.
  - rewrite Rmax_right, Rmin_left by (try rewrite Rabs_left; lra). lra.
  - cbn [Nat.sub pow]. lra.
  - exists tr, q, z. repeat (split; [assumption|]). rewrite Rmax_right in G by lra. destruct (slope_root _ _ _ _ _ z SL) as (s & Hs & Es); [rewrite Er; lra|lra|lra|]. cbn in Es. rewrite Es, Rabs_mult, (Rabs_pos_eq s) by lra.
    pose proof (Rabs_pos (z - r)). nra.
Qed.
Print Assumptions C113_secant_local.
