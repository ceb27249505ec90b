(** C105: the two confidence regions of a fit agree when the sum of squares is quadratic. *)
From Coq Require Import Reals Lra Lia List Bool Arith Psatz FunctionalExtensionality.
From Coquelicot Require Import Coquelicot.
From Verif Require Import Prelude HmtProps NumBounds RootsModel CopoModel CopoDataModel CopoDataProps RootsProofs RootsConvProps JcrModel JcrProps SecLocProps JcrEllProps FitModel.
Import ListNotations.
Open Scope R_scope.

(** S quadratic with its minimum at r: the reported covariance puts the boundary of the linear region where S has the value of the exact one; the
    search for the exact region, started as in fit_copo_data from the half-width of the first confidence interval, finds this boundary in every
    direction.  t and F are the quantiles; for alpha = 0.05 the ratio t / sqrt (2 F) lies between 0.636 (three data) and 0.80 *)
Theorem C105_quadratic inv Fq tq sse r ndata alpha npoints rtol a b d k : inv_spec inv -> args_ok ndata alpha npoints rtol -> rtol <= 1 / 100 -> eps <= sse r -> elliptical sse r a b d ->
  let B := bound Fq ndata alpha in B <= 100 * (B - 1) -> (101 <= npoints)%nat -> 0 <= k -> (a + d) ^ 2 <= (4 + k ^ 2) * (a * d - b * b) -> k * (2 * PI) <= 79 / 100 * INR (npoints - 1) ->
  let t := tq (1 - alpha / 2) (ndata - 2)%nat in let F := Fq (1 - alpha) (ndata - 2)%nat in 0 < F -> 63 / 100 * sqrt (2 * F) <= t -> t * sqrt (a * d) <= 100 * sqrt (2 * F * (a * d - b * b)) ->
  exists C, fit_cov inv sse r (sse r) ndata = Ok (Some C) /\ (forall p, quad2 (m_at C) r p = 2 * F <-> sse p = sse r * B) /\
  exists pts, confidence_region Fq sse 2 r ndata alpha (width_of (fl_times (np_sqrt (m_at C 0 0)) t)) npoints rtol = Ok pts /\ length pts = npoints /\
    forall i, (i < npoints)%nat -> exists th q, nth_error (angles npoints) i = Some th /\ nth_error pts i = Some (Some (point r th q)) /\ 0 < q /\
      exists e, Rabs e <= Rmax (14 / 10 ^ 5 * (B / (B - 1))) (10 * rtol) /\ quad2 (m_at C) r (point r th q) = 2 * F * exp e.
Proof.
  intros HI Ha Hrt Hs HE B HB HN Hk HT HK t F HF HtF HtU. pose proof HE as (A0 & D0 & HS). pose proof eps0 as EP. pose proof Ha as (_ & Hnd & _). assert (S0 : 0 < sse r) by lra. destruct r as (o1, o2).
  set (S := sse (o1, o2)) in *. set (nu := INR (ndata - 2)). assert (NU : 0 < nu) by (apply lt_0_INR; lia). assert (NV : INR ndata - 2 = nu) by (unfold nu; rewrite minus_INR by lia; cbn; ring).
  destruct (C76_covariance inv S (S * a) (S * b) (S * d) o1 o2 ndata HI) as (C & EC & EM); [lia| |].
  { replace (S * a * (S * d) - S * b * (S * b)) with (S * S * (a * d - b * b)) by ring. apply Rgt_not_eq, Rmult_lt_0_compat; [now apply Rmult_lt_0_compat|exact D0]. }
  match type of EC with fit_cov _ ?g _ _ _ = _ => assert (ES : sse = g) by (extensionality p; rewrite HS; destruct p as (u, v); cbn [fst snd]; fold S; ring) end. rewrite <- ES in EC. cbv beta iota in EC. replace (S + S * a * (o1 - o1) ^ 2 + 2 * (S * b) * (o1 - o1) * (o2 - o2) + S * d * (o2 - o2) ^ 2) with S in EC by ring. exists C. split; [exact EC|].
  destruct C as (((c00, c01), c10), c11). cbn [mmul] in EM. rewrite NV in EM. injection EM as M1 M2 M3 M4. set (dl := a * d - b * b) in *.
  assert (W : forall x y, S * x = y -> x = y / S) by (intros x y H; rewrite <- H; field; lra).
  assert (N1 : a * c00 + b * c10 = / nu) by (replace (a * c00 + b * c10) with ((S * a * c00 + S * b * c10) / S) by (field; lra); rewrite M1; field; lra).
  assert (N3 : b * c00 + d * c10 = 0) by (replace (b * c00 + d * c10) with ((S * b * c00 + S * d * c10) / S) by (field; lra); rewrite M3; field; lra).
  assert (N2 : a * c01 + b * c11 = 0) by (replace (a * c01 + b * c11) with ((S * a * c01 + S * b * c11) / S) by (field; lra); rewrite M2; field; lra).
  assert (N4 : b * c01 + d * c11 = / nu) by (replace (b * c01 + d * c11) with ((S * b * c01 + S * d * c11) / S) by (field; lra); rewrite M4; field; lra).
  assert (C00 : c00 = d / (nu * dl)). { apply (Rmult_eq_reg_r dl); [|lra]. replace (d / (nu * dl) * dl) with (d * / nu) by (field; lra). rewrite <- N1. transitivity (d * (a * c00 + b * c10) - b * (b * c00 + d * c10)); [unfold dl; ring|rewrite N3; ring]. }
  assert (C01 : c01 = - b / (nu * dl)). { apply (Rmult_eq_reg_r dl); [|lra]. replace (- b / (nu * dl) * dl) with (- b * / nu) by (field; lra). rewrite <- N4. transitivity (d * (a * c01 + b * c11) - b * (b * c01 + d * c11)); [unfold dl; ring|rewrite N2; ring]. }
  assert (C11 : c11 = a / (nu * dl)). { apply (Rmult_eq_reg_r dl); [|lra]. replace (a / (nu * dl) * dl) with (a * / nu) by (field; lra). rewrite <- N4. transitivity (a * (b * c01 + d * c11) - b * (a * c01 + b * c11)); [unfold dl; ring|rewrite N2; ring]. }
  assert (Pd : 0 < d) by (unfold dl in D0; nra). assert (ND : 0 < nu * dl) by (apply Rmult_lt_0_compat; auto).
  assert (BF : B - 1 = 2 * F / nu) by (unfold B, bound; fold nu F; field; lra). assert (B1 : 1 < B) by (assert (0 < 2 * F / nu) by (apply Rdiv_lt_0_compat; lra); lra).
  assert (QD : forall p, quad2 (m_at (c00, c01, c10, c11)) (o1, o2) p = nu * (sse p - S) / S).
  { intros p. rewrite HS. fold S. unfold quad2. cbn [m_at]. rewrite C00, C01, C11. assert (DD : d / (nu * dl) * (a / (nu * dl)) - - b / (nu * dl) * (- b / (nu * dl)) = / (nu * nu * dl)) by (unfold dl in *; field; lra). cbn [fst snd] in *.
    rewrite ?DD. unfold dl in *. field. repeat split; lra. }
  split. { intros p. rewrite QD. unfold Rminus in BF. split; intros H; [|rewrite H; replace B with (1 + 2 * F / nu) by lra; field; lra]. assert (E : sse p - S = S * (2 * F / nu)) by (rewrite <- H; field; lra). replace B with (1 + 2 * F / nu) by lra. lra. }
  assert (PC : 0 < c00) by (rewrite C00; apply Rdiv_lt_0_compat; lra). cbn [m_at]. unfold np_sqrt. rewrite Rltb_f by lra. cbn [fl_times width_of].
  assert (SF : 0 < sqrt (2 * F)) by (apply sqrt_lt_R0; lra). assert (T0 : 0 < t) by lra. assert (SC : 0 < sqrt c00) by (now apply sqrt_lt_R0).
  assert (G0 : guess0 (2 * (sqrt c00 * t)) (fst (o1, o2)) = sqrt c00 * t). { unfold guess0. assert (0 < sqrt c00 * t) by (apply Rmult_lt_0_compat; auto). rewrite Rltb_t by lra. replace (2 * (sqrt c00 * t) / 2) with (sqrt c00 * t) by field. apply Rabs_pos_eq. lra. }
  assert (AN : 0 < a * nu) by (apply Rmult_lt_0_compat; auto). assert (R0 : sqrt ((B - 1) / a) = sqrt (2 * F) * sqrt (/ (a * nu))). { rewrite <- sqrt_mult by (try lra; left; now apply Rinv_0_lt_compat). f_equal. rewrite BF. field. lra. }
  destruct (C99_ellipse Fq sse (o1, o2) ndata alpha (2 * (sqrt c00 * t)) npoints rtol a b d k) as (pts & E & L & P); auto.
  - fold S. rewrite Rabs_pos_eq; lra.
  - rewrite G0. fold B. rewrite R0. split.
    + assert (sqrt (/ (a * nu)) <= sqrt c00). { apply sqrt_le_1_alt. rewrite C00. apply (Rmult_le_reg_r (a * nu * dl)); [now apply Rmult_lt_0_compat|]. replace (/ (a * nu) * (a * nu * dl)) with dl by (field; lra). replace (d / (nu * dl) * (a * nu * dl)) with (a * d) by (field; lra). unfold dl. nra. }
      assert (0 <= sqrt (/ (a * nu))) by apply sqrt_pos. replace (63 / 100 * (sqrt (2 * F) * sqrt (/ (a * nu)))) with (sqrt (/ (a * nu)) * (63 / 100 * sqrt (2 * F))) by ring. apply Rmult_le_compat; lra.
    + assert (AD : 0 < a * nu * dl) by (now apply Rmult_lt_0_compat). assert (AI : 0 < / (a * nu * dl)) by (now apply Rinv_0_lt_compat). set (z := sqrt (/ (a * nu * dl))). assert (Z0 : 0 <= z) by apply sqrt_pos.
      assert (E1 : sqrt c00 = sqrt (a * d) * z). { unfold z. rewrite <- sqrt_mult by (try lra; nra). f_equal. rewrite C00. field. lra. } assert (E2 : sqrt (2 * F) * sqrt (/ (a * nu)) = sqrt (2 * F * dl) * z). { unfold z. rewrite <- !sqrt_mult by (try lra; try nra; left; now apply Rinv_0_lt_compat). f_equal. field. lra. }
      rewrite E1, E2. replace (sqrt (a * d) * z * t) with (t * sqrt (a * d) * z) by ring. replace (100 * (sqrt (2 * F * dl) * z)) with (100 * sqrt (2 * F * dl) * z) by ring. apply Rmult_le_compat_r; auto.
  - exists pts. split; [exact E|]. split; [exact L|]. intros i Hi. destruct (P i Hi) as (th & q & Q1 & Q2 & Q3 & e & Q4 & Q5). exists th, q. split; [exact Q1|]. split; [exact Q2|]. split; [exact Q3|]. exists e. split; [exact Q4|]. rewrite QD. fold S in Q5. fold B in Q5. rewrite Q5. replace B with (1 + 2 * F / nu) by lra. field. lra.
Qed.

Example C105_quadratic_case : let sse := fun p : R * R => 1 + (fst p - 1 / 2) ^ 2 + (fst p - 1 / 2) * (snd p - 2) + 2 * (snd p - 2) ^ 2 in
  exists C pts, fit_cov inv2 sse (1 / 2, 2) 1 10 = Ok (Some C) /\ confidence_region (fun _ _ => 4) sse 2 (1 / 2, 2) 10 (1 / 20) (width_of (fl_times (np_sqrt (m_at C 0 0)) 2)) 101 (1 / 100) = Ok pts /\ length pts = 101%nat /\
  forall i, (i < 101)%nat -> exists p, nth_error pts i = Some (Some p) /\ 7 <= quad2 (m_at C) (1 / 2, 2) p <= 9.
Proof.
  intros sse. pose proof eps_lt as EP. assert (S1 : sse (1 / 2, 2) = 1) by (unfold sse; cbn [fst snd]; ring).
  assert (EB : bound (fun _ _ => 4) 10 (1 / 20) = 2) by (unfold bound; change (10 - 2)%nat with 8%nat; rewrite INR_IZR_INZ; change (Z.of_nat 8) with 8%Z; field).
  destruct (C105_quadratic inv2 (fun _ _ => 4) (fun _ _ => 2) sse (1 / 2, 2) 10 (1 / 20) 101 (1 / 100) 1 (1 / 2) 2 2) as (C & E & _ & pts & E2 & L & P).
  - apply inv2_spec.
  - repeat split; try lia; lra.
  - lra.
  - rewrite S1. lra.
  - repeat split; try lra. intros p. rewrite S1. unfold sse. cbn [fst snd]. field.
  - rewrite EB. lra.
  - lia.
  - lra.
  - lra.
  - change (101 - 1)%nat with 100%nat. replace (INR 100) with 100 by (rewrite INR_IZR_INZ; reflexivity). pose proof PI_4. lra.
  - lra.
  - assert (sqrt (2 * 4) <= 3) by (rewrite <- (sqrt_pow2 3) by lra; apply sqrt_le_1_alt; lra). lra.
  - assert (1 <= sqrt (2 * 4 * (1 * 2 - 1 / 2 * (1 / 2)))) by (rewrite <- sqrt_1 at 1; apply sqrt_le_1_alt; lra). assert (sqrt (1 * 2) <= 2) by (rewrite <- (sqrt_pow2 2) at 2 by lra; apply sqrt_le_1_alt; lra). lra.
  - rewrite S1 in E. exists C, pts. split; [exact E|]. split; [exact E2|]. split; [exact L|]. intros i Hi. destruct (P i Hi) as (th & q & _ & P2 & _ & e & P4 & P5). exists (point (1 / 2, 2) th q). split; [exact P2|]. rewrite P5. rewrite EB in P4. rewrite Rmax_right in P4 by lra. apply Rabs_le_between in P4. assert (X1 : 1 + e <= exp e) by apply exp_ineq1_le. assert (X2 : exp e <= 9 / 8). { apply Rle_trans with (exp (1 / 10)); [apply exp_le; lra|apply exp_upper; unfold q5; lra]. } lra.
Qed.

(** S circular around the fitted values and t / sqrt (2 F) between 1/20 and 1/9: the guess lies where the search stalls, the linear region is right
    and every point of the exact one is inside it, at less than an eighth of the distance *)
Theorem C105_circular_small inv Fq tq sse r ndata alpha npoints rtol a : inv_spec inv -> args_ok ndata alpha npoints rtol -> eps <= sse r -> 0 < a -> (forall p, sse p = sse r * (1 + a * ((fst p - fst r) ^ 2 + (snd p - snd r) ^ 2))) ->
  let B := bound Fq ndata alpha in B <= 1000 * (B - 1) ->
  let t := tq (1 - alpha / 2) (ndata - 2)%nat in let F := Fq (1 - alpha) (ndata - 2)%nat in 0 < F -> sqrt (2 * F) / 20 <= t <= sqrt (2 * F) / 9 ->
  exists C, fit_cov inv sse r (sse r) ndata = Ok (Some C) /\ (forall p, quad2 (m_at C) r p = 2 * F <-> sse p = sse r * B) /\
  exists pts, confidence_region Fq sse 2 r ndata alpha (width_of (fl_times (np_sqrt (m_at C 0 0)) t)) npoints rtol = Ok pts /\ length pts = npoints /\
    forall i, (i < npoints)%nat -> exists p, nth_error pts i = Some (Some p) /\ quad2 (m_at C) r p <= 2 * F / 64.
Proof.
  intros HI Ha Hs A0 HS B HB t F HF HtF. pose proof eps0 as EP. pose proof Ha as (_ & Hnd & _). assert (S0 : 0 < sse r) by lra. destruct r as (o1, o2). cbn [fst snd] in HS.
  set (S := sse (o1, o2)) in *. set (nu := INR (ndata - 2)). assert (NU : 0 < nu) by (apply lt_0_INR; lia). assert (NV : INR ndata - 2 = nu) by (unfold nu; rewrite minus_INR by lia; cbn; ring).
  destruct (C76_covariance inv S (S * a) 0 (S * a) o1 o2 ndata HI) as (C & EC & EM); [lia| |].
  { replace (S * a * (S * a) - 0 * 0) with ((S * a) * (S * a)) by ring. assert (0 < S * a) by (now apply Rmult_lt_0_compat). apply Rgt_not_eq. now apply Rmult_lt_0_compat. }
  match type of EC with fit_cov _ ?g _ _ _ = _ => assert (ES : sse = g) by (extensionality p; rewrite HS; destruct p as (u, v); cbn [fst snd]; ring) end. rewrite <- ES in EC. cbv beta iota in EC. replace (S + S * a * (o1 - o1) ^ 2 + 2 * 0 * (o1 - o1) * (o2 - o2) + S * a * (o2 - o2) ^ 2) with S in EC by ring. exists C. split; [exact EC|].
  destruct C as (((c00, c01), c10), c11). cbn [mmul] in EM. rewrite NV in EM. injection EM as M1 M2 M3 M4. assert (SA : 0 < S * a) by (now apply Rmult_lt_0_compat).
  assert (C00 : c00 = / (a * nu)). { apply (Rmult_eq_reg_l (S * a)); [|lra]. transitivity (S / nu); [lra|]. field. lra. }
  assert (C01 : c01 = 0). { apply (Rmult_eq_reg_l (S * a)); [|lra]. lra. }
  assert (C11 : c11 = / (a * nu)). { apply (Rmult_eq_reg_l (S * a)); [|lra]. transitivity (S / nu); [lra|]. field. lra. }
  assert (BF : B - 1 = 2 * F / nu) by (unfold B, bound; fold nu F; field; lra). assert (BP : 0 < 2 * F / nu) by (apply Rdiv_lt_0_compat; lra). assert (AN : 0 < a * nu) by (now apply Rmult_lt_0_compat).
  assert (QD : forall p, quad2 (m_at (c00, c01, c10, c11)) (o1, o2) p = nu * (sse p - S) / S). { intros p. rewrite HS. unfold quad2. cbn [m_at fst snd]. rewrite C00, C01, C11. field. repeat split; lra. }
  split. { intros p. rewrite QD. split; intros H; [|rewrite H; replace B with (1 + 2 * F / nu) by lra; field; lra]. assert (E : sse p - S = S * (2 * F / nu)) by (rewrite <- H; field; lra). replace B with (1 + 2 * F / nu) by lra. lra. }
  assert (PC : 0 < c00) by (rewrite C00; now apply Rinv_0_lt_compat). cbn [m_at]. unfold np_sqrt. rewrite Rltb_f by lra. cbn [fl_times width_of].
  assert (SF : 0 < sqrt (2 * F)) by (apply sqrt_lt_R0; lra). assert (T0 : 0 < t) by lra. assert (SC : 0 < sqrt c00) by (now apply sqrt_lt_R0).
  assert (G0 : guess0 (2 * (sqrt c00 * t)) (fst (o1, o2)) = sqrt c00 * t). { unfold guess0. assert (0 < sqrt c00 * t) by (apply Rmult_lt_0_compat; auto). rewrite Rltb_t by lra. replace (2 * (sqrt c00 * t) / 2) with (sqrt c00 * t) by field. apply Rabs_pos_eq. lra. }
  set (rho := sqrt ((B - 1) / a)). assert (QP : 0 < (B - 1) / a) by (apply Rdiv_lt_0_compat; lra). assert (R0 : 0 < rho) by (now apply sqrt_lt_R0). assert (R2 : rho ^ 2 = (B - 1) / a) by (apply pow2_sqrt; lra).
  assert (RE : rho = sqrt (2 * F) * sqrt c00). { unfold rho. rewrite <- sqrt_mult by lra. f_equal. rewrite BF, C00. field. lra. }
  destruct (C99_stall Fq sse (o1, o2) ndata alpha (2 * (sqrt c00 * t)) npoints rtol rho) as (pts & E & L & P); auto.
  - fold S. rewrite Rabs_pos_eq; lra.
  - fold B. repeat split; try lra. intros p. rewrite R2, HS. cbn [fst snd]. fold S. field. lra.
  - rewrite G0, RE. split; nra.
  - exists pts. split; [exact E|]. split; [exact L|]. intros i Hi. destruct (P i Hi) as (th & q & _ & Q2 & Q3). exists (point (o1, o2) th q). split; [exact Q2|]. rewrite QD, HS. unfold point. cbn [fst snd]. assert (SN : sin th ^ 2 + cos th ^ 2 = 1) by (pose proof (sin2_cos2 th) as X; unfold Rsqr in X; lra).
    replace (nu * (S * (1 + a * ((o1 + q * cos th - o1) ^ 2 + (o2 + q * sin th - o2) ^ 2)) - S) / S) with (nu * a * q ^ 2 * (sin th ^ 2 + cos th ^ 2)) by (field; lra). rewrite SN.
    assert (q ^ 2 <= rho ^ 2 / 64) by nra. assert (0 < nu * a) by nra. replace (2 * F / 64) with (nu * a * (rho ^ 2 / 64)) by (rewrite R2, BF; field; lra). rewrite Rmult_1_r. apply Rmult_le_compat_l; lra.
Qed.
(** four data, alpha = 0.99: with two degrees of freedom F = p / (1 - p) and t = u sqrt (2 / (1 - u^2)), u = 2 p - 1 *)
Theorem C105_exact_refuted inv Fq tq npoints : inv_spec inv -> (forall p, 0 < p < 1 -> Fq p 2%nat = p / (1 - p)) -> (forall p, 0 < p < 1 -> tq p 2%nat = (2 * p - 1) * sqrt (2 / (1 - (2 * p - 1) ^ 2))) -> (1 <= npoints <= 500)%nat ->
  exists sse r C pts, (forall p, sse p = sse r * (1 + (fst p - fst r) ^ 2 + (snd p - snd r) ^ 2)) /\ fit_cov inv sse r (sse r) 4 = Ok (Some C) /\
  confidence_region Fq sse 2 r 4 (99 / 100) (width_of (fl_times (np_sqrt (m_at C 0 0)) (tq (1 - 99 / 100 / 2) 2%nat))) npoints (1 / 100) = Ok pts /\ length pts = npoints /\
  forall i, (i < npoints)%nat -> exists p, nth_error pts i = Some (Some p) /\ quad2 (m_at C) r p <= 2 * Fq (1 - 99 / 100) 2%nat / 64.
Proof.
  intros HI HF Ht Hn. set (sse := fun p : R * R => 1 + (fst p - 1) ^ 2 + (snd p - 1) ^ 2). pose proof eps_lt as EP. assert (S1 : sse (1, 1) = 1) by (unfold sse; cbn [fst snd]; ring).
  assert (EF : Fq (1 - 99 / 100) 2%nat = 1 / 99) by (rewrite HF by lra; field). assert (ET : tq (1 - 99 / 100 / 2) 2%nat = 1 / 100 * sqrt (20000 / 9999)). { rewrite Ht by lra. f_equal; [field|]. f_equal. field. }
  assert (EB : bound Fq 4 (99 / 100) = 100 / 99). { unfold bound. change (4 - 2)%nat with 2%nat. rewrite EF. cbn [INR]. field. }
  destruct (C105_circular_small inv Fq tq sse (1, 1) 4 (99 / 100) npoints (1 / 100) 1) as (C & E & _ & pts & E2 & L & P); auto.
  - repeat split; try lia; lra.
  - rewrite S1. lra.
  - lra.
  - intros p. rewrite S1. unfold sse. cbn [fst snd]. ring.
  - rewrite EB. lra.
  - change (4 - 2)%nat with 2%nat. rewrite EF. lra.
  - change (4 - 2)%nat with 2%nat. rewrite EF, ET. assert (X : sqrt (20000 / 9999) = sqrt (2 * (1 / 99)) * sqrt (10000 / 101)). { rewrite <- sqrt_mult by lra. f_equal. field. } rewrite X. assert (0 < sqrt (2 * (1 / 99))) by (apply sqrt_lt_R0; lra).
    set (w := sqrt (10000 / 101)). assert (5 <= w) by (unfold w; rewrite <- (sqrt_pow2 5) by lra; apply sqrt_le_1_alt; lra). assert (w <= 10) by (unfold w; rewrite <- (sqrt_pow2 10) by lra; apply sqrt_le_1_alt; lra). nra.
  - exists sse, (1, 1), C, pts. split; [intros p; rewrite S1; unfold sse; cbn [fst snd]; ring|]. auto.
Qed.
Print Assumptions C105_quadratic.
Print Assumptions C105_exact_refuted.
