(** C91: roots of x tan x = a and 1 - x cot x = a. *)
From Coq Require Import Reals Lra Lia List Bool Arith Psatz Ranalysis5.
From Verif Require Import Prelude RootsModel KinModel CopoModel Deriv NumBounds Erf HmtModel HmtProps.
Import ListNotations.
Open Scope R_scope.

(* ------------------------------------------------------------------ *)
(** * Newton iterations of a convex increasing function               *)
(* ------------------------------------------------------------------ *)

Section Newton.
  Variables (F F' : R -> R) (s rho u l : R) (fre fim : R -> R -> R).
  Hypothesis Hs : s <> 0.
  Hypothesis HD : forall x, l <= x < u -> D F x (F' x).
  Hypothesis Hpos : forall x, l <= x < u -> 0 < F' x.
  Hypothesis Hmon : forall x y, l <= x <= y -> y < u -> F' x <= F' y.
  Hypothesis Hrho : l <= rho < u.
  Hypothesis Hzero : F rho = 0.
  Hypothesis HN : forall x, l <= x < u -> derivative_complex fre fim x = (s * F' x, s * F x).

  Lemma conv_tangent x y : l <= x < u -> l <= y < u -> F x + F' x * (y - x) <= F y.
  Proof.
    intros Hx Hy. destruct (Rtotal_order x y) as [L|[L|L]].
    - destruct (MVT_cor2 F F' x y L) as (c & E & Hc). { intros t Ht. apply Coquelicot.Derive.is_derive_Reals, HD. lra. }
      pose proof (Hmon x c ltac:(lra) ltac:(lra)). nra.
    - subst. lra.
    - destruct (MVT_cor2 F F' y x L) as (c & E & Hc). { intros t Ht. apply Coquelicot.Derive.is_derive_Reals, HD. lra. }
      pose proof (Hmon c x ltac:(lra) ltac:(lra)). nra.
  Qed.
  Lemma F_sign x : l <= x < u -> (rho <= x -> 0 <= F x) /\ (x <= rho -> F x <= 0).
  Proof.
    intros Hx. pose proof (Hpos x Hx). pose proof (conv_tangent rho x Hrho Hx) as A. rewrite Hzero in A. pose proof (Hpos rho Hrho).
    split; intros L.
    - nra.
    - pose proof (conv_tangent x rho Hx Hrho) as B. rewrite Hzero in B. nra.
  Qed.
  Lemma step_right x : rho <= x < u -> rho <= x + - F x / F' x <= x.
  Proof.
    intros Hx. pose proof (Hpos x ltac:(lra)) as P. destruct (F_sign x ltac:(lra)) as (N & _). pose proof (N ltac:(lra)) as N'. pose proof (conv_tangent x rho ltac:(lra) Hrho) as T. rewrite Hzero in T. split.
    - apply (Rmult_le_reg_l (F' x)); auto. replace (F' x * (x + - F x / F' x)) with (F' x * x - F x) by (field; lra). nra.
    - assert (0 <= F x / F' x) by (apply Rmult_le_pos; auto; left; now apply Rinv_0_lt_compat). unfold Rdiv in *. lra.
  Qed.
  Lemma dx_eq x : l <= x < u -> - (s * F x) / (s * F' x) = - F x / F' x.
  Proof. intros H. pose proof (Hpos x H). field. split; lra. Qed.
  Lemma newton_right tolx tolf n : forall k x tr, (0 < n)%nat -> rho <= x < u ->
    exists tr' r, newton_loop fre fim tolx tolf n k x tr = (tr', Ok r) /\ rho <= rr_x r <= x /\ rr_f r = s * F (rr_x r).
  Proof.
    induction n as [|n IH]; intros k x tr Hn Hx; [lia|]. cbn [newton_loop]. rewrite HN by lra. cbv beta zeta.
    destruct (Rleb (Rabs (s * F x)) tolf); [do 2 eexists; repeat split; cbn; lra|]. destruct (Rleb (Rabs (s * F' x)) eps); [do 2 eexists; repeat split; cbn; lra|]. rewrite dx_eq by lra.
    destruct (Rleb (Rabs (- F x / F' x)) tolx); [do 2 eexists; repeat split; cbn; lra|]. destruct n as [|n]; [do 2 eexists; repeat split; cbn; lra|].
    pose proof (step_right x Hx) as S. destruct (IH (k + 1)%nat (x + - F x / F' x) (tr ++ [x]) ltac:(lia) ltac:(lra)) as (tr' & r & E & B & C). exists tr', r. split; [exact E|]. split; [lra|auto].
  Qed.
  (** from the left of the root the first step passes it *)
  Lemma newton_left tolx tolf n k x tr : (0 < n)%nat -> l <= x <= rho -> x + - F x / F' x < u ->
    exists tr' r, newton_loop fre fim tolx tolf n k x tr = (tr', Ok r) /\ x <= rr_x r /\ ((rr_x r = x /\ (n = 1%nat \/ Rabs (s * F x) <= tolf \/ Rabs (s * F' x) <= eps \/ Rabs (F x / F' x) <= tolx)) \/ rho <= rr_x r <= x + - F x / F' x) /\ rr_f r = s * F (rr_x r).
  Proof.
    intros Hn Hx Hu. destruct n as [|n]; [lia|]. cbn [newton_loop]. rewrite HN by lra. cbv beta zeta.
    destruct (Rleb (Rabs (s * F x)) tolf) eqn:E1; [do 2 eexists; split; [reflexivity|]; cbn; apply Rleb_true in E1; split; [lra|]; split; [left|]; auto|].
    destruct (Rleb (Rabs (s * F' x)) eps) eqn:E2; [do 2 eexists; split; [reflexivity|]; cbn; apply Rleb_true in E2; split; [lra|]; split; [left|]; auto|]. rewrite dx_eq by lra.
    destruct (Rleb (Rabs (- F x / F' x)) tolx) eqn:E3; [do 2 eexists; split; [reflexivity|]; cbn; apply Rleb_true in E3; replace (- F x / F' x) with (- (F x / F' x)) in E3 by (unfold Rdiv; ring); rewrite Rabs_Ropp in E3; split; [lra|]; split; [left|]; auto|]. destruct n as [|n]; [do 2 eexists; split; [reflexivity|]; cbn; split; [lra|]; split; [left|]; auto|].
    pose proof (Hpos x ltac:(lra)) as P. pose proof (conv_tangent x rho ltac:(lra) Hrho) as T. rewrite Hzero in T.
    assert (rho <= x + - F x / F' x). { apply (Rmult_le_reg_l (F' x)); auto. replace (F' x * (x + - F x / F' x)) with (F' x * x - F x) by (field; lra). nra. }
    destruct (newton_right tolx tolf (S n) (k + 1)%nat (x + - F x / F' x) (tr ++ [x]) ltac:(lia) ltac:(lra)) as (tr' & r & E & B & C). exists tr', r. split; [exact E|]. split; [lra|]. split; [right; lra|auto].
  Qed.
End Newton.

(* ------------------------------------------------------------------ *)
(** * Fixed-point iterations                                          *)
(* ------------------------------------------------------------------ *)

Lemma fp_spec (I : R -> Prop) (g : R -> R) (q es : R) : 0 <= q < 1 -> (forall e, I e -> I (g e)) -> (forall e, I e -> Rabs (g e - es) <= q * Rabs (e - es)) ->
  forall tolx n e, I e -> I (fp_loop g tolx n e) /\ (Rabs (fp_loop g tolx n e - es) <= tolx / (1 - q) \/ Rabs (fp_loop g tolx n e - es) <= q ^ n * Rabs (e - es)).
Proof.
  intros Hq HI HL tolx n. induction n as [|n IH]; intros e He; cbn [fp_loop].
  - split; auto. right. cbn. lra.
  - cbv zeta. destruct (Rltb (Rabs (g e - e)) tolx) eqn:E.
    + apply Rltb_true in E. split; auto. left. pose proof (HL e He) as L. assert (Rabs (e - es) <= Rabs (g e - e) + Rabs (g e - es)).
      { replace (e - es) with (- (g e - e) + (g e - es)) by ring. eapply Rle_trans; [apply Rabs_triang|]. rewrite Rabs_Ropp. lra. }
      apply (Rmult_le_reg_r (1 - q)); [lra|]. unfold Rdiv. rewrite Rmult_assoc, Rinv_l by lra. lra.
    + destruct (IH (g e) (HI e He)) as (A & [B|B]); split; auto. right. eapply Rle_trans; [exact B|]. cbn [pow]. rewrite (Rmult_comm q), Rmult_assoc. apply Rmult_le_compat_l; [apply pow_le; lra|auto].
Qed.

(* ------------------------------------------------------------------ *)
(** * Periodicity                                                     *)
(* ------------------------------------------------------------------ *)

Lemma sc_shift i e : sin (INR i * PI + e) = (-1) ^ i * sin e /\ cos (INR i * PI + e) = (-1) ^ i * cos e.
Proof.
  induction i as [|i (S1 & C1)]; [cbn; rewrite Rmult_0_l, Rplus_0_l; split; ring|].
  rewrite S_INR. replace ((INR i + 1) * PI + e) with ((INR i * PI + e) + PI) by ring. rewrite neg_sin, neg_cos, S1, C1. cbn [pow]. split; ring.
Qed.
Lemma m1_nz i : (-1) ^ i <> 0. Proof. apply pow_nonzero. lra. Qed.
Lemma tan_shift i e : tan (INR i * PI + e) = tan e.
Proof. unfold tan. destruct (sc_shift i e) as (-> & ->). pose proof (m1_nz i). destruct (Req_dec (cos e) 0) as [-> |N]; [rewrite !Rmult_0_r; unfold Rdiv; rewrite Rinv_0; ring|field; auto]. Qed.
Lemma D_tan x : cos x <> 0 -> D tan x (1 + tan x ^ 2).
Proof.
  intros H. eapply D_eq; [apply (D_div sin cos x (cos x * 1) (- sin x * 1)); [apply (D_sin (fun t => t)); apply D_id|apply (D_cos (fun t => t)); apply D_id|auto]|].
  unfold tan. pose proof (sin2_cos2 x) as S. unfold Rsqr in S. field_simplify; auto.
Qed.
Lemma tan_pos e : 0 < e < PI / 2 -> 0 < tan e /\ e < tan e.
Proof.
  intros H. assert (e < tan e); [|lra]. assert (Q : forall t, 0 <= t <= e -> 0 < cos t) by (intros; apply cos_gt_0; lra).
  cut (0 < tan e - e); [lra|]. replace 0 with (tan 0 - 0) by (rewrite tan_0; ring). apply (mono_strict (fun t => tan t - t) (fun t => tan t ^ 2)); [lra| |].
  - intros t Ht. eapply D_eq; [apply (D_minus tan (fun t => t)); [apply D_tan; pose proof (Q t Ht); lra|apply D_id]|ring].
  - intros t Ht. apply pow_lt. unfold tan. apply Rdiv_lt_0_compat; [apply sin_gt_0|apply Q]; lra.
Qed.

(* ------------------------------------------------------------------ *)
(** * x tan x = a                                                     *)
(* ------------------------------------------------------------------ *)

Lemma XPI i : 0 <= INR i * PI.
Proof. apply Rmult_le_pos; [apply pos_INR|left; apply PI_RGT_0]. Qed.
Lemma xtan_root a i : 0 < a -> exists e, 0 < e < PI / 2 /\ (INR i * PI + e) * tan e = a.
Proof.
  intros Ha. pose proof PI_bounds as (P1 & P2). pose proof (XPI i) as X0. set (X := INR i * PI) in *. pose (K := fun e => (X + e) * sin e - a * cos e).
  destruct (IVT K 0 (PI / 2)) as (e & He & Ke).
  - unfold K. intros x. reg.
  - lra.
  - unfold K. rewrite sin_0, cos_0. lra.
  - unfold K. rewrite sin_PI2, cos_PI2. lra.
  - unfold K in Ke. assert (e <> 0) by (intros ->; rewrite sin_0, cos_0 in Ke; lra). assert (e <> PI / 2) by (intros ->; rewrite sin_PI2, cos_PI2 in Ke; lra).
    exists e. split; [lra|]. assert (0 < cos e) by (apply cos_gt_0; lra). unfold tan. apply (Rmult_eq_reg_r (cos e)); [|lra]. unfold Rdiv. rewrite !Rmult_assoc, Rinv_l by lra. lra.
Qed.
Lemma tan_le x y : 0 <= x <= y -> y < PI / 2 -> 0 <= tan x <= tan y.
Proof.
  intros H Hy. assert (M : forall a b, 0 <= a <= b -> b < PI / 2 -> tan a <= tan b). { intros a b Hab Hb. destruct (Req_dec a b) as [-> |N]; [lra|]. left. apply tan_increasing; lra. }
  split; [rewrite <- tan_0; apply M; lra|now apply M].
Qed.
Lemma tan_x i x : INR i * PI <= x -> tan x = tan (x - INR i * PI).
Proof. intros H. rewrite <- (tan_shift i (x - INR i * PI)). f_equal. ring. Qed.
Lemma cos_x i x : INR i * PI <= x < INR i * PI + PI / 2 -> cos x <> 0.
Proof.
  intros H. replace x with (INR i * PI + (x - INR i * PI)) by ring. destruct (sc_shift i (x - INR i * PI)) as (_ & ->). apply Rmult_integral_contrapositive_currified; [apply m1_nz|]. apply Rgt_not_eq, cos_gt_0; lra.
Qed.
Lemma xtanx_mono i x y : INR i * PI <= x < y -> y < INR i * PI + PI / 2 -> x * tan x < y * tan y.
Proof.
  intros H Hy. pose proof (XPI i). rewrite (tan_x i x), (tan_x i y) by lra. destruct (tan_le (x - INR i * PI) (y - INR i * PI) ltac:(lra) ltac:(lra)) as (A & B). destruct (tan_pos (y - INR i * PI) ltac:(lra)) as (C & _). nra.
Qed.
(** there is exactly one root in each [i pi, (i+1) pi], in the first half of the interval *)
Theorem C91_xtanx_roots a i : 0 < a -> exists r, INR i * PI < r < INR i * PI + PI / 2 /\ r * tan r = a /\
  forall x, INR i * PI <= x <= INR (S i) * PI -> cos x <> 0 -> x * tan x = a -> x = r.
Proof.
  intros Ha. destruct (xtan_root a i Ha) as (e & He & Ke). exists (INR i * PI + e). rewrite tan_shift. split; [lra|]. split; [auto|]. intros x Hx Hc Ex. pose proof (XPI i) as X0. rewrite S_INR in Hx.
  set (d := x - INR i * PI). assert (Hd : 0 <= d <= PI) by (unfold d; lra). rewrite (tan_x i x) in Ex by lra. fold d in Ex. replace x with (INR i * PI + d) in Ex, Hc |- * by (unfold d; ring).
  destruct (Rlt_dec d (PI / 2)) as [L|L].
  - pose proof (xtanx_mono i (INR i * PI + d) (INR i * PI + e)) as M1. pose proof (xtanx_mono i (INR i * PI + e) (INR i * PI + d)) as M2. rewrite !tan_shift in M1, M2. destruct (Rtotal_order d e) as [Q|[Q|Q]]; [specialize (M1 ltac:(lra) ltac:(lra)); lra|now subst|specialize (M2 ltac:(lra) ltac:(lra)); lra].
  - exfalso. destruct (Req_dec d (PI / 2)) as [Q|Q].
    + apply Hc. destruct (sc_shift i d) as (_ & ->). rewrite Q, cos_PI2. ring.
    + assert (cos d < 0) by (apply cos_lt_0; lra). assert (0 <= sin d) by (apply sin_ge_0; lra). assert (tan d <= 0). { unfold tan, Rdiv. pose proof (Rinv_lt_0_compat (cos d) H). nra. } nra.
Qed.
(** cot w >= 1/w - 2/pi *)
Lemma cot_lower w : 0 < w <= PI / 2 -> / w - 2 / PI <= cos w / sin w.
Proof.
  intros H. pose proof PI_RGT_0. cut (/ w - cos w / sin w <= / (PI / 2) - cos (PI / 2) / sin (PI / 2)). { rewrite cos_PI2, sin_PI2. replace (/ (PI / 2)) with (2 / PI) by (field; lra). lra. }
  apply (mono_incr (fun w => / w - cos w / sin w) (fun w => / sin w ^ 2 - / w ^ 2)); [lra| |].
  - intros t Ht. assert (S : 0 < sin t) by (apply sin_gt_0; lra). eapply D_eq.
    + apply (D_minus (fun w => / w) (fun w => cos w / sin w)).
      * apply (D_ext (fun w => 1 / w)); [intros; unfold Rdiv; ring|]. apply (D_div (fun _ => 1) (fun w => w)); [apply D_const|apply D_id|lra].
      * apply (D_div cos sin t (- sin t * 1) (cos t * 1)); [apply (D_cos (fun t => t)), D_id|apply (D_sin (fun t => t)), D_id|lra].
    + pose proof (sin2_cos2 t) as Q. unfold Rsqr in Q. replace (- sin t * 1 * sin t - cos t * (cos t * 1)) with (-1) by lra. field. lra.
  - intros t Ht. assert (S : 0 < sin t) by (apply sin_gt_0; lra). assert (sin t < t) by (apply sin_lt_x; lra). assert (/ t ^ 2 <= / sin t ^ 2); [|lra]. apply Rinv_le_contravar; [apply pow_lt; lra|apply pow_incr; lra].
Qed.
Lemma start_tan a : 0 < a -> a <= PI / 2 * tan (PI / 2 * (a / (a + 1))).
Proof.
  intros Ha. pose proof PI_bounds as (P1 & P2). set (w := PI / 2 / (a + 1)). assert (W : 0 < w < PI / 2). { unfold w. split; [apply Rdiv_lt_0_compat; lra|]. apply (Rmult_lt_reg_r (a + 1)); [lra|]. unfold Rdiv. rewrite Rmult_assoc, Rinv_l by lra. nra. }
  replace (PI / 2 * (a / (a + 1))) with (PI / 2 - w) by (unfold w; field; lra). unfold tan.
  rewrite sin_shift, cos_shift. pose proof (cot_lower w ltac:(lra)) as C. replace (/ w) with (2 / PI * (a + 1)) in C by (unfold w; field; lra).
  assert (PI / 2 * (2 / PI * (a + 1) - 2 / PI) <= PI / 2 * (cos w / sin w)) by (apply Rmult_le_compat_l; lra). replace (PI / 2 * (2 / PI * (a + 1) - 2 / PI)) with a in H by (field; lra). exact H.
Qed.

Definition ft (a x : R) : R := x * tan x - a.
Definition ft' (x : R) : R := tan x + x * (1 + tan x ^ 2).
Lemma ft_D a i x : INR i * PI <= x < INR i * PI + PI / 2 -> D (ft a) x (ft' x).
Proof.
  intros H. unfold ft, ft'. eapply D_eq; [apply (D_minus (fun x => x * tan x) (fun _ => a)); [apply (D_mult (fun x => x) tan); [apply D_id|apply D_tan; now apply (cos_x i)]|apply D_const]|ring].
Qed.
Lemma ft'_pos i x : INR i * PI < x < INR i * PI + PI / 2 -> x < ft' x /\ 0 < ft' x.
Proof.
  intros H. pose proof (XPI i). unfold ft'. rewrite (tan_x i x) by lra. destruct (tan_pos (x - INR i * PI) ltac:(lra)) as (A & _). set (t := tan _) in *. assert (0 < x * t ^ 2) by (apply Rmult_lt_0_compat; [lra|now apply pow_lt]). lra.
Qed.
Lemma ft'_mono i x y : INR i * PI < x <= y -> y < INR i * PI + PI / 2 -> ft' x <= ft' y.
Proof.
  intros H Hy. pose proof (XPI i). unfold ft'. rewrite (tan_x i x), (tan_x i y) by lra. destruct (tan_le (x - INR i * PI) (y - INR i * PI) ltac:(lra) ltac:(lra)) as (A & B). set (t := tan (x - _)) in *. set (v := tan (y - _)) in *.
  assert (t ^ 2 <= v ^ 2) by (apply pow_incr; lra). assert (0 <= t ^ 2) by (apply pow_le; lra). assert (x * (1 + t ^ 2) <= y * (1 + v ^ 2)) by (apply Rmult_le_compat; lra). lra.
Qed.
Lemma eps_nz : eps <> 0.
Proof. apply Rgt_not_eq. unfold eps. apply Rinv_0_lt_compat. apply pow_lt. lra. Qed.
Lemma ft_newton a x : derivative_complex (fun x _ => x * tan x - a) (fun x h => h * (tan x + x * (1 + tan x ^ 2))) x = (1 * ft' x, 1 * ft a x).
Proof. unfold derivative_complex, ft', ft. f_equal; [field; apply eps_nz|ring]. Qed.
Lemma xt_start a i : 0 < a -> PI * (INR i + 5 / 10 * a / (a + 1)) = INR i * PI + PI / 2 * (a / (a + 1)).
Proof. intros. field. lra. Qed.
Lemma frac_01 a : 0 < a -> 0 < a / (a + 1) < 1.
Proof. intros H. split; [apply Rdiv_lt_0_compat; lra|]. apply (Rmult_lt_reg_r (a + 1)); [lra|]. unfold Rdiv. rewrite Rmult_assoc, Rinv_l by lra. lra. Qed.
(** the Newton branch never leaves the interval of its root; from the second root on it stays on the right of it *)
Theorem C91_xtanx_newton a i tolx n : 0 < a -> (0 < n)%nat -> exists tr r, xtanx_newton a i tolx n = (tr, Ok r) /\
  INR i * PI < rr_x r < INR i * PI + PI / 2 /\ rr_f r = rr_x r * tan (rr_x r) - a /\
  ((0 < i)%nat -> forall rho, INR i * PI < rho < INR i * PI + PI / 2 -> rho * tan rho = a -> rho <= rr_x r /\ (rr_x r - rho) * (INR i * PI) <= rr_f r) /\
  (let x0 := INR i * PI + PI / 2 * (a / (a + 1)) in let g := tan x0 + x0 * (1 + tan x0 ^ 2) in
   forall rho, INR i * PI < rho < INR i * PI + PI / 2 -> rho * tan rho = a -> rho <= rr_x r \/
     (rr_x r = x0 /\ rho - x0 <= Rabs ((x0 * tan x0 - a) / g) /\
      (n = 1%nat \/ Rabs (x0 * tan x0 - a) <= 1 / 10 ^ 10 \/ g <= eps \/ Rabs ((x0 * tan x0 - a) / g) <= tolx))).
Proof.
  intros Ha Hn. pose proof PI_bounds as (P1 & P2). pose proof (XPI i) as X0. destruct (xtan_root a i Ha) as (e & He & Ke). set (rho := INR i * PI + e). unfold xtanx_newton, root_newton. rewrite xt_start by auto.
  pose proof (frac_01 a Ha) as S01. set (s := a / (a + 1)) in *. set (x0 := INR i * PI + PI / 2 * s). assert (Hx0 : INR i * PI < x0 < INR i * PI + PI / 2) by (unfold x0; nra).
  assert (Tx0 : a <= PI / 2 * tan x0) by (unfold x0, s; rewrite tan_shift; now apply start_tan).
  assert (Hrho : INR i * PI < rho < INR i * PI + PI / 2) by (unfold rho; lra). assert (Zr : ft a rho = 0) by (unfold ft, rho; rewrite tan_shift; lra).
  set (l := Rmin x0 rho). assert (L : INR i * PI < l /\ l <= x0 /\ l <= rho) by (unfold l; repeat split; [apply Rmin_glb_lt; lra|apply Rmin_l|apply Rmin_r]).
  set (u := INR i * PI + PI / 2) in *.
  assert (HD : forall x, l <= x < u -> D (ft a) x (ft' x)) by (intros; apply (ft_D a i); unfold u in *; lra).
  assert (HP : forall x, l <= x < u -> 0 < ft' x) by (intros; apply (ft'_pos i); unfold u in *; lra).
  assert (HM : forall x y, l <= x <= y -> y < u -> ft' x <= ft' y) by (intros; apply (ft'_mono i); unfold u in *; lra).
  assert (HN : forall x, l <= x < u -> derivative_complex (fun x _ => x * tan x - a) (fun x h => h * (tan x + x * (1 + tan x ^ 2))) x = (1 * ft' x, 1 * ft a x)) by (intros; apply ft_newton).
  assert (RI : (0 < i)%nat -> rho <= x0).
  { intros Hi. destruct (Rle_dec rho x0) as [|N]; auto. exfalso. assert (PI <= INR i * PI) by (assert (1 <= INR i) by (change 1 with (INR 1); now apply le_INR); nra).
    destruct (F_sign (ft a) ft' rho u l HD HP HM ltac:(lra) Zr x0 ltac:(lra)) as (_ & NG). specialize (NG ltac:(lra)). unfold ft in NG. nra. }
  assert (UQ : forall rho', INR i * PI < rho' < u -> rho' * tan rho' = a -> rho' = rho).
  { intros rho' H1 H2. destruct (Rtotal_order rho' rho) as [Q|[Q|Q]]; auto; exfalso.
    - pose proof (xtanx_mono i rho' rho ltac:(lra) ltac:(unfold u in *; lra)). unfold ft in Zr. lra.
    - pose proof (xtanx_mono i rho rho' ltac:(lra) ltac:(unfold u in *; lra)). unfold ft in Zr. lra. }
  assert (ACC : forall x, rho <= x < u -> (x - rho) * (INR i * PI) <= ft a x).
  { intros x Hx. pose proof (conv_tangent (ft a) ft' u l HD HM rho x ltac:(lra) ltac:(lra)) as T. rewrite Zr in T. destruct (ft'_pos i rho ltac:(unfold u in *; lra)) as (B & _). assert (INR i * PI * (x - rho) <= ft' rho * (x - rho)) by (apply Rmult_le_compat_r; lra). lra. }
  destruct (Rle_dec rho x0) as [R|R].
  - destruct (newton_right (ft a) ft' 1 rho u l _ _ ltac:(lra) HD HP HM ltac:(lra) Zr HN tolx (1 / 10 ^ 10) n 0 x0 [] Hn ltac:(lra)) as (tr & r & E & B & C). rewrite Rmult_1_l in C.
    exists tr, r. split; [exact E|]. split; [unfold u in *; lra|]. split; [exact C|]. split; [intros Hi rho' H1 H2; rewrite (UQ rho' H1 H2); split; [lra|]; rewrite C; apply ACC; lra|]. cbv zeta. intros rho' H1 H2. left. rewrite (UQ rho' H1 H2). lra.
  - assert (I0 : i = 0%nat) by (destruct i; auto; exfalso; apply R, RI; lia).
    assert (ST : x0 + - ft a x0 / ft' x0 < u).
    { assert (P : 0 < ft' x0) by (apply HP; lra). apply (Rmult_lt_reg_r (ft' x0)); auto. replace ((x0 + - ft a x0 / ft' x0) * ft' x0) with (x0 * ft' x0 - ft a x0) by (field; lra).
      unfold ft, ft', u. set (t := tan x0) in *. assert (EX : x0 = PI / 2 * s) by (unfold x0; rewrite I0; cbn; ring). rewrite I0 at 1. cbn [INR]. rewrite Rmult_0_l, Rplus_0_l.
      assert (ES : PI / 2 - x0 = PI / 2 / (a + 1)) by (rewrite EX; unfold s; field; lra). assert (Tp : 0 < t) by nra.
      set (d := PI / 2 / (a + 1)) in *. assert (Dp : 0 < d) by (unfold d; apply Rdiv_lt_0_compat; lra). assert (XA : x0 = a * d) by (rewrite EX; unfold s, d; field; lra). assert (DA : (a + 1) * d = PI / 2) by (unfold d; field; lra).
      (* a < (pi/2) t + a d^2 (1 + t^2) *)
      assert (0 < a * (d * d) * (1 + t ^ 2)). { apply Rmult_lt_0_compat; [apply Rmult_lt_0_compat; nra|]. pose proof (pow_lt t 2 Tp). lra. }
      replace (PI / 2) with (x0 + d) by lra. cut (a < x0 * t + d * (t + x0 * (1 + t ^ 2))); [intros; lra|]. rewrite XA.
      replace (a * d * t + d * (t + a * d * (1 + t ^ 2))) with ((a + 1) * d * t + a * (d * d) * (1 + t ^ 2)) by ring. rewrite DA. lra. }
    destruct (newton_left (ft a) ft' 1 rho u l _ _ ltac:(lra) HD HP HM ltac:(lra) Zr HN tolx (1 / 10 ^ 10) n 0%nat x0 [] Hn ltac:(lra) ST) as (tr & r & E & B & C & G). rewrite Rmult_1_l in G.
    exists tr, r. split; [exact E|]. split; [unfold u in *; destruct C as [(-> & _)|C]; lra|]. split; [exact G|]. split; [intros Hi; lia|]. cbv zeta. intros rho' H1 H2. rewrite (UQ rho' H1 H2). fold s. fold x0.
    change (tan x0 + x0 * (1 + tan x0 ^ 2)) with (ft' x0). change (x0 * tan x0 - a) with (ft a x0). destruct C as [(C & C')|C]; [right|left; lra]. split; [exact C|]. assert (P : 0 < ft' x0) by (apply HP; lra). rewrite !Rmult_1_l in C'. rewrite (Rabs_right (ft' x0)) in C' by lra. split; [|exact C'].
    pose proof (conv_tangent (ft a) ft' u l HD HM x0 rho ltac:(lra) ltac:(lra)) as T. rewrite Zr in T. eapply Rle_trans; [|rewrite <- Rabs_Ropp; apply Rle_abs]. apply (Rmult_le_reg_r (ft' x0)); auto. replace (- (ft a x0 / ft' x0) * ft' x0) with (- ft a x0) by (field; lra). lra.
Qed.
Lemma newton_first fre fim tolx tolf n x d f : (0 < n)%nat -> derivative_complex fre fim x = (d, f) -> Rabs f <= tolf -> newton_x (root_newton fre fim x tolx tolf n) = Ok x.
Proof. intros Hn E H. destruct n as [|n]; [lia|]. unfold root_newton. cbn [newton_loop]. rewrite E. cbv beta zeta. now rewrite (proj2 (Rleb_true _ _) H). Qed.
(** finding: for 0 < a <= 1e-10 the start value already satisfies |f| <= 1e-10 and is returned, although
    the root is close to sqrt a *)
Lemma tan_small x : 0 < x < 1 -> 0 < tan x < 2 * x.
Proof.
  intros H. pose proof PI_bounds as (P1 & P2). split; [apply tan_pos; lra|]. assert (C : 1 / 2 < cos x) by (rewrite <- cos_PI3; apply cos_decreasing_1; lra).
  unfold tan. apply (Rmult_lt_reg_r (cos x)); [lra|]. unfold Rdiv. rewrite Rmult_assoc, Rinv_l, Rmult_1_r by lra. assert (sin x < x) by (apply sin_lt_x; lra). nra.
Qed.
Theorem C91_xtanx_small a tolx : 0 < a <= 1 / 10 ^ 10 -> roots_xtanx (Some a) 0 tolx = Ok (PI / 2 * (a / (a + 1))).
Proof.
  intros H. unfold roots_xtanx. rewrite Reqb_f, Rltb_t by lra. unfold xtanx_newton. rewrite xt_start by lra. cbn [INR]. rewrite Rmult_0_l, Rplus_0_l.
  pose proof (frac_01 a ltac:(lra)) as S01. set (s := a / (a + 1)) in *. pose proof PI_bounds as (P1 & P2).
  assert (SA : s <= a). { unfold s. apply (Rmult_le_reg_r (a + 1)); [lra|]. unfold Rdiv. rewrite Rmult_assoc, Rinv_l by lra. nra. }
  eapply newton_first; [lia|apply ft_newton|]. rewrite Rmult_1_l. unfold ft. set (x := PI / 2 * s).
  assert (0 < x <= 1575 / 1000 * a) by (unfold x; nra). pose proof (tan_small x ltac:(lra)). set (t := tan x) in *. assert (0 < x * t < a) by nra. rewrite Rabs_left; lra.
Qed.
(** the true root is larger by orders of magnitude *)
Theorem C91_xtanx_small_root a r : 0 < a <= 1 / 10 ^ 10 -> 0 < r < PI / 2 -> r * tan r = a -> 10000 * (PI / 2 * (a / (a + 1))) < r.
Proof.
  intros H Hr E. pose proof PI_bounds as (P1 & P2). pose proof (frac_01 a ltac:(lra)) as S01. set (s := a / (a + 1)) in *.
  assert (SA : s <= a). { unfold s. apply (Rmult_le_reg_r (a + 1)); [lra|]. unfold Rdiv. rewrite Rmult_assoc, Rinv_l by lra. nra. }
  destruct (Rlt_dec (10000 * (PI / 2 * s)) r) as [|N]; auto. exfalso. set (x := PI / 2 * s) in *. assert (0 < x <= 1575 / 1000 * a) by (unfold x; nra). assert (r < 1) by lra.
  pose proof (tan_small r ltac:(lra)). set (t := tan r) in *. assert (r <= 15750 * a) by lra. nra.
Qed.

(** the large-a branch: ten contractions by 1/a *)
Lemma atan_lip f f' (l u : R) q : (forall t, l <= t <= u -> D f t (f' t)) -> (forall t, l <= t <= u -> Rabs (f' t) <= q) -> forall x y, l <= x <= u -> l <= y <= u -> Rabs (f x - f y) <= q * Rabs (x - y).
Proof.
  intros HD HB. assert (G : forall x y, l <= x <= u -> l <= y <= u -> x < y -> Rabs (f x - f y) <= q * Rabs (x - y)).
  { intros x y Hx Hy L. destruct (MVT_cor2 f f' x y L) as (c & E & Hc). { intros t Ht. apply Coquelicot.Derive.is_derive_Reals, HD. lra. }
    rewrite <- (Rabs_Ropp (f x - f y)), <- (Rabs_Ropp (x - y)), !Ropp_minus_distr, E, Rabs_mult. apply Rmult_le_compat_r; [apply Rabs_pos|]. apply HB. lra. }
  intros x y Hx Hy. destruct (Rtotal_order x y) as [L|[-> |L]]; [auto|rewrite !Rminus_diag_eq, Rabs_R0 by auto; lra|]. rewrite <- (Rabs_Ropp (f x - f y)), <- (Rabs_Ropp (x - y)), !Ropp_minus_distr. auto.
Qed.
Theorem C91_xtanx_large a i tolx r : 100 <= a -> INR i * PI < r < INR i * PI + PI / 2 -> r * tan r = a ->
  INR i * PI < xtanx_large a i tolx < INR i * PI + PI / 2 /\ (Rabs (xtanx_large a i tolx - r) <= tolx * (100 / 99) \/ Rabs (xtanx_large a i tolx - r) <= 2 / 100 ^ 10).
Proof.
  intros Ha Hr E. pose proof PI_bounds as (P1 & P2). pose proof (XPI i) as X0. set (X := INR i * PI) in *. set (es := r - X). assert (He : 0 < es < PI / 2) by (unfold es; lra).
  assert (ET : (X + es) * tan es = a) by (rewrite <- E, (tan_x i r) by (fold X; lra); fold X es; f_equal; unfold es; ring).
  set (g := fun e => atan (a / (X + e))). assert (FIX : g es = es).
  { unfold g. rewrite <- (atan_tan es) at 2 by lra. f_equal. rewrite <- ET. field. lra. }
  assert (HI : forall e, 0 < e < PI / 2 -> 0 < g e < PI / 2). { intros e H. unfold g. assert (0 < a / (X + e)) by (apply Rdiv_lt_0_compat; lra). split; [rewrite <- atan_0; now apply atan_increasing|apply atan_bound]. }
  assert (HL : forall e, 0 < e < PI / 2 -> Rabs (g e - es) <= 1 / 100 * Rabs (e - es)).
  { intros e H. rewrite <- FIX at 1. set (m := Rmin e es). assert (M : 0 < m /\ m <= e /\ m <= es) by (unfold m; repeat split; [apply Rmin_glb_lt; lra|apply Rmin_l|apply Rmin_r]).
    apply (atan_lip g (fun e => - a / ((X + e) ^ 2 + a ^ 2)) m (PI / 2)); try lra.
    - intros t Ht. unfold g. eapply D_eq; [apply (D_atan (fun e => a / (X + e))); apply (D_div (fun _ => a) (fun e => X + e)); [apply D_const|apply (D_plus (fun _ => X) (fun e => e)); [apply D_const|apply D_id]|lra]|].
      cbv beta. field. assert (0 < (X + t) ^ 2) by (apply pow_lt; lra). assert (0 < a ^ 2) by (apply pow_lt; lra). try (split; [lra|]); nra.
    - intros t Ht. assert (0 < (X + t) ^ 2) by (apply pow_lt; lra). assert (0 < a ^ 2) by (apply pow_lt; lra). unfold Rdiv. rewrite Rabs_mult, Rabs_Ropp, (Rabs_right a), Rabs_right by (try lra; apply Rle_ge; left; apply Rinv_0_lt_compat; lra).
      apply (Rmult_le_reg_r ((X + t) ^ 2 + a ^ 2)); [lra|]. rewrite Rmult_assoc, Rinv_l by lra. nra. }
  destruct (fp_spec (fun e => 0 < e < PI / 2) g (1 / 100) es ltac:(lra) HI HL tolx 10 1 ltac:(lra)) as (A & B). unfold xtanx_large. fold X. change (fun e => atan (a / (X + e))) with g.
  generalize dependent (fp_loop g tolx 10 1). intros v A B. replace (X + v - r) with (v - es) by (unfold es; ring). split; [lra|]. destruct B as [B|B]; [left; lra|right]. eapply Rle_trans; [exact B|].
  assert (Rabs (1 - es) <= 2) by (apply Rabs_le; lra). replace ((1 / 100) ^ 10) with (1 / 100 ^ 10) by field. lra.
Qed.
(** so every computed value, in whichever branch, lies in the interval of its root *)
Theorem C91_xtanx_interval a i tolx : 0 < a -> exists r, roots_xtanx (Some a) i tolx = Ok r /\ INR i * PI < r < INR i * PI + PI / 2.
Proof.
  intros Ha. unfold roots_xtanx. rewrite Reqb_f by lra. destruct (Rltb a 100) eqn:E.
  - destruct (C91_xtanx_newton a i tolx 50 Ha ltac:(lia)) as (tr & r & N & B & _). exists (rr_x r). unfold newton_x. rewrite N. split; [reflexivity|exact B].
  - assert (100 <= a) by (destruct (Rlt_dec a 100) as [L|L]; [rewrite Rltb_t in E by auto; discriminate|lra]). destruct (C91_xtanx_roots a i Ha) as (r & Hr & Er & _). destruct (C91_xtanx_large a i tolx r H Hr Er) as (B & _). eauto.
Qed.
(** finding: with such a Biot number the uptake is a huge negative number *)
Theorem C91_uptake_refuted Fo Bi : 0 < Fo <= 1 -> 0 < Bi <= 1 / 10 ^ 10 -> exists v, uptake_convection_sheet Fo Bi = Ok v /\ v < - 10 ^ 9.
Proof.
  intros HF HB. unfold uptake_convection_sheet. rewrite (Reqb_f Fo), (Reqb_f Bi) by lra. cbn [negb andb]. unfold four. rewrite (C91_xtanx_small Bi (1 / 10 ^ 6) HB). cbn [bind].
  destruct (C91_xtanx_interval Bi 1 (1 / 10 ^ 6) ltac:(lra)) as (x1 & -> & B1). destruct (C91_xtanx_interval Bi 2 (1 / 10 ^ 6) ltac:(lra)) as (x2 & -> & B2). destruct (C91_xtanx_interval Bi 3 (1 / 10 ^ 6) ltac:(lra)) as (x3 & -> & B3). cbn [bind].
  eexists. split; [reflexivity|]. unfold uptake_conv_sheet. rewrite (Reqb_f Fo), (Reqb_f Bi) by lra. cbn [negb andb sumn].
  pose proof (XPI 1). pose proof (XPI 2). pose proof (XPI 3). pose proof PI_bounds as (P1 & P2).
  assert (T : forall x, 0 < x -> 0 < exp (- x ^ 2 * Fo) / (x ^ 2 * (x ^ 2 + Bi * (Bi + 1)))). { intros x Hx. apply Rdiv_lt_0_compat; [apply exp_pos|]. pose proof (pow_lt x 2 Hx). apply Rmult_lt_0_compat; nra. }
  pose proof (T x1 ltac:(lra)). pose proof (T x2 ltac:(lra)). pose proof (T x3 ltac:(lra)).
  pose proof (frac_01 Bi ltac:(lra)) as S01. set (s := Bi / (Bi + 1)) in *. assert (SA : s <= Bi). { unfold s. apply (Rmult_le_reg_r (Bi + 1)); [lra|]. unfold Rdiv. rewrite Rmult_assoc, Rinv_l by lra. nra. }
  set (x := PI / 2 * s). assert (Hx : 0 < x <= 16 / 10 * Bi) by (unfold x; nra).
  assert (X2 : 0 < x ^ 2 <= 3 * Bi ^ 2) by (split; [apply pow_lt; lra|]; apply Rle_trans with ((16 / 10 * Bi) ^ 2); [apply pow_incr; lra|nra]).
  assert (BB : Bi ^ 2 <= Bi * (1 / 10 ^ 10)) by nra.
  assert (E : 9 / 10 <= exp (- x ^ 2 * Fo)). { destruct (Req_dec (- x ^ 2 * Fo) 0) as [Z|Z]; [rewrite Z, exp_0; lra|]. pose proof (exp_ineq1 _ Z). assert (x ^ 2 * Fo <= 1 / 10) by nra. lra. }
  assert (DEN : 0 < x ^ 2 * (x ^ 2 + Bi * (Bi + 1)) <= 2 * 3 * Bi ^ 2 * Bi). { assert (0 < Bi ^ 2) by (apply pow_lt; lra). assert (x ^ 2 + Bi * (Bi + 1) <= 2 * Bi) by nra. split; [apply Rmult_lt_0_compat; nra|]. nra. }
  assert (Q : 9 / 10 / (2 * 3 * Bi ^ 2 * Bi) <= exp (- x ^ 2 * Fo) / (x ^ 2 * (x ^ 2 + Bi * (Bi + 1)))).
  { unfold Rdiv at 1 3. apply Rmult_le_compat; [lra|left; apply Rinv_0_lt_compat; lra|exact E|apply Rinv_le_contravar; lra]. }
  assert (W : 3 * 10 ^ 9 <= 2 * Bi ^ 2 * (9 / 10 / (2 * 3 * Bi ^ 2 * Bi))). { replace (2 * Bi ^ 2 * (9 / 10 / (2 * 3 * Bi ^ 2 * Bi))) with (3 / 10 * / Bi) by (field; lra). assert (10 ^ 10 <= / Bi); [|lra]. replace (10 ^ 10) with (/ (1 / 10 ^ 10)) by field. apply Rinv_le_contravar; lra. }
  assert (0 < Bi ^ 2) by (apply pow_lt; lra). fold x. set (t0 := exp (- x ^ 2 * Fo) / _) in *. set (t1 := exp (- x1 ^ 2 * Fo) / _) in *. set (t2 := exp (- x2 ^ 2 * Fo) / _) in *. set (t3 := exp (- x3 ^ 2 * Fo) / _) in *.
  assert (2 * Bi ^ 2 * (9 / 10 / (2 * 3 * Bi ^ 2 * Bi)) <= 2 * Bi ^ 2 * (0 + t0 + t1 + t2 + t3)) by (apply Rmult_le_compat_l; lra). lra.
Qed.

(* ------------------------------------------------------------------ *)
(** * 1 - x cot x = a                                                 *)
(* ------------------------------------------------------------------ *)

Definition cot (x : R) : R := cos x / sin x.
Lemma inv_tan x : / tan x = cot x.
Proof. unfold tan, cot. destruct (Req_dec (cos x) 0) as [-> |N]; [unfold Rdiv; rewrite Rinv_0, Rmult_0_r, Rinv_0; ring|]. destruct (Req_dec (sin x) 0) as [-> |M]; [unfold Rdiv; rewrite Rinv_0, Rmult_0_l, Rinv_0; ring|]. field. auto. Qed.
Lemma cot_shift i e : cot (INR i * PI + e) = cot e.
Proof. rewrite <- !inv_tan. now rewrite tan_shift. Qed.
Lemma sin_x i x : INR i * PI < x < INR i * PI + PI -> sin x <> 0.
Proof.
  intros H. replace x with (INR i * PI + (x - INR i * PI)) by ring. destruct (sc_shift i (x - INR i * PI)) as (-> & _). apply Rmult_integral_contrapositive_currified; [apply m1_nz|]. apply Rgt_not_eq, sin_gt_0; lra.
Qed.
Lemma D_cot x : sin x <> 0 -> D cot x (- (1 + cot x ^ 2)).
Proof.
  intros H. eapply D_eq; [apply (D_div cos sin x (- sin x * 1) (cos x * 1)); [apply (D_cos (fun t => t)), D_id|apply (D_sin (fun t => t)), D_id|auto]|].
  unfold cot. field. auto.
Qed.
Definition fc (a x : R) : R := 1 - a - x * cot x.
Definition fc' (x : R) : R := x * (1 + cot x ^ 2) - cot x.
Lemma fc_D a i x : INR i * PI < x < INR i * PI + PI -> D (fc a) x (fc' x).
Proof.
  intros H. unfold fc, fc'. eapply D_eq; [apply (D_minus (fun _ => 1 - a) (fun x => x * cot x)); [apply D_const|apply (D_mult (fun x => x) cot); [apply D_id|apply D_cot; now apply (sin_x i)]]|ring].
Qed.
Lemma fc'_pos i x : INR i * PI < x < INR i * PI + PI -> 0 < fc' x.
Proof.
  intros H. pose proof (XPI i) as X0. unfold fc'. replace x with (INR i * PI + (x - INR i * PI)) by ring. rewrite cot_shift. set (e := x - INR i * PI). assert (He : 0 < e < PI) by (unfold e; lra). unfold cot. assert (S : 0 < sin e) by (apply sin_gt_0; lra).
  pose proof (sin2_cos2 e) as Q. unfold Rsqr in Q. replace (1 + (cos e / sin e) ^ 2) with (/ (sin e * sin e)) by (apply (Rmult_eq_reg_r (sin e * sin e)); [field_simplify; [simpl; lra|lra|lra]|nra]).
  assert (SC : sin e * cos e < e). { assert (sin e < e) by (apply sin_lt_x; lra). pose proof (COS_bound e). nra. }
  replace ((INR i * PI + e) * / (sin e * sin e) - cos e / sin e) with ((INR i * PI + e - sin e * cos e) / (sin e * sin e)) by (field; lra). apply Rdiv_lt_0_compat; nra.
Qed.
Lemma fc_mono a i x y : INR i * PI < x < y -> y < INR i * PI + PI -> fc a x < fc a y.
Proof. intros H Hy. apply (mono_strict (fc a) fc'); [lra|intros; apply (fc_D a i); lra|intros; apply (fc'_pos i); lra]. Qed.
Lemma fc'_mono i x y : INR i * PI < x <= y -> y < INR i * PI + PI -> x * cot x <= 1 -> fc' x <= fc' y.
Proof.
  intros H Hy Hc. apply (mono_incr fc' (fun x => 2 * (1 + cot x ^ 2) * (1 - x * cot x))); [lra| |].
  - intros t Ht. assert (S : sin t <> 0) by (apply (sin_x i); lra). unfold fc'. eapply D_eq.
    + apply (D_minus (fun x => x * (1 + cot x ^ 2)) cot); [|now apply D_cot]. apply (D_mult (fun x => x) (fun x => 1 + cot x ^ 2)); [apply D_id|].
      apply (D_plus (fun _ => 1) (fun x => cot x ^ 2)); [apply D_const|]. apply (D_ext (fun x => cot x * cot x)); [intros; ring|]. apply (D_mult cot cot); now apply D_cot.
    + ring.
  - intros t Ht. assert (t * cot t <= 1). { destruct (Req_dec t x) as [-> |N]; auto. pose proof (fc_mono 0 i x t ltac:(lra) ltac:(lra)) as M. unfold fc in M. lra. }
    apply Rmult_le_pos; [|lra]. pose proof (pow2_ge_0 (cot t)). lra.
Qed.
Lemma xcot_root a i : 0 < a -> exists e, 0 < e < PI /\ 1 - (INR i * PI + e) * cot e = a.
Proof.
  intros Ha. pose proof PI_bounds as (P1 & P2). pose proof (XPI i) as X0. set (X := INR i * PI) in *. pose (K := fun e => (1 - a) * sin e - (X + e) * cos e).
  pose (e0 := Rmin a 1 / 2). assert (E0 : 0 < e0 <= 1 / 2 /\ e0 <= a / 2). { unfold e0. pose proof (Rmin_l a 1). pose proof (Rmin_r a 1). assert (0 < Rmin a 1) by (apply Rmin_glb_lt; lra). lra. }
  assert (C0 : 1 - e0 * e0 / 2 <= cos e0). { replace e0 with (2 * (e0 / 2)) at 3 by field. rewrite cos_2a_sin. assert (0 <= sin (e0 / 2) <= e0 / 2) by (split; [apply sin_ge_0; lra|left; apply sin_lt_x; lra]). nra. }
  assert (S0 : 0 < sin e0 < e0) by (split; [apply sin_gt_0; lra|apply sin_lt_x; lra]).
  destruct (IVT K e0 PI) as (e & He & Ke).
  - unfold K. intros x. reg.
  - lra.
  - unfold K. assert (e0 * (1 - e0 * e0 / 2) <= (X + e0) * cos e0) by (apply Rmult_le_compat; nra). destruct (Rle_dec a 1) as [L|L]; [assert ((1 - a) * sin e0 <= (1 - a) * e0) by (apply Rmult_le_compat_l; lra); nra|assert ((1 - a) * sin e0 <= 0) by nra; nra].
  - unfold K. rewrite sin_PI, cos_PI. lra.
  - unfold K in Ke. assert (e <> PI) by (intros ->; rewrite sin_PI, cos_PI in Ke; lra). exists e. split; [lra|]. assert (0 < sin e) by (apply sin_gt_0; lra). unfold cot. apply (Rmult_eq_reg_r (sin e)); [|lra]. replace ((1 - (X + e) * (cos e / sin e)) * sin e) with (sin e - (X + e) * cos e) by (field; lra). lra.
Qed.
(** there is exactly one root in each (i pi, (i+1) pi) *)
Theorem C91_xcotx_roots a i : 0 < a -> exists r, INR i * PI < r < INR i * PI + PI /\ 1 - r * (1 / tan r) = a /\
  forall x, INR i * PI < x < INR i * PI + PI -> 1 - x * (1 / tan x) = a -> x = r.
Proof.
  intros Ha. destruct (xcot_root a i Ha) as (e & He & Ke). exists (INR i * PI + e). unfold Rdiv. rewrite Rmult_1_l, inv_tan, cot_shift. split; [lra|]. split; [auto|]. intros x Hx Ex. rewrite Rmult_1_l, inv_tan in Ex.
  assert (Z : fc a (INR i * PI + e) = 0) by (unfold fc; rewrite cot_shift; lra). assert (Zx : fc a x = 0) by (unfold fc; lra).
  destruct (Rtotal_order x (INR i * PI + e)) as [Q|[Q|Q]]; auto; exfalso; [pose proof (fc_mono a i _ _ ltac:(split; [apply Hx|exact Q]) ltac:(lra))|pose proof (fc_mono a i (INR i * PI + e) x ltac:(lra) ltac:(lra))]; lra.
Qed.
Lemma fc_newton a x : derivative_complex (fun x _ => x / tan x + a - 1) (fun x h => h * (1 / tan x - x * (1 + / tan x ^ 2))) x = (-1 * fc' x, -1 * fc a x).
Proof.
  unfold derivative_complex, fc', fc. rewrite <- pow_inv. unfold Rdiv. rewrite inv_tan. f_equal; [field; apply eps_nz|ring].
Qed.
Lemma cot_half i : cot ((INR i + 1 / 2) * PI) = 0.
Proof. replace ((INR i + 1 / 2) * PI) with (INR i * PI + PI / 2) by field. rewrite cot_shift. unfold cot. rewrite cos_PI2. unfold Rdiv. ring. Qed.
(** the Newton branch (0 < a < 2) never leaves the interval of its root *)
Theorem C91_xcotx_newton a i tolx n : 0 < a < 2 -> a <> 1 -> (0 < n)%nat -> exists tr r, xcotx_newton a i tolx n = (tr, Ok r) /\
  INR i * PI < rr_x r < INR i * PI + PI /\ rr_f r = rr_x r / tan (rr_x r) + a - 1 /\
  (a < 1 -> forall rho, INR i * PI < rho < INR i * PI + PI -> 1 - rho * (1 / tan rho) = a -> rho <= rr_x r) /\
  (let x0 := (INR i + 1 / 2) * PI in
   forall rho, INR i * PI < rho < INR i * PI + PI -> 1 - rho * (1 / tan rho) = a -> rho <= rr_x r \/
     (rr_x r = x0 /\ rho - x0 <= Rabs ((a - 1) / x0) /\
      (n = 1%nat \/ Rabs (a - 1) <= 1 / 10 ^ 10 \/ x0 <= eps \/ Rabs ((a - 1) / x0) <= tolx))).
Proof.
  intros Ha Ha1 Hn. pose proof PI_bounds as (P1 & P2). pose proof (XPI i) as X0. destruct (xcot_root a i ltac:(lra)) as (e & He & Ke). set (rho := INR i * PI + e). unfold xcotx_newton, root_newton.
  set (x0 := (INR i + 1 / 2) * PI). assert (EX0 : x0 = INR i * PI + PI / 2) by (unfold x0; field). pose proof (cot_half i) as CH. fold x0 in CH.
  assert (Zr : fc a rho = 0) by (unfold fc, rho; rewrite cot_shift; lra). assert (Zx : fc a x0 = 1 - a) by (unfold fc; rewrite CH; ring). assert (Zx' : fc' x0 = x0) by (unfold fc'; rewrite CH; ring).
  set (l := Rmin x0 rho). assert (L : INR i * PI < l /\ l <= x0 /\ l <= rho) by (unfold l; repeat split; [apply Rmin_glb_lt; unfold rho; lra|apply Rmin_l|apply Rmin_r]).
  assert (LC : l * cot l <= 1). { unfold l, Rmin. destruct (Rle_dec x0 rho); [rewrite CH; lra|]. unfold fc in Zr. lra. }
  set (u := INR i * PI + PI) in *. assert (Hrho : l <= rho < u) by (unfold rho, u in *; lra).
  assert (HD : forall x, l <= x < u -> D (fc a) x (fc' x)) by (intros; apply (fc_D a i); unfold u in *; lra).
  assert (HP : forall x, l <= x < u -> 0 < fc' x) by (intros; apply (fc'_pos i); unfold u in *; lra).
  assert (HM : forall x y, l <= x <= y -> y < u -> fc' x <= fc' y).
  { intros x y Hxy Hy. apply (fc'_mono i); try (unfold u in *; lra). destruct (Req_dec x l) as [-> |N]; auto. pose proof (fc_mono 0 i l x ltac:(lra) ltac:(unfold u in *; lra)) as M. unfold fc in M. lra. }
  assert (HN : forall x, l <= x < u -> derivative_complex (fun x _ => x / tan x + a - 1) (fun x h => h * (1 / tan x - x * (1 + / tan x ^ 2))) x = (-1 * fc' x, -1 * fc a x)) by (intros; apply fc_newton).
  assert (FV : forall x, -1 * fc a x = x / tan x + a - 1) by (intros; unfold fc, Rdiv; rewrite inv_tan; ring).
  destruct (Rle_dec rho x0) as [R|R].
  - destruct (newton_right (fc a) fc' (-1) rho u l _ _ ltac:(lra) HD HP HM ltac:(lra) Zr HN tolx (1 / 10 ^ 10) n 0 x0 [] Hn ltac:(unfold u; lra)) as (tr & r & E & B & C). rewrite FV in C.
    exists tr, r. split; [exact E|]. split; [unfold u in *; lra|]. split; [exact C|]. assert (UQ : forall rho', INR i * PI < rho' < u -> 1 - rho' * (1 / tan rho') = a -> rho' = rho). { intros rho' Hr' Er'. destruct (C91_xcotx_roots a i ltac:(lra)) as (r0 & _ & _ & U). rewrite (U rho' Hr' Er'). symmetry. apply U; [fold u; lra|]. unfold fc in Zr. unfold Rdiv. rewrite Rmult_1_l, inv_tan. lra. }
    split; [intros H1 rho' Hr' Er'; rewrite (UQ rho' Hr' Er'); lra|]. cbv zeta. intros rho' Hr' Er'. left. rewrite (UQ rho' Hr' Er'). lra.
  - assert (A1 : 1 < a). { destruct (Rlt_dec 1 a) as [|N]; auto. exfalso. apply R. destruct (Rle_dec rho x0) as [|N']; auto. pose proof (fc_mono a i x0 rho ltac:(lra) ltac:(unfold rho; lra)). lra. }
    assert (ST : x0 + - fc a x0 / fc' x0 < u).
    { rewrite Zx, Zx'. assert (- (1 - a) / x0 < PI / 2); [|unfold u; lra]. apply (Rmult_lt_reg_r x0); [lra|]. unfold Rdiv at 1. rewrite Rmult_assoc, Rinv_l by lra. nra. }
    destruct (newton_left (fc a) fc' (-1) rho u l _ _ ltac:(lra) HD HP HM ltac:(lra) Zr HN tolx (1 / 10 ^ 10) n 0%nat x0 [] Hn ltac:(lra) ST) as (tr & r & E & B & C & G). rewrite FV in G.
    exists tr, r. split; [exact E|]. split; [unfold u in *; destruct C as [(-> & _)|C]; lra|]. split; [exact G|]. split; [intros H1; lra|]. cbv zeta. fold x0. intros rho' Hr' Er'.
    assert (rho' = rho). { destruct (C91_xcotx_roots a i ltac:(lra)) as (r0 & _ & _ & U). rewrite (U rho' Hr' Er'). symmetry. apply U; [fold u; lra|]. unfold fc in Zr. unfold Rdiv. rewrite Rmult_1_l, inv_tan. lra. } subst rho'.
    destruct C as [(C & C')|C]; [right|left; lra]. split; [exact C|]. rewrite Zx, Zx' in C'. replace (-1 * (1 - a)) with (a - 1) in C' by ring. replace ((1 - a) / x0) with (- ((a - 1) / x0)) in C' by (unfold Rdiv; ring). rewrite Rabs_Ropp in C'. replace (-1 * x0) with (- x0) in C' by ring. rewrite Rabs_Ropp, (Rabs_right x0) in C' by lra. split; [|exact C'].
    pose proof (conv_tangent (fc a) fc' u l HD HM x0 rho ltac:(lra) ltac:(lra)) as T. rewrite Zr, Zx, Zx' in T. eapply Rle_trans; [|apply Rle_abs]. apply (Rmult_le_reg_r x0); [lra|]. replace ((a - 1) / x0 * x0) with (a - 1) by (field; lra). lra.
Qed.
(** the branch a >= 2: thirty contractions by at most 8/25 *)
Theorem C91_xcotx_large a i tolx r : 2 <= a -> INR i * PI < r < INR i * PI + PI -> 1 - r * (1 / tan r) = a ->
  INR i * PI + PI / 2 <= xcotx_large a i tolx <= INR i * PI + PI /\ (Rabs (xcotx_large a i tolx - r) <= tolx * (25 / 17) \/ Rabs (xcotx_large a i tolx - r) <= 2 * (8 / 25) ^ 30).
Proof.
  intros Ha Hr E. pose proof PI_bounds as (P1 & P2). pose proof (XPI i) as X0. unfold xcotx_large. replace (INR (i + 1) * PI) with (INR i * PI + PI) by (rewrite plus_INR; cbn; ring). set (X := INR i * PI + PI).
  set (es := r - X). unfold Rdiv in E. rewrite Rmult_1_l, inv_tan in E.
  assert (CE : cot r = cot es). { replace r with (INR (S i) * PI + es) by (unfold es, X; rewrite S_INR; ring). apply cot_shift. }
  rewrite CE in E. assert (He : - PI < es < 0) by (unfold es, X; lra). assert (SE : sin es < 0) by (apply sin_lt_0_var; lra).
  assert (CP : 0 < cos es). { destruct (Rlt_dec 0 (cos es)) as [|N]; auto. exfalso. assert (0 <= cot es). { unfold cot, Rdiv. pose proof (Rinv_lt_0_compat _ SE). nra. } assert (0 <= r * cot es) by (apply Rmult_le_pos; lra). lra. }
  assert (He2 : - (PI / 2) < es). { destruct (Rlt_dec (- (PI / 2)) es) as [|N]; auto. exfalso. assert (cos es <= 0); [|lra]. rewrite <- cos_neg. apply cos_le_0; lra. }
  set (g := fun e => atan ((X + e) / (1 - a))).
  assert (RC : r * cos es = (1 - a) * sin es) by (rewrite <- E; unfold cot; field; lra).
  assert (FIX : g es = es). { unfold g. rewrite <- (atan_tan es) at 2 by lra. f_equal. unfold tan. replace (X + es) with r by (unfold es; ring). apply (Rmult_eq_reg_r ((1 - a) * cos es)); [|apply Rmult_integral_contrapositive_currified; lra]. transitivity (r * cos es); [field; lra|]. rewrite RC. field. lra. }
  assert (YP : forall e, - (PI / 2) <= e <= 0 -> PI / 2 <= X + e) by (intros; unfold X; lra).
  assert (HI : forall e, - (PI / 2) <= e <= 0 -> - (PI / 2) <= g e <= 0). { intros e H. unfold g. pose proof (YP e H). assert ((X + e) / (1 - a) < 0). { unfold Rdiv. pose proof (Rinv_lt_0_compat (1 - a) ltac:(lra)). nra. } split; [pose proof (atan_bound ((X + e) / (1 - a))); lra|rewrite <- atan_0; left; now apply atan_increasing]. }
  assert (HL : forall e, - (PI / 2) <= e <= 0 -> Rabs (g e - es) <= 8 / 25 * Rabs (e - es)).
  { intros e H. rewrite <- FIX at 1. apply (atan_lip g (fun e => (1 - a) / ((X + e) ^ 2 + (1 - a) ^ 2)) (- (PI / 2)) 0); try lra.
    - intros t Ht. pose proof (YP t Ht). unfold g. eapply D_eq; [apply (D_atan (fun e => (X + e) / (1 - a))); apply (D_ext (fun e => / (1 - a) * (X + e))); [intros; unfold Rdiv; ring|]; apply (D_scal (/ (1 - a)) (fun e => X + e)); apply (D_plus (fun _ => X) (fun e => e)); [apply D_const|apply D_id]|].
      cbv beta. assert (0 < (X + t) ^ 2) by (apply pow_lt; lra). assert (0 < (a - 1) ^ 2) by (apply pow_lt; lra). assert (0 < (1 - a) ^ 2) by nra. field. repeat split; nra.
    - intros t Ht. pose proof (YP t Ht) as Y. set (y := X + t) in *. set (b := a - 1). replace (1 - a) with (- b) by (unfold b; ring). assert (B : 1 <= b) by (unfold b; lra). assert (0 < y ^ 2) by (apply pow_lt; lra). assert (0 < (- b) ^ 2) by nra.
      unfold Rdiv. rewrite Rabs_mult, Rabs_Ropp, (Rabs_right b), Rabs_right by (try lra; apply Rle_ge; left; apply Rinv_0_lt_compat; lra).
      apply (Rmult_le_reg_r (y ^ 2 + (- b) ^ 2)); [lra|]. rewrite Rmult_assoc, Rinv_l by lra. pose proof (Rle_0_sqr (y - b)) as SQ. unfold Rsqr in SQ. nra. }
  destruct (fp_spec (fun e => - (PI / 2) <= e <= 0) g (8 / 25) es ltac:(lra) HI HL tolx 30 0 ltac:(lra)) as (A & B). change (fun e => atan ((X + e) / (1 - a))) with g.
  generalize dependent (fp_loop g tolx 30 0). intros v A B. replace (X + v - r) with (v - es) by (unfold es; ring). split; [unfold X; lra|]. destruct B as [B|B]; [left; lra|right]. eapply Rle_trans; [exact B|].
  assert (Rabs (0 - es) <= 2) by (apply Rabs_le; lra). rewrite Rmult_comm. apply Rmult_le_compat_r; [apply pow_le; lra|lra].
Qed.
Theorem C91_xcotx_interval a i tolx : 0 < a -> exists r, roots_xcotx (Some a) i tolx = Ok r /\ INR i * PI < r <= INR i * PI + PI.
Proof.
  intros Ha. pose proof PI_RGT_0. unfold roots_xcotx. destruct (Reqb a 1) eqn:E1; [eexists; split; [reflexivity|]; lra|]. assert (a <> 1) by (intros Q; apply (proj2 (Reqb_true _ _)) in Q; congruence). destruct (Rltb a 2) eqn:E.
  - apply Rltb_true in E. destruct (C91_xcotx_newton a i tolx 50 ltac:(lra) H0 ltac:(lia)) as (tr & r & N & B & _). exists (rr_x r). unfold newton_x. rewrite N. split; [reflexivity|lra].
  - assert (2 <= a) by (destruct (Rlt_dec a 2) as [L|L]; [rewrite Rltb_t in E by auto; discriminate|lra]). destruct (C91_xcotx_roots a i Ha) as (r & Hr & Er & _). destruct (C91_xcotx_large a i tolx r H1 Hr Er) as (B & _). eexists. split; [reflexivity|]. lra.
Qed.
(** limits: a = 0, 1 and inf *)
Theorem C91_exact i tolx : let v := (INR i + 1 / 2) * PI in
  roots_xtanx (Some 0) i tolx = Ok (INR i * PI) /\ INR i * PI * tan (INR i * PI) = 0 /\ roots_xtanx None i tolx = Ok v /\ cos v = 0 /\
  roots_xcotx (Some 1) i tolx = Ok v /\ 1 - v * cot v = 1 /\ roots_xcotx None i tolx = Ok (INR (i + 1) * PI) /\ sin (INR (i + 1) * PI) = 0.
Proof.
  cbv zeta. unfold roots_xtanx, roots_xcotx. rewrite !Reqb_refl. repeat (split; [reflexivity|split]).
  - rewrite <- (Rplus_0_r (INR i * PI)) at 2. rewrite tan_shift, tan_0. ring.
  - replace ((INR i + 1 / 2) * PI) with (INR i * PI + PI / 2) by field. destruct (sc_shift i (PI / 2)) as (_ & ->). rewrite cos_PI2. ring.
  - rewrite cot_half. ring.
  - split; [reflexivity|]. rewrite <- (Rplus_0_r (INR (i + 1) * PI)). destruct (sc_shift (i + 1) 0) as (-> & _). rewrite sin_0. ring.
Qed.
Example C91_example : exists r, roots_xtanx (Some 1) 2 (1 / 10 ^ 6) = Ok r /\ 2 * PI < r < 2 * PI + PI / 2.
Proof. destruct (C91_xtanx_interval 1 2 (1 / 10 ^ 6) ltac:(lra)) as (r & E & B). exists r. split; [exact E|]. cbn in B. lra. Qed.
Print Assumptions C91_xcotx_interval.
Print Assumptions C91_uptake_refuted.
