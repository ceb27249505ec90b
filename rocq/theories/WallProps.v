(** C59: composite diffusivity, wall coefficients, flat plate; C90: Nusselt correlations. *)
From Coq Require Import Reals Lra Lia List Bool Arith Psatz.
From Coq Require Ranalysis1.
From Verif Require Import Prelude RootsModel KinModel CopoModel Deriv NumBounds Erf HmtModel HmtProps.
Import ListNotations.
Open Scope R_scope.

(* ------------------------------------------------------------------ *)
(** * Composite diffusivity                                           *)
(* ------------------------------------------------------------------ *)

Section Composite.
  Variables Dd Dc sph : R.
  Hypotheses (Hd : 0 < Dd) (Hc : 0 < Dc) (Hs : 0 < sph < 3).
  Let x := 3 / sph - 1.
  Lemma comp_x : 0 < x.
  Proof. unfold x. assert (1 < 3 / sph); [|lra]. apply (Rmult_lt_reg_r sph); [lra|]. unfold Rdiv. rewrite Rmult_assoc, Rinv_l by lra. lra. Qed.
  Lemma comp_den fd : 0 <= fd <= 1 -> 0 < Dd + x * Dc /\ 0 < Dd + x * Dc - fd * (Dd - Dc).
  Proof. intros H. pose proof comp_x. assert (0 < x * Dc) by now apply Rmult_lt_0_compat. split; [lra|]. nra. Qed.
  Lemma comp_val fd : 0 <= fd <= 1 -> diffusivity_composite Dd Dc fd sph = Dc + Dc * (1 + x) * (fd * (Dd - Dc)) / (Dd + x * Dc - fd * (Dd - Dc)).
  Proof. intros H. destruct (comp_den fd H). unfold diffusivity_composite. fold x. field. repeat split; try lra. Qed.
  Lemma comp_diff f g : 0 <= f <= 1 -> 0 <= g <= 1 ->
    diffusivity_composite Dd Dc g sph - diffusivity_composite Dd Dc f sph =
    Dc * (1 + x) * (Dd + x * Dc) * (g - f) * (Dd - Dc) / ((Dd + x * Dc - f * (Dd - Dc)) * (Dd + x * Dc - g * (Dd - Dc))).
  Proof. intros F G. destruct (comp_den f F), (comp_den g G). rewrite !comp_val by auto. field. lra. Qed.
  Lemma comp_0 : diffusivity_composite Dd Dc 0 sph = Dc.
  Proof. rewrite comp_val by lra. destruct (comp_den 0 ltac:(lra)). field. lra. Qed.
  Lemma comp_1 : diffusivity_composite Dd Dc 1 sph = Dd.
  Proof. rewrite comp_val by lra. destruct (comp_den 1 ltac:(lra)). pose proof comp_x. field. nra. Qed.
  Lemma comp_incr f g : Dc < Dd -> 0 <= f < g -> g <= 1 -> diffusivity_composite Dd Dc f sph < diffusivity_composite Dd Dc g sph.
  Proof.
    intros L F G. pose proof (comp_diff f g ltac:(lra) ltac:(lra)) as E. destruct (comp_den f ltac:(lra)), (comp_den g ltac:(lra)). pose proof comp_x.
    assert (0 < Dc * (1 + x) * (Dd + x * Dc) * (g - f) * (Dd - Dc) / ((Dd + x * Dc - f * (Dd - Dc)) * (Dd + x * Dc - g * (Dd - Dc)))); [|lra].
    apply Rdiv_lt_0_compat; [|now apply Rmult_lt_0_compat]. repeat apply Rmult_lt_0_compat; lra.
  Qed.
  Lemma comp_decr f g : Dd < Dc -> 0 <= f < g -> g <= 1 -> diffusivity_composite Dd Dc g sph < diffusivity_composite Dd Dc f sph.
  Proof.
    intros L F G. pose proof (comp_diff f g ltac:(lra) ltac:(lra)) as E. destruct (comp_den f ltac:(lra)), (comp_den g ltac:(lra)). pose proof comp_x.
    assert (0 < Dc * (1 + x) * (Dd + x * Dc) * (g - f) * (Dc - Dd) / ((Dd + x * Dc - f * (Dd - Dc)) * (Dd + x * Dc - g * (Dd - Dc)))).
    { apply Rdiv_lt_0_compat; [|now apply Rmult_lt_0_compat]. repeat apply Rmult_lt_0_compat; lra. }
    replace (Dc * (1 + x) * (Dd + x * Dc) * (g - f) * (Dd - Dc) / ((Dd + x * Dc - f * (Dd - Dc)) * (Dd + x * Dc - g * (Dd - Dc))))
      with (- (Dc * (1 + x) * (Dd + x * Dc) * (g - f) * (Dc - Dd) / ((Dd + x * Dc - f * (Dd - Dc)) * (Dd + x * Dc - g * (Dd - Dc))))) in E by (field; lra). lra.
  Qed.
End Composite.
(** equal to the continuous / dispersed value at the ends, strictly monotone in between and so within both *)
Theorem C59_composite Dd Dc sph : 0 < Dd -> 0 < Dc -> 0 < sph <= 1 ->
  diffusivity_composite Dd Dc 0 sph = Dc /\ diffusivity_composite Dd Dc 1 sph = Dd /\
  (forall f g, 0 <= f < g -> g <= 1 -> (Dc < Dd -> diffusivity_composite Dd Dc f sph < diffusivity_composite Dd Dc g sph) /\ (Dd < Dc -> diffusivity_composite Dd Dc g sph < diffusivity_composite Dd Dc f sph)) /\
  (forall f, 0 <= f <= 1 -> Rmin Dc Dd <= diffusivity_composite Dd Dc f sph <= Rmax Dc Dd).
Proof.
  intros Hd Hc Hs. assert (HS : 0 < sph < 3) by lra. pose proof (comp_0 Dd Dc sph Hd Hc HS) as E0. pose proof (comp_1 Dd Dc sph Hd Hc HS) as E1. repeat split; auto.
  - intros L. now apply comp_incr.
  - intros L. now apply comp_decr.
  - destruct (Rtotal_order Dc Dd) as [L|[L|L]].
    + rewrite Rmin_left by lra. destruct (Req_dec f 0) as [-> |N]; [lra|]. pose proof (comp_incr Dd Dc sph Hd Hc HS 0 f L ltac:(lra) ltac:(lra)). lra.
    + subst Dd. rewrite (comp_val Dc Dc sph Hd Hc HS f H), Rmin_left by lra. replace (Dc - Dc) with 0 by ring. unfold Rdiv. rewrite !Rmult_0_r, Rmult_0_l. lra.
    + rewrite Rmin_right by lra. destruct (Req_dec f 1) as [-> |N]; [lra|]. pose proof (comp_decr Dd Dc sph Hd Hc HS f 1 L ltac:(lra) ltac:(lra)). lra.
  - destruct (Rtotal_order Dc Dd) as [L|[L|L]].
    + rewrite Rmax_right by lra. destruct (Req_dec f 1) as [-> |N]; [lra|]. pose proof (comp_incr Dd Dc sph Hd Hc HS f 1 L ltac:(lra) ltac:(lra)). lra.
    + subst Dd. rewrite (comp_val Dc Dc sph Hd Hc HS f H), Rmax_left by lra. replace (Dc - Dc) with 0 by ring. unfold Rdiv. rewrite !Rmult_0_r, Rmult_0_l. lra.
    + rewrite Rmax_left by lra. destruct (Req_dec f 0) as [-> |N]; [lra|]. pose proof (comp_decr Dd Dc sph Hd Hc HS 0 f L ltac:(lra) ltac:(lra)). lra.
Qed.
Example C59_composite_example : diffusivity_composite 4 1 (1 / 2) 1 = 2.
Proof. unfold diffusivity_composite. field. Qed.

(* ------------------------------------------------------------------ *)
(** * Walls                                                           *)
(* ------------------------------------------------------------------ *)

Lemma inv_lt_of a b : 0 < a -> 1 < a * b -> 1 / b < a.
Proof. intros H H1. assert (0 < b) by nra. apply (Rmult_lt_reg_r b); auto. unfold Rdiv. rewrite Rmult_assoc, Rinv_l by lra. lra. Qed.
(** the overall coefficient is positive and below the conductance of every layer *)
Theorem C59_plane_wall h1 h2 L k Rf1 Rf2 : 0 < h1 -> 0 < h2 -> 0 < L -> 0 < k -> 0 <= Rf1 -> 0 <= Rf2 ->
  0 < U_plane_wall h1 h2 L k Rf1 Rf2 /\ U_plane_wall h1 h2 L k Rf1 Rf2 < h1 /\ U_plane_wall h1 h2 L k Rf1 Rf2 < h2 /\ U_plane_wall h1 h2 L k Rf1 Rf2 < k / L /\
  (0 < Rf1 -> U_plane_wall h1 h2 L k Rf1 Rf2 < 1 / Rf1) /\ (0 < Rf2 -> U_plane_wall h1 h2 L k Rf1 Rf2 < 1 / Rf2).
Proof.
  intros A B C E F G. assert (0 < 1 / h1) by (apply Rdiv_lt_0_compat; lra). assert (0 < 1 / h2) by (apply Rdiv_lt_0_compat; lra). assert (0 < L / k) by (apply Rdiv_lt_0_compat; lra).
  unfold U_plane_wall. set (S := 1 / h1 + 1 / h2 + L / k + Rf1 + Rf2).
  assert (Q : forall a, 0 < a -> a < S -> 1 / S < 1 / a). { intros a Ha Hs. unfold Rdiv. rewrite !Rmult_1_l. apply Rinv_lt_contravar; [apply Rmult_lt_0_compat|]; lra. }
  assert (0 < S) by (unfold S; lra). split; [apply Rdiv_lt_0_compat; lra|].
  assert (U1 : 1 / (1 / h1) = h1) by (field; lra). assert (U2 : 1 / (1 / h2) = h2) by (field; lra). assert (U3 : 1 / (L / k) = k / L) by (field; lra).
  split; [rewrite <- U1 at 1; apply Q; auto; unfold S; lra|]. split; [rewrite <- U2 at 1; apply Q; auto; unfold S; lra|]. split; [rewrite <- U3; apply Q; auto; unfold S; lra|].
  split; intros; apply Q; auto; unfold S; lra.
Qed.
Lemma ln_le_sub y : 0 < y -> ln y <= y - 1.
Proof. intros H. destruct (Req_dec y 1) as [-> |N]; [rewrite ln_1; lra|]. left. pose proof (exp_ineq1 (ln y) ltac:(intros E; apply N; rewrite <- (exp_ln y H), E; apply exp_0)). rewrite exp_ln in H0; lra. Qed.
Lemma ln_ge_sub y : 0 < y -> 1 - / y <= ln y.
Proof. intros H. pose proof (ln_le_sub (/ y) ltac:(now apply Rinv_0_lt_compat)). rewrite ln_Rinv in H0 by auto. lra. Qed.
(** a tube of bore d and wall thickness L lies between the plane wall and the plane wall times d/(d + 2 L) *)
Theorem C59_cylindrical_wall hi ho d L k Rfi Rfo : 0 < hi -> 0 < ho -> 0 < d -> 0 < L -> 0 < k -> 0 <= Rfi -> 0 <= Rfo ->
  U_plane_wall hi ho L k Rfi Rfo * (d / (d + 2 * L)) <= U_cylindrical_wall hi ho d (d + 2 * L) k Rfi Rfo <= U_plane_wall hi ho L k Rfi Rfo.
Proof.
  intros A B C E F G H. assert (0 < 1 / hi) by (apply Rdiv_lt_0_compat; lra). assert (0 < 1 / ho) by (apply Rdiv_lt_0_compat; lra). assert (0 < L / k) by (apply Rdiv_lt_0_compat; lra).
  set (D0 := d + 2 * L). set (w := D0 / d). assert (W : 1 < w). { unfold w, D0. apply (Rmult_lt_reg_r d); auto. unfold Rdiv. rewrite Rmult_assoc, Rinv_l by lra. lra. }
  assert (Lw : L / k <= D0 / (2 * k) * ln w <= L / k * w).
  { assert (P : 0 < D0 / (2 * k)) by (apply Rdiv_lt_0_compat; unfold D0; lra). split.
    - apply Rle_trans with (D0 / (2 * k) * (1 - / w)); [|apply Rmult_le_compat_l; [lra|apply ln_ge_sub; lra]]. right. unfold w, D0. field. lra.
    - apply Rle_trans with (D0 / (2 * k) * (w - 1)); [apply Rmult_le_compat_l; [lra|apply ln_le_sub; lra]|]. right. unfold w, D0. field. lra. }
  unfold U_cylindrical_wall, U_plane_wall. fold w. replace (D0 / (hi * d)) with (1 / hi * w) by (unfold w; field; lra). replace (Rfi * D0 / d) with (Rfi * w) by (unfold w; field; lra). replace (d / D0) with (1 / w) by (unfold w, D0; field; lra).
  set (S := 1 / hi + 1 / ho + L / k + Rfi + Rfo). set (T := 1 / hi * w + 1 / ho + Rfi * w + Rfo + D0 / (2 * k) * ln w).
  assert (ST : S <= T <= S * w). { unfold S, T. assert (1 / hi <= 1 / hi * w) by nra. assert (Rfi <= Rfi * w) by nra. assert (1 / ho <= 1 / ho * w) by nra. assert (Rfo <= Rfo * w) by nra. lra. }
  assert (SP : 0 < S) by (unfold S; lra). unfold Rdiv. rewrite !Rmult_1_l, <- Rinv_mult. split; apply Rinv_le_contravar; lra.
Qed.
(** so it tends to the plane wall as the bore grows *)
Theorem C59_cylindrical_limit hi ho L k Rfi Rfo : 0 < hi -> 0 < ho -> 0 < L -> 0 < k -> 0 <= Rfi -> 0 <= Rfo -> forall e, 0 < e ->
  exists d0, 0 < d0 /\ forall d, d0 < d -> Rabs (U_cylindrical_wall hi ho d (d + 2 * L) k Rfi Rfo - U_plane_wall hi ho L k Rfi Rfo) < e.
Proof.
  intros A B C E F G e He. destruct (C59_plane_wall hi ho L k Rfi Rfo A B C E F G) as (UP & _). set (U := U_plane_wall hi ho L k Rfi Rfo) in *.
  exists (2 * L * U / e). assert (0 < 2 * L * U / e) by (apply Rdiv_lt_0_compat; auto; apply Rmult_lt_0_compat; lra). split; auto. intros d Hd.
  destruct (C59_cylindrical_wall hi ho d L k Rfi Rfo A B ltac:(lra) C E F G) as (L1 & L2). fold U in L1, L2. rewrite Rabs_left1 by lra.
  assert (2 * L * U < e * (d + 2 * L)). { assert (2 * L * U < e * d); [|nra]. apply (Rmult_lt_compat_r e) in Hd; auto. unfold Rdiv in Hd. rewrite Rmult_assoc, Rinv_l in Hd by lra. lra. }
  assert (U - U * (d / (d + 2 * L)) < e); [|lra]. replace (U - U * (d / (d + 2 * L))) with (2 * L * U / (d + 2 * L)) by (field; lra).
  apply (Rmult_lt_reg_r (d + 2 * L)); [lra|]. unfold Rdiv. rewrite Rmult_assoc, Rinv_l by lra. lra.
Qed.
Example C59_wall_example : U_plane_wall 2 2 1 1 0 0 = 1 / 2. Proof. unfold U_plane_wall. field. Qed.

(* ------------------------------------------------------------------ *)
(** * Powers of nonnegative numbers                                   *)
(* ------------------------------------------------------------------ *)

Lemma pow0_nonneg x a : 0 <= pow0 x a.
Proof. unfold pow0. destruct (Rltb 0 x); [left; apply rp_pos|lra]. Qed.
Lemma pow0_pos x a : 0 < x -> pow0 x a = Rpower x a.
Proof. intros H. unfold pow0. now rewrite Rltb_t. Qed.
Lemma pow0_0 a : pow0 0 a = 0.
Proof. unfold pow0. now rewrite Rltb_f by lra. Qed.
Lemma pow0_lt x y a : 0 <= x < y -> 0 < a -> pow0 x a < pow0 y a.
Proof.
  intros H Ha. rewrite (pow0_pos y) by lra. destruct (Req_dec x 0) as [-> |N]; [rewrite pow0_0; apply rp_pos|]. rewrite pow0_pos by lra. apply rp_base; lra.
Qed.
Lemma pow0_le x y a : 0 <= x <= y -> 0 < a -> pow0 x a <= pow0 y a.
Proof. intros H Ha. destruct (Req_dec x y) as [-> |N]; [lra|]. left. apply pow0_lt; lra. Qed.

(* ------------------------------------------------------------------ *)
(** * Flat plate                                                      *)
(* ------------------------------------------------------------------ *)

Definition plate_lam (Re Pr : R) : R := 664 / 1000 * pow0 Re (1 / 2) * Rpower Pr (1 / 3).
Definition plate_turb (Re Pr : R) : R := (37 / 1000 * Rpower Re (4 / 5) - (37 / 1000 * Rpower 500000 (4 / 5) - 664 / 1000 * Rpower 500000 (1 / 2))) * Rpower Pr (1 / 3).
Lemma plate_meet Pr : plate_lam 500000 Pr = plate_turb 500000 Pr.
Proof. unfold plate_lam, plate_turb. rewrite pow0_pos by lra. ring. Qed.
Lemma cont_rpower a x : 0 < x -> continuity_pt (fun t => Rpower t a) x.
Proof. intros H. apply derivable_continuous_pt. exists (a * Rpower x (a - 1)). now apply derivable_pt_lim_power. Qed.
Lemma glue f g h a : (forall x, h x = if Rltb x a then f x else g x) -> f a = g a -> continuity_pt f a -> continuity_pt g a -> continuity_pt h a.
Proof.
  intros Hh Hfg Cf Cg e He. destruct (Cf e He) as (d1 & P1 & Q1). destruct (Cg e He) as (d2 & P2 & Q2). exists (Rmin d1 d2). split; [now apply Rmin_glb_lt|].
  intros x (Dx & Hx). rewrite (Hh x), (Hh a), (Rltb_f a a) by lra. pose proof (Rmin_l d1 d2). pose proof (Rmin_r d1 d2). destruct (Rltb x a).
  - rewrite <- Hfg. apply Q1. split; auto. eapply Rlt_le_trans; [exact Hx|]. auto.
  - apply Q2. split; auto. eapply Rlt_le_trans; [exact Hx|]. auto.
Qed.
(** continuous in Re at the transition (and everywhere above 0) and strictly increasing *)
Theorem C59_plate_continuous Pr Re : 0 < Re -> continuity_pt (fun Re => Nu_plate Re Pr) Re.
Proof.
  intros HR. assert (CL : continuity_pt (fun t => plate_lam t Pr) Re).
  { assert (C : continuity_pt (fun t => pow0 t (1 / 2)) Re).
    { pose proof (cont_rpower (1 / 2) Re HR) as K. intros e He. destruct (K e He) as (d & Pd & Qd). exists (Rmin d Re). split; [now apply Rmin_glb_lt|]. intros t (Dt & Ht). pose proof (Rmin_l d Re). pose proof (Rmin_r d Re).
      unfold dist, R_met, R_dist in *. simpl in *. unfold R_dist in *. assert (0 < t) by (pose proof (Rabs_def2 _ _ Ht); lra). rewrite !pow0_pos by auto. apply Qd. split; auto. lra. }
    unfold plate_lam. apply (continuity_pt_mult (fun t => 664 / 1000 * pow0 t (1 / 2)) (fun _ => Rpower Pr (1 / 3))); [|now apply continuity_pt_const].
    apply (continuity_pt_mult (fun _ => 664 / 1000) (fun t => pow0 t (1 / 2))); [now apply continuity_pt_const|exact C]. }
  assert (CT : continuity_pt (fun t => plate_turb t Pr) Re).
  { unfold plate_turb. apply (continuity_pt_mult (fun t => 37 / 1000 * Rpower t (4 / 5) - (37 / 1000 * Rpower 500000 (4 / 5) - 664 / 1000 * Rpower 500000 (1 / 2))) (fun _ => Rpower Pr (1 / 3))); [|now apply continuity_pt_const].
    apply (continuity_pt_minus (fun t => 37 / 1000 * Rpower t (4 / 5)) (fun _ => 37 / 1000 * Rpower 500000 (4 / 5) - 664 / 1000 * Rpower 500000 (1 / 2))); [|now apply continuity_pt_const].
    apply (continuity_pt_mult (fun _ => 37 / 1000) (fun t => Rpower t (4 / 5))); [now apply continuity_pt_const|now apply cont_rpower]. }
  destruct (Req_dec Re 500000) as [-> |N].
  - apply (glue (fun t => plate_lam t Pr) (fun t => plate_turb t Pr)); auto. apply plate_meet.
  - destruct (Rlt_dec Re 500000) as [L|L].
    + intros e He. destruct (CL e He) as (d & Pd & Qd). exists (Rmin d (500000 - Re)). split; [apply Rmin_glb_lt; lra|]. intros t (Dt & Ht). pose proof (Rmin_l d (500000 - Re)). pose proof (Rmin_r d (500000 - Re)).
      simpl in *. unfold R_dist in *. assert (t < 500000) by (pose proof (Rabs_def2 _ _ Ht); lra). unfold Nu_plate. rewrite !Rltb_t by auto. apply Qd. split; auto. lra.
    + intros e He. destruct (CT e He) as (d & Pd & Qd). exists (Rmin d (Re - 500000)). split; [apply Rmin_glb_lt; lra|]. intros t (Dt & Ht). pose proof (Rmin_l d (Re - 500000)). pose proof (Rmin_r d (Re - 500000)).
      simpl in *. unfold R_dist in *. assert (500000 < t) by (pose proof (Rabs_def2 _ _ Ht); lra). unfold Nu_plate. rewrite !Rltb_f by lra. apply Qd. split; auto. lra.
Qed.
Theorem C59_plate_increasing Pr Re1 Re2 : 0 <= Re1 < Re2 -> Nu_plate Re1 Pr < Nu_plate Re2 Pr.
Proof.
  intros H. assert (P : 0 < Rpower Pr (1 / 3)) by apply rp_pos.
  assert (LI : forall a b, 0 <= a < b -> plate_lam a Pr < plate_lam b Pr). { intros a b Hab. unfold plate_lam. pose proof (pow0_lt a b (1 / 2) Hab ltac:(lra)). apply Rmult_lt_compat_r; lra. }
  assert (TI : forall a b, 0 < a < b -> plate_turb a Pr < plate_turb b Pr). { intros a b Hab. unfold plate_turb. pose proof (rp_base a b (4 / 5) ltac:(lra) ltac:(lra) ltac:(lra)). apply Rmult_lt_compat_r; lra. }
  assert (V : forall Re, Nu_plate Re Pr = if Rltb Re 500000 then plate_lam Re Pr else plate_turb Re Pr) by reflexivity. rewrite !V.
  destruct (Rlt_dec Re2 500000) as [L2|L2].
  - rewrite !Rltb_t by lra. auto.
  - rewrite (Rltb_f Re2) by lra. destruct (Rlt_dec Re1 500000) as [L1|L1].
    + rewrite Rltb_t by lra. apply Rlt_le_trans with (plate_lam 500000 Pr); [apply LI; lra|]. rewrite plate_meet. destruct (Req_dec Re2 500000) as [-> |N]; [lra|]. left. apply TI. lra.
    + rewrite Rltb_f by lra. apply TI. lra.
Qed.

(* ------------------------------------------------------------------ *)
(** * C90 : Nusselt correlations                                      *)
(* ------------------------------------------------------------------ *)

(** spheres and drops: pure conduction (Nu = 2) without flow, increasing with Re or Ra *)
Theorem C90_sphere Pr mur : 
  Nu_sphere 0 Pr mur = 2 /\ Nu_drop 0 Pr = 2 /\ Nu_sphere_free 0 Pr = 2 /\
  (forall a b, 0 <= a < b -> Nu_sphere a Pr mur < Nu_sphere b Pr mur /\ Nu_drop a Pr < Nu_drop b Pr /\ Nu_sphere_free a Pr < Nu_sphere_free b Pr).
Proof.
  unfold Nu_sphere, Nu_drop, Nu_sphere_free. rewrite !pow0_0. set (p4 := Rpower Pr (4 / 10)). set (m := Rpower mur (1 / 4)). set (p3 := Rpower Pr (1 / 3)). set (c := Rpower (1 + _) (4 / 9)).
  assert (0 < p4) by apply rp_pos. assert (0 < m) by apply rp_pos. assert (0 < p3) by apply rp_pos. assert (0 < c) by apply rp_pos.
  split; [ring|]. split; [ring|]. split; [unfold Rdiv; ring|]. intros a b Hab.
  pose proof (pow0_lt a b (1 / 2) Hab ltac:(lra)). pose proof (pow0_lt a b (2 / 3) Hab ltac:(lra)). pose proof (pow0_lt a b (1 / 4) Hab ltac:(lra)). repeat split.
  - apply Rplus_lt_compat_l. rewrite !Rmult_assoc. apply Rmult_lt_compat_r; [now apply Rmult_lt_0_compat|lra].
  - apply Rplus_lt_compat_l. apply Rmult_lt_compat_r; lra.
  - apply Rplus_lt_compat_l. apply Rmult_lt_compat_r; [now apply Rinv_0_lt_compat|lra].
Qed.
Lemma cube_frac u v c : 0 <= c -> 0 <= u < v -> u ^ 3 / (1 + c * u ^ 2) < v ^ 3 / (1 + c * v ^ 2).
Proof.
  intros Hc H. assert (0 < 1 + c * u ^ 2) by nra. assert (0 < 1 + c * v ^ 2) by nra.
  apply (Rmult_lt_reg_r ((1 + c * u ^ 2) * (1 + c * v ^ 2))); [now apply Rmult_lt_0_compat|].
  replace (u ^ 3 / (1 + c * u ^ 2) * ((1 + c * u ^ 2) * (1 + c * v ^ 2))) with (u ^ 3 * (1 + c * v ^ 2)) by (field; lra).
  replace (v ^ 3 / (1 + c * v ^ 2) * ((1 + c * u ^ 2) * (1 + c * v ^ 2))) with (v ^ 3 * (1 + c * u ^ 2)) by (field; lra).
  assert (u ^ 3 < v ^ 3). { assert (0 < (v - u) * (v * v + v * u + u * u)) by (apply Rmult_lt_0_compat; [lra|]; assert (0 < v * v) by (apply Rmult_lt_0_compat; lra); nra). replace (v ^ 3) with (u ^ 3 + (v - u) * (v * v + v * u + u * u)) by ring. lra. }
  assert (u ^ 3 * v ^ 2 <= v ^ 3 * u ^ 2). { replace (v ^ 3 * u ^ 2) with (u ^ 3 * v ^ 2 + u * u * (v * v) * (v - u)) by ring. assert (0 <= u * u * (v * v) * (v - u)) by (repeat apply Rmult_le_pos; lra). lra. }
  nra.
Qed.
Lemma pow0_third x : 0 <= x -> pow0 x (1 / 3) ^ 3 = x /\ pow0 x (2 / 3) = pow0 x (1 / 3) ^ 2.
Proof.
  intros H. destruct (Req_dec x 0) as [-> |N]; [rewrite !pow0_0; split; ring|]. rewrite !pow0_pos by lra. rewrite <- !Rpower_pow by apply rp_pos. rewrite !Rpower_mult. split.
  - replace (1 / 3 * INR 3) with 1 by (cbn; field). apply Rpower_1. lra.
  - f_equal. cbn. field.
Qed.
(** laminar tube flow: never below the fully developed 3.66, increasing in D/L Re Pr *)
Theorem C90_tube_laminar Pr er x y : 0 < Pr -> 0 <= x < y -> forall Re1 D1 Re2 D2, Re1 < 2300 -> Re2 < 2300 -> D1 * Re1 * Pr = x -> D2 * Re2 * Pr = y ->
  366 / 100 <= Nu_tube Re1 Pr D1 er /\ Nu_tube Re1 Pr D1 er < Nu_tube Re2 Pr D2 er.
Proof.
  intros HP H Re1 D1 Re2 D2 H1 H2 E1 E2. unfold Nu_tube. rewrite !Rltb_t by auto.
  replace (668 / 10000 * D1 * Re1 * Pr) with (668 / 10000 * x) by (rewrite <- E1; ring). replace (668 / 10000 * D2 * Re2 * Pr) with (668 / 10000 * y) by (rewrite <- E2; ring). rewrite E1, E2.
  destruct (pow0_third x ltac:(lra)) as (X3 & X2). destruct (pow0_third y ltac:(lra)) as (Y3 & Y2). rewrite X2, Y2. rewrite <- X3 at 1 3. rewrite <- Y3 at 1.
  pose proof (pow0_lt x y (1 / 3) H ltac:(lra)) as PL. pose proof (pow0_nonneg x (1 / 3)) as PN. set (u := pow0 x (1 / 3)) in *. set (v := pow0 y (1 / 3)) in *.
  pose proof (cube_frac u v (4 / 100) ltac:(lra) ltac:(lra)). pose proof (cube_frac 0 u (4 / 100) ltac:(lra)) as C0.
  assert (0 <= u ^ 3 / (1 + 4 / 100 * u ^ 2)). { apply Rmult_le_pos; [apply pow_le; lra|left; apply Rinv_0_lt_compat]. pose proof (pow_le u 2 PN). lra. }
  unfold Rdiv in *. rewrite !Rmult_assoc in *. split; lra.
Qed.
(** cylinders: 0.3 and 0.36 without flow, increasing *)
Theorem C90_cylinder Pr : Nu_cylinder 0 Pr = 3 / 10 /\ Nu_cylinder_free 0 Pr = 36 / 100 /\
  (forall a b, 0 <= a < b -> Nu_cylinder a Pr < Nu_cylinder b Pr /\ Nu_cylinder_free a Pr < Nu_cylinder_free b Pr).
Proof.
  unfold Nu_cylinder, Nu_cylinder_free. rewrite pow0_0. split; [unfold Rdiv; ring|]. split; [rewrite pow0_0; field; apply Rgt_not_eq, rp_pos|]. intros a b Hab.
  set (p3 := Rpower Pr (1 / 3)). set (c := Rpower (1 + _) (1 / 4)). set (d := Rpower (1 + _) (8 / 27)). assert (0 < p3) by apply rp_pos. assert (0 < c) by apply rp_pos. assert (0 < d) by apply rp_pos.
  pose proof (pow0_lt a b (1 / 2) Hab ltac:(lra)) as P1. pose proof (pow0_lt a b (1 / 6) Hab ltac:(lra)) as P2. pose proof (pow0_lt (a / 282000) (b / 282000) (5 / 8) ltac:(lra) ltac:(lra)) as P3. pose proof (pow0_nonneg a (1 / 2)). pose proof (pow0_nonneg a (1 / 6)). pose proof (pow0_nonneg (a / 282000) (5 / 8)).
  pose proof (rp_base (1 + pow0 (a / 282000) (5 / 8)) (1 + pow0 (b / 282000) (5 / 8)) (4 / 5) ltac:(lra) ltac:(lra) ltac:(lra)) as P4. pose proof (rp_pos (1 + pow0 (a / 282000) (5 / 8)) (4 / 5)) as P5.
  set (wa := Rpower (1 + pow0 (a / 282000) (5 / 8)) (4 / 5)) in *. set (wb := Rpower (1 + pow0 (b / 282000) (5 / 8)) (4 / 5)) in *. set (ua := pow0 a (1 / 2)) in *. set (ub := pow0 b (1 / 2)) in *. split.
  - apply Rplus_lt_compat_l. assert (0 < p3 / c) by now apply Rdiv_lt_0_compat. replace (62 / 100 * ua * p3 / c * wa) with (62 / 100 * (p3 / c) * (ua * wa)) by (field; lra). replace (62 / 100 * ub * p3 / c * wb) with (62 / 100 * (p3 / c) * (ub * wb)) by (field; lra).
    apply Rmult_lt_compat_l; [lra|]. nra.
  - assert (pow0 a (1 / 6) / d < pow0 b (1 / 6) / d) by (apply Rmult_lt_compat_r; auto; now apply Rinv_0_lt_compat). assert (0 <= pow0 a (1 / 6) / d) by (apply Rmult_le_pos; auto; left; now apply Rinv_0_lt_compat).
    unfold Rdiv in *. rewrite !Rmult_assoc. set (s := pow0 a (1 * / 6) * / d) in *. set (t := pow0 b (1 * / 6) * / d) in *. nra.
Qed.
(** free convection on plates: errors, and the upper-heated correlation increases through the change at 1e7 *)
Theorem C90_plate_free_errors o Ra Pr : Nu_plate_free o Ra Pr = Err ValueError <-> o = OtherOrientation \/ (o = Vertical /\ (Pr = None \/ Pr = Some 0)).
Proof.
  split.
  - destruct o; cbn; try discriminate; auto. destruct Pr as [p|]; auto. destruct (Reqb p 0) eqn:E; [|discriminate]. apply Reqb_true in E. subst. auto.
  - intros [-> |(-> & [-> | ->])]; auto. cbn. now rewrite Reqb_refl.
Qed.
Lemma ten7_roots : 54 / 100 * Rpower (10 ^ 7) (1 / 4) < 15 / 100 * Rpower (10 ^ 7) (1 / 3).
Proof.
  assert (A : Rpower (10 ^ 7) (1 / 4) < 563 / 10). { replace (1 / 4) with (INR 1 / INR 4) by (cbn; field). apply rpow_lt; try lra; lia. }
  assert (B : 215 < Rpower (10 ^ 7) (1 / 3)). { replace (1 / 3) with (INR 1 / INR 3) by (cbn; field). apply rpow_gt; try lra; lia. }
  lra.
Qed.
Theorem C90_plate_free_increasing o Pr a b na nb : 0 <= a < b -> Nu_plate_free o a Pr = Ok na -> Nu_plate_free o b Pr = Ok nb -> na < nb.
Proof.
  intros Hab. destruct o; cbn [Nu_plate_free].
  - destruct Pr as [p|]; [|discriminate]. destruct (Reqb p 0); [discriminate|]. intros [= <-] [= <-]. set (d := Rpower (1 + _) (8 / 27)). assert (0 < d) by apply rp_pos.
    pose proof (pow0_lt a b (1 / 6) Hab ltac:(lra)) as P2. pose proof (pow0_nonneg a (1 / 6)).
    assert (pow0 a (1 / 6) / d < pow0 b (1 / 6) / d) by (apply Rmult_lt_compat_r; auto; now apply Rinv_0_lt_compat). assert (0 <= pow0 a (1 / 6) / d) by (apply Rmult_le_pos; auto; left; now apply Rinv_0_lt_compat).
    unfold Rdiv in *. rewrite !Rmult_assoc. set (s := pow0 a (1 * / 6) * / d) in *. set (t := pow0 b (1 * / 6) * / d) in *. nra.
  - intros Ea Eb. assert (Ea' : na = if Rltb a (10 ^ 7) then 54 / 100 * pow0 a (1 / 4) else 15 / 100 * Rpower a (1 / 3)) by congruence. assert (Eb' : nb = if Rltb b (10 ^ 7) then 54 / 100 * pow0 b (1 / 4) else 15 / 100 * Rpower b (1 / 3)) by congruence. clear Ea Eb. subst.
    pose proof (pow0_lt a b (1 / 4) Hab ltac:(lra)). destruct (Rlt_dec b (10 ^ 7)) as [L|L].
    + rewrite !Rltb_t by lra. lra.
    + rewrite (Rltb_f b) by lra. destruct (Rlt_dec a (10 ^ 7)) as [M|M].
      * rewrite Rltb_t by lra. pose proof (pow0_lt a (10 ^ 7) (1 / 4) ltac:(lra) ltac:(lra)) as Q. rewrite (pow0_pos (10 ^ 7)) in Q by lra. pose proof ten7_roots. pose proof (rp_base_le (10 ^ 7) b (1 / 3) ltac:(lra) ltac:(lra) ltac:(lra)). lra.
      * rewrite Rltb_f by lra. pose proof (rp_base a b (1 / 3) ltac:(lra) ltac:(lra) ltac:(lra)). lra.
  - intros [= <-] [= <-]. pose proof (pow0_lt a b (1 / 4) Hab ltac:(lra)). unfold Rdiv in *. lra.
  - discriminate.
Qed.
(** assisted flow: at least each contribution *)
Lemma rcbrt_cube x : rcbrt x ^ 3 = x.
Proof.
  assert (P : forall y, 0 < y -> Rpower y (1 / 3) ^ 3 = y). { intros y Hy. pose proof (pow0_third y ltac:(lra)) as (A & _). now rewrite pow0_pos in A. }
  unfold rcbrt. destruct (Rltb 0 x) eqn:E; [apply Rltb_true in E; now apply P|]. destruct (Reqb x 0) eqn:E0; [apply Reqb_true in E0; subst; ring|].
  assert (x < 0). { destruct (Rtotal_order x 0) as [L|[L|L]]; auto; [subst; rewrite Reqb_refl in E0; discriminate|rewrite Rltb_t in E; [discriminate|lra]]. }
  replace ((- Rpower (- x) (1 / 3)) ^ 3) with (- (Rpower (- x) (1 / 3) ^ 3)) by ring. rewrite P by lra. ring.
Qed.
Lemma cube_lt a b : a ^ 3 < b ^ 3 -> a < b.
Proof.
  intros H. destruct (Rlt_dec a b) as [L|L]; auto. exfalso. assert (0 <= (a - b) * (a * a + a * b + b * b)). { apply Rmult_le_pos; [lra|]. pose proof (Rle_0_sqr (a + b / 2)) as Q. pose proof (Rle_0_sqr b) as Q2. unfold Rsqr in *. nra. }
  replace ((a - b) * (a * a + a * b + b * b)) with (a ^ 3 - b ^ 3) in H0 by ring. lra.
Qed.
Theorem C90_combined_assisted f n : 0 < f -> 0 < n -> f < Nu_combined f n true /\ n < Nu_combined f n true /\ Nu_combined f n true < f + n.
Proof.
  intros Hf Hn. unfold Nu_combined. pose proof (rcbrt_cube (f ^ 3 + n ^ 3)) as C. assert (0 < f ^ 3) by (apply pow_lt; auto). assert (0 < n ^ 3) by (apply pow_lt; auto).
  repeat split; apply cube_lt; rewrite C; try lra. replace ((f + n) ^ 3) with (f ^ 3 + n ^ 3 + 3 * (f * n) * (f + n)) by ring. assert (0 < f * n) by now apply Rmult_lt_0_compat. assert (0 < f * n * (f + n)) by (apply Rmult_lt_0_compat; lra). lra.
Qed.
(** opposing flow is below the forced value, positive only while forced convection dominates *)
Theorem C90_combined_opposed f n : 0 < f -> 0 < n -> Nu_combined f n false < f /\ (0 < Nu_combined f n false <-> n < f).
Proof.
  intros Hf Hn. unfold Nu_combined. pose proof (rcbrt_cube (f ^ 3 - n ^ 3)) as C. assert (0 < n ^ 3) by (apply pow_lt; auto). split; [apply cube_lt; lra|]. split; intros H0.
  - apply cube_lt. assert (0 < rcbrt (f ^ 3 - n ^ 3) ^ 3) by now apply pow_lt. lra.
  - apply cube_lt. rewrite C. replace (0 ^ 3) with 0 by ring. assert (0 < (f - n) * (f * f + f * n + n * n)) by (apply Rmult_lt_0_compat; nra). replace ((f - n) * (f * f + f * n + n * n)) with (f ^ 3 - n ^ 3) in H1 by ring. lra.
Qed.
(** finding: a negative Nusselt number for opposing flows *)
Theorem C90_combined_refuted : exists f n, 0 < f /\ 0 < n /\ Nu_combined f n false < 0.
Proof.
  exists 1, 2. repeat split; try lra. unfold Nu_combined. apply cube_lt. rewrite rcbrt_cube. lra.
Qed.
(** stirred tanks: which surface / impeller pairs are accepted *)
Definition tank_pair (s : surface) (i : impeller) : bool :=
  match s, i with
  | SWall, IOther => false | SWall, _ => true
  | SBottom, (I6BD | I4BF | I4BP | IHE3) => true
  | SHelical, (IPROP | I6BD) => true
  | SHarp0, I4BF => true | SHarp45, I6BD => true | _, _ => false
  end.
Theorem C90_tank s i Re Pr mur D_T H_T L_Ls d_T P_D nb : 
  (tank_pair s i = false -> Nu_tank s i Re Pr mur D_T H_T L_Ls d_T P_D nb = Err ValueError) /\
  (tank_pair s i = true -> exists v, Nu_tank s i Re Pr mur D_T H_T L_Ls d_T P_D nb = Ok v /\ (0 < P_D -> (s = SWall /\ i = IAnchor /\ Re < 12 /\ v = 0) \/ 0 < v)).
Proof.
  assert (P : forall K a b G, 0 < K -> 0 < G -> 0 < K * Rpower Re a * Rpower Pr b * Rpower mur (14 / 100) * G) by (intros; repeat apply Rmult_lt_0_compat; auto; apply rp_pos).
  assert (HP : 0 < Rpower H_T (- (15 / 100))) by apply rp_pos. assert (LP : 0 < Rpower L_Ls (2 / 10)) by apply rp_pos.
  split; intros E; destruct s, i; try discriminate E; try reflexivity; cbn [Nu_tank]; try (eexists; split; [reflexivity|intros HD; right; apply P; [lra|repeat apply Rmult_lt_0_compat; auto; apply rp_pos]]).
  - eexists; split; [reflexivity|]. intros HD. right. apply P; [lra|]. apply Rdiv_lt_0_compat; [|lra]. repeat apply Rmult_lt_0_compat; auto; lra.
  - destruct (Rltb Re 12) eqn:E1; [|destruct (Rltb Re 100)]; (eexists; split; [reflexivity|]; intros HD).
    + left. apply Rltb_true in E1. repeat split; auto. ring.
    + right. apply P; lra.
    + right. apply P; lra.
  - destruct (Rltb Re 13); [|destruct (Rltb Re 210)]; (eexists; split; [reflexivity|]; intros HD; right; apply P; lra).
Qed.
(** finding: the helical-ribbon correlation drops when Re passes 13 *)
Theorem C90_tank_monotone_refuted : exists Re1 Re2 v1 v2, Re1 < Re2 /\ Nu_tank SWall IRibbon Re1 1 1 1 1 1 1 1 1 = Ok v1 /\ Nu_tank SWall IRibbon Re2 1 1 1 1 1 1 1 1 = Ok v2 /\ v2 < v1.
Proof.
  exists (12999 / 1000), 13. cbn [Nu_tank]. rewrite (Rltb_t (12999 / 1000) 13), (Rltb_f 13 13), (Rltb_t 13 210) by lra. eexists. eexists. split; [lra|]. split; [reflexivity|]. split; [reflexivity|].
  rewrite !rp_one, !Rmult_1_r. 
  assert (A : Rpower 13 (1 / 2) < 3606 / 1000). { replace (1 / 2) with (INR 1 / INR 2) by (cbn; field). apply rpow_lt; try lra; lia. }
  assert (B : 2351 / 1000 < Rpower (12999 / 1000) (1 / 3)). { replace (1 / 3) with (INR 1 / INR 3) by (cbn; field). apply rpow_gt; try lra; lia. }
  lra.
Qed.
(** tube banks: the row correction is between the first-row value and 1 and never decreases with rows *)
Theorem C90_bank_rows (al : bool) n : (1 <= n)%nat -> (if al then 70 / 100 else 64 / 100) <= bank_C2 al n <= 1 /\ bank_C2 al n <= bank_C2 al (S n).
Proof.
  intros Hn. destruct (le_lt_dec 20 n) as [L|L].
  - unfold bank_C2. rewrite !(proj2 (Nat.ltb_ge _ _)) by lia. destruct al; lra.
  - assert (I : forall k, INR k = IZR (Z.of_nat k)) by (intros; apply INR_IZR_INZ).
    assert (C : n = 1%nat \/ n = 2%nat \/ n = 3%nat \/ n = 4%nat \/ n = 5%nat \/ n = 6%nat \/ n = 7%nat \/ n = 8%nat \/ n = 9%nat \/ n = 10%nat \/ n = 11%nat \/ n = 12%nat \/ n = 13%nat \/ n = 14%nat \/ n = 15%nat \/ n = 16%nat \/ n = 17%nat \/ n = 18%nat \/ n = 19%nat) by lia.
    repeat (destruct C as [-> |C]; [unfold bank_C2; cbn [Nat.ltb Nat.leb]; rewrite !I; cbn [Z.of_nat Pos.of_succ_nat Pos.succ]; unfold bank_tab; cbn [interp]; destruct al; repeat ((rewrite Rltb_t by lra) || (rewrite Rltb_f by lra)); split; try split; lra|]).
    subst. unfold bank_C2; cbn [Nat.ltb Nat.leb]; rewrite !I; cbn [Z.of_nat Pos.of_succ_nat Pos.succ]; unfold bank_tab; cbn [interp]; destruct al; repeat ((rewrite Rltb_t by lra) || (rewrite Rltb_f by lra)); split; try split; lra.
Qed.
(** finding: for staggered banks the Nusselt number falls when Re_max passes 100 *)
Theorem C90_bank_monotone_refuted : exists v1 v2, 0 < v1 < v2 /\ Nu_cylinder_bank v2 1 1 1 1 false 1 2 2 20 < Nu_cylinder_bank v1 1 1 1 1 false 1 2 2 20.
Proof.
  assert (SD : Rltb (sqrt (2 ^ 2 + (2 / 2) ^ 2)) ((2 + 1) / 2) = false). { apply Rltb_f. rewrite <- (sqrt_square ((2 + 1) / 2)) by lra. apply sqrt_le_1_alt. lra. }
  assert (V : forall v, Nu_cylinder_bank v 1 1 1 1 false 1 2 2 20 = let '(C, m) := bank_Cm false (2 * v) 2 2 in C * Rpower (2 * v) m).
  { intros v. unfold Nu_cylinder_bank, bank_vmax. rewrite SD. replace (1 * (v * 2 / (2 - 1)) * 1 / 1) with (2 * v) by field. destruct (bank_Cm false (2 * v) 2 2) as (C, m). unfold bank_C2. cbn [Nat.ltb Nat.leb]. replace (1 / 1) with 1 by field. rewrite !rp_one. ring. }
  exists (499 / 10), 50. split; [lra|]. rewrite !V. unfold bank_Cm. rewrite (Rltb_f (2 * 50)), (Rltb_t (2 * 50) 1000), (Rltb_t (2 * (499 / 10))) by lra.
  assert (A : Rpower (2 * 50) (50 / 100) < 101 / 10). { replace (50 / 100) with (INR 1 / INR 2) by (cbn; field). apply rpow_lt; try lra; lia. }
  assert (B : 629 / 100 < Rpower (2 * (499 / 10)) (4 / 10)). { replace (4 / 10) with (INR 2 / INR 5) by (cbn; field). apply rpow_gt; try lra; lia. }
  lra.
Qed.
Print Assumptions C59_plate_continuous.
Print Assumptions C90_bank_rows.
