(** C93: terminal velocity of spheres. *)
From Coq Require Import Reals Lra Lia List Bool Arith Psatz.
From Coq Require Ranalysis5.
From Verif Require Import Prelude RootsModel RootsProps KinModel CopoModel Deriv NumBounds HmtModel HmtProps WallProps FlowModel FlowProps.
Import ListNotations.
Open Scope R_scope.

Definition Sd (r : R) : R := 413 / 1000 / (1 + 16300 * Rpower r (- (109 / 100))).
Lemma Sd_pos r : 0 < Sd r < 413 / 1000.
Proof. unfold Sd. pose proof (rp_pos r (- (109 / 100))). split; [apply Rdiv_lt_0_compat; lra|]. apply (Rmult_lt_reg_r (1 + 16300 * Rpower r (- (109 / 100)))); [lra|]. unfold Rdiv. rewrite Rmult_assoc, Rinv_l by lra. nra. Qed.
Lemma Sd_mono r s : 0 < r < s -> Sd r < Sd s.
Proof.
  intros H. unfold Sd, Rdiv. apply Rmult_lt_compat_l; [lra|]. pose proof (rp_pos r (- (109 / 100))). pose proof (rp_pos s (- (109 / 100))). apply Rinv_lt_contravar; [apply Rmult_lt_0_compat; lra|]. rewrite !Rpower_Ropp. pose proof (rp_pos r (109 / 100)). pose proof (rp_base r s (109 / 100) ltac:(lra) ltac:(lra) ltac:(lra)). assert (/ Rpower s (109 / 100) < / Rpower r (109 / 100)) by (apply Rinv_lt_contravar; [apply Rmult_lt_0_compat; lra|auto]). lra.
Qed.
Definition bal (r : R) : R := 24 * (r + 173 / 1000 * Rpower r (1657 / 1000)) + Sd r * r ^ 2.
Lemma Cd_bal r : 0 < r -> Cd_sphere r * r ^ 2 = bal r.
Proof.
  intros H. unfold Cd_sphere, bal. fold (Sd r). replace (1657 / 1000) with (1 + 657 / 1000) by field. rewrite Rpower_plus, Rpower_1 by auto. field. lra.
Qed.
Lemma bal_mono r s : 0 < r < s -> bal r < bal s.
Proof.
  intros H. unfold bal. pose proof (rp_base r s (1657 / 1000) ltac:(lra) ltac:(lra) ltac:(lra)). pose proof (Sd_pos r). pose proof (Sd_mono r s H). assert (r ^ 2 < s ^ 2) by (simpl; nra). assert (0 < r ^ 2) by (apply pow_lt; lra). assert (Sd r * r ^ 2 < Sd s * s ^ 2) by (apply Rmult_gt_0_lt_compat; lra). lra.
Qed.
Lemma cont_bal r : 0 < r -> continuity_pt bal r.
Proof.
  intros H. assert (C : forall c, continuity_pt (fun _ => c) r) by (intros c; apply continuity_pt_const; intros ? ?; reflexivity). unfold bal, Sd. pose proof (rp_pos r (- (109 / 100))).
  apply continuity_pt_plus.
  - apply continuity_pt_mult; [apply C|]. apply continuity_pt_plus; [reg|]. apply continuity_pt_mult; [apply C|now apply cont_rpower].
  - apply continuity_pt_mult; [|reg]. apply continuity_pt_div; [apply C| |lra]. apply continuity_pt_plus; [apply C|]. apply continuity_pt_mult; [apply C|now apply cont_rpower].
Qed.
(** the drag coefficient exceeds Stokes' and is at most Stokes' plus the correction *)
Theorem C93_drag_above_stokes r : 0 < r -> 24 / r < Cd_sphere r.
Proof.
  intros H. unfold Cd_sphere. fold (Sd r). pose proof (Sd_pos r). pose proof (rp_pos r (657 / 1000)). assert (0 < 24 / r) by (apply Rdiv_lt_0_compat; lra). nra.
Qed.

Section Settle.
  Variables Dp rhop rho mu : R.
  Hypotheses (HD : 0 < Dp) (Hr : 0 < rho < rhop) (Hm : 0 < mu).
  Let k := rho * Dp / mu.
  Let vS := vt_Stokes Dp rhop rho mu.
  Lemma st_k : 0 < k. Proof. unfold k. apply Rdiv_lt_0_compat; [apply Rmult_lt_0_compat|]; lra. Qed.
  Lemma st_vS : 0 < vS. Proof. unfold vS, vt_Stokes, g_acc. apply Rdiv_lt_0_compat; [|lra]. apply Rmult_lt_0_compat; [|lra]. apply Rmult_lt_0_compat; [apply pow_lt; lra|lra]. Qed.
  Lemma st_Rep v : rho * v * Dp / mu = k * v. Proof. unfold k. field. lra. Qed.
  Lemma st_drive Cd : Cd <> 0 -> 4 * Dp * g_acc * (rhop - rho) / (3 * Cd * rho) = 24 * vS / (k * Cd).
  Proof. intros. unfold vS, vt_Stokes, k. field. lra. Qed.
  Lemma Cd_pos r : 0 < r -> 0 < Cd_sphere r.
  Proof. intros H. pose proof (C93_drag_above_stokes r H). assert (0 < 24 / r) by (apply Rdiv_lt_0_compat; lra). lra. Qed.
  (** v balances gravity and drag *)
  Definition balanced (v : R) : Prop := Cd_sphere (rho * v * Dp / mu) * rho * v ^ 2 / 2 * (PI * Dp ^ 2 / 4) = PI / 6 * Dp ^ 3 * (rhop - rho) * g_acc.
  Lemma balanced_bal v : 0 < v -> balanced v <-> bal (k * v) = 24 * k * vS.
  Proof.
    intros Hv. pose proof st_k as K. pose proof PI_RGT_0 as P. unfold balanced. rewrite st_Rep, <- Cd_bal by now apply Rmult_lt_0_compat. set (C := Cd_sphere (k * v)). assert (E : C * rho * v ^ 2 / 2 * (PI * Dp ^ 2 / 4) = C * (k * v) ^ 2 * (PI / 8 * mu ^ 2 / rho)) by (unfold k; field; lra). rewrite E.
    assert (E2 : PI / 6 * Dp ^ 3 * (rhop - rho) * g_acc = 24 * k * vS * (PI / 8 * mu ^ 2 / rho)) by (unfold k, vS, vt_Stokes; field; lra). rewrite E2. assert (0 < PI / 8 * mu ^ 2 / rho) by (apply Rdiv_lt_0_compat; [apply Rmult_lt_0_compat; [lra|apply pow_lt; lra]|lra]). split; [intros H1; apply Rmult_eq_reg_r in H1; lra|intros ->; reflexivity].
  Qed.
  (** the fixed points of the code's function are the balanced velocities *)
  Lemma fixed_balanced v : 0 < v -> v - vt_drag Dp rhop rho mu v = 0 <-> balanced v.
  Proof.
    intros Hv. pose proof st_k as K. pose proof st_vS as V. assert (KV : 0 < k * v) by now apply Rmult_lt_0_compat. pose proof (Cd_pos (k * v) KV) as C. rewrite balanced_bal by auto. rewrite <- Cd_bal by auto. unfold vt_drag. rewrite st_Rep, st_drive by lra.
    assert (Q : 0 < 24 * vS / (k * Cd_sphere (k * v))) by (apply Rdiv_lt_0_compat; [lra|now apply Rmult_lt_0_compat]). split.
    - intros E. assert (E2 : v = sqrt (24 * vS / (k * Cd_sphere (k * v)))) by lra. assert (v * v = 24 * vS / (k * Cd_sphere (k * v))) by (rewrite E2 at 1 2; apply sqrt_sqrt; lra). replace (Cd_sphere (k * v) * (k * v) ^ 2) with (Cd_sphere (k * v) * k ^ 2 * (v * v)) by ring. rewrite H. field. lra.
    - intros E. rewrite (sqrt_lem_1 (24 * vS / (k * Cd_sphere (k * v))) v); [ring|lra|lra|]. apply (Rmult_eq_reg_r (k * Cd_sphere (k * v) * k)); [|apply Rgt_not_eq; apply Rmult_lt_0_compat; auto; now apply Rmult_lt_0_compat]. transitivity (Cd_sphere (k * v) * (k * v) ^ 2); [ring|]. rewrite E. field. lra.
  Qed.
  (** exactly one terminal velocity exists, below Stokes' *)
  Lemma settle_root : exists v, 0 < v < vS /\ balanced v /\ forall w, 0 < w -> balanced w -> w = v.
  Proof.
    pose proof st_k as K. pose proof st_vS as V. set (g := fun v => bal (k * v) - 24 * k * vS).
    assert (KV : 0 < k * vS) by now apply Rmult_lt_0_compat. assert (G1 : 0 < g vS). { unfold g, bal. pose proof (rp_pos (k * vS) (1657 / 1000)). pose proof (Sd_pos (k * vS)). assert (0 < Sd (k * vS) * (k * vS) ^ 2) by (apply Rmult_lt_0_compat; [lra|apply pow_lt; lra]). lra. }
    set (e0 := Rmin (vS / 8) (1 / k)). assert (0 < 1 / k) by (apply Rdiv_lt_0_compat; lra). assert (E0 : 0 < e0 /\ e0 <= vS / 8 /\ e0 <= 1 / k) by (unfold e0; repeat split; [apply Rmin_glb_lt; lra|apply Rmin_l|apply Rmin_r]).
    assert (KE : 0 < k * e0 <= 1). { split; [apply Rmult_lt_0_compat; lra|]. destruct E0 as (_ & _ & E0). apply (Rmult_le_compat_l k) in E0; [|lra]. replace (k * (1 / k)) with 1 in E0 by (field; lra). lra. }
    assert (G0 : g e0 < 0).
    { unfold g, bal. pose proof (Sd_pos (k * e0)). assert (P : Rpower (k * e0) (1657 / 1000) <= k * e0). { rewrite <- (Rpower_1 (k * e0)) at 2 by lra. destruct (Req_dec (k * e0) 1) as [-> |N]; [rewrite !rp_one; lra|]. left. apply rp_exp_decr; lra. }
      assert ((k * e0) ^ 2 <= k * e0) by (simpl; nra). assert (Sd (k * e0) * (k * e0) ^ 2 <= 1 * (k * e0)) by (apply Rmult_le_compat; try lra; apply pow_le; lra). assert (k * e0 <= k * (vS / 8)) by (apply Rmult_le_compat_l; lra). nra. }
    destruct (Ranalysis5.IVT_interv g e0 vS) as (v & Hv & Z); auto; try lra.
    - intros x Hx. assert (0 < k * x) by (apply Rmult_lt_0_compat; lra). unfold g. apply continuity_pt_minus; [|apply continuity_pt_const; intros ? ?; reflexivity]. apply (continuity_pt_comp (fun v => k * v) bal); [reg|now apply cont_bal].
    - assert (v <> vS) by (intros ->; lra). exists v. split; [lra|]. assert (B : bal (k * v) = 24 * k * vS) by (unfold g in Z; lra). split; [apply balanced_bal; [lra|auto]|]. intros w Hw W. apply balanced_bal in W; auto.
      destruct (Rtotal_order w v) as [L|[E|L]]; auto; exfalso; [pose proof (bal_mono (k * w) (k * v))|pose proof (bal_mono (k * v) (k * w))]; assert (0 < k * w) by (apply Rmult_lt_0_compat; lra); assert (0 < k * v) by (apply Rmult_lt_0_compat; lra); [assert (k * w < k * v) by (apply Rmult_lt_compat_l; lra)|assert (k * v < k * w) by (apply Rmult_lt_compat_l; lra)]; lra.
  Qed.
End Settle.

(** one terminal velocity, below Stokes', and it is what vt_sphere looks for *)
Theorem C93_terminal Dp rhop rho mu : 0 < Dp -> 0 < rho < rhop -> 0 < mu ->
  exists v, 0 < v < vt_Stokes Dp rhop rho mu /\
    Cd_sphere (rho * v * Dp / mu) * rho * v ^ 2 / 2 * (PI * Dp ^ 2 / 4) = PI / 6 * Dp ^ 3 * (rhop - rho) * g_acc /\
    (forall w, 0 < w -> (w - vt_drag Dp rhop rho mu w = 0 <-> w = v)).
Proof.
  intros HD Hr Hm. destruct (settle_root Dp rhop rho mu HD Hr Hm) as (v & Hv & B & U). exists v. split; auto. split; [exact B|]. intros w Hw. rewrite fixed_balanced by auto. split; [auto|intros ->; auto].
Qed.
(** denser spheres fall faster *)
Theorem C93_terminal_density Dp r1 r2 rho mu v1 v2 : 0 < Dp -> 0 < rho < r1 -> r1 < r2 -> 0 < mu -> 0 < v1 -> 0 < v2 ->
  v1 - vt_drag Dp r1 rho mu v1 = 0 -> v2 - vt_drag Dp r2 rho mu v2 = 0 -> v1 < v2.
Proof.
  intros HD H1 H2 Hm V1 V2 E1 E2. apply fixed_balanced in E1; auto. apply fixed_balanced in E2; auto; [|lra]. apply balanced_bal in E1; auto. apply balanced_bal in E2; auto; [|lra]. cbv beta zeta in *.
  assert (K : 0 < rho * Dp / mu) by (apply Rdiv_lt_0_compat; [apply Rmult_lt_0_compat|]; lra). set (k := rho * Dp / mu) in *. assert (LT : vt_Stokes Dp r1 rho mu < vt_Stokes Dp r2 rho mu). { unfold vt_Stokes, Rdiv. apply Rmult_lt_compat_r; [apply Rinv_0_lt_compat; lra|]. apply Rmult_lt_compat_l; [|lra]. apply Rmult_lt_0_compat; [apply pow_lt; lra|unfold g_acc; lra]. }
  destruct (Rlt_dec v1 v2) as [|N]; auto. exfalso. assert (bal (k * v2) <= bal (k * v1)). { destruct (Req_dec v1 v2) as [-> |M]; [lra|]. left. apply bal_mono. split; [now apply Rmult_lt_0_compat|]. apply Rmult_lt_compat_l; lra. }
  assert (24 * k * vt_Stokes Dp r1 rho mu < 24 * k * vt_Stokes Dp r2 rho mu) by (apply Rmult_lt_compat_l; lra). lra.
Qed.

(* ------------------------------------------------------------------ *)
(** * The absolute tolerance                                          *)
(* ------------------------------------------------------------------ *)

Lemma newton_unfold fre fim tx tf n j x tr d f : derivative_complex fre fim x = (d, f) -> newton_loop fre fim tx tf (S (S n)) j x tr =
  (let tr := tr ++ [x] in let stop b m := (tr, Ok (mkRR b m (length tr) (j + 1) x f)) in
   if Rleb (Rabs f) tf then stop true MsgTolF else if Rleb (Rabs d) eps then stop false MsgZeroDeriv
   else let dx := - f / d in if Rleb (Rabs dx) tx then stop true MsgTolX else newton_loop fre fim tx tf (S n) (j + 1) (x + dx) tr).
Proof. intros E. cbn [newton_loop]. rewrite E. reflexivity. Qed.

Section Tiny.
  Variables Dp rhop rho mu : R.
  Hypotheses (HD : 0 < Dp) (Hr : 0 < rho < rhop) (Hm : 0 < mu).
  Let k := rho * Dp / mu.
  Let vS := vt_Stokes Dp rhop rho mu.
  Hypotheses (Hk : k <= 1 / 10) (HS : vS <= 3 / 10 ^ 10).
  Let d v := vt_drag Dp rhop rho mu v.
  Let p v := - (k * v) * dCd_sphere (k * v) / (2 * Cd_sphere (k * v)).

  Lemma ti_k : 0 < k. Proof. apply (st_k Dp rhop rho mu); auto. Qed.
  Lemma ti_S : 0 < vS. Proof. apply (st_vS Dp rhop rho mu); auto. Qed.
  (** elasticity of the velocity *)
  Lemma ti_p v : 0 < v <= 1 -> 0 <= p v <= 1 / 2.
  Proof.
    intros Hv. pose proof ti_k as K. assert (KV : 0 < k * v) by (apply Rmult_lt_0_compat; lra). assert (KV1 : k * v <= 1 / 10) by nra. set (r := k * v) in *. pose proof (Cd_pos r KV) as C. pose proof (rp_pos r (657 / 1000)) as P1. pose proof (rp_pos r (- (109 / 100))) as P2. pose proof (Sd_pos r) as SP.
    unfold p. fold r. set (q := 16300 * Rpower r (- (109 / 100))). assert (Q : 0 < q) by (unfold q; lra).
    assert (E : - r * dCd_sphere r = 24 / r + 24 * (173 / 1000) * (343 / 1000) * Rpower r (657 / 1000) / r - Sd r * (109 / 100 * (q / (1 + q)))). { unfold dCd_sphere, Sd. fold q. replace (16300 * (109 / 100) * Rpower r (- (109 / 100))) with (109 / 100 * q) by (unfold q; ring). field. lra. }
    assert (QQ : 0 < q / (1 + q) < 1) by (split; [apply Rdiv_lt_0_compat; lra|apply (Rmult_lt_reg_r (1 + q)); [lra|]; unfold Rdiv; rewrite Rmult_assoc, Rinv_l; lra]).
    assert (CE : Cd_sphere r = 24 / r + 24 * (173 / 1000) * Rpower r (657 / 1000) / r + Sd r) by (unfold Cd_sphere; fold (Sd r); field; lra).
    assert (R1 : 0 < 24 / r) by (apply Rdiv_lt_0_compat; lra). assert (R2 : 0 < 24 * (173 / 1000) * Rpower r (657 / 1000) / r) by (apply Rdiv_lt_0_compat; [apply Rmult_lt_0_compat; lra|lra]). set (z := 24 * (173 / 1000) * Rpower r (657 / 1000) / r) in *. replace (24 * (173 / 1000) * (343 / 1000) * Rpower r (657 / 1000) / r) with (343 / 1000 * z) in E by (unfold z; field; lra).
    assert (SB : 0 <= Sd r * (109 / 100 * (q / (1 + q))) <= 1). { split; [apply Rmult_le_pos; lra|]. apply Rle_trans with (1 / 2 * 2); [apply Rmult_le_compat; lra|lra]. }
    assert (R3 : 240 <= 24 / r) by (apply (Rmult_le_reg_r r); [lra|]; unfold Rdiv; rewrite Rmult_assoc, Rinv_l; lra). rewrite E. split.
    - unfold Rdiv at 1. apply Rmult_le_pos; [|left; apply Rinv_0_lt_compat; lra]. lra.
    - apply (Rmult_le_reg_r (2 * Cd_sphere r)); [lra|]. unfold Rdiv at 1. rewrite Rmult_assoc, Rinv_l by lra. lra.
  Qed.
  (** vt_drag v ^ 2 = vS v / m with m between 1 and 1.2 *)
  Lemma ti_d v : 0 < v <= 1 -> 0 < d v /\ vS * v / (12 / 10) <= d v * d v <= vS * v.
  Proof.
    intros Hv. pose proof ti_k as K. pose proof ti_S as S0. assert (KV : 0 < k * v) by (apply Rmult_lt_0_compat; lra). assert (KV1 : k * v <= 1 / 10) by nra. pose proof (Cd_pos (k * v) KV) as C.
    unfold d, vt_drag. rewrite (st_Rep Dp rho mu Hm). fold k. rewrite (st_drive Dp rhop rho mu HD Hr Hm) by lra. fold k vS. set (q := 24 * vS / (k * Cd_sphere (k * v))). assert (Q : 0 < q) by (apply Rdiv_lt_0_compat; [lra|now apply Rmult_lt_0_compat]). rewrite sqrt_sqrt by lra. split; [now apply sqrt_lt_R0|].
    set (m := Cd_sphere (k * v) * (k * v) / 24). assert (M : 1 <= m <= 12 / 10).
    { unfold m, Cd_sphere. fold (Sd (k * v)). pose proof (Sd_pos (k * v)). pose proof (rp_pos (k * v) (657 / 1000)). set (r := k * v) in *. replace ((24 / r * (1 + 173 / 1000 * Rpower r (657 / 1000)) + Sd r) * r / 24) with (1 + 173 / 1000 * Rpower r (657 / 1000) + Sd r * r / 24) by (field; lra).
      assert (Rpower r (657 / 1000) <= 1) by (left; apply rp_lt1; lra). assert (0 <= Sd r * r <= 1 / 10) by (split; [apply Rmult_le_pos|]; nra). lra. }
    assert (E : q = vS * v / m) by (unfold q, m; field; lra). rewrite E. assert (0 < vS * v) by (apply Rmult_lt_0_compat; lra). split.
    - unfold Rdiv. apply Rmult_le_compat_l; [lra|]. apply Rinv_le_contravar; lra.
    - apply (Rmult_le_reg_r m); [lra|]. unfold Rdiv. rewrite Rmult_assoc, Rinv_l by lra. nra.
  Qed.
  Lemma ti_d_lt v : vS < v <= 1 -> d v < v.
  Proof. intros Hv. pose proof ti_S. destruct (ti_d v ltac:(lra)) as (P & _ & U). destruct (Rlt_dec (d v) v) as [|N]; auto. exfalso. assert (v * v <= d v * d v) by (apply Rmult_le_compat; lra). nra. Qed.
  Lemma ti_dd v : 0 < v -> dvt_drag Dp rhop rho mu v = d v * p v / v.
  Proof.
    intros Hv. pose proof ti_k as K. assert (KV : 0 < k * v) by now apply Rmult_lt_0_compat. pose proof (Cd_pos (k * v) KV) as C. unfold dvt_drag. rewrite (st_Rep Dp rho mu Hm). fold k. unfold p. fold (d v). replace (rho * Dp / mu) with k by reflexivity. field. lra.
  Qed.
  Let tol := 1 / 10 ^ 6.
  Let loop := newton_loop (fun v _ => v - vt_drag Dp rhop rho mu v) (fun v h => h * (1 - dvt_drag Dp rhop rho mu v)) tol tol.
  Lemma ti_dc v : derivative_complex (fun v _ => v - vt_drag Dp rhop rho mu v) (fun v h => h * (1 - dvt_drag Dp rhop rho mu v)) v = (1 - dvt_drag Dp rhop rho mu v, v - d v).
  Proof. unfold derivative_complex. f_equal. field. apply Rgt_not_eq. unfold eps. apply Rinv_0_lt_compat, pow_lt. lra. Qed.
  (** one iteration above the root: stop, or go on at a point between d/2 and 2 d *)
  Lemma ti_step n j v tr : vS < v <= 1 ->
    (exists tr' s, loop (S (S n)) j v tr = (tr', Ok s) /\ rr_success s = true /\ rr_x s = v) \/
    (tol < v - d v /\ exists v' tr', d v / 2 <= v' <= 2 * d v /\ loop (S (S n)) j v tr = loop (S n) (j + 1)%nat v' tr').
  Proof.
    intros Hv. pose proof ti_S. pose proof (ti_d_lt v Hv) as L. destruct (ti_d v ltac:(lra)) as (P & _). pose proof (ti_p v ltac:(lra)) as PP. assert (T : 0 < tol) by (unfold tol; simpl; lra). assert (E1 : eps < 1 / 2). { unfold eps. simpl. lra. }
    unfold loop. rewrite (newton_unfold _ _ _ _ n j v tr _ _ (ti_dc v)). cbv zeta. set (q := 1 - dvt_drag Dp rhop rho mu v). assert (Q : 1 / 2 <= q <= 1). { unfold q. rewrite ti_dd by lra. assert (0 <= d v * p v / v <= 1 / 2); [|lra]. split; [apply Rmult_le_pos; [apply Rmult_le_pos; lra|left; apply Rinv_0_lt_compat; lra]|]. apply (Rmult_le_reg_r v); [lra|]. unfold Rdiv at 1. rewrite Rmult_assoc, Rinv_l by lra. nra. }
    destruct (Rleb (Rabs (v - d v)) tol) eqn:T1; [left; do 2 eexists; split; [reflexivity|split; reflexivity]|]. apply Rleb_false in T1. rewrite Rabs_right in T1 by lra. rewrite (Rleb_f (Rabs q)) by (rewrite Rabs_right; lra).
    destruct (Rleb (Rabs (- (v - d v) / q)) tol) eqn:T2; [left; do 2 eexists; split; [reflexivity|split; reflexivity]|]. right. split; auto. do 2 eexists. split; [|reflexivity].
    assert (X : (v + - (v - d v) / q) * q = d v * (1 - p v)). { replace ((v + - (v - d v) / q) * q) with (v * q - (v - d v)) by (field; lra). unfold q. rewrite ti_dd by lra. field. lra. }
    set (x := v + - (v - d v) / q) in *. assert (B : d v / 2 <= x * q <= d v) by (rewrite X; split; nra). split; [apply Rnot_lt_le; intros N|apply Rnot_lt_le; intros N]; nra.
  Qed.
  Lemma ti_run n : exists tr s, loop (S (S (S (S n)))) 0%nat 1 [] = (tr, Ok s) /\ rr_success s = true /\ 20 * vS < rr_x s.
  Proof.
    pose proof ti_S as S0. assert (SB : vS <= 3 / 10000000000) by (simpl in HS; lra). assert (TV : tol = 1 / 1000000) by (unfold tol; simpl; lra).
    destruct (ti_step (S (S n)) 0 1 [] ltac:(lra)) as [(tr & s & E & SU & X)|(_ & v1 & tr1 & B1 & E1)]; [do 2 eexists; split; [exact E|]; split; [auto|]; rewrite X; lra|].
    destruct (ti_d 1 ltac:(lra)) as (P1 & L1 & U1). assert (D1 : d 1 <= 18 / 1000000) by (apply Rnot_lt_le; intros N; nra).
    assert (V1 : 20 * vS < v1). { apply Rlt_le_trans with (d 1 / 2); [|lra]. apply Rnot_le_lt. intros N. assert (d 1 * d 1 <= 40 * vS * (40 * vS)) by (apply Rmult_le_compat; lra). nra. }
    rewrite E1. destruct (ti_step (S n) (0 + 1) v1 tr1 ltac:(lra)) as [(tr & s & E & SU & X)|(T2 & v2 & tr2 & B2 & E2)]; [do 2 eexists; split; [exact E|]; split; [auto|]; rewrite X; lra|].
    destruct (ti_d v1 ltac:(lra)) as (P2 & L2 & U2). assert (D2 : d v1 <= 2 / 10000000). { apply Rnot_lt_le; intros N. assert (2 / 10000000 * (2 / 10000000) < d v1 * d v1) by (apply Rmult_le_0_lt_compat; lra). nra. }
    assert (V1b : 1 / 1000000 < v1) by lra. assert (V2 : 20 * vS < v2). { apply Rlt_le_trans with (d v1 / 2); [|lra]. apply Rnot_le_lt. intros N. assert (d v1 * d v1 <= 40 * vS * (40 * vS)) by (apply Rmult_le_compat; lra). assert (vS * (1 / 1000000) <= vS * v1) by (apply Rmult_le_compat_l; lra). nra. }
    rewrite E2. destruct (ti_step n (0 + 1 + 1) v2 tr2 ltac:(lra)) as [(tr & s & E & SU & X)|(T3 & _)]; [do 2 eexists; split; [exact E|]; split; [auto|]; rewrite X; lra|].
    exfalso. destruct (ti_d v2 ltac:(lra)) as (P3 & _). lra.
  Qed.
End Tiny.
(** finding: the stopping test is absolute (1e-6 m/s), so for colloidal particles the returned velocity is
    more than 20 times Stokes', although the solution of the equation is below Stokes' *)
Theorem C93_vt_sphere_refuted Dp rhop rho mu : 0 < Dp -> 0 < rho < rhop -> 0 < mu -> rho * Dp / mu <= 1 / 10 -> vt_Stokes Dp rhop rho mu <= 3 / 10 ^ 10 ->
  exists v, vt_sphere Dp rhop rho mu = Ok v /\ 20 * vt_Stokes Dp rhop rho mu < v.
Proof.
  intros HD Hr Hm Hk HS. destruct (ti_run Dp rhop rho mu HD Hr Hm Hk HS 46) as (tr & s & E & SU & X). exists (rr_x s). split; auto. unfold vt_sphere, root_newton. change 50%nat with (S (S (S (S 46)))). rewrite E. cbn [snd bind]. now rewrite SU.
Qed.
(** e.g. a latex particle of 100 nm and 1050 kg/m3 in water *)
Example C93_latex : exists v, vt_sphere (1 / 10 ^ 7) 1050 1000 (1 / 1000) = Ok v /\ 20 * vt_Stokes (1 / 10 ^ 7) 1050 1000 (1 / 1000) < v.
Proof. apply C93_vt_sphere_refuted; try (simpl; lra). unfold vt_Stokes, g_acc. simpl. lra. Qed.
Print Assumptions C93_terminal.
Print Assumptions C93_vt_sphere_refuted.
