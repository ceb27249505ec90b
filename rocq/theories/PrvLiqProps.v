(** C94: the iteration for the relief area of a liquid. *)
From Coq Require Import Reals Lra Lia List Bool Arith Psatz.
From Coq Require Ranalysis5.
From Verif Require Import Prelude RootsModel KinModel CopoModel Deriv NumBounds HmtModel HmtProps WallProps FlowModel FlowProps ColebrookProps PrvProps.
Import ListNotations.
Open Scope R_scope.

(* ------------------------------------------------------------------ *)
(** * Contractions of the line                                        *)
(* ------------------------------------------------------------------ *)

Section Contr.
  Variable phi : R -> R.
  Hypothesis HL : forall x y, Rabs (phi x - phi y) <= 3 / 4 * Rabs (x - y).
  Lemma ct_cont : continuity phi.
  Proof. intros x e He. exists e. split; auto. intros y [_ Hy]. cbn in *. unfold R_dist in *. pose proof (HL y x). pose proof (Rabs_pos (y - x)). lra. Qed.
  Lemma ct_uniq x y : phi x = x -> phi y = y -> x = y.
  Proof. intros E1 E2. pose proof (HL x y) as H. rewrite E1, E2 in H. pose proof (Rabs_pos (x - y)). assert (Z : Rabs (x - y) = 0) by lra. destruct (Req_dec (x - y) 0) as [Q|Q]; [lra|]. apply Rabs_pos_lt in Q. lra. Qed.
  Lemma ct_fix : exists x, phi x = x.
  Proof.
    set (b := 4 * Rabs (phi 0) + 1). pose proof (Rabs_pos (phi 0)) as P. assert (B : 0 < b) by (unfold b; lra).
    destruct (Ranalysis5.IVT_interv (fun x => x - phi x) (- b) b) as (x & _ & E).
    - intros x _. apply continuity_pt_minus; [apply derivable_continuous_pt, derivable_pt_id|apply ct_cont].
    - lra.
    - pose proof (HL (- b) 0) as L. rewrite Rminus_0_r, Rabs_Ropp, (Rabs_right b) in L by lra. pose proof (Rle_abs (- (phi (- b) - phi 0))) as A1. rewrite Rabs_Ropp in A1. pose proof (Rle_abs (- phi 0)) as A2. rewrite Rabs_Ropp in A2. unfold b in *. lra.
    - pose proof (HL b 0) as L. rewrite Rminus_0_r, (Rabs_right b) in L by lra. pose proof (Rle_abs (phi b - phi 0)) as A1. pose proof (Rle_abs (phi 0)) as A2. unfold b in *. lra.
    - exists x. lra.
  Qed.
End Contr.
Lemma ln_abs_small z d : 0 < d < 1 / 2 -> Rabs (1 - z) < d -> Rabs (ln z) <= d / (1 - d).
Proof.
  intros Hd H. apply Rabs_def2 in H. assert (Z : 0 < z) by lra. pose proof (ln_le_sub z Z). pose proof (ln_ge_sub z Z) as G. assert (I : / z <= / (1 - d)) by (apply Rinv_le_contravar; lra). assert (E : 1 - / (1 - d) = - (d / (1 - d))) by (field; lra). assert (d <= d / (1 - d)). { apply (Rmult_le_reg_r (1 - d)); [lra|]. unfold Rdiv. rewrite Rmult_assoc, Rinv_l by lra. nra. } apply Rabs_le. lra.
Qed.
Lemma exp_abs_small x d : 0 < d < 1 / 2 -> Rabs x <= d -> Rabs (exp x - 1) <= d / (1 - d).
Proof.
  intros Hd H. pose proof (Rle_abs x). pose proof (Rle_abs (- x)) as N. rewrite Rabs_Ropp in N. pose proof (exp_pos x) as E0.
  assert (L : 1 + x <= exp x). { destruct (Req_dec x 0) as [-> |Z]; [rewrite exp_0; lra|left; now apply exp_ineq1]. }
  assert (L2 : 1 - x <= / exp x). { rewrite <- exp_Ropp. destruct (Req_dec x 0) as [-> |Z]; [rewrite Ropp_0, exp_0; lra|]. pose proof (exp_ineq1 (- x) ltac:(lra)). lra. }
  assert (U : exp x <= / (1 - d)). { apply (Rmult_le_reg_r (1 - d)); [lra|]. rewrite Rinv_l by lra. apply Rle_trans with (exp x * / exp x); [apply Rmult_le_compat_l; lra|rewrite Rinv_r; lra]. }
  assert (E : / (1 - d) - 1 = d / (1 - d)) by (field; lra). assert (d <= d / (1 - d)). { apply (Rmult_le_reg_r (1 - d)); [lra|]. unfold Rdiv. rewrite Rmult_assoc, Rinv_l by lra. nra. } apply Rabs_le. lra.
Qed.

(* ------------------------------------------------------------------ *)
(** * The loop                                                        *)
(* ------------------------------------------------------------------ *)

Section Liq.
  Variables R0 A0 : R.
  Hypotheses (HR : 0 < R0) (HA : 0 < A0).
  (** viscosity term for the Reynolds number R0 / sqrt A *)
  Definition lq_g (R0 A : R) : R := 9935 / 10000 + 2878 / 1000 / Rpower (R0 / sqrt A) (1 / 2) + 34275 / 100 / Rpower (R0 / sqrt A) (3 / 2).
  Let F A := A0 * lq_g R0 A.
  Definition lq_y (R0 A : R) : R := / Rpower (R0 / sqrt A) (1 / 2).
  Lemma lq_Re A : 0 < A -> 0 < R0 / sqrt A. Proof. intros. apply Rdiv_lt_0_compat; auto. now apply sqrt_lt_R0. Qed.
  Lemma lq_gy A : 0 < A -> lq_g R0 A = 9935 / 10000 + 2878 / 1000 * lq_y R0 A + 34275 / 100 * lq_y R0 A ^ 3.
  Proof.
    intros H. unfold lq_g, lq_y. pose proof (rp_pos (R0 / sqrt A) (1 / 2)) as P. assert (E : Rpower (R0 / sqrt A) (3 / 2) = Rpower (R0 / sqrt A) (1 / 2) ^ 3). { rewrite <- Rpower_pow by auto. rewrite Rpower_mult. f_equal. simpl. field. } rewrite E. field. lra.
  Qed.
  Lemma lq_y_pos A : 0 < lq_y R0 A. Proof. apply Rinv_0_lt_compat, rp_pos. Qed.
  Lemma lq_y2 A : 0 < A -> lq_y R0 A ^ 2 = sqrt A / R0.
  Proof.
    intros H. pose proof (lq_Re A H) as P. pose proof (sqrt_lt_R0 A H) as S. unfold lq_y. pose proof (rp_pos (R0 / sqrt A) (1 / 2)). replace ((/ Rpower (R0 / sqrt A) (1 / 2)) ^ 2) with (/ Rpower (R0 / sqrt A) (1 / 2) ^ 2) by (field; lra). rewrite <- Rpower_pow by auto. rewrite Rpower_mult. replace (1 / 2 * INR 2) with 1 by (simpl; field). rewrite Rpower_1 by auto. field. lra.
  Qed.
  Lemma lq_lny A : 0 < A -> ln (lq_y R0 A) = ln A / 4 - ln R0 / 2.
  Proof.
    intros H. pose proof (lq_y_pos A) as P. assert (E : ln (lq_y R0 A ^ 2) = ln (sqrt A / R0)) by now rewrite lq_y2. rewrite ln_pow in E by auto. unfold Rdiv in E. rewrite ln_mult in E by (try apply sqrt_lt_R0; auto; now apply Rinv_0_lt_compat). rewrite ln_Rinv, <- Rpower_sqrt in E by auto. unfold Rpower in E. rewrite ln_exp in E. simpl in E. lra.
  Qed.
  Lemma lq_g_pos A : 0 < A -> 9935 / 10000 < lq_g R0 A.
  Proof. intros H. rewrite lq_gy by auto. pose proof (lq_y_pos A) as P. pose proof (pow_lt _ 3 P). lra. Qed.
  Lemma lq_F_pos A : 0 < A -> 0 < F A. Proof. intros H. pose proof (lq_g_pos A H). apply Rmult_lt_0_compat; lra. Qed.
  Lemma lq_mono A B : 0 < A <= B -> lq_g R0 A <= lq_g R0 B /\ ln (lq_g R0 B) - ln (lq_g R0 A) <= 3 / 4 * (ln B - ln A) /\ ln (34275 / 100 * lq_y R0 A ^ 3) - ln (lq_g R0 A) + 3 / 4 * (ln B - ln A) <= ln (lq_g R0 B) - ln (lq_g R0 A).
  Proof.
    intros H. pose proof (lq_y_pos A) as Y. pose proof (lq_y_pos B) as YB. pose proof (lq_g_pos A ltac:(lra)) as GA. pose proof (lq_g_pos B ltac:(lra)) as GB. set (rho := exp ((ln B - ln A) / 4)). assert (LL : ln A <= ln B) by (apply ln_le; lra).
    assert (R1 : 1 <= rho). { unfold rho. pose proof (exp_ge1 ((ln B - ln A) / 4) ltac:(lra)). lra. }
    assert (EY : lq_y R0 B = rho * lq_y R0 A). { rewrite <- (exp_ln (lq_y R0 B)), <- (exp_ln (lq_y R0 A)) by auto. rewrite !lq_lny by lra. unfold rho. rewrite <- exp_plus. f_equal. field. }
    assert (E3 : ln (rho ^ 3) = 3 / 4 * (ln B - ln A)). { rewrite ln_pow by lra. unfold rho. rewrite ln_exp. simpl. field. }
    assert (R3 : 1 <= rho ^ 2) by nra. assert (R4 : 1 <= rho ^ 3) by nra. assert (R5 : rho <= rho ^ 3) by nra. pose proof (pow_lt _ 3 Y) as Y3. rewrite !lq_gy in * by lra. rewrite EY in *. set (y := lq_y R0 A) in *. replace ((rho * y) ^ 3) with (rho ^ 3 * y ^ 3) in * by ring. set (z := y ^ 3) in *. set (r3 := rho ^ 3) in *. split; [nra|]. split.
    - rewrite <- E3. apply Rle_trans with (ln (r3 * (9935 / 10000 + 2878 / 1000 * y + 34275 / 100 * z)) - ln (9935 / 10000 + 2878 / 1000 * y + 34275 / 100 * z)); [|rewrite ln_mult by lra; lra]. apply Rplus_le_compat_r. apply ln_le; [lra|]. nra.
    - rewrite <- E3. apply Rle_trans with (ln (r3 * (34275 / 100 * z)) - ln (9935 / 10000 + 2878 / 1000 * y + 34275 / 100 * z)); [rewrite (ln_mult r3) by lra; lra|]. apply Rplus_le_compat_r. apply ln_le; [apply Rmult_lt_0_compat; lra|]. nra.
  Qed.
  Let phi x := ln (F (exp x)).
  Lemma lq_phi x y : Rabs (phi x - phi y) <= 3 / 4 * Rabs (x - y).
  Proof.
    assert (S : forall x y, x <= y -> Rabs (phi x - phi y) <= 3 / 4 * Rabs (x - y)).
    { intros a b H. unfold phi, F. pose proof (exp_pos a). pose proof (exp_pos b). pose proof (exp_le a b H). destruct (lq_mono (exp a) (exp b) ltac:(lra)) as (M1 & M2 & _). pose proof (lq_g_pos (exp a) ltac:(lra)). pose proof (lq_g_pos (exp b) ltac:(lra)). rewrite !ln_mult by lra. rewrite !ln_exp in M2. pose proof (ln_le (lq_g R0 (exp a)) (lq_g R0 (exp b)) ltac:(lra) M1). rewrite (Rabs_minus_sym a b), (Rabs_right (b - a)) by lra. rewrite Rabs_minus_sym, Rabs_right; lra. }
    destruct (Rle_dec x y); [now apply S|]. rewrite (Rabs_minus_sym x y), (Rabs_minus_sym (phi x)). apply S. lra.
  Qed.
  Lemma lq_fix : exists As, 0 < As /\ As = F As /\ forall B, 0 < B -> B = F B -> B = As.
  Proof.
    destruct (ct_fix phi lq_phi) as (x & E). exists (exp x). pose proof (exp_pos x) as P. split; auto. split.
    - rewrite <- (exp_ln (F (exp x))) by now apply lq_F_pos. change (exp x = exp (phi x)). now rewrite E.
    - intros B HB EB. rewrite <- (exp_ln B HB). f_equal. apply (ct_uniq phi lq_phi); auto. unfold phi. rewrite exp_ln by auto. now rewrite <- EB.
  Qed.
  Lemma lq_phi_ln A : 0 < A -> phi (ln A) = ln (F A). Proof. intros. unfold phi. now rewrite exp_ln. Qed.
  (** any result is close to the fixed point *)
  Lemma lq_acc n A r As : 0 < A -> 0 < As -> As = F As -> liq_loop F n A = Ok r -> 0 < r /\ Rabs (r - As) <= 4 / 10 ^ 5 * As.
  Proof.
    revert A. induction n as [|n IH]; intros A H HAs EAs E; [discriminate|]. cbn [liq_loop] in E. pose proof (lq_F_pos A H) as FP. destruct (Rltb (Rabs ((F A - A) / F A)) (1 / 10 ^ 5)) eqn:T; [|now apply (IH (F A))]. injection E as <-. split; auto. apply Rltb_true in T.
    replace ((F A - A) / F A) with (1 - A / F A) in T by (field; lra). apply ln_abs_small in T; [|lra]. assert (Q : ln (A / F A) = ln A - ln (F A)) by (unfold Rdiv; rewrite ln_mult, ln_Rinv by (auto; now apply Rinv_0_lt_compat); ring). rewrite Q in T.
    pose proof (lq_phi (ln A) (ln As)) as L. rewrite !lq_phi_ln, <- EAs in L by auto. set (u := ln (F A) - ln As). assert (U : Rabs (ln A - ln As) <= Rabs (ln A - ln (F A)) + Rabs u). { unfold u. replace (ln A - ln As) with ((ln A - ln (F A)) + (ln (F A) - ln As)) by ring. apply Rabs_triang. } fold u in L.
    assert (B : Rabs u <= 35 / 10 ^ 6). { assert (1 / 10 ^ 5 / (1 - 1 / 10 ^ 5) <= 11 / 10 ^ 6) by lra. lra. } apply exp_abs_small in B; [|lra]. assert (EX : exp u = F A / As). { unfold u, Rminus. rewrite exp_plus, exp_Ropp, !exp_ln by auto. reflexivity. } rewrite EX in B. replace (F A - As) with ((F A / As - 1) * As) by (field; lra). rewrite Rabs_mult, (Rabs_right As) by lra. apply Rmult_le_compat_r; [lra|]. eapply Rle_trans; [exact B|lra].
  Qed.
  Lemma lq_succ n A : 0 < A -> (3 / 4) ^ n * Rabs (ln (F A) - ln A) <= 99 / 10 ^ 7 -> exists r, liq_loop F (S n) A = Ok r.
  Proof.
    revert A. induction n as [|n IH]; intros A H E; pose proof (lq_F_pos A H) as FP.
    - cbn [liq_loop]. rewrite pow_O, Rmult_1_l in E. rewrite <- Rabs_Ropp in E. apply exp_abs_small in E; [|lra]. assert (EX : exp (- (ln (F A) - ln A)) = A / F A). { replace (- (ln (F A) - ln A)) with (ln A + - ln (F A)) by ring. rewrite exp_plus, exp_Ropp, !exp_ln by auto. reflexivity. } rewrite EX in E. rewrite (proj2 (Rltb_true _ _)); [eauto|]. replace ((F A - A) / F A) with (- (A / F A - 1)) by (field; lra). rewrite Rabs_Ropp. eapply Rle_lt_trans; [exact E|lra].
    - change (exists r, (if Rltb (Rabs ((F A - A) / F A)) (1 / 10 ^ 5) then Ok (F A) else liq_loop F (S n) (F A)) = Ok r). destruct (Rltb _ _); [eauto|]. apply IH; auto. pose proof (lq_phi (ln (F A)) (ln A)) as L. rewrite !lq_phi_ln in L by auto. eapply Rle_trans; [|exact E]. cbn [pow]. assert (P : 0 < (3 / 4) ^ n) by (apply pow_lt; lra). apply Rle_trans with ((3 / 4) ^ n * (3 / 4 * Rabs (ln (F A) - ln A))); [apply Rmult_le_compat_l; lra|right; ring].
  Qed.
  Lemma lq_test A : 0 < A -> 101 / 10 ^ 7 <= ln (F A) - ln A -> Rltb (Rabs ((F A - A) / F A)) (1 / 10 ^ 5) = false.
  Proof.
    intros H E. pose proof (lq_F_pos A H) as FP. apply Rltb_false. set (d := ln (F A) - ln A) in *. assert (EX : A / F A = exp (- d)). { unfold d. replace (- (ln (F A) - ln A)) with (ln A + - ln (F A)) by ring. rewrite exp_plus, exp_Ropp, !exp_ln by auto. reflexivity. }
    replace ((F A - A) / F A) with (1 - A / F A) by (field; lra). rewrite EX. assert (ED : 1 + d <= exp d) by (apply exp_ge1; lra). assert (exp (- d) <= / (1 + d)) by (rewrite exp_Ropp; apply Rinv_le_contravar; lra). assert (/ (1 + d) <= / (1 + 101 / 10 ^ 7)) by (apply Rinv_le_contravar; lra). rewrite Rabs_right by lra. lra.
  Qed.
  Lemma lq_dec A : A0 <= A -> 10 ^ 5 <= lq_y R0 A0 ^ 2 -> A <= F A -> 3 / 4 * (ln (F A) - ln A) - 1 / 10 ^ 7 <= ln (F (F A)) - ln (F A).
  Proof.
    intros H Y0 HF. assert (AP : 0 < A) by lra. pose proof (lq_F_pos A AP) as FP. destruct (lq_mono A (F A) ltac:(lra)) as (_ & _ & M). pose proof (lq_g_pos A AP). pose proof (lq_g_pos (F A) FP). assert (EF : forall B, 0 < lq_g R0 B -> ln (F B) = ln A0 + ln (lq_g R0 B)) by (intros; unfold F; now rewrite ln_mult by lra). rewrite (EF (F A)) by lra. pose proof (EF A ltac:(lra)).
    assert (YA : 10 ^ 5 <= lq_y R0 A ^ 2). { eapply Rle_trans; [exact Y0|]. rewrite !lq_y2 by lra. apply Rmult_le_compat_r; [left; now apply Rinv_0_lt_compat|]. apply sqrt_le_1; lra. } pose proof (lq_y_pos A) as Y.
    assert (B : - (1 / 10 ^ 7) <= ln (34275 / 100 * lq_y R0 A ^ 3) - ln (lq_g R0 A)). { rewrite lq_gy in * by auto. set (y := lq_y R0 A) in *. set (z := 34275 / 100 * y ^ 3) in *. assert (Z0 : 34275 / 100 * 10 ^ 5 * y <= z) by (unfold z; replace (y ^ 3) with (y ^ 2 * y) by ring; rewrite Rmult_assoc; apply Rmult_le_compat_l; [lra|]; apply Rmult_le_compat_r; lra). assert (Y1 : 10 <= y) by nra. pose proof (ln_lt_sub z (9935 / 10000 + 2878 / 1000 * y + z) ltac:(lra) ltac:(lra)) as L. assert (Q : (9935 / 10000 + 2878 / 1000 * y + z) / z - 1 <= 1 / 10 ^ 7). { replace ((9935 / 10000 + 2878 / 1000 * y + z) / z - 1) with ((9935 / 10000 + 2878 / 1000 * y) / z) by (field; lra). apply (Rmult_le_reg_r z); [lra|]. unfold Rdiv at 1. rewrite Rmult_assoc, Rinv_l by lra. lra. } lra. }
    lra.
  Qed.
  Lemma lq_fail n A : A0 <= A -> 10 ^ 5 <= lq_y R0 A0 ^ 2 -> A <= F A -> 105 / 10 ^ 7 <= (3 / 4) ^ n * (ln (F A) - ln A + 4 / 10 ^ 7) -> liq_loop F (S n) A = Err ValueError.
  Proof.
    revert A. induction n as [|n IH]; intros A H Y0 HF E; (assert (AP : 0 < A) by lra); pose proof (lq_F_pos A AP) as FP; pose proof (ln_le _ _ AP HF) as LF.
    - cbn [liq_loop]. rewrite pow_O in E. rewrite lq_test by (auto; lra). reflexivity.
    - change ((if Rltb (Rabs ((F A - A) / F A)) (1 / 10 ^ 5) then Ok (F A) else liq_loop F (S n) (F A)) = Err ValueError). assert (PN : 0 < (3 / 4) ^ n <= 1) by (split; [apply pow_lt; lra|rewrite <- (pow1 n); apply pow_incr; lra]). change ((3 / 4) ^ S n) with (3 / 4 * (3 / 4) ^ n) in E. set (d := ln (F A) - ln A) in *. assert (D0 : 0 <= d) by (unfold d; lra). rewrite lq_test; [|auto|].  2: { fold d. assert ((3 / 4) ^ n * (d + 4 / 10 ^ 7) <= 1 * (d + 4 / 10 ^ 7)) by (apply Rmult_le_compat_r; lra). lra. }
      apply IH; [lra|auto|unfold F at 1 2; apply Rmult_le_compat_l; [lra|]; apply (lq_mono A (F A)); lra|]. pose proof (lq_dec A H Y0 HF) as L. fold d in L. eapply Rle_trans; [exact E|]. replace (3 / 4 * (3 / 4) ^ n * (d + 4 / 10 ^ 7)) with ((3 / 4) ^ n * (3 / 4 * (d + 4 / 10 ^ 7))) by ring. apply Rmult_le_compat_l; lra.
  Qed.
  (** below A0 the iterates stay below *)
  Lemma lq_below n A r : 0 < A <= A0 -> F A0 <= A0 -> liq_loop F n A = Ok r -> r <= F A0.
  Proof.
    revert A. induction n as [|n IH]; intros A H HF E; [discriminate|]. cbn [liq_loop] in E. assert (FA : F A <= F A0) by (unfold F; apply Rmult_le_compat_l; [lra|]; apply (lq_mono A A0); lra). destruct (Rltb _ _); [injection E as <-; auto|]. apply (IH (F A)); auto. split; [apply lq_F_pos; lra|lra].
  Qed.
End Liq.

(** the quantities of the function: area without viscosity correction, and the Reynolds number of an area *)
Definition liq_A0 (Q P1 P2 Gl Kd Kw Kc : R) : R := 1178 / 100 * Q / (Kd * Kw * Kc) * sqrt (Gl / (100 * (P1 - P2))).
Definition liq_Re (Q mu Gl A : R) : R := 18800 * Q * Gl / (mu * sqrt A).
(** the sizing equation *)
Definition sized (Q P1 P2 mu Gl Kd Kw Kc A : R) : Prop :=
  0 < A /\ A = liq_A0 Q P1 P2 Gl Kd Kw Kc * (9935 / 10000 + 2878 / 1000 / Rpower (liq_Re Q mu Gl A) (1 / 2) + 34275 / 100 / Rpower (liq_Re Q mu Gl A) (3 / 2)).
Lemma liq_ext F G n A : (forall x, 0 < x -> F x = G x /\ 0 < G x) -> 0 < A -> liq_loop F n A = liq_loop G n A.
Proof. intros H. revert A. induction n as [|n IH]; intros A HA; [reflexivity|]. cbn [liq_loop]. destruct (H A HA) as [-> P]. destruct (Rltb _ _); [reflexivity|]. now apply IH. Qed.
Lemma liq_unf Q P1 P2 mu Gl Kd Kw Kc : 0 < Q -> P2 < P1 -> 0 < mu -> 0 < Gl -> 0 < Kd -> 0 < Kw -> 0 < Kc ->
  let R0 := 18800 * Q * Gl / mu in let A0 := liq_A0 Q P1 P2 Gl Kd Kw Kc in
  0 < R0 /\ 0 < A0 /\ (forall A, 0 < A -> liq_Re Q mu Gl A = R0 / sqrt A) /\
  area_relief_liquid Q P1 P2 mu Gl Kd Kw Kc = liq_loop (fun A => A0 * lq_g R0 A) 49 A0.
Proof.
  intros HQ HP Hm HG Hd Hw Hc R0 A0. assert (R1 : 0 < R0) by (apply Rdiv_lt_0_compat; auto; posm). assert (D1 : 0 < Gl / (100 * (P1 - P2))) by (apply Rdiv_lt_0_compat; lra). assert (A1 : 0 < A0) by (apply Rmult_lt_0_compat; [apply Rdiv_lt_0_compat; [lra|posm]|now apply sqrt_lt_R0]).
  assert (RE : forall A, 0 < A -> liq_Re Q mu Gl A = R0 / sqrt A) by (intros A HA; pose proof (sqrt_lt_R0 A HA); unfold liq_Re, R0; field; lra). split; [auto|]. split; [auto|]. split; [auto|].
  unfold area_relief_liquid. cbv zeta. generalize 49%nat; intros n. assert (E0 : liq_A Q (P1 * 100 - P2 * 100) Gl Kd Kw Kc 1 = A0). { unfold liq_A, A0, liq_A0. rewrite Rmult_1_r. do 3 f_equal. ring. } rewrite E0. rewrite Rltb_f. 2: { replace ((A0 - 0) / A0) with 1 by (field; lra). rewrite Rabs_R1. lra. }
  apply liq_ext; auto. intros A HA. pose proof (lq_g_pos R0 A HA) as GP. split; [|apply Rmult_lt_0_compat; lra]. unfold liq_A, liq_Kv. fold (liq_Re Q mu Gl A). rewrite RE by auto. fold (lq_g R0 A). unfold A0, liq_A0. replace (P1 * 100 - P2 * 100) with (100 * (P1 - P2)) by ring. set (sq := sqrt (Gl / (100 * (P1 - P2)))). set (g := lq_g R0 A) in *. clearbody sq. field. repeat split; lra.
Qed.

(* ------------------------------------------------------------------ *)
(** * Theorems                                                        *)
(* ------------------------------------------------------------------ *)

(** for every flow there is exactly one area that satisfies the sizing equation *)
Theorem C94_liquid_root Q P1 P2 mu Gl Kd Kw Kc : 0 < Q -> P2 < P1 -> 0 < mu -> 0 < Gl -> 0 < Kd -> 0 < Kw -> 0 < Kc ->
  exists A, sized Q P1 P2 mu Gl Kd Kw Kc A /\ forall B, sized Q P1 P2 mu Gl Kd Kw Kc B -> B = A.
Proof.
  intros HQ HP Hm HG Hd Hw Hc. destruct (liq_unf Q P1 P2 mu Gl Kd Kw Kc HQ HP Hm HG Hd Hw Hc) as (R1 & A1 & RE & _). set (R0 := 18800 * Q * Gl / mu) in *. set (A0 := liq_A0 Q P1 P2 Gl Kd Kw Kc) in *.
  destruct (lq_fix R0 A0 R1 A1) as (As & P & E & U). exists As. split.
  - split; auto. fold A0. rewrite RE by auto. exact E.
  - intros B [PB EB]. apply U; auto. rewrite RE in EB by auto. exact EB.
Qed.
(** every returned area is within 4e-5 of it *)
Theorem C94_liquid_accuracy Q P1 P2 mu Gl Kd Kw Kc A r : 0 < Q -> P2 < P1 -> 0 < mu -> 0 < Gl -> 0 < Kd -> 0 < Kw -> 0 < Kc ->
  sized Q P1 P2 mu Gl Kd Kw Kc A -> area_relief_liquid Q P1 P2 mu Gl Kd Kw Kc = Ok r -> Rabs (r - A) <= 4 / 10 ^ 5 * A.
Proof.
  intros HQ HP Hm HG Hd Hw Hc [PA EA] E. destruct (liq_unf Q P1 P2 mu Gl Kd Kw Kc HQ HP Hm HG Hd Hw Hc) as (R1 & A1 & RE & U). rewrite U in E. rewrite RE in EA by auto. eapply (lq_acc _ _ R1 A1); eauto.
Qed.
Lemma p34_48 : 100 / 10 ^ 8 <= (3 / 4) ^ 48 <= 102 / 10 ^ 8.
Proof.
  assert (E : (3 / 4) ^ 48 = (((3 / 4) ^ 12) ^ 2) ^ 2) by (rewrite <- !pow_mult; reflexivity). rewrite E. assert (B : 31676 / 10 ^ 6 <= (3 / 4) ^ 12 <= 31677 / 10 ^ 6) by lra. set (a := (3 / 4) ^ 12) in *. assert (B2 : 10033 / 10 ^ 7 <= a ^ 2 <= 10035 / 10 ^ 7) by nra. set (b := a ^ 2) in *. nra.
Qed.
(** the iteration converges unless the liquid is extremely viscous: it does whenever the correction for the uncorrected area is at least 1e-4 *)
Theorem C94_liquid_success Q P1 P2 mu Gl Kd Kw Kc : 0 < Q -> P2 < P1 -> 0 < mu -> 0 < Gl -> 0 < Kd -> 0 < Kw -> 0 < Kc ->
  1 / 10 ^ 4 <= liq_Kv Q mu Gl (liq_A0 Q P1 P2 Gl Kd Kw Kc) -> exists r, area_relief_liquid Q P1 P2 mu Gl Kd Kw Kc = Ok r.
Proof.
  intros HQ HP Hm HG Hd Hw Hc HK. destruct (liq_unf Q P1 P2 mu Gl Kd Kw Kc HQ HP Hm HG Hd Hw Hc) as (R1 & A1 & RE & U). rewrite U. set (R0 := 18800 * Q * Gl / mu) in *. set (A0 := liq_A0 Q P1 P2 Gl Kd Kw Kc) in *. clearbody R0. change 49%nat with (S 48). apply (lq_succ R0 A0 R1 A1); auto.
  pose proof (lq_g_pos R0 A0 A1) as GP. rewrite ln_mult by lra. unfold liq_Kv in HK. fold (liq_Re Q mu Gl A0) in HK. rewrite RE in HK by auto. fold (lq_g R0 A0) in HK. set (g := lq_g R0 A0) in *. assert (G4 : g <= 10 ^ 4). { apply (Rmult_le_compat_r g) in HK; [|lra]. replace (1 / g * g) with 1 in HK by (field; lra). lra. }
  replace (ln A0 + ln g - ln A0) with (ln g) by ring. assert (L : Rabs (ln g) <= 924 / 100). { apply Rabs_le. split; [pose proof (ln_ge_sub g ltac:(lra)); assert (/ g <= / (9935 / 10000)) by (apply Rinv_le_contravar; lra); lra|]. eapply Rle_trans; [apply ln_le; [lra|exact G4]|]. rewrite ln_pow by lra. pose proof ln10_up. simpl INR. lra. }
  pose proof p34_48. pose proof (Rabs_pos (ln g)). apply Rle_trans with (102 / 10 ^ 8 * (924 / 100)); [|lra]. apply Rmult_le_compat; lra.
Qed.
(** finding: for an extremely viscous liquid the loop gives up, although the sizing equation has a solution *)
Theorem C94_liquid_no_convergence_refuted Q P1 P2 mu Gl Kd Kw Kc : 0 < Q -> P2 < P1 -> 0 < mu -> 0 < Gl -> 0 < Kd -> 0 < Kw -> 0 < Kc ->
  liq_Re Q mu Gl (liq_A0 Q P1 P2 Gl Kd Kw Kc) <= 1 / 10 ^ 5 -> area_relief_liquid Q P1 P2 mu Gl Kd Kw Kc = Err ValueError.
Proof.
  intros HQ HP Hm HG Hd Hw Hc HK. destruct (liq_unf Q P1 P2 mu Gl Kd Kw Kc HQ HP Hm HG Hd Hw Hc) as (R1 & A1 & RE & U). rewrite U. set (R0 := 18800 * Q * Gl / mu) in *. set (A0 := liq_A0 Q P1 P2 Gl Kd Kw Kc) in *. clearbody R0. change 49%nat with (S 48). rewrite RE in HK by auto.
  pose proof (lq_g_pos R0 A0 A1) as GP. pose proof (lq_y_pos R0 A0) as Y. pose proof (lq_y2 R0 R1 A0 A1) as Y2. pose proof (lq_Re R0 R1 A0 A1) as RP. pose proof (sqrt_lt_R0 A0 A1) as SP.
  assert (Y5 : 10 ^ 5 <= lq_y R0 A0 ^ 2). { rewrite Y2. replace (sqrt A0 / R0) with (/ (R0 / sqrt A0)) by (field; lra). replace (10 ^ 5) with (/ (1 / 10 ^ 5)) by lra. apply Rinv_le_contravar; lra. }
  assert (LG : 13 <= ln (lq_g R0 A0)).
  { rewrite lq_gy by auto. set (y := lq_y R0 A0) in *. assert (Y1 : 10 ^ 2 <= y) by nra. assert (Y3 : 10 ^ 7 <= y ^ 3) by (replace (y ^ 3) with (y ^ 2 * y) by ring; nra). apply Rle_trans with (ln (10 ^ 9)); [rewrite ln_pow by lra; pose proof ln10_pos; simpl INR; lra|]. apply ln_le; lra. }
  assert (G1 : 1 <= lq_g R0 A0). { rewrite <- (exp_ln (lq_g R0 A0)) by lra. pose proof (exp_ge1 (ln (lq_g R0 A0)) ltac:(lra)). lra. }
  apply lq_fail; auto; [lra|nra|]. rewrite ln_mult by lra. pose proof p34_48. set (p := (3 / 4) ^ 48) in *. set (l := ln (lq_g R0 A0)) in *. replace (ln A0 + l - ln A0) with l by ring. apply Rle_trans with (100 / 10 ^ 8 * 13); [lra|]. apply Rmult_le_compat; lra.
Qed.
(** finding: for a liquid that is not viscous the returned area is smaller than that without any correction, i.e. the correction exceeds one *)
Theorem C94_liquid_low_refuted Q P1 P2 mu Gl Kd Kw Kc : 0 < Q -> P2 < P1 -> 0 < mu -> 0 < Gl -> 0 < Kd -> 0 < Kw -> 0 < Kc ->
  10 ^ 6 <= liq_Re Q mu Gl (liq_A0 Q P1 P2 Gl Kd Kw Kc) -> exists r, area_relief_liquid Q P1 P2 mu Gl Kd Kw Kc = Ok r /\ r < liq_A0 Q P1 P2 Gl Kd Kw Kc.
Proof.
  intros HQ HP Hm HG Hd Hw Hc HK. assert (S0 := C94_liquid_success Q P1 P2 mu Gl Kd Kw Kc HQ HP Hm HG Hd Hw Hc). destruct (liq_unf Q P1 P2 mu Gl Kd Kw Kc HQ HP Hm HG Hd Hw Hc) as (R1 & A1 & RE & U). rewrite U in *. set (R0 := 18800 * Q * Gl / mu) in *. set (A0 := liq_A0 Q P1 P2 Gl Kd Kw Kc) in *. rewrite RE in HK by auto.
  pose proof (lq_g_pos R0 A0 A1) as GP. pose proof (lq_y_pos R0 A0) as Y. pose proof (lq_y2 R0 R1 A0 A1) as Y2. pose proof (lq_Re R0 R1 A0 A1) as RP. pose proof (sqrt_lt_R0 A0 A1) as SP.
  assert (Y6 : lq_y R0 A0 ^ 2 <= 1 / 10 ^ 6). { rewrite Y2. replace (sqrt A0 / R0) with (/ (R0 / sqrt A0)) by (field; lra). replace (1 / 10 ^ 6) with (/ (10 ^ 6)) by lra. apply Rinv_le_contravar; lra. }
  assert (G1 : lq_g R0 A0 < 1). { rewrite lq_gy by auto. set (y := lq_y R0 A0) in *. assert (Y1 : y <= 1 / 10 ^ 3) by nra. assert (y ^ 3 <= 1 / 10 ^ 6 * (1 / 10 ^ 3)) by (replace (y ^ 3) with (y ^ 2 * y) by ring; apply Rmult_le_compat; nra). lra. }
  assert (KV : liq_Kv Q mu Gl A0 = 1 / lq_g R0 A0). { unfold liq_Kv. fold (liq_Re Q mu Gl A0). rewrite RE by auto. reflexivity. }
  destruct S0 as (r & E). { rewrite KV. apply (Rmult_le_reg_r (lq_g R0 A0)); [lra|]. replace (1 / lq_g R0 A0 * lq_g R0 A0) with 1 by (field; lra). lra. }
  exists r. split; auto. apply Rle_lt_trans with (A0 * lq_g R0 A0); [|nra]. apply (lq_below R0 A0 R1 A1 49 A0 r); auto; [lra|nra].
Qed.

(** a concrete flow: 1 L/min with a pressure drop of 1 bar *)
Lemma liq_A0_ex : liq_A0 1 2 1 1 1 1 1 = 1178 / 1000.
Proof. unfold liq_A0. replace (1 / (100 * (2 - 1))) with ((1 / 10) ^ 2) by lra. rewrite sqrt_pow2 by lra. lra. Qed.
Lemma sqrt_1178 : 1 <= sqrt (1178 / 1000) <= 2.
Proof. split; [rewrite <- sqrt_1 at 1; apply sqrt_le_1; lra|]. rewrite <- (sqrt_pow2 2) by lra. apply sqrt_le_1; lra. Qed.
Example C94_liquid_no_convergence_ex : area_relief_liquid 1 2 1 (10 ^ 10) 1 1 1 1 = Err ValueError /\ exists A, sized 1 2 1 (10 ^ 10) 1 1 1 1 A.
Proof.
  split; [|destruct (C94_liquid_root 1 2 1 (10 ^ 10) 1 1 1 1) as (A & H & _); try lra; eauto]. apply C94_liquid_no_convergence_refuted; try lra. rewrite liq_A0_ex. unfold liq_Re. pose proof sqrt_1178. set (s := sqrt _) in *. apply (Rmult_le_reg_r (10 ^ 10 * s)); [lra|]. replace (18800 * 1 * 1 / (10 ^ 10 * s) * (10 ^ 10 * s)) with 18800 by (field; lra). lra.
Qed.
Example C94_liquid_low_ex : exists r, area_relief_liquid 1 2 1 (1 / 1000) 1 1 1 1 = Ok r /\ r < 1178 / 1000.
Proof.
  rewrite <- liq_A0_ex. apply C94_liquid_low_refuted; try lra. rewrite liq_A0_ex. unfold liq_Re. pose proof sqrt_1178. set (s := sqrt _) in *. apply (Rmult_le_reg_r (1 / 1000 * s)); [lra|]. replace (18800 * 1 * 1 / (1 / 1000 * s) * (1 / 1000 * s)) with 18800 by (field; lra). lra.
Qed.
Print Assumptions C94_liquid_root.
Print Assumptions C94_liquid_accuracy.
Print Assumptions C94_liquid_success.
Print Assumptions C94_liquid_no_convergence_refuted.
Print Assumptions C94_liquid_low_refuted.
