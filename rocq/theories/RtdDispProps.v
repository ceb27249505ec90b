(** C56: the dispersion model and the Peclet number of a tube. *)
From Coq Require Import Reals Lra Lia List Bool Arith Psatz.
From Coquelicot Require Import Coquelicot.
From Verif Require Import Prelude Deriv NumBounds Erf HmtProps RtdModel RtdProps.
Import ListNotations.
Open Scope R_scope.

Lemma D_zero f C : 0 <= C -> f 0 = 0 -> (forall q, q < 0 -> f q = 0) -> (forall q, 0 < q < 1 / 2 -> Rabs (f q) <= C * q ^ 2) -> D f 0 0.
Proof.
  intros HC H0 HN HP. unfold D. apply Coquelicot.Derive.is_derive_Reals. intros e He. assert (Dp : 0 < Rmin (1 / 2) (e / (C + 1))) by (apply Rmin_pos; [lra|apply Rdiv_lt_0_compat; lra]). exists (mkposreal _ Dp). intros h Hh Hd. cbn in Hd. rewrite Rplus_0_l, H0, !Rminus_0_r. pose proof (Rmin_l (1 / 2) (e / (C + 1))). pose proof (Rmin_r (1 / 2) (e / (C + 1))).
  destruct (Rlt_dec h 0) as [N|N]. { rewrite HN by auto. unfold Rdiv. rewrite Rmult_0_l, Rabs_R0. auto. } assert (P : 0 < h) by lra. rewrite (Rabs_right h) in Hd by lra. specialize (HP h ltac:(lra)). unfold Rdiv. rewrite Rabs_mult, Rabs_inv, (Rabs_right h) by lra. apply (Rmult_lt_reg_r h); auto. rewrite Rmult_assoc, Rinv_l, Rmult_1_r by lra.
  assert (Q : (C + 1) * h < e). { apply Rlt_le_trans with ((C + 1) * (e / (C + 1))); [apply Rmult_lt_compat_l; lra|right; field; lra]. } nra.
Qed.
Lemma cont_zero f C : 0 <= C -> f 0 = 0 -> (forall q, q < 0 -> f q = 0) -> (forall q, 0 < q < 1 / 2 -> Rabs (f q) <= C * q) -> continuous f 0.
Proof.
  intros HC H0 HN HP. apply continuity_pt_filterlim. intros e He. exists (Rmin (1 / 2) (e / (C + 1))). split; [apply Rmin_pos; [lra|apply Rdiv_lt_0_compat; lra]|]. intros h [_ Hd]. cbn in *. unfold R_dist in *. rewrite H0, !Rminus_0_r in *. pose proof (Rmin_l (1 / 2) (e / (C + 1))). pose proof (Rmin_r (1 / 2) (e / (C + 1))).
  destruct (Rlt_dec h 0) as [N|N]. { rewrite HN by auto. rewrite Rabs_R0. auto. } destruct (Req_dec h 0) as [-> |NZ]; [rewrite H0, Rabs_R0; auto|]. rewrite (Rabs_right h) in Hd by lra. specialize (HP h ltac:(lra)). assert (Q : (C + 1) * h < e). { apply Rlt_le_trans with ((C + 1) * (e / (C + 1))); [apply Rmult_lt_compat_l; lra|right; field; lra]. } lra.
Qed.

Section Disp.
  Variable Pe : R.
  Hypothesis HP : 0 < Pe.
  Let r := sqrt Pe.
  Definition dp_a (q : R) : R := sqrt Pe / 2 * (/ sqrt q - sqrt q).
  Definition dp_b (q : R) : R := sqrt Pe / 2 * (/ sqrt q + sqrt q).
  Definition dp_w (q : R) : R := exp (- Pe / (4 * q) * (1 - q) ^ 2).
  Lemma dp_r : 0 < r /\ r * r = Pe. Proof. unfold r. split; [now apply sqrt_lt_R0|apply sqrt_sqrt; lra]. Qed.
  Lemma dp_s q : 0 < q -> 0 < sqrt q /\ sqrt q * sqrt q = q. Proof. intros H0. split; [now apply sqrt_lt_R0|apply sqrt_sqrt; lra]. Qed.
  Lemma dp_aw q : 0 < q -> exp (- dp_a q ^ 2) = dp_w q.
  Proof. intros Hq. unfold dp_w. f_equal. unfold dp_a. fold r. pose proof dp_r as (R1 & R2). pose proof (dp_s q Hq) as (S1 & S2). set (s := sqrt q) in *. rewrite <- S2, <- R2. field. lra. Qed.
  Lemma dp_bw q : 0 < q -> exp Pe * exp (- dp_b q ^ 2) = dp_w q.
  Proof. intros Hq. unfold dp_w. rewrite <- exp_plus. f_equal. unfold dp_b. fold r. pose proof dp_r as (R1 & R2). pose proof (dp_s q Hq) as (S1 & S2). set (s := sqrt q) in *. rewrite <- S2, <- R2. field. lra. Qed.
  Lemma dp_wpos q : 0 < dp_w q. Proof. apply exp_pos. Qed.
  Lemma exp_2 x : 0 < x -> exp (- x) <= 2 / x ^ 2.
  Proof. intros Hx. pose proof (ph_le1 2 x ltac:(lra)) as L. unfold ph in L. change (INR (fact 2)) with (1 + 1) in L. assert (0 < x ^ 2) by (apply pow_lt; lra). apply (Rmult_le_reg_r (x ^ 2)); auto. unfold Rdiv. rewrite Rmult_assoc, Rinv_l by lra. lra. Qed.
  Lemma dp_w0 q : 0 < q < 1 / 2 -> dp_w q <= 2 * (16 / Pe) ^ 2 * q ^ 2.
  Proof.
    intros Hq. assert (X : 0 < Pe / (16 * q)) by (apply Rdiv_lt_0_compat; lra). apply Rle_trans with (exp (- (Pe / (16 * q)))).
    - unfold dp_w. apply exp_le. replace (- Pe / (4 * q) * (1 - q) ^ 2) with (- (Pe / (16 * q) * (4 * (1 - q) ^ 2))) by (field; lra). apply Ropp_le_contravar. rewrite <- (Rmult_1_r (Pe / (16 * q))) at 1. apply Rmult_le_compat_l; nra.
    - eapply Rle_trans; [apply exp_2; auto|]. right. field. lra.
  Qed.
  Lemma dp_w1 q : 4 < q -> dp_w q <= 2 * (64 / (9 * Pe)) ^ 2 / q ^ 2.
  Proof.
    intros Hq. assert (X : 0 < Pe * 9 * q / 64) by (assert (0 < Pe * q) by (apply Rmult_lt_0_compat; lra); lra). apply Rle_trans with (exp (- (Pe * 9 * q / 64))).
    - unfold dp_w. apply exp_le. replace (- Pe / (4 * q) * (1 - q) ^ 2) with (- (Pe / (4 * q) * (q - 1) ^ 2)) by (field; lra). apply Ropp_le_contravar. replace (Pe * 9 * q / 64) with (Pe / (4 * q) * (3 / 4 * q) ^ 2) by (field; lra). apply Rmult_le_compat_l; [left; apply Rdiv_lt_0_compat; lra|]. nra.
    - eapply Rle_trans; [apply exp_2; auto|]. right. field. lra.
  Qed.
  Lemma dp_Da q : 0 < q -> D dp_a q (- (r / 4) * (/ sqrt q ^ 3 + / sqrt q)).
  Proof. intros Hq. pose proof (dp_s q Hq) as (S1 & S2). unfold dp_a, D. fold r. auto_derive; [repeat split; lra|]. field. lra. Qed.
  Lemma dp_Db q : 0 < q -> D dp_b q (r / 4 * (/ sqrt q - / sqrt q ^ 3)).
  Proof. intros Hq. pose proof (dp_s q Hq) as (S1 & S2). unfold dp_b, D. fold r. auto_derive; [repeat split; lra|]. field. lra. Qed.
  Lemma dp_DA q : 0 < q -> D (fun q => erfc (dp_a q)) q (r / (2 * sqrt PI) * (/ sqrt q ^ 3 + / sqrt q) * dp_w q).
  Proof. intros Hq. eapply D_eq. { apply (D_comp erfc dp_a); [now apply dp_Da|apply erfc_D]. } rewrite dp_aw by auto. pose proof spi_pos. pose proof (dp_s q Hq) as (S1 & _). field. lra. Qed.
  Lemma dp_DB q : 0 < q -> D (fun q => exp Pe * erfc (dp_b q)) q (r / (2 * sqrt PI) * (/ sqrt q ^ 3 - / sqrt q) * dp_w q).
  Proof. intros Hq. eapply D_eq. { apply D_scal. apply (D_comp erfc dp_b); [now apply dp_Db|apply erfc_D]. } rewrite <- dp_bw by auto. pose proof spi_pos. pose proof (dp_s q Hq) as (S1 & _). field. lra. Qed.
  Lemma dp_Dw q : 0 < q -> D dp_w q (Pe / 4 * (/ sqrt q ^ 4 - 1) * dp_w q).
  Proof. intros Hq. unfold dp_w. eapply D_eq. { apply (D_exp (fun q => - Pe / (4 * q) * (1 - q) ^ 2)). unfold D. auto_derive; [lra|reflexivity]. } pose proof (dp_s q Hq) as (S1 & S2). match goal with |- ?a = ?b => change (@eq R a b) end. replace (sqrt q ^ 4) with (q ^ 2) by (rewrite <- S2 at 1; ring). field. lra. Qed.
  Lemma dp_DS q : 0 < q -> D (fun q => sqrt q * dp_w q) q ((/ (2 * sqrt q) + Pe / 4 * (/ sqrt q ^ 3 - sqrt q)) * dp_w q).
  Proof. intros Hq. pose proof (dp_s q Hq) as (S1 & S2). eapply D_eq. { apply (D_mult sqrt dp_w); [|now apply dp_Dw]. unfold D. auto_derive; [auto|reflexivity]. } match goal with |- ?a = ?b => change (@eq R a b) end. field. lra. Qed.
  (** bounds of the two terms *)
  Lemma dp_A0 q : 0 < q < 1 -> 0 < erfc (dp_a q) <= dp_w q.
  Proof.
    intros Hq. split; [apply erfc_bounds|]. rewrite <- dp_aw by lra. apply erfc_upper. unfold dp_a. fold r. pose proof dp_r as (R1 & R2). pose proof (dp_s q ltac:(lra)) as (S1 & S2). apply Rmult_le_pos; [lra|]. assert (sqrt q <= / sqrt q); [|lra]. apply (Rmult_le_reg_r (sqrt q)); auto. rewrite Rinv_l by lra. lra.
  Qed.
  Lemma dp_A1 q : 1 < q -> 0 < 2 - erfc (dp_a q) <= dp_w q.
  Proof.
    intros Hq. pose proof (erfc_bounds (dp_a q)). split; [lra|]. rewrite <- dp_aw by lra. rewrite <- erfc_opp. replace (dp_a q ^ 2) with ((- dp_a q) ^ 2) by ring. apply erfc_upper. unfold dp_a. fold r. pose proof dp_r as (R1 & R2). pose proof (dp_s q ltac:(lra)) as (S1 & S2). rewrite Ropp_mult_distr_r. apply Rmult_le_pos; [lra|]. assert (/ sqrt q <= sqrt q); [|lra]. apply (Rmult_le_reg_r (sqrt q)); auto. rewrite Rinv_l by lra. lra.
  Qed.
  Lemma dp_B q : 0 < q -> 0 < exp Pe * erfc (dp_b q) <= dp_w q.
  Proof.
    intros Hq. pose proof (exp_pos Pe). split; [apply Rmult_lt_0_compat; auto; apply erfc_bounds|]. rewrite <- dp_bw by lra. apply Rmult_le_compat_l; [lra|]. apply erfc_upper. unfold dp_b. fold r. pose proof dp_r as (R1 & R2). pose proof (dp_s q ltac:(lra)) as (S1 & S2). pose proof (Rinv_0_lt_compat _ S1). apply Rmult_le_pos; lra.
  Qed.
  (** antiderivatives c sqrt(q) w + al erfc(a)/2 + be e^Pe erfc(b)/2 *)
  Variables c al be : R.
  Definition dp_G (q : R) : R := if Rle_dec q 0 then 0 else c * (sqrt q * dp_w q) + al / 2 * erfc (dp_a q) + be / 2 * (exp Pe * erfc (dp_b q)).
  Lemma dp_G1 q : 0 < q -> dp_G q = c * (sqrt q * dp_w q) + al / 2 * erfc (dp_a q) + be / 2 * (exp Pe * erfc (dp_b q)).
  Proof. intros. unfold dp_G. destruct (Rle_dec q 0); [lra|reflexivity]. Qed.
  Lemma dp_DG q : 0 < q -> D dp_G q (dp_w q * (c * (/ (2 * sqrt q) + Pe / 4 * (/ sqrt q ^ 3 - sqrt q)) + r / (4 * sqrt PI) * ((al + be) * / sqrt q ^ 3 + (al - be) * / sqrt q))).
  Proof.
    intros Hq. apply (D_ext_loc (fun q => c * (sqrt q * dp_w q) + al / 2 * erfc (dp_a q) + be / 2 * (exp Pe * erfc (dp_b q))) _ _ _ q); auto. { intros t Ht. apply Rabs_def2 in Ht. rewrite dp_G1; auto. lra. }
    pose proof spi_pos. pose proof (dp_s q Hq) as (S1 & _). eapply D_eq; [apply D_plus; [apply D_plus|]; apply D_scal; [now apply dp_DS|now apply dp_DA|now apply dp_DB]|]. field. lra.
  Qed.
  Let K := Rabs c + Rabs al / 2 + Rabs be / 2.
  Lemma dp_K : 0 <= K. Proof. unfold K. pose proof (Rabs_pos c). pose proof (Rabs_pos al). pose proof (Rabs_pos be). lra. Qed.
  Lemma dp_D0 : D dp_G 0 0.
  Proof.
    pose proof dp_K as KP. apply (D_zero dp_G (K * (2 * (16 / Pe) ^ 2))). { apply Rmult_le_pos; auto. apply Rmult_le_pos; [lra|apply pow2_ge_0]. }
    - unfold dp_G. destruct (Rle_dec 0 0); [auto|lra].
    - intros q Hq. unfold dp_G. destruct (Rle_dec q 0); [auto|lra].
    - intros q Hq. rewrite dp_G1 by lra. pose proof (dp_A0 q ltac:(lra)) as A. pose proof (dp_B q ltac:(lra)) as B. pose proof (dp_w0 q Hq) as W. pose proof (dp_wpos q) as W1. pose proof (dp_s q ltac:(lra)) as (S1 & S2). assert (SL : sqrt q <= 1) by nra.
      apply Rle_trans with (K * dp_w q); [|rewrite Rmult_assoc; apply Rmult_le_compat_l; auto].
      unfold K. set (w := dp_w q) in *. set (x := erfc (dp_a q)) in *. set (y := exp Pe * erfc (dp_b q)) in *. eapply Rle_trans; [apply Rabs_triang|]. eapply Rle_trans; [apply Rplus_le_compat_r, Rabs_triang|]. rewrite !Rabs_mult. rewrite (Rabs_right w), (Rabs_right x), (Rabs_right y), (Rabs_right (sqrt q)) by lra. replace (Rabs (al / 2)) with (Rabs al / 2) by (unfold Rdiv; rewrite Rabs_mult, (Rabs_right (/ 2)); lra). replace (Rabs (be / 2)) with (Rabs be / 2) by (unfold Rdiv; rewrite Rabs_mult, (Rabs_right (/ 2)); lra).
      pose proof (Rabs_pos c). pose proof (Rabs_pos al). pose proof (Rabs_pos be). assert (Rabs c * (sqrt q * w) <= Rabs c * w) by (apply Rmult_le_compat_l; nra). assert (Rabs al / 2 * x <= Rabs al / 2 * w) by (apply Rmult_le_compat_l; lra). assert (Rabs be / 2 * y <= Rabs be / 2 * w) by (apply Rmult_le_compat_l; lra). lra.
  Qed.
  Lemma dp_lim : is_lim dp_G p_infty al.
  Proof.
    apply lim_p. intros e He. pose proof dp_K as KP. set (M := 2 * (64 / (9 * Pe)) ^ 2). assert (MP : 0 <= M) by (unfold M; pose proof (pow2_ge_0 (64 / (9 * Pe))); lra). exists (5 + K * M / e). intros q Hq. assert (QP : 0 <= K * M / e) by (apply Rmult_le_pos; [now apply Rmult_le_pos|left; now apply Rinv_0_lt_compat]). assert (Q4 : 4 < q) by lra.
    rewrite dp_G1 by lra. pose proof (dp_A1 q ltac:(lra)) as A. pose proof (dp_B q ltac:(lra)) as B. pose proof (dp_w1 q Q4) as W. fold M in W. pose proof (dp_wpos q) as W1. pose proof (dp_s q ltac:(lra)) as (S1 & S2). assert (SL : sqrt q <= q) by nra.
    set (w := dp_w q) in *. set (x := erfc (dp_a q)) in *. set (y := exp Pe * erfc (dp_b q)) in *.
    assert (WQ : w * q <= M / q). { apply Rle_trans with (M / q ^ 2 * q); [apply Rmult_le_compat_r; lra|right; field; lra]. }
    apply Rle_lt_trans with (K * (w * q)).
    - replace (c * (sqrt q * w) + al / 2 * x + be / 2 * y - al) with (c * (sqrt q * w) + - (al / 2) * (2 - x) + be / 2 * y) by field. unfold K. eapply Rle_trans; [apply Rabs_triang|]. eapply Rle_trans; [apply Rplus_le_compat_r, Rabs_triang|]. rewrite !Rabs_mult. rewrite Rabs_Ropp, (Rabs_right w), (Rabs_right (2 - x)), (Rabs_right y), (Rabs_right (sqrt q)) by lra. replace (Rabs (al / 2)) with (Rabs al / 2) by (unfold Rdiv; rewrite Rabs_mult, (Rabs_right (/ 2)); lra). replace (Rabs (be / 2)) with (Rabs be / 2) by (unfold Rdiv; rewrite Rabs_mult, (Rabs_right (/ 2)); lra).
      pose proof (Rabs_pos c). pose proof (Rabs_pos al). pose proof (Rabs_pos be). assert (w <= w * q) by nra. assert (Rabs c * (sqrt q * w) <= Rabs c * (w * q)) by (apply Rmult_le_compat_l; nra). assert (Rabs al / 2 * (2 - x) <= Rabs al / 2 * (w * q)) by (apply Rmult_le_compat_l; lra). assert (Rabs be / 2 * y <= Rabs be / 2 * (w * q)) by (apply Rmult_le_compat_l; lra). lra.
    - apply Rle_lt_trans with (K * (M / q)); [apply Rmult_le_compat_l; auto|]. apply (Rmult_lt_reg_r q); [lra|]. replace (K * (M / q) * q) with (K * M) by (field; lra). apply Rlt_le_trans with (e * (5 + K * M / e)); [|apply Rmult_le_compat_l; lra]. replace (e * (5 + K * M / e)) with (5 * e + K * M) by (field; lra). lra.
  Qed.
End Disp.
Section DispLow.
  Variables tavg Pe : R.
  Hypotheses (Ht : 0 < tavg) (HP : 0 < Pe <= 100).
  Let r := sqrt Pe.
  Definition dl_g (k : nat) (q : R) : R := if Rle_dec q 0 then 0 else sqrt Pe / (2 * sqrt PI * sqrt q) * dp_w Pe q * q ^ k.
  Definition dl_G0 := dp_G Pe 0 1 (-1).
  Definition dl_G1 := dp_G Pe (- 2 / (sqrt PI * sqrt Pe)) (1 + 2 / Pe) (1 - 2 / Pe).
  Lemma dl_r : 0 < r /\ r * r = Pe. Proof. apply dp_r. lra. Qed.
  Lemma dl_g_pos k q : 0 < q -> dl_g k q = r / (2 * sqrt PI * sqrt q) * dp_w Pe q * q ^ k.
  Proof. intros. unfold dl_g. destruct (Rle_dec q 0); [lra|reflexivity]. Qed.
  Lemma dl_g_neg k q : q <= 0 -> dl_g k q = 0.
  Proof. intros. unfold dl_g. destruct (Rle_dec q 0); [reflexivity|lra]. Qed.
  Lemma dl_g_ge0 k q : 0 <= dl_g k q.
  Proof.
    destruct (Rle_dec q 0); [rewrite dl_g_neg; lra|]. rewrite dl_g_pos by lra. pose proof dl_r as (R1 & _). pose proof spi_pos. destruct (dp_s q ltac:(lra)) as (S1 & _). pose proof (dp_wpos Pe q). apply Rmult_le_pos; [|apply pow_le; lra]. apply Rmult_le_pos; [|lra]. left. apply Rdiv_lt_0_compat; auto. apply Rmult_lt_0_compat; [lra|auto].
  Qed.
  Lemma dl_E t : E_dispersion_model t tavg Pe = dl_g 0 (t / tavg) / tavg.
  Proof.
    unfold E_dispersion_model. set (q := t / tavg). pose proof PI_RGT_0. destruct (Reqb q 0) eqn:E. { apply Reqb_true in E. rewrite E, dl_g_neg by lra. unfold Rdiv. ring. }
    apply Reqb_false in E. rewrite (proj2 (Rltb_false _ _)) by lra. destruct (Rle_dec q 0) as [N|N].
    - rewrite dl_g_neg by auto. rewrite sqrt_neg_0. { unfold Rdiv. ring. } assert (PI * q < 0) by nra. assert (/ (PI * q) < 0) by now apply Rinv_lt_0_compat. unfold Rdiv. nra.
    - rewrite dl_g_pos by lra. rewrite sqrt_div_alt by nra. rewrite sqrt_mult by lra. fold r. pose proof spi_pos. destruct (dp_s q ltac:(lra)) as (S1 & _). rewrite pow_O. unfold dp_w. field. lra.
  Qed.
  Lemma dl_tE t : t * E_dispersion_model t tavg Pe = tavg * (dl_g 1 (t / tavg) / tavg).
  Proof. rewrite dl_E. replace t with (tavg * (t / tavg)) at 1 by (field; lra). set (q := t / tavg). destruct (Rle_dec q 0); [rewrite !dl_g_neg by auto; unfold Rdiv; ring|]. rewrite !dl_g_pos by lra. unfold Rdiv. cbn [pow]. ring. Qed.
  Lemma dl_cont k q : 0 <= q -> continuous (dl_g k) q.
  Proof.
    pose proof dl_r as (R1 & R2). pose proof spi_pos as SP. intros [Hq| <-].
    - destruct (dp_s q Hq) as (S1 & _). assert (X : exists l, D (fun q => r / (2 * sqrt PI * sqrt q) * dp_w Pe q * q ^ k) q l).
      { eexists. apply D_mult; [apply D_mult; [|apply dp_Dw; lra]|apply D_pow]. unfold D. auto_derive; [|reflexivity]. repeat split; auto. apply Rmult_integral_contrapositive_currified; [lra|]. lra. }
      destruct X as (l & X). apply (D_cont _ _ l). apply (D_ext_loc (fun q => r / (2 * sqrt PI * sqrt q) * dp_w Pe q * q ^ k) _ _ _ q); auto. intros t Hx. apply Rabs_def2 in Hx. rewrite dl_g_pos; auto. lra.
    - apply (cont_zero _ (r / (2 * sqrt PI) * (2 * (16 / Pe) ^ 2))).
      + apply Rmult_le_pos; [left; apply Rdiv_lt_0_compat; lra|]. pose proof (pow2_ge_0 (16 / Pe)). lra.
      + apply dl_g_neg. lra.
      + intros. apply dl_g_neg. lra.
      + intros q Hq. rewrite Rabs_right by (apply Rle_ge, dl_g_ge0). rewrite dl_g_pos by lra. destruct (dp_s q ltac:(lra)) as (S1 & S2). pose proof (dp_w0 Pe ltac:(lra) q Hq) as W. pose proof (dp_wpos Pe q) as W1. assert (QK : 0 <= q ^ k <= 1). { split; [apply pow_le; lra|]. rewrite <- (pow1 k). apply pow_incr. lra. }
        assert (R3 : 0 < r / (2 * sqrt PI)) by (apply Rdiv_lt_0_compat; lra). set (M := 2 * (16 / Pe) ^ 2) in *. assert (MP : 0 <= M) by (unfold M; pose proof (pow2_ge_0 (16 / Pe)); lra). replace (r / (2 * sqrt PI * sqrt q) * dp_w Pe q * q ^ k) with (r / (2 * sqrt PI) * (dp_w Pe q / sqrt q * q ^ k)) by (field; lra). rewrite (Rmult_assoc (r / _) M q). apply Rmult_le_compat_l; [lra|].
        assert (V : dp_w Pe q / sqrt q <= M * q). { apply (Rmult_le_reg_r (sqrt q)); auto. unfold Rdiv. rewrite Rmult_assoc, Rinv_l, Rmult_1_r by lra. eapply Rle_trans; [exact W|]. replace (M * q ^ 2) with (M * q * q) by ring. apply Rmult_le_compat_l; [apply Rmult_le_pos; lra|]. nra. }
        assert (0 <= dp_w Pe q / sqrt q) by (left; apply Rdiv_lt_0_compat; auto). assert (0 <= M * q) by (apply Rmult_le_pos; lra). nra.
  Qed.
  Lemma dl_D0 q : 0 <= q -> D dl_G0 q (dl_g 0 q).
  Proof.
    intros [Hq| <-]. 2: { rewrite dl_g_neg by lra. apply dp_D0. lra. } rewrite dl_g_pos by auto. destruct (dp_s q Hq) as (S1 & S2). pose proof spi_pos. pose proof dl_r as (R1 & R2). eapply D_eq; [apply dp_DG; [lra|auto]|]. fold r. cbn [pow]. field. lra.
  Qed.
  Lemma dl_D1 q : 0 <= q -> D dl_G1 q (dl_g 1 q).
  Proof.
    intros [Hq| <-]. 2: { rewrite dl_g_neg by lra. apply dp_D0. lra. } rewrite dl_g_pos by auto. destruct (dp_s q Hq) as (S1 & S2). pose proof spi_pos. pose proof dl_r as (R1 & R2). eapply D_eq; [apply dp_DG; [lra|auto]|]. fold r. set (s := sqrt q) in *. set (p := sqrt PI) in *. set (w := dp_w Pe q). rewrite <- S2, <- R2. cbn [pow]. field. lra.
  Qed.
  Lemma dl_q0 G : forall c al be, G = dp_G Pe c al be -> G 0 = 0.
  Proof. intros c al be ->. unfold dp_G. destruct (Rle_dec 0 0); [auto|lra]. Qed.
  Lemma dl_int k G c T : G 0 = 0 -> 0 <= T -> (forall q, 0 <= q -> D G q (dl_g k q)) -> is_RInt (fun t => c * (dl_g k (t / tavg) / tavg)) 0 T (c * G (T / tavg)).
  Proof.
    intros G0 HT HG. replace (c * G (T / tavg)) with (c * G (T / tavg) - c * G (0 / tavg)) by (unfold Rdiv at 2; rewrite Rmult_0_l, G0; ring).
    assert (Q : forall t, 0 <= t -> 0 <= t / tavg) by (intros; apply Rmult_le_pos; [auto|left; now apply Rinv_0_lt_compat]).
    assert (DQ : forall t, D (fun t => t / tavg) t (/ tavg)) by (intros; unfold D; auto_derive; [auto|field; lra]).
    apply (RInt_D (fun t => c * G (t / tavg)) (fun t => c * (dl_g k (t / tavg) / tavg))); auto.
    - intros t [H0 _]. apply D_scal. eapply D_eq; [apply (D_comp G (fun t => t / tavg)); [apply DQ|apply HG; auto]|]. reflexivity.
    - intros t [H0 _]. apply (continuous_mult (fun _ => c) (fun t => dl_g k (t / tavg) / tavg)); [apply continuous_const|]. apply (continuous_mult (fun t => dl_g k (t / tavg)) (fun _ => / tavg)); [|apply continuous_const]. apply (continuous_comp (fun t => t / tavg) (dl_g k)); [apply (D_cont _ _ _ (DQ t))|]. apply dl_cont. auto.
  Qed.
  Lemma dl_RInt T : 0 <= T -> RInt (fun t => E_dispersion_model t tavg Pe) 0 T = dl_G0 (T / tavg).
  Proof.
    intros HT. apply is_RInt_unique. apply (is_RInt_ext (fun t => 1 * (dl_g 0 (t / tavg) / tavg))). { intros. rewrite dl_E. apply Rmult_1_l. } replace (dl_G0 (T / tavg)) with (1 * dl_G0 (T / tavg)) by apply Rmult_1_l. apply dl_int; auto. { eapply dl_q0; reflexivity. } apply dl_D0.
  Qed.
  Lemma dl_RInt1 T : 0 <= T -> RInt (fun t => t * E_dispersion_model t tavg Pe) 0 T = tavg * dl_G1 (T / tavg).
  Proof.
    intros HT. apply is_RInt_unique. apply (is_RInt_ext (fun t => tavg * (dl_g 1 (t / tavg) / tavg))). { intros. now rewrite dl_tE. } apply dl_int; auto. { eapply dl_q0; reflexivity. } apply dl_D1.
  Qed.
  Lemma lim_sc G (l : R) c : is_lim G p_infty l -> is_lim (fun T => c * G (T / tavg)) p_infty (c * l).
  Proof.
    intros HG. apply (is_lim_scal_l (fun T => G (T / tavg)) c p_infty l). apply is_lim_spec in HG. apply is_lim_spec. intros e. destruct (HG e) as (M & HM). exists (tavg * M). intros T HT. apply HM. apply (Rmult_lt_reg_r tavg); auto. unfold Rdiv. rewrite Rmult_assoc, Rinv_l by lra. lra.
  Qed.
End DispLow.

(** up to Pe = 100 the distribution is proper; quad approximates its integral up to e *)
Theorem C56_dispersion_low quad tavg Pe e : 0 < tavg -> 0 < Pe <= 100 ->
  (forall t, 0 < t -> Rabs (quad (fun t => E_dispersion_model t tavg Pe) 0 t - RInt (fun t => E_dispersion_model t tavg Pe) 0 t) <= e) -> 0 <= e ->
  total (fun t => E_dispersion_model t tavg Pe) 1 /\
  exists F, rtd_pair 0 (fun t => E_dispersion_model t tavg Pe) F /\ forall t, 0 <= t -> Rabs (F_dispersion_model quad t tavg Pe - F t) <= e.
Proof.
  intros Ht HP HQ He.
  assert (Q : forall t, 0 <= t -> 0 <= t / tavg) by (intros; apply Rmult_le_pos; [auto|left; now apply Rinv_0_lt_compat]).
  assert (L : is_lim (fun T => 1 * dl_G0 Pe (T / tavg)) p_infty (1 * 1)) by (apply lim_sc; auto; apply dp_lim; lra).
  assert (DF : forall t, 0 <= t -> D (fun t => 1 * dl_G0 Pe (t / tavg)) t (E_dispersion_model t tavg Pe)).
  { intros t H0. rewrite dl_E by auto. eapply D_eq; [apply D_scal; apply (D_comp (dl_G0 Pe) (fun t => t / tavg)); [unfold D; auto_derive; [auto|reflexivity]|apply (dl_D0 Pe HP); auto]|]. field. lra. }
  split.
  - unfold total. rewrite Rmult_1_l in L. apply (is_lim_ext_loc (fun T => 1 * dl_G0 Pe (T / tavg))); auto. exists 0. intros T HT. rewrite dl_RInt by lra. apply Rmult_1_l.
  - exists (fun t => 1 * dl_G0 Pe (t / tavg)). split; [split; [|split; [|split]]|].
    + unfold Rdiv. rewrite Rmult_0_l. rewrite (dl_q0 Pe (dl_G0 Pe) _ _ _ eq_refl). ring.
    + intros t H0. apply DF. lra.
    + intros s t Hst. apply (mono_incr (fun t => 1 * dl_G0 Pe (t / tavg)) (fun t => E_dispersion_model t tavg Pe)); [lra|intros; apply DF; lra|]. intros. rewrite dl_E by auto. apply Rmult_le_pos; [apply dl_g_ge0; auto|left; now apply Rinv_0_lt_compat].
    + rewrite Rmult_1_l in L. exact L.
    + intros t H0. unfold F_dispersion_model. destruct (Reqb (t / tavg) 0) eqn:E.
      * apply Reqb_true in E. rewrite E, (dl_q0 Pe (dl_G0 Pe) _ _ _ eq_refl). rewrite Rmult_0_r, Rminus_0_r, Rabs_R0. auto.
      * apply Reqb_false in E. rewrite (proj2 (Rltb_false _ _)) by lra. rewrite Rmult_1_l, <- (dl_RInt tavg Pe Ht HP) by auto. apply HQ. destruct H0 as [H0|H0]; auto. exfalso. apply E. rewrite <- H0. unfold Rdiv. ring.
Qed.
(** its integral in closed form *)
Theorem C56_dispersion_closed tavg Pe t : 0 < tavg -> 0 < Pe <= 100 -> 0 < t ->
  RInt (fun t => E_dispersion_model t tavg Pe) 0 t =
  1 / 2 * (erfc (sqrt Pe / 2 * (/ sqrt (t / tavg) - sqrt (t / tavg))) - exp Pe * erfc (sqrt Pe / 2 * (/ sqrt (t / tavg) + sqrt (t / tavg)))).
Proof.
  intros Ht HP H0. rewrite dl_RInt by lra. unfold dl_G0. rewrite dp_G1 by (apply Rdiv_lt_0_compat; auto). unfold dp_a, dp_b. match goal with |- ?a = ?b => change (@eq R a b) end. field.
Qed.
(** finding: tavg, documented as the average residence time, is not the mean of the distribution *)
Theorem C56_dispersion_mean_refuted tavg Pe : 0 < tavg -> 0 < Pe <= 100 ->
  total (fun t => t * E_dispersion_model t tavg Pe) (tavg * (1 + 2 / Pe)) /\ tavg < tavg * (1 + 2 / Pe).
Proof.
  intros Ht HP. split.
  - unfold total. apply (is_lim_ext_loc (fun T => tavg * dl_G1 Pe (T / tavg))); [|apply lim_sc; auto; apply dp_lim; lra]. exists 0. intros T HT. rewrite dl_RInt1 by lra. reflexivity.
  - assert (0 < 2 / Pe) by (apply Rdiv_lt_0_compat; lra). nra.
Qed.

(* ------------------------------------------------------------------ *)
(** * Pe > 100                                                        *)
(* ------------------------------------------------------------------ *)

Section DispHigh.
  Variables (quad : (R -> R) -> R -> R -> R) (tavg Pe : R).
  Hypotheses (Ht : 0 < tavg) (HP : 100 < Pe).
  Let F0 t := 1 / 2 * (1 + erf (sqrt Pe / 2 * (t / tavg - 1))).
  Lemma dh_q t : 0 < t -> 0 < t / tavg. Proof. intros. now apply Rdiv_lt_0_compat. Qed.
  Lemma dh_F t : 0 < t -> F_dispersion_model quad t tavg Pe = F0 t.
  Proof. intros H0. unfold F_dispersion_model. pose proof (dh_q t H0). rewrite (proj2 (Reqb_false _ _)) by lra. rewrite (proj2 (Rltb_true _ _)) by auto. reflexivity. Qed.
  Lemma dh_E t : 0 < t -> E_dispersion_model t tavg Pe = sqrt (Pe / PI) / (2 * tavg) * exp (- Pe / 4 * (1 - t / tavg) ^ 2).
  Proof. intros H0. unfold E_dispersion_model. pose proof (dh_q t H0). rewrite (proj2 (Reqb_false _ _)) by lra. rewrite (proj2 (Rltb_true _ _)) by auto. reflexivity. Qed.
  Lemma dh_D t : D F0 t (sqrt (Pe / PI) / (2 * tavg) * exp (- Pe / 4 * (1 - t / tavg) ^ 2)).
  Proof.
    unfold F0. pose proof PI_RGT_0. pose proof spi_pos. eapply D_eq. { apply D_scal. apply D_plus; [apply D_const|]. apply (D_comp erf (fun t => sqrt Pe / 2 * (t / tavg - 1))); [|apply erf_D]. unfold D. auto_derive; [auto|reflexivity]. }
    assert (R2 : sqrt Pe * sqrt Pe = Pe) by (apply sqrt_sqrt; lra). replace (- (sqrt Pe / 2 * (t / tavg - 1)) ^ 2) with (- Pe / 4 * (1 - t / tavg) ^ 2) by (rewrite <- R2 at 1; field; lra). rewrite sqrt_div_alt by lra. field. lra.
  Qed.
End DispHigh.
Theorem C56_dispersion_high quad tavg Pe : 0 < tavg -> 100 < Pe -> rtd_pair 0 (fun t => E_dispersion_model t tavg Pe) (fun t => F_dispersion_model quad t tavg Pe).
Proof.
  intros Ht HP. assert (F00 : F_dispersion_model quad 0 tavg Pe = 0). { unfold F_dispersion_model. rewrite (proj2 (Reqb_true _ _)); [auto|]. unfold Rdiv. ring. } split; [|split; [|split]]; auto.
  - intros t H0. rewrite dh_E by auto. eapply (D_ext_loc _ _ _ _ t); auto; [|apply dh_D; auto]. intros x Hx. apply Rabs_def2 in Hx. rewrite dh_F by (auto; lra). reflexivity.
  - intros s t [[H0| <-] Hst].
    + rewrite !dh_F by (auto; lra). destruct Hst as [Hst| ->]; [|lra]. apply Rmult_le_compat_l; [lra|]. apply Rplus_le_compat_l. left. apply erf_incr. apply Rmult_lt_compat_l. { apply Rmult_lt_0_compat; [apply sqrt_lt_R0; lra|lra]. } unfold Rdiv. pose proof (Rinv_0_lt_compat _ Ht). nra.
    + rewrite F00. destruct Hst as [Hst| <-]; [|rewrite F00; lra]. rewrite dh_F by auto. pose proof (erf_bounds (sqrt Pe / 2 * (t / tavg - 1))). lra.
  - apply lim_p. intros e He. destruct (exp_neg_small e He) as (X & HX & B). assert (R1 : 0 < sqrt Pe) by (apply sqrt_lt_R0; lra). exists (tavg * (1 + 2 * X / sqrt Pe) + tavg). intros t L. assert (0 < 2 * X / sqrt Pe) by (apply Rdiv_lt_0_compat; lra). assert (H0 : 0 < t) by nra. rewrite dh_F by auto. set (z := sqrt Pe / 2 * (t / tavg - 1)).
    assert (ZX : X <= z). { unfold z. apply (Rmult_le_reg_r (2 / sqrt Pe)); [apply Rdiv_lt_0_compat; lra|]. replace (sqrt Pe / 2 * (t / tavg - 1) * (2 / sqrt Pe)) with (t / tavg - 1) by (field; lra). assert (1 + 2 * X / sqrt Pe <= t / tavg). { apply (Rmult_le_reg_r tavg); auto. unfold Rdiv at 2. rewrite (Rmult_assoc t), Rinv_l by lra. lra. } lra. }
    specialize (B z ZX). pose proof (erfc_upper z ltac:(lra)). pose proof (erfc_bounds z). unfold erfc in *. replace (1 / 2 * (1 + erf z) - 1) with (- (1 / 2 * (1 - erf z))) by field. rewrite Rabs_Ropp, Rabs_right; lra.
Qed.
(** finding: F jumps at t = 0+, and E integrates to less than 1; the defect is below exp (-25) *)
Theorem C56_dispersion_mass_refuted quad tavg Pe : 0 < tavg -> 100 < Pe ->
  exists J, 0 < J < exp (-25) /\ total (fun t => E_dispersion_model t tavg Pe) (1 - J) /\ F_dispersion_model quad 0 tavg Pe = 0 /\ forall t, 0 < t -> J < F_dispersion_model quad t tavg Pe.
Proof.
  intros Ht HP. assert (R1 : 0 < sqrt Pe) by (apply sqrt_lt_R0; lra). exists (1 / 2 * erfc (sqrt Pe / 2)). set (J := 1 / 2 * erfc (sqrt Pe / 2)). pose proof (erfc_bounds (sqrt Pe / 2)). split; [|split; [|split]].
  - split; [unfold J; lra|]. pose proof (erfc_upper (sqrt Pe / 2) ltac:(lra)) as U. replace ((sqrt Pe / 2) ^ 2) with (Pe / 4) in U. 2: { replace Pe with (sqrt Pe * sqrt Pe) at 1 by (apply sqrt_sqrt; lra). field. } assert (exp (- (Pe / 4)) < exp (-25)) by (apply exp_increasing; lra). unfold J. lra.
  - unfold total. set (F0 := fun t => 1 / 2 * (1 + erf (sqrt Pe / 2 * (t / tavg - 1)))). assert (Z : F0 0 = J). { unfold F0, J, erfc. replace (sqrt Pe / 2 * (0 / tavg - 1)) with (- (sqrt Pe / 2)) by (field; lra). rewrite erf_opp. ring. }
    assert (L : is_lim (fun t => F0 t - J) p_infty (1 - J)).
    { destruct (C56_dispersion_high quad tavg Pe Ht HP) as (_ & _ & _ & L). apply (is_lim_minus F0 (fun _ => J) p_infty 1 J); [|apply is_lim_const|reflexivity]. apply (is_lim_ext_loc (fun t => F_dispersion_model quad t tavg Pe)); auto. exists 0. intros t H0. rewrite dh_F by auto. reflexivity. }
    apply (is_lim_ext_loc (fun t => F0 t - J)); auto. exists 0. intros T HT. symmetry. apply is_RInt_unique. rewrite <- Z. apply (is_RInt_ext (fun t => sqrt (Pe / PI) / (2 * tavg) * exp (- Pe / 4 * (1 - t / tavg) ^ 2))). { intros t Hx. rewrite Rmin_left, Rmax_right in Hx by lra. rewrite dh_E by (auto; lra). reflexivity. }
    apply (RInt_D F0); [lra| |]. { intros. apply dh_D; auto. } intros t _. apply (@ex_derive_continuous _ R_NormedModule). auto_derive. auto.
  - unfold F_dispersion_model. rewrite (proj2 (Reqb_true _ _)); [auto|]. unfold Rdiv. ring.
  - intros t H0. rewrite dh_F by auto. unfold J, erfc. assert (erf (- (sqrt Pe / 2)) < erf (sqrt Pe / 2 * (t / tavg - 1))); [|rewrite erf_opp in *; lra]. apply erf_incr. assert (0 < t / tavg) by (apply Rdiv_lt_0_compat; auto). nra.
Qed.

(* ------------------------------------------------------------------ *)
(** * Peclet number of a tube                                         *)
(* ------------------------------------------------------------------ *)

Theorem C56_Pe_laminar Re Sc : 0 < Re < 2300 -> 0 < Sc ->
  Pe_tube Re None = Err ValueError /\ exists Pe, Pe_tube Re (Some Sc) = Ok Pe /\ 0 < Pe <= sqrt 192 / 2 /\ (Pe = sqrt 192 / 2 <-> Re * Sc = sqrt 192).
Proof.
  intros HR HS. unfold Pe_tube. rewrite (proj2 (Rltb_true _ _)) by lra. split; auto. assert (X : 0 < Re * Sc) by (apply Rmult_lt_0_compat; lra). set (x := Re * Sc) in *. rewrite pydiv_ok by lra. cbn [bind]. assert (Y : 0 < 1 / x + x / 192) by (assert (0 < 1 / x) by (apply Rdiv_lt_0_compat; lra); lra). rewrite pydiv_ok by lra. eexists. split; [reflexivity|].
  set (r := sqrt 192). assert (R1 : 0 < r) by (apply sqrt_lt_R0; lra). assert (R2 : r * r = 192) by (apply sqrt_sqrt; lra). assert (E : 1 / (1 / x + x / 192) = r / 2 - r / 2 * (x - r) ^ 2 / (192 + x ^ 2)). { rewrite <- R2. field. repeat split; nra. } rewrite E. assert (W : 0 < 192 + x ^ 2) by nra. assert (Q : 0 <= r / 2 * (x - r) ^ 2 / (192 + x ^ 2)). { apply Rmult_le_pos; [|left; now apply Rinv_0_lt_compat]. apply Rmult_le_pos; [lra|apply pow2_ge_0]. } split; [split; [rewrite <- E; apply Rdiv_lt_0_compat; lra|lra]|]. split; intros EQ.
  - assert (Z : r / 2 * (x - r) ^ 2 / (192 + x ^ 2) = 0) by lra. apply Rmult_integral in Z. destruct Z as [Z|Z]; [|apply Rinv_neq_0_compat in Z; [contradiction|lra]]. apply Rmult_integral in Z. destruct Z as [Z|Z]; [lra|]. nra.
  - rewrite EQ. unfold Rdiv. ring.
Qed.
Theorem C56_Pe_turbulent R1 R2 S1 S2 : 2300 <= R1 < R2 -> exists P1 P2, Pe_tube R1 S1 = Ok P1 /\ Pe_tube R2 S2 = Ok P2 /\ 0 < P1 < P2.
Proof.
  intros HR. unfold Pe_tube. rewrite !(proj2 (Rltb_false _ _)) by lra. pose proof (rp_pos R1 (21 / 10)). pose proof (rp_pos R1 (125 / 1000)). pose proof (rp_base R1 R2 (21 / 10) ltac:(lra) ltac:(lra) ltac:(lra)). pose proof (rp_base R1 R2 (125 / 1000) ltac:(lra) ltac:(lra) ltac:(lra)).
  set (a := Rpower R1 (21 / 10)) in *. set (b := Rpower R1 (125 / 1000)) in *. set (c := Rpower R2 (21 / 10)) in *. set (d := Rpower R2 (125 / 1000)) in *. pose proof (Rinv_0_lt_compat c ltac:(lra)). pose proof (Rinv_0_lt_compat d ltac:(lra)). assert (/ c < / a) by (apply Rinv_lt_contravar; [apply Rmult_lt_0_compat|]; lra). assert (/ d < / b) by (apply Rinv_lt_contravar; [apply Rmult_lt_0_compat|]; lra). unfold Rdiv. rewrite !pydiv_ok by lra. do 2 eexists. split; [reflexivity|]. split; [reflexivity|]. unfold Rdiv. rewrite !Rmult_1_l. split; [apply Rinv_0_lt_compat; lra|]. apply Rinv_lt_contravar; [apply Rmult_lt_0_compat; lra|lra].
Qed.

(* ------------------------------------------------------------------ *)
(** * Instances                                                       *)
(* ------------------------------------------------------------------ *)

Example C56_tanks_example : F_tanks_series 1 1 2 = 1 - 3 * exp (-2).
Proof. unfold F_tanks_series. rewrite (proj2 (Reqb_false _ _)) by lra. cbn. replace (- (1 + 1) * (1 / 1)) with (-2) by field. field. Qed.
Example C56_laminar_example : F_laminar_flow 1 1 = 3 / 4 /\ E_laminar_flow 1 1 = 1 / 2.
Proof. rewrite lam_F1, lam_E1 by lra. split; field. Qed.
(** strong dispersion (Pe = 1): the mean is three times tavg *)
Example C56_dispersion_example : total (fun t => t * E_dispersion_model t 10 1) 30.
Proof. replace 30 with (10 * (1 + 2 / 1)) by field. apply C56_dispersion_mean_refuted; lra. Qed.
Print Assumptions C56_dispersion_low.
Print Assumptions C56_tanks_moments.
