(** C92: the Colebrook equation and its solution by Newton's method from Haaland's estimate. *)
From Coq Require Import Reals Lra Lia List Bool Arith Psatz.
From Coquelicot Require Derive.
From Coq Require Ranalysis5.
From Verif Require Import Prelude RootsModel RootsProps KinModel CopoModel Deriv NumBounds HmtModel HmtProps WallProps FlowModel FlowProps.
Import ListNotations.
Open Scope R_scope.

Lemma ln10_up : ln 10 < 231 / 100.
Proof.
  rewrite <- (ln_exp (231 / 100)). apply ln_increasing; [lra|]. replace (231 / 100) with (INR 3 * (77 / 100)) by (cbn; field). rewrite exp_mult_pow.
  assert (E : 2158 / 1000 <= exp (77 / 100)) by (apply exp_lower; unfold q6; lra). assert ((2158 / 1000) ^ 3 <= exp (77 / 100) ^ 3) by (apply pow_incr; lra). lra.
Qed.

Section Colebrook.
  Variables Re er : R.
  Hypotheses (HR : 2300 <= Re) (He : 0 <= er <= 1).
  Let al := er / (37 / 10).
  Let a := pow0 al (111 / 100).
  Let b := 69 / 10 / Re.
  Let h := h_arg Re er.
  Let B := 251 / 100 / Re.
  Let u0 := 18 / 10 * h_L Re er / ln 10.
  Let G (u : R) := 2 / ln 10 * ln (al + B * u) + u.

  Lemma cb_al : 0 <= al <= 10 / 37. Proof. unfold al. lra. Qed.
  Lemma cb_b : 0 < b <= 3 / 1000.
  Proof. unfold b. split; [apply Rdiv_lt_0_compat; lra|]. apply (Rmult_le_reg_r Re); [lra|]. unfold Rdiv. rewrite Rmult_assoc, Rinv_l by lra. lra. Qed.
  Lemma cb_B : 0 < B. Proof. unfold B. apply Rdiv_lt_0_compat; lra. Qed.
  Lemma cb_a : 0 <= a <= al /\ a <= 24 / 100.
  Proof.
    pose proof cb_al as A. unfold a. destruct (Req_dec al 0) as [-> |N]; [rewrite pow0_0; lra|]. rewrite pow0_pos by lra. pose proof (rp_pos al (111 / 100)). split; [split; [lra|]|].
    - replace al with (Rpower al 1) at 2 by (apply Rpower_1; lra). left. apply rp_exp_decr; lra.
    - apply Rle_trans with (Rpower (10 / 37) (111 / 100)); [apply rp_base_le; lra|]. apply Rle_trans with (Rpower (10 / 37) (INR 11 / INR 10)).
      + left. apply rp_exp_decr; [lra|]. cbn [INR]. lra.
      + left. apply rpow_lt; [lra|lra|lia|]. simpl. lra.
  Qed.
  Lemma cb_h : h = a + b. Proof. reflexivity. Qed.
  Lemma cb_hb : 0 < h <= 243 / 1000. Proof. rewrite cb_h. pose proof cb_b. pose proof cb_a. lra. Qed.
  Lemma cb_u0 : 77 / 100 < u0.
  Proof. pose proof (h_L_gt1 Re er HR He). pose proof ln10_pos. pose proof ln10_up. unfold u0. apply (Rmult_lt_reg_r (ln 10)); [lra|]. replace (18 / 10 * h_L Re er / ln 10 * ln 10) with (18 / 10 * h_L Re er) by (field; lra). nra. Qed.
  Lemma cb_start : fD_Haaland Re er = / u0 ^ 2.
  Proof. pose proof (h_L_gt1 Re er HR He). pose proof ln10_pos. rewrite haaland_val by auto. unfold u0. field. lra. Qed.
  Lemma cb_hL : h_L Re er = - ln h. Proof. reflexivity. Qed.
  (** u0 as a multiple of ln (1 / h) *)
  Lemma cb_arg_upper : al + B * u0 <= Rpower h (45 / 100).
  Proof.
    pose proof cb_al as A. pose proof cb_b as Hb. pose proof cb_a as Ha. pose proof cb_hb as Hh. pose proof ln10_pos as L10. pose proof (h_L_gt1 Re er HR He) as HL.
    assert (T1 : al <= 52 / 100 * Rpower h (45 / 100)).
    { destruct (Req_dec al 0) as [Z|N]; [rewrite Z; pose proof (rp_pos h (45 / 100)); lra|]. assert (E : a = Rpower al (111 / 100)) by (unfold a; now rewrite pow0_pos by lra).
      assert (Rpower al (4995 / 10000) <= Rpower h (45 / 100)). { replace (4995 / 10000) with (111 / 100 * (45 / 100)) by field. rewrite <- Rpower_mult, <- E. apply rp_base_le; [rewrite E; apply rp_pos|rewrite cb_h; lra|lra]. }
      assert (al = Rpower al (5005 / 10000) * Rpower al (4995 / 10000)) by (rewrite <- Rpower_plus; replace (5005 / 10000 + 4995 / 10000) with 1 by field; symmetry; apply Rpower_1; lra).
      assert (Rpower al (5005 / 10000) <= 52 / 100). { apply Rle_trans with (Rpower (10 / 37) (5005 / 10000)); [apply rp_base_le; lra|]. apply Rle_trans with (Rpower (10 / 37) (INR 1 / INR 2)); [left; apply rp_exp_decr; [lra|cbn; lra]|]. left. apply rpow_lt; [lra|lra|lia|simpl; lra]. }
      pose proof (rp_pos al (4995 / 10000)). pose proof (rp_pos al (5005 / 10000)). nra. }
    assert (T2 : B * u0 <= 48 / 100 * Rpower h (45 / 100)).
    { assert (E : B * u0 <= 3 / 10 * (b * h_L Re er)).
      { unfold B, u0, b. apply (Rmult_le_reg_r (Re * ln 10)); [nra|]. replace (251 / 100 / Re * (18 / 10 * h_L Re er / ln 10) * (Re * ln 10)) with (251 / 100 * (18 / 10) * h_L Re er) by (field; lra). replace (3 / 10 * (69 / 10 / Re * h_L Re er) * (Re * ln 10)) with (3 / 10 * (69 / 10) * ln 10 * h_L Re er) by (field; lra). nra. }
      assert (LB : h_L Re er <= 4 * Rpower b (- (1 / 4))).
      { rewrite cb_hL. assert (ln b <= ln h) by (apply ln_le; [lra|rewrite cb_h; lra]). pose proof (ln_le_sub (Rpower b (- (1 / 4))) ltac:(apply rp_pos)) as Q. rewrite ln_Rpower in Q. lra. }
      assert (P : b * (4 * Rpower b (- (1 / 4))) = 4 * Rpower b (3 / 10) * Rpower b (45 / 100)).
      { rewrite <- (Rpower_1 b) at 1 by lra. replace (Rpower b 1) with (Rpower b (1 / 4) * (Rpower b (3 / 10) * Rpower b (45 / 100))) by (rewrite <- !Rpower_plus; f_equal; field). rewrite Rpower_Ropp. field. apply Rgt_not_eq, rp_pos. }
      assert (Rpower b (3 / 10) <= 4 / 10). { apply Rle_trans with (Rpower (3 / 1000) (3 / 10)); [apply rp_base_le; lra|]. replace (3 / 10) with (INR 3 / INR 10) by (cbn [INR]; field). left. apply rpow_lt; [lra|lra|lia|simpl; lra]. }
      assert (Rpower b (45 / 100) <= Rpower h (45 / 100)) by (apply rp_base_le; [lra|rewrite cb_h; lra|lra]).
      assert (b * h_L Re er <= 4 * Rpower b (3 / 10) * Rpower b (45 / 100)) by (rewrite <- P; apply Rmult_le_compat_l; lra).
      pose proof (rp_pos b (3 / 10)). pose proof (rp_pos b (45 / 100)). assert (4 * Rpower b (3 / 10) * Rpower b (45 / 100) <= 16 / 10 * Rpower h (45 / 100)) by (apply Rmult_le_compat; lra). pose proof (rp_pos h (45 / 100)). lra. }
    lra.
  Qed.
  Lemma cb_arg_lower : Rpower h (12375 / 10000) <= al + B * u0.
  Proof.
    pose proof cb_al as A. pose proof cb_b as Hb. pose proof cb_a as Ha. pose proof cb_hb as Hh. pose proof ln10_pos as L10. pose proof ln10_up as L10u. pose proof (h_L_gt1 Re er HR He) as HL. pose proof cb_B as HB. pose proof cb_u0 as U0.
    assert (E : Rpower h (12375 / 10000) = h * Rpower h (2375 / 10000)) by (rewrite <- (Rpower_1 h) at 2 by lra; rewrite <- Rpower_plus; f_equal; field). rewrite E. pose proof (rp_pos h (2375 / 10000)) as PP.
    assert (E2 : 65 / 100 / ln 10 * (b * h_L Re er) <= B * u0). { unfold B, u0, b. apply (Rmult_le_reg_r (Re * ln 10)); [nra|]. replace (251 / 100 / Re * (18 / 10 * h_L Re er / ln 10) * (Re * ln 10)) with (251 / 100 * (18 / 10) * h_L Re er) by (field; lra). replace (65 / 100 / ln 10 * (69 / 10 / Re * h_L Re er) * (Re * ln 10)) with (65 / 100 * (69 / 10) * h_L Re er) by (field; lra). nra. }
    destruct (Rle_dec (12 / 1000) h) as [C|C].
    - assert (Rpower h (2375 / 10000) <= 74 / 100). { apply Rle_trans with (Rpower (1 / 4) (2375 / 10000)); [apply rp_base_le; lra|]. apply Rle_trans with (Rpower (1 / 4) (INR 9 / INR 40)); [left; apply rp_exp_decr; [lra|cbn [INR]; lra]|]. left. apply rpow_lt; [lra|lra|lia|]. simpl. lra. }
      rewrite cb_h in *. assert (0 < B * u0) by (apply Rmult_lt_0_compat; lra). nra.
    - assert (Rpower h (2375 / 10000) <= 4 / 10). { apply Rle_trans with (Rpower (12 / 1000) (2375 / 10000)); [apply rp_base_le; lra|]. apply Rle_trans with (Rpower (12 / 1000) (INR 9 / INR 40)); [left; apply rp_exp_decr; [lra|cbn [INR]; lra]|]. left. apply rpow_lt; [lra|lra|lia|]. simpl. lra. }
      assert (4 <= h_L Re er). { rewrite cb_hL. assert (ln h <= -4); [|lra]. rewrite <- (ln_exp (-4)). apply ln_le; [lra|]. replace (-4) with (- (INR 4 * 1)) by (cbn; ring). rewrite exp_Ropp. rewrite exp_mult_pow.
        assert (exp 1 <= 273 / 100) by (apply exp_upper; unfold q5; lra). pose proof (exp_pos 1). assert (exp 1 ^ 4 <= (273 / 100) ^ 4) by (apply pow_incr; lra). assert (0 < exp 1 ^ 4) by (apply pow_lt; lra). apply (Rmult_le_reg_r (exp 1 ^ 4)); auto. rewrite Rinv_l by lra. nra. }
      assert (b <= B * u0). { apply Rle_trans with (65 / 100 / ln 10 * (b * h_L Re er)); auto. assert (0 < / ln 10) by (apply Rinv_0_lt_compat; lra). assert (1 / (231 / 100) <= / ln 10) by (unfold Rdiv; rewrite Rmult_1_l; apply Rinv_le_contravar; lra). unfold Rdiv in *. assert (b * 4 <= b * h_L Re er) by (apply Rmult_le_compat_l; lra). assert (65 * / 100 * / ln 10 * (b * 4) <= 65 * / 100 * / ln 10 * (b * h_L Re er)) by (apply Rmult_le_compat_l; lra). nra. }
      rewrite cb_h in *. nra.
  Qed.
  Lemma cb_G0 : - (3 / 8) * u0 <= G u0 <= 1 / 2 * u0.
  Proof.
    pose proof ln10_pos as L10. pose proof cb_hb as Hh. pose proof cb_arg_upper as AU. pose proof cb_arg_lower as AL. pose proof (rp_pos h (12375 / 10000)).
    assert (U : u0 = 18 / 10 * (- ln h) / ln 10) by reflexivity. assert (I : 0 < / ln 10) by (apply Rinv_0_lt_compat; lra).
    assert (K1 : 12375 / 10000 * ln h <= ln (al + B * u0)) by (rewrite <- ln_Rpower; apply ln_le; auto). assert (K2 : ln (al + B * u0) <= 45 / 100 * ln h) by (rewrite <- ln_Rpower; apply ln_le; [lra|auto]).
    unfold G. set (l := ln (al + B * u0)) in *. assert (ln h = - (10 / 18) * ln 10 * u0) by (rewrite U; field; lra). rewrite H0 in K1, K2. clear U. set (m := ln 10 * u0) in *. split.
    - apply (Rmult_le_reg_r (ln 10)); [lra|]. replace ((2 / ln 10 * l + u0) * ln 10) with (2 * l + m) by (unfold m; field; lra). replace (- (3 / 8) * u0 * ln 10) with (- (3 / 8) * m) by (unfold m; ring). replace (12375 / 10000 * (- (10 / 18) * ln 10 * u0)) with (- (12375 / 18000) * m) in K1 by (unfold m; field). lra.
    - apply (Rmult_le_reg_r (ln 10)); [lra|]. replace ((2 / ln 10 * l + u0) * ln 10) with (2 * l + m) by (unfold m; field; lra). replace (1 / 2 * u0 * ln 10) with (1 / 2 * m) by (unfold m; ring). replace (45 / 100 * (- (10 / 18) * ln 10 * u0)) with (- (1 / 4) * m) in K2 by (unfold m; field). lra.
  Qed.
  Lemma cb_argp u : 0 < u -> 0 < al + B * u.
  Proof. intros H. pose proof cb_al. pose proof (Rmult_lt_0_compat B u cb_B H). lra. Qed.
  (** slope at least 1 *)
  Lemma cb_slope u v : 0 < u <= v -> v - u <= G v - G u.
  Proof.
    intros H. pose proof ln10_pos. pose proof (cb_argp u ltac:(lra)). assert (ln (al + B * u) <= ln (al + B * v)) by (apply ln_le; auto; pose proof cb_B; nra).
    unfold G. assert (0 < 2 / ln 10) by (apply Rdiv_lt_0_compat; lra). nra.
  Qed.
  Lemma cb_colebrook f : 0 < f -> colebrook Re er f = G (/ sqrt f).
  Proof. intros H. assert (0 < sqrt f) by now apply sqrt_lt_R0. pose proof ln10_pos. unfold colebrook, G, log10, B. fold al. replace (251 / 100 / (Re * sqrt f)) with (251 / 100 / Re * / sqrt f) by (field; lra). unfold Rdiv. ring. Qed.
  Lemma cb_D f : 0 < f -> D (colebrook Re er) f (dcole Re er f).
  Proof.
    intros H. assert (S : 0 < sqrt f) by now apply sqrt_lt_R0. pose proof (sqrt_sqrt f ltac:(lra)) as SS. pose proof ln10_pos. pose proof (cb_argp (/ sqrt f) ltac:(now apply Rinv_0_lt_compat)) as AP.
    assert (DS : D (fun f => / sqrt f) f (- (/ (2 * sqrt f)) / (sqrt f * sqrt f))).
    { apply (D_ext (fun f => 1 / sqrt f)); [intros; unfold Rdiv; ring|]. eapply D_eq; [apply (D_div (fun _ => 1) sqrt f 0 (/ (2 * sqrt f))); [apply D_const| |lra]; apply Coquelicot.Derive.is_derive_Reals; now apply derivable_pt_lim_sqrt|]. field. lra. }
    unfold colebrook, log10, dcole. fold al. eapply D_eq.
    - apply (D_plus (fun f => 2 * (ln (al + 251 / 100 / (Re * sqrt f)) / ln 10)) (fun f => 1 / sqrt f)).
      + apply (D_ext (fun f => 2 / ln 10 * ln (al + B * / sqrt f))); [intros t; replace (251 / 100 / (Re * sqrt t)) with (B * / sqrt t) by (unfold B, Rdiv; rewrite (Rinv_mult Re); ring); unfold Rdiv; ring|]. apply (D_scal (2 / ln 10)). apply (D_ln (fun f => al + B * / sqrt f)); [|exact AP]. apply (D_plus (fun _ => al) (fun f => B * / sqrt f)); [apply D_const|]. apply (D_scal B). exact DS.
      + apply (D_ext (fun f => / sqrt f)); [intros; unfold Rdiv; ring|]. exact DS.
    - cbv beta. replace (251 / 100 / Re) with B by reflexivity. replace (251 / 100 / (Re * sqrt f)) with (B * / sqrt f) by (unfold B; field; lra). set (q := al + B * / sqrt f) in *. replace (2 * f * sqrt f) with (2 * (sqrt f * sqrt f) * sqrt f) by now rewrite SS. field. repeat split; lra.
  Qed.
  Let K f := 2 * B / (ln 10 * (al + B / sqrt f)) + 1.
  Lemma cb_dK f : 0 < f -> dcole Re er f = - (K f / (2 * f * sqrt f)).
  Proof. intros H. assert (S : 0 < sqrt f) by now apply sqrt_lt_R0. unfold dcole, K. fold al. replace (251 / 100 / (Re * sqrt f)) with (B / sqrt f) by (unfold B; field; lra). fold B. unfold Rdiv. ring. Qed.
  Lemma cb_K_pos f : 0 < f -> 1 < K f.
  Proof. intros H. assert (S : 0 < sqrt f) by now apply sqrt_lt_R0. unfold K. pose proof (cb_argp (/ sqrt f) ltac:(now apply Rinv_0_lt_compat)). pose proof ln10_pos. pose proof cb_B. assert (0 < 2 * B / (ln 10 * (al + B / sqrt f))); [|lra]. apply Rdiv_lt_0_compat; [lra|]. apply Rmult_lt_0_compat; [lra|]. exact H0. Qed.
  Lemma cb_K_mono x y : 0 < x <= y -> K x <= K y.
  Proof.
    intros H. assert (S : 0 < sqrt x) by (apply sqrt_lt_R0; lra). assert (S2 : sqrt x <= sqrt y) by (apply sqrt_le_1; lra). pose proof ln10_pos. pose proof cb_B. pose proof (cb_argp (/ sqrt y) ltac:(apply Rinv_0_lt_compat; lra)).
    unfold K. apply Rplus_le_compat_r. unfold Rdiv. apply Rmult_le_compat_l; [lra|]. apply Rinv_le_contravar; [apply Rmult_lt_0_compat; lra|]. apply Rmult_le_compat_l; [lra|]. apply Rplus_le_compat_l. apply Rmult_le_compat_l; [lra|]. apply Rinv_le_contravar; lra.
  Qed.
  (** |f'(r)| / |f'(x)| >= (x / r)^2 for x <= r *)
  Lemma cb_ratio x r : 0 < x <= r -> - dcole Re er x * (x / r) ^ 2 <= - dcole Re er r.
  Proof.
    intros H. assert (Sx : 0 < sqrt x) by (apply sqrt_lt_R0; lra). assert (S2 : sqrt x <= sqrt r) by (apply sqrt_le_1; lra). pose proof (sqrt_sqrt x ltac:(lra)) as Qx. pose proof (sqrt_sqrt r ltac:(lra)) as Qr. rewrite !cb_dK, !Ropp_involutive by lra.
    pose proof (cb_K_pos x ltac:(lra)). pose proof (cb_K_mono x r H). set (s := sqrt x) in *. set (t := sqrt r) in *.
    replace (K x / (2 * x * s) * (x / r) ^ 2) with (K x * s / (2 * r * (t * t))) by (rewrite <- Qx, <- Qr; field; lra).
    apply (Rmult_le_reg_r (2 * r * (t * t))); [nra|]. replace (K x * s / (2 * r * (t * t)) * (2 * r * (t * t))) with (K x * s) by (field; lra). replace (K r / (2 * r * t) * (2 * r * (t * t))) with (K r * t) by (field; lra). apply Rmult_le_compat; lra.
  Qed.
  Lemma cb_d_mono x r : 0 < x <= r -> - dcole Re er r <= - dcole Re er x.
  Proof.
    intros H. assert (0 <= (fun t => - - dcole Re er t) r - (fun t => - - dcole Re er t) x); [|lra]. rewrite !Ropp_involutive.
    assert (Sx : 0 < sqrt x) by (apply sqrt_lt_R0; lra). assert (S2 : sqrt x <= sqrt r) by (apply sqrt_le_1; lra). pose proof (sqrt_sqrt x ltac:(lra)) as Qx. pose proof (sqrt_sqrt r ltac:(lra)) as Qr. rewrite !cb_dK by lra.
    set (s := sqrt x) in *. set (t := sqrt r) in *. assert (T : K r / (2 * r * t) <= K x / (2 * x * s)); [|lra]. unfold K. fold s t. pose proof ln10_pos. pose proof cb_B as HB. pose proof cb_al as HA. set (c := ln 10) in *.
    assert (P : forall z, 0 < z -> (2 * B / (c * (al + B / z)) + 1) / (2 * (z * z) * z) = B / (c * (al * z + B) * (z * z)) + 1 / (2 * (z * z) * z)). { intros z Hz. assert (0 < al * z + B) by (assert (0 <= al * z) by (apply Rmult_le_pos; lra); lra). assert (al + B / z <> 0) by (apply Rgt_not_eq; pose proof (cb_argp (/ z) ltac:(now apply Rinv_0_lt_compat)); exact H2). field. repeat split; lra. }
    rewrite <- Qx, <- Qr, !P by lra. assert (0 <= al * s) by (apply Rmult_le_pos; lra). assert (al * s <= al * t) by (apply Rmult_le_compat_l; lra). assert (s * s <= t * t) by nra. assert (s * s * s <= t * t * t) by (apply Rmult_le_compat; nra).
    assert (0 < s * s) by nra. assert (0 < s * s * s) by (apply Rmult_lt_0_compat; lra). apply Rplus_le_compat; unfold Rdiv.
    - apply Rmult_le_compat_l; [lra|]. apply Rinv_le_contravar; [repeat apply Rmult_lt_0_compat; lra|]. apply Rmult_le_compat; try (apply Rmult_le_pos; lra); try lra. apply Rmult_le_compat_l; lra.
    - rewrite !Rmult_1_l. apply Rinv_le_contravar; [|lra]. replace (2 * (s * s) * s) with (2 * (s * s * s)) by ring. lra.
  Qed.
  Lemma cb_mvt x y : 0 < x < y -> - dcole Re er y * (y - x) <= colebrook Re er x - colebrook Re er y <= - dcole Re er x * (y - x).
  Proof.
    intros H. destruct (MVT_cor2 (colebrook Re er) (dcole Re er) x y ltac:(lra)) as (z & E & Hz). { intros c Hc. apply Coquelicot.Derive.is_derive_Reals. apply cb_D. lra. }
    pose proof (cb_d_mono x z ltac:(lra)). pose proof (cb_d_mono z y ltac:(lra)). split; nra.
  Qed.
  Lemma cb_root : exists r, 4 / 9 * fD_Haaland Re er <= r <= 4 * fD_Haaland Re er /\ 0 < r /\ colebrook Re er r = 0 /\ G (/ sqrt r) = 0.
  Proof.
    pose proof cb_u0 as U. pose proof cb_G0 as (G1 & G2). pose proof (cb_slope (u0 / 2) u0 ltac:(lra)) as S1. pose proof (cb_slope u0 (3 / 2 * u0) ltac:(lra)) as S2.
    assert (CG : forall x, 0 < x -> continuity_pt G x).
    { intros x Hx. apply derivable_continuous_pt. exists (2 / ln 10 * (B / (al + B * x)) + 1). apply Coquelicot.Derive.is_derive_Reals. eapply D_eq; [apply (D_plus (fun u => 2 / ln 10 * ln (al + B * u)) (fun u => u)); [apply (D_scal (2 / ln 10)); apply (D_ln (fun u => al + B * u)); [apply (D_plus (fun _ => al) (fun u => B * u)); [apply D_const|apply (D_scal B); apply D_id]|now apply cb_argp]|apply D_id]|]. pose proof (cb_argp x Hx). pose proof ln10_pos. field. lra. }
    destruct (Req_dec (G (u0 / 2)) 0) as [Z1|N1]; [|destruct (Req_dec (G (3 / 2 * u0)) 0) as [Z2|N2]].
    1: assert (X : exists u, u0 / 2 <= u <= 3 / 2 * u0 /\ G u = 0) by (exists (u0 / 2); split; [lra|auto]).
    2: assert (X : exists u, u0 / 2 <= u <= 3 / 2 * u0 /\ G u = 0) by (exists (3 / 2 * u0); split; [lra|auto]).
    3: assert (X : exists u, u0 / 2 <= u <= 3 / 2 * u0 /\ G u = 0) by (destruct (Ranalysis5.IVT_interv G (u0 / 2) (3 / 2 * u0)) as (u & Hu & Z); [intros; apply CG; lra|lra|lra|lra|]; exists u; auto).
    all: destruct X as (u & Hu & Z); exists (/ u ^ 2); assert (0 < u) by lra; assert (SQ : sqrt (/ u ^ 2) = / u) by (apply sqrt_lem_1; [left; apply Rinv_0_lt_compat, pow_lt; lra|left; now apply Rinv_0_lt_compat|field; lra]);
      assert (0 < / u ^ 2) by (apply Rinv_0_lt_compat, pow_lt; lra); rewrite cb_colebrook, SQ, Rinv_inv by auto; rewrite cb_start; repeat split; auto;
      apply (Rmult_le_reg_r (u ^ 2 * u0 ^ 2)); [apply Rmult_lt_0_compat; apply pow_lt; lra| |apply Rmult_lt_0_compat; apply pow_lt; lra|];
      [replace (4 / 9 * / u0 ^ 2 * (u ^ 2 * u0 ^ 2)) with (4 / 9 * (u * u)) by (field; lra); replace (/ u ^ 2 * (u ^ 2 * u0 ^ 2)) with (u0 * u0) by (field; lra); nra
      |replace (4 * / u0 ^ 2 * (u ^ 2 * u0 ^ 2)) with (4 * (u * u)) by (field; lra); replace (/ u ^ 2 * (u ^ 2 * u0 ^ 2)) with (u0 * u0) by (field; lra); nra].
  Qed.
  Lemma cb_uniq x y : 0 < x -> 0 < y -> colebrook Re er x = 0 -> colebrook Re er y = 0 -> x = y.
  Proof.
    intros Hx Hy Ex Ey. assert (P : forall z, 0 < z -> 0 < - dcole Re er z). { intros z Hz. rewrite cb_dK, Ropp_involutive by auto. pose proof (cb_K_pos z Hz). apply Rdiv_lt_0_compat; [lra|]. pose proof (sqrt_lt_R0 z Hz). apply Rmult_lt_0_compat; lra. }
    destruct (Rtotal_order x y) as [L|[E|L]]; auto; exfalso; [pose proof (cb_mvt x y ltac:(lra)); pose proof (P y Hy)|pose proof (cb_mvt y x ltac:(lra)); pose proof (P x Hx)]; nra.
  Qed.
End Colebrook.

(** the Colebrook equation has exactly one positive solution, within a factor 4 of Haaland's value *)
Theorem C92_colebrook_root Re er : 2300 <= Re -> 0 <= er <= 1 ->
  exists r, 0 < r /\ 4 / 9 * fD_Haaland Re er <= r <= 4 * fD_Haaland Re er /\ 2 * log10 (er / (37 / 10) + 251 / 100 / (Re * sqrt r)) = - (1 / sqrt r) /\
    forall x, 0 < x -> 2 * log10 (er / (37 / 10) + 251 / 100 / (Re * sqrt x)) = - (1 / sqrt x) -> x = r.
Proof.
  intros HR He. destruct (cb_root Re er HR He) as (r & Hr & P & Z & _). exists r. split; auto. split; auto. unfold colebrook in Z. split; [lra|]. intros x Hx Ex. apply (cb_uniq Re er HR He); auto; unfold colebrook; lra.
Qed.

Section CbNewton.
  Variables Re er r : R.
  Hypotheses (HR : 2300 <= Re) (He : 0 <= er <= 1) (Hr : 0 < r) (Hr4 : r <= 4 * fD_Haaland Re er) (Zr : colebrook Re er r = 0).
  Let tol := 1 / 10 ^ 6.
  Let loop := newton_loop (fun f _ => colebrook Re er f) (fun f h => h * dcole Re er f) tol tol.
  Definition cb_acc (rr y : R) : Prop := Rabs (1 / sqrt y - 1 / sqrt rr) <= 1 / 10 ^ 6 \/ Rabs (y - rr) <= 16 / 10 ^ 6.
  Let good (n : nat) (e : R) : Prop := forall k x tr, 0 < x <= r -> r - x <= e * r ->
    exists tr' s, loop n k x tr = (tr', Ok s) /\ rr_success s = true /\ 0 < rr_x s /\ cb_acc r (rr_x s).

  Lemma cb_x0 : 0 < fD_Haaland Re er <= 17 / 10.
  Proof.
    pose proof (cb_u0 Re er HR He) as U. pose proof (cb_start Re er HR He) as E. set (u := 18 / 10 * h_L Re er / ln 10) in *. rewrite E. split; [apply Rinv_0_lt_compat, pow_lt; lra|]. apply (Rmult_le_reg_r (u ^ 2)); [apply pow_lt; lra|]. rewrite Rinv_l by (apply pow_nonzero; lra). simpl. nra.
  Qed.
  Lemma cb_dpos x : 0 < x <= 7 -> eps < - dcole Re er x.
  Proof.
    intros H. rewrite (cb_dK Re er HR), Ropp_involutive by lra. pose proof (cb_K_pos Re er HR He x ltac:(lra)) as K. assert (S : 0 < sqrt x) by (apply sqrt_lt_R0; lra). assert (S3 : sqrt x <= 3) by (rewrite <- (sqrt_square 3) by lra; apply sqrt_le_1; lra).
    set (k := 2 * (251 / 100 / Re) / (ln 10 * (er / (37 / 10) + 251 / 100 / Re / sqrt x)) + 1) in *. assert (0 < 2 * x * sqrt x <= 42) by (split; [apply Rmult_lt_0_compat; lra|replace 42 with (14 * 3) by ring; apply Rmult_le_compat; lra]). assert (eps < / 42). { unfold eps. apply Rinv_lt_contravar; [apply Rmult_lt_0_compat; [lra|apply pow_lt; lra]|]. simpl. lra. }
    assert (/ 42 <= k / (2 * x * sqrt x)); [|lra]. unfold Rdiv. assert (/ 42 <= / (2 * x * sqrt x)) by (apply Rinv_le_contravar; lra). rewrite <- (Rmult_1_l (/ 42)). apply Rmult_le_compat; lra.
  Qed.
  Lemma cb_dc x : derivative_complex (fun f _ => colebrook Re er f) (fun f h => h * dcole Re er f) x = (dcole Re er x, colebrook Re er x).
  Proof. unfold derivative_complex. f_equal. field. apply Rgt_not_eq. unfold eps. apply Rinv_0_lt_compat, pow_lt. lra. Qed.
  Lemma cb_tolf x : 0 < x -> Rabs (colebrook Re er x) <= tol -> Rabs (1 / sqrt x - 1 / sqrt r) <= 1 / 10 ^ 6.
  Proof.
    intros Hx H. rewrite (cb_colebrook Re er HR) in H, Zr by auto. unfold Rdiv at 1 2. rewrite !Rmult_1_l. assert (Ux : 0 < / sqrt x) by (apply Rinv_0_lt_compat, sqrt_lt_R0; auto). assert (Ur : 0 < / sqrt r) by (apply Rinv_0_lt_compat, sqrt_lt_R0; auto).
    set (u := / sqrt x) in *. set (v := / sqrt r) in *. unfold tol in H. pose proof (Rle_abs (2 / ln 10 * ln (er / (37 / 10) + 251 / 100 / Re * u) + u)) as A1. pose proof (Rle_abs (- (2 / ln 10 * ln (er / (37 / 10) + 251 / 100 / Re * u) + u))) as A2. rewrite Rabs_Ropp in A2. apply Rabs_le. destruct (Rle_dec u v) as [L|L]; [pose proof (cb_slope Re er HR He u v ltac:(lra)) as S|pose proof (cb_slope Re er HR He v u ltac:(lra)) as S]; cbv beta in *; lra.
  Qed.
  (** one step from the left *)
  Lemma cb_step x : 0 < x <= r -> let dx := - colebrook Re er x / dcole Re er x in (x / r) ^ 2 * (r - x) <= dx <= r - x.
  Proof.
    intros H dx. pose proof cb_x0. pose proof (cb_dpos x ltac:(lra)) as Q. assert (0 < eps) by (unfold eps; apply Rinv_0_lt_compat, pow_lt; lra).
    assert (E : dx = colebrook Re er x / - dcole Re er x) by (unfold dx; field; lra). destruct (Req_dec x r) as [-> |N]; [rewrite E, Zr; unfold Rdiv; rewrite Rmult_0_l; replace (r - r) with 0 by ring; lra|].
    pose proof (cb_mvt Re er HR He x r ltac:(lra)) as (M1 & M2). rewrite Zr, Rminus_0_r in *. pose proof (cb_ratio Re er HR He x r H) as RT. set (q := - dcole Re er x) in *. rewrite E.
    assert (V : colebrook Re er x / q * q = colebrook Re er x) by (field; lra). split; apply (Rmult_le_reg_r q); try lra; rewrite V.
    - eapply Rle_trans; [|exact M1]. replace ((x / r) ^ 2 * (r - x) * q) with (q * (x / r) ^ 2 * (r - x)) by ring. apply Rmult_le_compat_r; lra.
  Qed.
  Lemma cb_base n e : 0 <= e <= 3 / 4 -> e * r <= tol -> good (S n) e.
  Proof.
    intros H1 H2 k x tr Hx Hd. pose proof cb_x0. pose proof (cb_dpos x ltac:(lra)) as Q. assert (0 < eps) by (unfold eps; apply Rinv_0_lt_compat, pow_lt; lra). pose proof (cb_step x Hx) as (S1 & S2). cbv zeta in *.
    unfold loop. cbn [newton_loop]. rewrite cb_dc. destruct (Rleb (Rabs (colebrook Re er x)) tol) eqn:T1.
    - do 2 eexists. split; [reflexivity|]. cbn. split; auto. split; [lra|]. left. apply cb_tolf; [lra|]. now apply Rleb_true.
    - rewrite (Rleb_f (Rabs (dcole Re er x))) by (rewrite Rabs_left; lra). assert (0 <= (x / r) ^ 2 * (r - x)) by (apply Rmult_le_pos; [apply pow2_ge_0|lra]). rewrite (Rleb_t (Rabs (- colebrook Re er x / dcole Re er x))) by (rewrite Rabs_right; lra).
      do 2 eexists. split; [reflexivity|]. cbn. split; auto. split; [lra|]. right. rewrite Rabs_left1 by lra. unfold tol in H2. lra.
  Qed.
  Lemma cb_next n e e' : 0 <= e <= 3 / 4 -> e * e * (2 - e) <= e' -> good (S n) e' -> good (S (S n)) e.
  Proof.
    intros H1 H2 IH k x tr Hx Hd. pose proof cb_x0. pose proof (cb_dpos x ltac:(lra)) as Q. assert (0 < eps) by (unfold eps; apply Rinv_0_lt_compat, pow_lt; lra). pose proof (cb_step x Hx) as (S1 & S2). cbv zeta in *.
    assert (T : x / r = 1 - (r - x) / r) by (field; lra). set (t := (r - x) / r) in *. assert (Rt : r - x = t * r) by (unfold t; field; lra). assert (Ht : 0 <= t <= e). { split; [unfold t; apply Rmult_le_pos; [lra|left; now apply Rinv_0_lt_compat]|]. apply (Rmult_le_reg_r r); lra. }
    assert (SQ : 1 / 16 <= (x / r) ^ 2) by (rewrite T; simpl; nra). assert (N0 : 0 <= (x / r) ^ 2 * (r - x)) by (apply Rmult_le_pos; lra).
    change (loop (S (S n)) k x tr) with (let '(dfdx, fx) := derivative_complex (fun f _ => colebrook Re er f) (fun f h => h * dcole Re er f) x in
      let tr := tr ++ [x] in let stop b m := (tr, Ok (mkRR b m (length tr) (k + 1) x fx)) in
      if Rleb (Rabs fx) tol then stop true MsgTolF else if Rleb (Rabs dfdx) eps then stop false MsgZeroDeriv
      else let dx := - fx / dfdx in if Rleb (Rabs dx) tol then stop true MsgTolX else loop (S n) (k + 1) (x + dx) tr).
    rewrite cb_dc. cbv zeta. set (dx := - colebrook Re er x / dcole Re er x) in *. destruct (Rleb (Rabs (colebrook Re er x)) tol) eqn:T1.
    - do 2 eexists. split; [reflexivity|]. cbn. split; auto. split; [lra|]. left. apply cb_tolf; [lra|]. now apply Rleb_true.
    - rewrite (Rleb_f (Rabs (dcole Re er x))) by (rewrite Rabs_left; lra). destruct (Rleb (Rabs dx) tol) eqn:T2.
      + do 2 eexists. split; [reflexivity|]. cbn. split; auto. split; [lra|]. right. apply Rleb_true in T2. rewrite Rabs_right in T2 by lra. rewrite Rabs_left1 by lra. unfold tol in T2. nra.
      + apply IH; [lra|]. assert (r - (x + dx) <= t * t * (2 - t) * r). { replace (t * t * (2 - t) * r) with (r - x - (x / r) ^ 2 * (r - x)) by (rewrite T, Rt; ring). lra. }
        assert (t * t * (2 - t) <= e * e * (2 - e)). { assert (0 <= (e - t) * (2 * (e + t) - (e * e + e * t + t * t))) by (apply Rmult_le_pos; [lra|]; nra). lra. }
        assert (t * t * (2 - t) * r <= e' * r) by (apply Rmult_le_compat_r; lra). lra.
  Qed.
  Lemma cb_good n : good (S (n + 11)) (3 / 4).
  Proof.
    pose proof cb_x0. rewrite Nat.add_comm. cbn [Nat.add].
    apply (cb_next _ _ (704 / 1000)); [lra|lra|]. apply (cb_next _ _ (643 / 1000)); [lra|lra|]. apply (cb_next _ _ (562 / 1000)); [lra|lra|]. apply (cb_next _ _ (455 / 1000)); [lra|lra|]. apply (cb_next _ _ (320 / 1000)); [lra|lra|]. apply (cb_next _ _ (173 / 1000)); [lra|lra|]. apply (cb_next _ _ (55 / 1000)); [lra|lra|]. apply (cb_next _ _ (6 / 1000)); [lra|lra|]. apply (cb_next _ _ (73 / 1000000)); [lra|lra|]. apply (cb_next _ _ (2 / 10 ^ 8)); [lra|simpl; lra|]. apply cb_base; [simpl; lra|]. unfold tol. simpl. lra.
  Qed.
  Lemma cb_run n : exists tr s, loop (S (S (n + 11))) 0%nat (fD_Haaland Re er) [] = (tr, Ok s) /\ rr_success s = true /\ 0 < rr_x s /\ cb_acc r (rr_x s).
  Proof.
    pose proof cb_x0 as X. destruct (Rle_dec (fD_Haaland Re er) r) as [L|L].
    - change (S (S (n + 11))) with (S (S n + 11)). apply cb_good; lra.
    - set (x0 := fD_Haaland Re er) in *. pose proof (cb_dpos x0 ltac:(lra)) as Q. assert (0 < eps) by (unfold eps; apply Rinv_0_lt_compat, pow_lt; lra).
      pose proof (cb_mvt Re er HR He r x0 ltac:(lra)) as (M1 & M2). rewrite Zr in *. pose proof (cb_G0 Re er HR He) as (G1 & _). pose proof (cb_colebrook Re er HR x0 ltac:(lra)) as C. pose proof (cb_u0 Re er HR He) as U0. pose proof (cb_start Re er HR He) as ST. fold x0 in ST. cbv beta in *. set (u0 := 18 / 10 * h_L Re er / ln 10) in *.
      assert (SX : / sqrt x0 = u0). { rewrite ST. replace (/ u0 ^ 2) with (/ u0 * / u0) by (field; lra). rewrite sqrt_square by (left; apply Rinv_0_lt_compat; lra). apply Rinv_inv. }
      rewrite SX in C. rewrite <- C in G1. pose proof (cb_dK Re er HR x0 ltac:(lra)) as DK. pose proof (cb_K_pos Re er HR He x0 ltac:(lra)) as KP. cbv beta in *. set (k := 2 * (251 / 100 / Re) / (ln 10 * (er / (37 / 10) + 251 / 100 / Re / sqrt x0)) + 1) in *. set (q := - dcole Re er x0) in *.
      assert (QV : u0 / (2 * x0) < q). { unfold q. rewrite DK, Ropp_involutive. replace (k / (2 * x0 * sqrt x0)) with (k * (u0 / (2 * x0))) by (rewrite <- SX; field; split; [apply Rgt_not_eq, sqrt_lt_R0; lra|lra]). assert (0 < u0 / (2 * x0)) by (apply Rdiv_lt_0_compat; lra). nra. }
      set (dx := - colebrook Re er x0 / dcole Re er x0). assert (ED : dx * q = colebrook Re er x0) by (unfold dx, q; field; unfold q in *; lra).
      assert (D1 : - (3 / 4) * x0 <= dx). { apply (Rmult_le_reg_r q); [lra|]. rewrite ED. apply Rle_trans with (- (3 / 8) * u0); auto. assert (u0 <= q * (2 * x0)). { left. apply (Rmult_lt_reg_r (/ (2 * x0))); [apply Rinv_0_lt_compat; lra|]. rewrite Rmult_assoc, Rinv_r by lra. rewrite Rmult_1_r. exact QV. } lra. }
      assert (D2 : dx <= r - x0). { apply (Rmult_le_reg_r q); [lra|]. rewrite ED. lra. }
      change (loop (S (S (n + 11))) 0%nat x0 []) with (let '(dfdx, fx) := derivative_complex (fun f _ => colebrook Re er f) (fun f h => h * dcole Re er f) x0 in
        let tr := [] ++ [x0] in let stop b m := (tr, Ok (mkRR b m (length tr) (0 + 1) x0 fx)) in
        if Rleb (Rabs fx) tol then stop true MsgTolF else if Rleb (Rabs dfdx) eps then stop false MsgZeroDeriv
        else let dx := - fx / dfdx in if Rleb (Rabs dx) tol then stop true MsgTolX else loop (S (n + 11)) (0 + 1)%nat (x0 + dx) tr).
      rewrite cb_dc. cbv zeta. fold dx. destruct (Rleb (Rabs (colebrook Re er x0)) tol) eqn:T1.
      + do 2 eexists. split; [reflexivity|]. split; [reflexivity|]. cbn [rr_x]. split; [lra|]. left. apply cb_tolf; [lra|]. now apply Rleb_true.
      + rewrite (Rleb_f (Rabs (dcole Re er x0))) by (unfold q in *; rewrite Rabs_left; lra). destruct (Rleb (Rabs dx) tol) eqn:T2.
        * do 2 eexists. split; [reflexivity|]. split; [reflexivity|]. cbn [rr_x]. split; [lra|]. right. apply Rleb_true in T2. rewrite Rabs_left in T2 by lra. rewrite Rabs_right by lra. unfold tol in T2. lra.
        * apply cb_good; lra.
  Qed.
End CbNewton.
(** fD_Colebrook always succeeds, and what it returns is the solution up to the tolerances *)
Theorem C92_colebrook_newton Re er : 2300 <= Re -> 0 <= er <= 1 ->
  exists x r, fD_Colebrook Re er = Ok x /\ 0 < x /\ 0 < r /\ 2 * log10 (er / (37 / 10) + 251 / 100 / (Re * sqrt r)) = - (1 / sqrt r) /\
    (Rabs (1 / sqrt x - 1 / sqrt r) <= 1 / 10 ^ 6 \/ Rabs (x - r) <= 16 / 10 ^ 6).
Proof.
  intros HR He. destruct (cb_root Re er HR He) as (r & Hr & P & Z & _). destruct (cb_run Re er r HR He P ltac:(lra) Z 37) as (tr & s & E & SU & PX & A). exists (rr_x s), r. unfold fD_Colebrook, root_newton. change 50%nat with (S (S (37 + 11)))%nat. rewrite E. cbn [snd bind]. rewrite SU. repeat split; auto. unfold colebrook in Z. lra.
Qed.
Example C92_example : exists x, fD_Colebrook 100000 (1 / 1000) = Ok x /\ 0 < x.
Proof. destruct (C92_colebrook_newton 100000 (1 / 1000)) as (x & r & E & P & _); try lra. now exists x. Qed.
Print Assumptions C92_colebrook_newton.
