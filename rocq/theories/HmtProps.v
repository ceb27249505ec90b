(** C58: diffusion profiles and uptakes stay within physical bounds. *)
From Coq Require Import Reals Lra Lia List Bool Arith Psatz.
From Verif Require Import Prelude RootsModel KinModel CopoModel Deriv NumBounds Erf HmtModel.
Import ListNotations.
Open Scope R_scope.

Lemma exp_le a b : a <= b -> exp a <= exp b.
Proof. intros [L| ->]; [left; now apply exp_increasing|lra]. Qed.
Lemma exp_ge1 x : 0 <= x -> 1 + x <= exp x.
Proof. intros [H| <-]; [left; apply exp_ineq1; lra|rewrite exp_0; lra]. Qed.
Lemma odd1_v : odd1 0 = 1 /\ odd1 1 = 3 /\ odd1 2 = 5 /\ odd1 3 = 7.
Proof. unfold odd1. cbn. repeat split; lra. Qed.
Lemma sgn_v : sgn_n 0 = 1 /\ sgn_n 1 = -1 /\ sgn_n 2 = 1 /\ sgn_n 3 = -1.
Proof. repeat split; reflexivity. Qed.
Lemma spi_bounds : 176 / 100 < sqrt PI < 178 / 100.
Proof.
  pose proof PI_bounds as (A & B). split.
  - rewrite <- (sqrt_square (176 / 100)) by lra. apply sqrt_lt_1_alt. lra.
  - rewrite <- (sqrt_square (178 / 100)) by lra. apply sqrt_lt_1_alt. lra.
Qed.
Lemma Rltb_f x y : y <= x -> Rltb x y = false.
Proof. intros H. destruct (Rltb x y) eqn:E; auto. apply Rltb_true in E. lra. Qed.
Lemma Reqb_f x y : x <> y -> Reqb x y = false.
Proof. intros H. destruct (Reqb x y) eqn:E; auto. apply Reqb_true in E. contradiction. Qed.

(* ------------------------------------------------------------------ *)
(** * Iterated error function                                         *)
(* ------------------------------------------------------------------ *)

Definition gi (x : R) : R := exp (- x ^ 2) / sqrt PI - x * erfc x.
Lemma gi_D x : D gi x (- erfc x).
Proof.
  unfold gi. pose proof spi_pos. eapply D_eq.
  - apply (D_minus (fun x => exp (- x ^ 2) / sqrt PI) (fun x => x * erfc x)); [|apply (D_mult (fun x => x) erfc); [apply D_id|apply erfc_D]].
    apply (D_ext (fun x => / sqrt PI * exp (- x ^ 2))); [intros; unfold Rdiv; ring|]. apply (D_scal (/ sqrt PI) (fun x => exp (- x ^ 2))). apply gauss_D.
  - cbv beta. field. lra.
Qed.
Lemma gi_decr a b : a < b -> gi b < gi a.
Proof.
  intros H. cut (- gi a < - gi b); [lra|]. apply (mono_strict (fun x => - gi x) (fun x => erfc x)); auto.
  - intros t _. eapply D_eq; [apply (D_opp gi); apply gi_D|ring].
  - intros t _. apply erfc_bounds.
Qed.
Lemma gi_pos x : 0 < gi x.
Proof.
  destruct (Rlt_dec 0 (gi x)) as [|N]; auto. exfalso. pose (x1 := Rmax x 0 + 1). assert (X1 : x < x1 /\ 0 < x1) by (unfold x1; pose proof (Rmax_l x 0); pose proof (Rmax_r x 0); lra).
  pose proof (gi_decr x x1 ltac:(lra)). pose (c := - gi x1). assert (C : 0 < c) by (unfold c; lra).
  (* y exp(-y^2) <= exp(-y) for y >= 1 is enough: take y large *)
  pose (y := x1 + 1 + / c). pose proof (Rinv_0_lt_compat c C) as IC. assert (Y : 1 < y /\ / c < y) by (unfold y; lra).
  assert (U : y * erfc y <= / y).
  { pose proof (erfc_upper y ltac:(lra)) as E. assert (F : exp (- y ^ 2) <= / (y * y)).
    { rewrite exp_Ropp. apply Rinv_le_contravar; [nra|]. pose proof (exp_ge1 (y ^ 2) ltac:(nra)). nra. }
    replace (/ y) with (y * / (y * y)) by (field; lra). apply Rmult_le_compat_l; lra. }
  assert (V : / y < c). { rewrite <- (Rinv_inv c). apply Rinv_lt_contravar; [apply Rmult_lt_0_compat; lra|lra]. }
  pose proof (gi_decr x1 y ltac:(unfold y; lra)). unfold gi in *. pose proof (exp_pos (- y ^ 2)). pose proof spi_pos. assert (0 < exp (- y ^ 2) / sqrt PI) by now apply Rdiv_lt_0_compat.
  unfold c in *. lra.
Qed.
Lemma gi_upper x : 0 <= x -> gi x <= exp (- x ^ 2) / sqrt PI / (1 + 2 * x ^ 2).
Proof.
  intros H. pose proof (erfc_lower x H) as L. unfold gi. set (e := exp (- x ^ 2) / sqrt PI) in *. assert (0 < 1 + 2 * x ^ 2) by nra.
  assert (x * (2 * x / (1 + 2 * x ^ 2) * e) <= x * erfc x) by (apply Rmult_le_compat_l; lra).
  replace (e / (1 + 2 * x ^ 2)) with (e - x * (2 * x / (1 + 2 * x ^ 2) * e)) by (field; lra). lra.
Qed.
(** ierfc is the antiderivative of -erfc, nonnegative and decreasing, and i2erfc is nonnegative *)
Theorem C58_ierfc x : 0 <= ierfc x /\ (x < 30 -> D ierfc x (- erfc x)) /\ (0 <= x -> ierfc x <= 1 / sqrt PI).
Proof.
  pose proof spi_pos as P. split; [|split].
  - unfold ierfc. destruct (Rltb 30 x); [lra|]. left. apply gi_pos.
  - intros H. apply (D_ext_loc gi _ x _ (30 - x)); [lra| |apply gi_D]. intros t Ht. unfold ierfc. rewrite Rltb_f; [reflexivity|]. pose proof (Rle_abs (t - x)). lra.
  - intros H. unfold ierfc. assert (0 < 1 / sqrt PI) by (apply Rdiv_lt_0_compat; lra). destruct (Rltb 30 x); [lra|]. pose proof (erfc_bounds x).
    assert (exp (- x ^ 2) <= 1) by (rewrite <- exp_0; apply exp_le; nra). assert (exp (- x ^ 2) / sqrt PI <= 1 / sqrt PI) by (apply Rmult_le_compat_r; auto; left; now apply Rinv_0_lt_compat).
    assert (0 <= x * erfc x) by (apply Rmult_le_pos; lra). lra.
Qed.
Lemma ierfc_small x : 2 <= x -> 0 <= ierfc x <= 1 / sqrt PI / 450.
Proof.
  intros H. split; [apply C58_ierfc|]. pose proof spi_pos as P. assert (0 < 1 / sqrt PI) by (apply Rdiv_lt_0_compat; lra). unfold ierfc. destruct (Rltb 30 x); [lra|]. fold (gi x).
  apply Rle_trans with (gi 2). { destruct H as [H| <-]; [left; now apply gi_decr|lra]. }
  apply Rle_trans with (exp (- 2 ^ 2) / sqrt PI / (1 + 2 * 2 ^ 2)); [apply gi_upper; lra|].
  assert (E : exp (- 2 ^ 2) <= / 50).
  { rewrite exp_Ropp. apply Rinv_le_contravar; [lra|]. replace (2 ^ 2) with (INR 4 * 1) by (cbn; ring). rewrite exp_mult_pow.
    assert (27 / 10 <= exp 1) by (apply exp_lower; unfold q6; lra). assert ((27 / 10) ^ 4 <= exp 1 ^ 4) by (apply pow_incr; lra). lra. }
  replace (exp (- 2 ^ 2) / sqrt PI / (1 + 2 * 2 ^ 2)) with (exp (- 2 ^ 2) * (1 / sqrt PI) / 9) by (field; lra). set (e := exp (- 2 ^ 2)) in *. nra.
Qed.

(* ------------------------------------------------------------------ *)
(** * Sheet profile                                                   *)
(* ------------------------------------------------------------------ *)

Section ShortTimes.
  Variable A : R.
  Hypothesis HA : 0 < A < 1.
  Let z := / (A * A).
  Lemma z_ge1 : 1 < z.
  Proof. unfold z. rewrite <- Rinv_1. apply Rinv_lt_contravar; nra. Qed.
  Definition Eg (y : R) : R := exp (- (y / A) ^ 2).
  Lemma Eg_z y : Eg y = exp (- (z * (y * y))).
  Proof. unfold Eg, z. f_equal. field. lra. Qed.
  Lemma D_erfcm m x : D (fun x => erfc ((m - x) / A)) x (2 / sqrt PI / A * Eg (m - x)).
  Proof.
    pose proof spi_pos. eapply D_eq; [apply (D_comp erfc (fun x => (m - x) / A) x (- (2 / sqrt PI * exp (- ((m - x) / A) ^ 2))) (- / A))|].
    - apply (D_ext (fun x => / A * (m - x))); [intros; unfold Rdiv; ring|]. eapply D_eq; [apply (D_scal (/ A) (fun x => m - x)); apply (D_minus (fun _ => m) (fun x => x)); [apply D_const|apply D_id]|ring].
    - apply erfc_D.
    - unfold Eg. field. lra.
  Qed.
  Lemma D_erfcp m x : D (fun x => erfc ((m + x) / A)) x (- (2 / sqrt PI / A * Eg (m + x))).
  Proof.
    pose proof spi_pos. eapply D_eq; [apply (D_comp erfc (fun x => (m + x) / A) x (- (2 / sqrt PI * exp (- ((m + x) / A) ^ 2))) (/ A))|].
    - apply (D_ext (fun x => / A * (m + x))); [intros; unfold Rdiv; ring|]. eapply D_eq; [apply (D_scal (/ A) (fun x => m + x)); apply (D_plus (fun _ => m) (fun x => x)); [apply D_const|apply D_id]|ring].
    - apply erfc_D.
    - unfold Eg. field. lra.
  Qed.
  Lemma k_pos : 0 < 2 / sqrt PI / A.
  Proof. apply Rdiv_lt_0_compat; [apply Rdiv_lt_0_compat; [lra|apply spi_pos]|lra]. Qed.
  Lemma erfcA_le a b : a <= b -> erfc (b / A) <= erfc (a / A).
  Proof. intros H. apply erfc_decr_le. unfold Rdiv. apply Rmult_le_compat_r; auto. left. apply Rinv_0_lt_compat. lra. Qed.

  (** consecutive image terms decrease *)
  Lemma Eg_pair m x : 1 <= m -> 0 <= x <= 1 -> Eg (m + 2 - x) - Eg (m + 2 + x) <= Eg (m - x) - Eg (m + x).
  Proof.
    intros Hm Hx. pose proof z_ge1 as Hz. rewrite !Eg_z. set (e := exp (- (z * ((m - x) * (m - x))))). assert (He : 0 < e) by apply exp_pos.
    set (p := exp (- (4 * m * x * z))). assert (Hp : 0 < p <= 1). { split; [apply exp_pos|]. rewrite <- exp_0. apply exp_le. assert (0 <= 4 * m * x * z) by (repeat apply Rmult_le_pos; lra). lra. }
    set (s := exp (- (4 * z * (m + 1 - x)))). assert (Hs : 0 < s <= / 3).
    { split; [apply exp_pos|]. unfold s. rewrite exp_Ropp. apply Rinv_le_contravar; [lra|]. assert (4 <= 4 * z * (m + 1 - x)) by nra. pose proof (exp_ge1 (4 * z * (m + 1 - x)) ltac:(lra)). lra. }
    set (t := exp (- (4 * (m + 2) * x * z))). assert (Ht : p ^ 3 <= t).
    { unfold p, t. rewrite <- exp_mult_pow. apply exp_le. replace (INR 3) with 3 by (cbn; lra). assert (0 <= x * z) by (apply Rmult_le_pos; lra). nra. }
    replace (exp (- (z * ((m + x) * (m + x))))) with (e * p) by (unfold e, p; rewrite <- exp_plus; f_equal; ring).
    replace (exp (- (z * ((m + 2 - x) * (m + 2 - x))))) with (e * s) by (unfold e, s; rewrite <- exp_plus; f_equal; ring).
    replace (exp (- (z * ((m + 2 + x) * (m + 2 + x))))) with (e * s * t) by (unfold e, s, t; rewrite <- !exp_plus; f_equal; ring).
    replace (e * s - e * s * t) with (e * (s * (1 - t))) by ring. replace (e - e * p) with (e * (1 - p)) by ring. apply Rmult_le_compat_l; [lra|].
    assert (1 - t <= 3 * (1 - p)). { assert (1 - p ^ 3 <= 3 * (1 - p)); [|lra]. assert (0 <= (1 - p) * (1 - p) * (2 + p)) by (apply Rmult_le_pos; [apply Rle_0_sqr|lra]). replace (1 - p ^ 3) with (3 * (1 - p) - (1 - p) * (1 - p) * (2 + p)) by ring. lra. }
    destruct (Rle_dec 0 (1 - t)) as [T|T]; nra.
  Qed.

  Definition Ssh (x : R) : R := (erfc ((1 - x) / A) + erfc ((1 + x) / A)) - (erfc ((3 - x) / A) + erfc ((3 + x) / A))
                              + ((erfc ((5 - x) / A) + erfc ((5 + x) / A)) - (erfc ((7 - x) / A) + erfc ((7 + x) / A))).
  Lemma Ssh_nonneg x : 0 <= Ssh x.
  Proof.
    unfold Ssh. pose proof (erfcA_le (1 - x) (3 - x) ltac:(lra)). pose proof (erfcA_le (1 + x) (3 + x) ltac:(lra)). pose proof (erfcA_le (5 - x) (7 - x) ltac:(lra)). pose proof (erfcA_le (5 + x) (7 + x) ltac:(lra)). lra.
  Qed.
  Lemma Ssh_D x : D Ssh x (2 / sqrt PI / A * ((Eg (1 - x) - Eg (1 + x)) - (Eg (3 - x) - Eg (3 + x)) + ((Eg (5 - x) - Eg (5 + x)) - (Eg (7 - x) - Eg (7 + x))))).
  Proof.
    unfold Ssh. eapply D_eq.
    - apply (D_plus (fun x => (erfc ((1 - x) / A) + erfc ((1 + x) / A)) - (erfc ((3 - x) / A) + erfc ((3 + x) / A))) (fun x => (erfc ((5 - x) / A) + erfc ((5 + x) / A)) - (erfc ((7 - x) / A) + erfc ((7 + x) / A)))).
      + apply (D_minus (fun x => erfc ((1 - x) / A) + erfc ((1 + x) / A)) (fun x => erfc ((3 - x) / A) + erfc ((3 + x) / A))).
        * apply (D_plus (fun x => erfc ((1 - x) / A)) (fun x => erfc ((1 + x) / A))); [apply D_erfcm|apply D_erfcp].
        * apply (D_plus (fun x => erfc ((3 - x) / A)) (fun x => erfc ((3 + x) / A))); [apply D_erfcm|apply D_erfcp].
      + apply (D_minus (fun x => erfc ((5 - x) / A) + erfc ((5 + x) / A)) (fun x => erfc ((7 - x) / A) + erfc ((7 + x) / A))).
        * apply (D_plus (fun x => erfc ((5 - x) / A)) (fun x => erfc ((5 + x) / A))); [apply D_erfcm|apply D_erfcp].
        * apply (D_plus (fun x => erfc ((7 - x) / A)) (fun x => erfc ((7 + x) / A))); [apply D_erfcm|apply D_erfcp].
    - ring.
  Qed.
  Lemma Ssh_1 : Ssh 1 = 1 - erfc (8 / A).
  Proof.
    unfold Ssh. replace ((1 - 1) / A) with 0 by (unfold Rdiv; ring). rewrite erfc_0. replace (1 + 1) with 2 by ring. replace (3 - 1) with 2 by ring. replace (3 + 1) with 4 by ring.
    replace (5 - 1) with 4 by ring. replace (5 + 1) with 6 by ring. replace (7 - 1) with 6 by ring. replace (7 + 1) with 8 by ring. ring.
  Qed.
  Lemma Ssh_mono x y : 0 <= x <= y -> y <= 1 -> Ssh x <= Ssh y.
  Proof.
    intros H H1. apply (mono_incr Ssh (fun x => 2 / sqrt PI / A * ((Eg (1 - x) - Eg (1 + x)) - (Eg (3 - x) - Eg (3 + x)) + ((Eg (5 - x) - Eg (5 + x)) - (Eg (7 - x) - Eg (7 + x)))))); [lra|intros; apply Ssh_D|].
    intros t Ht. apply Rmult_le_pos; [left; apply k_pos|]. pose proof (Eg_pair 1 t ltac:(lra) ltac:(lra)) as P1. pose proof (Eg_pair 5 t ltac:(lra) ltac:(lra)) as P2.
    replace (1 + 2) with 3 in P1 by ring. replace (5 + 2) with 7 in P2 by ring. lra.
  Qed.
  Lemma Ssh_even x : Ssh (- x) = Ssh x.
  Proof. unfold Ssh, Rminus. rewrite !Ropp_involutive. ring. Qed.
  Lemma Ssh_bounds x : Rabs x <= 1 -> 0 <= Ssh x <= 1.
  Proof.
    intros H. split; [apply Ssh_nonneg|]. assert (Q : forall x, 0 <= x <= 1 -> Ssh x <= 1).
    { intros y Hy. pose proof (Ssh_mono y 1 ltac:(lra) ltac:(lra)). rewrite Ssh_1 in H0. pose proof (erfc_bounds (8 / A)). lra. }
    unfold Rabs in H. destruct (Rcase_abs x); [rewrite <- Ssh_even|]; apply Q; lra.
  Qed.

  (* sphere *)
  Definition Ssp (r : R) : R := (erfc ((1 - r) / A) - erfc ((1 + r) / A)) + (erfc ((3 - r) / A) - erfc ((3 + r) / A))
                              + ((erfc ((5 - r) / A) - erfc ((5 + r) / A)) + (erfc ((7 - r) / A) - erfc ((7 + r) / A))).
  Definition Tsp (r : R) : R := Ssp r + erfc ((9 - r) / A).
  Definition Tsp1 (r : R) : R := 2 / sqrt PI / A * ((Eg (1 - r) + Eg (1 + r)) + (Eg (3 - r) + Eg (3 + r)) + ((Eg (5 - r) + Eg (5 + r)) + (Eg (7 - r) + Eg (7 + r))) + Eg (9 - r)).
  Lemma Tsp_D r : D Tsp r (Tsp1 r).
  Proof.
    unfold Tsp, Ssp, Tsp1.
    assert (P : forall m, D (fun r => erfc ((m - r) / A) - erfc ((m + r) / A)) r (2 / sqrt PI / A * (Eg (m - r) + Eg (m + r)))).
    { intros m. eapply D_eq; [apply (D_minus (fun r => erfc ((m - r) / A)) (fun r => erfc ((m + r) / A))); [apply D_erfcm|apply D_erfcp]|ring]. }
    eapply D_eq.
    - apply (D_plus (fun r => (erfc ((1 - r) / A) - erfc ((1 + r) / A)) + (erfc ((3 - r) / A) - erfc ((3 + r) / A)) + ((erfc ((5 - r) / A) - erfc ((5 + r) / A)) + (erfc ((7 - r) / A) - erfc ((7 + r) / A)))) (fun r => erfc ((9 - r) / A))); [|apply D_erfcm].
      apply (D_plus (fun r => (erfc ((1 - r) / A) - erfc ((1 + r) / A)) + (erfc ((3 - r) / A) - erfc ((3 + r) / A))) (fun r => (erfc ((5 - r) / A) - erfc ((5 + r) / A)) + (erfc ((7 - r) / A) - erfc ((7 + r) / A)))).
      + apply (D_plus (fun r => erfc ((1 - r) / A) - erfc ((1 + r) / A)) (fun r => erfc ((3 - r) / A) - erfc ((3 + r) / A))); apply P.
      + apply (D_plus (fun r => erfc ((5 - r) / A) - erfc ((5 + r) / A)) (fun r => erfc ((7 - r) / A) - erfc ((7 + r) / A))); apply P.
    - ring.
  Qed.
  Definition ph (y : R) : R := y * Eg y.
  Lemma Eg_Dm m r : D (fun r => Eg (m - r)) r (2 * z * ph (m - r)).
  Proof.
    unfold ph, Eg, z. eapply D_eq; [apply (D_exp (fun r => - ((m - r) / A) ^ 2)); apply (D_opp (fun r => ((m - r) / A) ^ 2))|].
    - apply (D_ext (fun r => / (A * A) * ((m - r) * (m - r)))); [intros; field; lra|]. apply (D_scal (/ (A * A)) (fun r => (m - r) * (m - r))). apply (D_mult (fun r => m - r) (fun r => m - r)); (apply (D_minus (fun _ => m) (fun r => r)); [apply D_const|apply D_id]).
    - cbv beta. field. lra.
  Qed.
  Lemma Eg_Dp m r : D (fun r => Eg (m + r)) r (- (2 * z * ph (m + r))).
  Proof.
    unfold ph, Eg, z. eapply D_eq; [apply (D_exp (fun r => - ((m + r) / A) ^ 2)); apply (D_opp (fun r => ((m + r) / A) ^ 2))|].
    - apply (D_ext (fun r => / (A * A) * ((m + r) * (m + r)))); [intros; field; lra|]. apply (D_scal (/ (A * A)) (fun r => (m + r) * (m + r))). apply (D_mult (fun r => m + r) (fun r => m + r)); (apply (D_plus (fun _ => m) (fun r => r)); [apply D_const|apply D_id]).
    - cbv beta. field. lra.
  Qed.
  Definition Phi (r : R) : R := (ph (1 - r) - ph (1 + r)) + (ph (3 - r) - ph (3 + r)) + ((ph (5 - r) - ph (5 + r)) + (ph (7 - r) - ph (7 + r))) + ph (9 - r).
  Lemma Tsp1_D r : D Tsp1 r (2 / sqrt PI / A * (2 * z * Phi r)).
  Proof.
    unfold Tsp1. eapply D_eq.
    - apply (D_scal (2 / sqrt PI / A) (fun r => (Eg (1 - r) + Eg (1 + r)) + (Eg (3 - r) + Eg (3 + r)) + ((Eg (5 - r) + Eg (5 + r)) + (Eg (7 - r) + Eg (7 + r))) + Eg (9 - r))).
      assert (P : forall m, D (fun r => Eg (m - r) + Eg (m + r)) r (2 * z * (ph (m - r) - ph (m + r)))).
      { intros m. eapply D_eq; [apply (D_plus (fun r => Eg (m - r)) (fun r => Eg (m + r))); [apply Eg_Dm|apply Eg_Dp]|ring]. }
      apply (D_plus (fun r => (Eg (1 - r) + Eg (1 + r)) + (Eg (3 - r) + Eg (3 + r)) + ((Eg (5 - r) + Eg (5 + r)) + (Eg (7 - r) + Eg (7 + r)))) (fun r => Eg (9 - r))); [|apply Eg_Dm].
      apply (D_plus (fun r => (Eg (1 - r) + Eg (1 + r)) + (Eg (3 - r) + Eg (3 + r))) (fun r => (Eg (5 - r) + Eg (5 + r)) + (Eg (7 - r) + Eg (7 + r)))).
      + apply (D_plus (fun r => Eg (1 - r) + Eg (1 + r)) (fun r => Eg (3 - r) + Eg (3 + r))); apply P.
      + apply (D_plus (fun r => Eg (5 - r) + Eg (5 + r)) (fun r => Eg (7 - r) + Eg (7 + r))); apply P.
    - unfold Phi. ring.
  Qed.
  (** each pair is nonnegative away from the surface *)
  Lemma ph_pair m r : 1 <= m -> 0 <= r <= 9 / 10 -> 3 <= m \/ m = 1 -> ph (m + r) <= ph (m - r).
  Proof.
    intros Hm Hr Hc. pose proof z_ge1 as Hz. unfold ph. rewrite !Eg_z.
    replace (exp (- (z * ((m + r) * (m + r))))) with (exp (- (z * ((m - r) * (m - r)))) * exp (- (4 * m * r * z))) by (rewrite <- exp_plus; f_equal; ring).
    set (e := exp (- (z * ((m - r) * (m - r))))). assert (0 < e) by apply exp_pos.
    cut ((m + r) * exp (- (4 * m * r * z)) <= m - r); [intros; nra|].
    assert (W : exp (- (4 * m * r * z)) <= / exp (4 * m * r)). { rewrite <- exp_Ropp. apply exp_le. assert (0 <= 4 * m * r) by nra. nra. }
    assert (V : m + r <= (m - r) * exp (4 * m * r)).
    { destruct Hc as [Hc| ->].
      - pose proof (exp_ge1 (4 * m * r) ltac:(nra)). assert (0 < m - r) by lra. assert (1 + 12 * r <= exp (4 * m * r)) by nra. nra.
      - rewrite Rmult_1_r. destruct (Rle_dec r (8 / 10)) as [L|L].
        + replace (4 * r) with (INR 4 * r) by (cbn; ring). rewrite exp_mult_pow. pose proof (exp_ge1 r ltac:(lra)). assert ((1 + r) ^ 4 <= exp r ^ 4) by (apply pow_incr; lra).
          assert ((1 - r) * (1 + r) ^ 4 <= (1 - r) * exp r ^ 4) by (apply Rmult_le_compat_l; lra). assert (1 + r <= (1 - r) * (1 + r) ^ 4); [|lra].
          replace ((1 - r) * (1 + r) ^ 4) with ((1 + r) * (1 + r * (2 - 2 * r ^ 2 - r ^ 3))) by ring. assert (r ^ 2 <= 64 / 100) by nra. assert (r ^ 3 <= 512 / 1000) by nra. assert (0 <= r * (2 - 2 * r ^ 2 - r ^ 3)) by (apply Rmult_le_pos; lra). nra.
        + assert (19 <= exp (4 * r)).
          { apply Rle_trans with (exp (INR 4 * (8 / 10))); [|apply exp_le; cbn; lra]. rewrite exp_mult_pow. assert (22 / 10 <= exp (8 / 10)) by (apply exp_lower; unfold q6; lra).
            assert ((22 / 10) ^ 4 <= exp (8 / 10) ^ 4) by (apply pow_incr; lra). lra. }
          nra. }
    pose proof (exp_pos (4 * m * r)) as EP. apply Rle_trans with ((m + r) * / exp (4 * m * r)); [apply Rmult_le_compat_l; lra|].
    apply (Rmult_le_reg_r (exp (4 * m * r))); auto. rewrite Rmult_assoc, Rinv_l by lra. lra.
  Qed.
  (** near the surface, with s = 1 - r *)
  Lemma z_exp al : 1 <= al -> z * exp (- (al * z)) <= exp (- al).
  Proof.
    intros H. pose proof z_ge1 as Hz. rewrite !exp_Ropp. replace (al * z) with (al + al * (z - 1)) by ring. rewrite exp_plus.
    pose proof (exp_ge1 (al * (z - 1)) ltac:(nra)) as E. assert (z <= exp (al * (z - 1))) by nra. pose proof (exp_pos al) as P.
    rewrite Rinv_mult. pose proof (Rinv_0_lt_compat _ P). set (b := exp (al * (z - 1))) in *. assert (z * / b <= 1) by (apply (Rmult_le_reg_r b); [lra|]; rewrite Rmult_assoc, Rinv_l by lra; lra). nra.
  Qed.
  Lemma ph_near k s : 2 <= k -> 0 <= s <= 1 / 10 -> ph (k - s) - ph (k + s) <= s * Eg s * (4 * k ^ 2 * exp (- (k ^ 2 - k / 5))).
  Proof.
    intros Hk Hs. pose proof z_ge1 as Hz. unfold ph. rewrite !Eg_z. set (e := exp (- (z * (s * s)))). assert (He : 0 < e) by apply exp_pos.
    set (w := 2 * z * k * s). assert (Hw : 0 <= w) by (unfold w; repeat apply Rmult_le_pos; lra).
    set (g := exp (- (z * (k * k)))). assert (Hg : 0 < g) by apply exp_pos.
    replace (exp (- (z * ((k - s) * (k - s))))) with (e * g * exp w) by (unfold e, g, w; rewrite <- !exp_plus; f_equal; ring).
    replace (exp (- (z * ((k + s) * (k + s))))) with (e * g * exp (- w)) by (unfold e, g, w; rewrite <- !exp_plus; f_equal; ring).
    assert (B1 : exp w - exp (- w) <= 2 * w * exp w).
    { replace (exp (- w)) with (exp w * exp (- 2 * w)) by (rewrite <- exp_plus; f_equal; ring). assert (1 - 2 * w <= exp (- 2 * w)).
      { destruct (Req_dec w 0) as [-> |N]; [replace (-2 * 0) with 0 by ring; rewrite exp_0; lra|]. pose proof (exp_ineq1 (- 2 * w) ltac:(lra)). lra. }
      pose proof (exp_pos w). nra. }
    assert (B2 : (k - s) * exp w - (k + s) * exp (- w) <= k * (2 * w * exp w)). { pose proof (exp_pos w). pose proof (exp_pos (- w)). nra. }
    assert (EG : 0 < e * g) by now apply Rmult_lt_0_compat.
    replace ((k - s) * (e * g * exp w) - (k + s) * (e * g * exp (- w))) with (e * g * ((k - s) * exp w - (k + s) * exp (- w))) by ring.
    apply Rle_trans with (e * g * (k * (2 * w * exp w))); [apply Rmult_le_compat_l; lra|].
    replace (e * g * (k * (2 * w * exp w))) with (s * e * (4 * k ^ 2 * (z * (g * exp w)))) by (unfold w; ring).
    apply Rmult_le_compat_l; [apply Rmult_le_pos; lra|]. apply Rmult_le_compat_l; [nra|].
    apply Rle_trans with (z * exp (- ((k ^ 2 - k / 5) * z))); [|apply z_exp; nra]. apply Rmult_le_compat_l; [lra|].
    unfold g, w. rewrite <- exp_plus. apply exp_le. assert (0 <= z * k) by nra. nra.
  Qed.
  Lemma ck_small : 4 * 2 ^ 2 * exp (- (2 ^ 2 - 2 / 5)) + 4 * 4 ^ 2 * exp (- (4 ^ 2 - 4 / 5)) + 4 * 6 ^ 2 * exp (- (6 ^ 2 - 6 / 5)) + 4 * 8 ^ 2 * exp (- (8 ^ 2 - 8 / 5)) <= 1.
  Proof.
    assert (B : forall n al, INR n <= al -> exp (- al) <= / (27 / 10) ^ n).
    { intros n al H. rewrite exp_Ropp. apply Rinv_le_contravar; [apply pow_lt; lra|]. apply Rle_trans with (exp (INR n * 1)); [|apply exp_le; lra].
      rewrite exp_mult_pow. apply pow_incr. split; [lra|]. apply exp_lower; unfold q6; lra. }
    pose proof (B 3%nat (2 ^ 2 - 2 / 5) ltac:(cbn; lra)). pose proof (B 12%nat (4 ^ 2 - 4 / 5) ltac:(cbn; lra)). pose proof (B 12%nat (6 ^ 2 - 6 / 5) ltac:(cbn; lra)). pose proof (B 12%nat (8 ^ 2 - 8 / 5) ltac:(cbn; lra)).
    assert (/ (27 / 10) ^ 3 <= 51 / 1000) by lra. assert (/ (27 / 10) ^ 12 <= 1 / 10000) by lra. lra.
  Qed.
  Lemma Phi_nonneg r : 0 <= r <= 1 -> 0 <= Phi r.
  Proof.
    intros Hr. unfold Phi. destruct (Rle_dec r (9 / 10)) as [L|L].
    - pose proof (ph_pair 1 r ltac:(lra) ltac:(lra) ltac:(auto)). pose proof (ph_pair 3 r ltac:(lra) ltac:(lra) ltac:(left; lra)). pose proof (ph_pair 5 r ltac:(lra) ltac:(lra) ltac:(left; lra)). pose proof (ph_pair 7 r ltac:(lra) ltac:(lra) ltac:(left; lra)).
      assert (0 <= ph (9 - r)) by (unfold ph; apply Rmult_le_pos; [lra|left; apply exp_pos]). lra.
    - set (s := 1 - r). assert (Hs : 0 <= s <= 1 / 10) by (unfold s; lra).
      pose proof (ph_near 2 s ltac:(lra) Hs) as N2. pose proof (ph_near 4 s ltac:(lra) Hs) as N4. pose proof (ph_near 6 s ltac:(lra) Hs) as N6. pose proof (ph_near 8 s ltac:(lra) Hs) as N8. pose proof ck_small as CK.
      replace (1 + r) with (2 - s) by (unfold s; ring). replace (3 - r) with (2 + s) by (unfold s; ring). replace (3 + r) with (4 - s) by (unfold s; ring). replace (5 - r) with (4 + s) by (unfold s; ring).
      replace (5 + r) with (6 - s) by (unfold s; ring). replace (7 - r) with (6 + s) by (unfold s; ring). replace (7 + r) with (8 - s) by (unfold s; ring). replace (9 - r) with (8 + s) by (unfold s; ring).
      change (ph s) with (s * Eg s). assert (P : 0 <= s * Eg s) by (apply Rmult_le_pos; [lra|left; apply exp_pos]). set (u := s * Eg s) in *.
      match type of CK with ?a + ?b + ?c + ?d <= 1 => set (c2 := a) in *; set (c4 := b) in *; set (c6 := c) in *; set (c8 := d) in * end.
      assert (u * (c2 + c4 + c6 + c8) <= u * 1) by (apply Rmult_le_compat_l; auto). lra.
  Qed.
  Lemma chord f f' r : (forall t, 0 <= t <= 1 -> D f t (f' t)) -> (forall a b, 0 <= a <= b -> b <= 1 -> f' a <= f' b) -> 0 <= r <= 1 -> f r <= (1 - r) * f 0 + r * f 1.
  Proof.
    intros HD HM Hr. destruct (Req_dec r 0) as [-> |N0]; [lra|]. destruct (Req_dec r 1) as [-> |N1]; [lra|].
    destruct (MVT_cor2 f f' 0 r ltac:(lra)) as (c1 & E1 & H1). { intros t Ht. apply Coquelicot.Derive.is_derive_Reals. apply HD. lra. }
    destruct (MVT_cor2 f f' r 1 ltac:(lra)) as (c2 & E2 & H2). { intros t Ht. apply Coquelicot.Derive.is_derive_Reals. apply HD. lra. }
    pose proof (HM c1 c2 ltac:(lra) ltac:(lra)) as M. assert (0 <= r * (1 - r)) by nra. nra.
  Qed.
  Lemma Ssp_bounds r : 0 < r <= 1 -> 0 <= Ssp r <= r.
  Proof.
    intros Hr. split.
    - unfold Ssp. pose proof (erfcA_le (1 - r) (1 + r) ltac:(lra)). pose proof (erfcA_le (3 - r) (3 + r) ltac:(lra)). pose proof (erfcA_le (5 - r) (5 + r) ltac:(lra)). pose proof (erfcA_le (7 - r) (7 + r) ltac:(lra)). lra.
    - assert (M : forall a b, 0 <= a <= b -> b <= 1 -> Tsp1 a <= Tsp1 b).
      { intros a b Ha Hb. apply (mono_incr Tsp1 (fun r => 2 / sqrt PI / A * (2 * z * Phi r))); [lra|intros; apply Tsp1_D|]. intros t Ht. pose proof z_ge1. pose proof (Phi_nonneg t ltac:(lra)). apply Rmult_le_pos; [left; apply k_pos|]. nra. }
      pose proof (chord Tsp Tsp1 r (fun t _ => Tsp_D t) M ltac:(lra)) as C.
      assert (T0 : Tsp 0 = erfc (9 / A)) by (unfold Tsp, Ssp; rewrite !Rplus_0_r, !Rminus_0_r; ring).
      assert (T1 : Tsp 1 = 1).
      { unfold Tsp, Ssp. replace ((1 - 1) / A) with 0 by (unfold Rdiv; ring). rewrite erfc_0. replace (1 + 1) with 2 by ring. replace (3 - 1) with 2 by ring. replace (3 + 1) with 4 by ring.
        replace (5 - 1) with 4 by ring. replace (5 + 1) with 6 by ring. replace (7 - 1) with 6 by ring. replace (7 + 1) with 8 by ring. replace (9 - 1) with 8 by ring. ring. }
      rewrite T0, T1 in C. unfold Tsp in C. pose proof (erfcA_le (9 - r) 9 ltac:(lra)). pose proof (erfc_bounds (9 / A)). nra.
  Qed.
  Lemma Ssp_odd r : Ssp (- r) = - Ssp r.
  Proof. unfold Ssp, Rminus. rewrite !Ropp_involutive. ring. Qed.
End ShortTimes.

Lemma A_short Fo : 0 < Fo < 1 / 4 -> 0 < 2 * sqrt Fo < 1.
Proof.
  intros H. pose proof (sqrt_lt_R0 Fo ltac:(lra)). split; [lra|]. assert (sqrt Fo < 1 / 2); [|lra]. rewrite <- (sqrt_square (1 / 2)) by lra. apply sqrt_lt_1_alt. lra.
Qed.
Lemma cos_odd_bound C n : Rabs (cos (INR (2 * n + 1) * C)) <= INR (2 * n + 1) * Rabs (cos C).
Proof.
  induction n as [|n IH]; [cbn; rewrite !Rmult_1_l; lra|].
  replace (INR (2 * S n + 1) * C) with (INR (2 * n + 1) * C + 2 * C) by (replace (2 * S n + 1)%nat with (2 * n + 1 + 2)%nat by lia; rewrite (plus_INR (2 * n + 1) 2); cbn [INR]; ring).
  replace (INR (2 * S n + 1)) with (INR (2 * n + 1) + 2) by (replace (2 * S n + 1)%nat with (2 * n + 1 + 2)%nat by lia; rewrite (plus_INR (2 * n + 1) 2); cbn [INR]; ring).
  rewrite cos_plus. set (a := cos (INR (2 * n + 1) * C)) in *. set (b := sin (INR (2 * n + 1) * C)).
  assert (B : Rabs b <= 1) by (unfold b; apply Rabs_le; split; apply SIN_bound). assert (C2 : Rabs (cos (2 * C)) <= 1) by (apply Rabs_le; split; apply COS_bound).
  assert (S2 : Rabs (sin (2 * C)) <= 2 * Rabs (cos C)).
  { rewrite sin_2a, !Rabs_mult. rewrite (Rabs_right 2) by lra. assert (Rabs (sin C) <= 1) by (apply Rabs_le; split; apply SIN_bound). pose proof (Rabs_pos (cos C)). nra. }
  unfold Rminus. eapply Rle_trans; [apply Rabs_triang|]. rewrite Rabs_Ropp, !Rabs_mult. pose proof (Rabs_pos a). pose proof (Rabs_pos b). pose proof (Rabs_pos (cos C)). nra.
Qed.
Lemma q_small Fo c n : 1 / 4 <= Fo -> 0 < c -> INR n <= c * Fo * PI ^ 2 * 10 -> exp (- (c * Fo * PI ^ 2)) <= / (11 / 10) ^ n.
Proof.
  intros H Hc Hn. rewrite exp_Ropp. apply Rinv_le_contravar; [apply pow_lt; lra|]. apply Rle_trans with (exp (INR n * (1 / 10))); [|apply exp_le; lra].
  rewrite exp_mult_pow. apply pow_incr. split; [lra|]. pose proof (exp_ge1 (1 / 10) ltac:(lra)). lra.
Qed.

(** the sheet profile: 0 at time zero, between 0 and 1 for every time and position *)
Theorem C58_sheet Fo x : 0 <= Fo -> Rabs x <= 1 -> 0 <= profile_sheet Fo x <= 1 /\ profile_sheet 0 x = 0.
Proof.
  intros HF Hx. split; [|unfold profile_sheet; now rewrite (proj2 (Reqb_true 0 0) eq_refl)]. unfold profile_sheet.
  destruct (Reqb Fo 0) eqn:E0; [lra|]. assert (F0 : Fo <> 0) by (intros E; apply (proj2 (Reqb_true _ _)) in E; congruence).
  destruct odd1_v as (O0 & O1 & O2 & O3). destruct sgn_v as (S0 & S1 & S2 & S3).
  destruct (Rltb Fo (1 / 4)) eqn:E1.
  - apply Rltb_true in E1. pose proof (A_short Fo ltac:(lra)) as HA. cbv zeta. cbn [sumn]. rewrite O0, O1, O2, O3, S0, S1, S2, S3.
    pose proof (Ssh_bounds (2 * sqrt Fo) HA x Hx) as B. unfold Ssh in B. lra.
  - assert (F1 : 1 / 4 <= Fo) by (destruct (Rlt_dec Fo (1 / 4)) as [L|L]; [apply (proj2 (Rltb_true _ _)) in L; congruence|lra]).
    cbv zeta. set (C := PI / 2 * x). set (S := sumn 4 _). pose proof PI_bounds as (P1 & P2).
    set (q := exp (- (PI ^ 2 / 4) * Fo)). assert (Hq : 0 < q) by apply exp_pos.
    assert (Hq6 : q <= 6 / 10).
    { unfold q. replace (- (PI ^ 2 / 4) * Fo) with (- (1 / 4 * Fo * PI ^ 2)) by field. eapply Rle_trans; [apply (q_small Fo (1 / 4) 6); [lra|lra|cbn [INR]; nra]|]. lra. }
    assert (Q : forall n, exp (- (PI ^ 2 / 4) * Fo * odd1 n ^ 2) = q ^ ((2 * n + 1) * (2 * n + 1))).
    { intros n. unfold q. rewrite <- exp_mult_pow. f_equal. unfold odd1. rewrite (mult_INR (2 * n + 1) (2 * n + 1)). ring. }
    assert (Hc : 0 <= cos C). { apply cos_ge_0; unfold C; apply Rabs_def2b in Hx || (apply Rcomplements.Rabs_le_between in Hx); nra. }
    assert (HC1 : cos C <= 1) by apply COS_bound.
    assert (T : forall n, Rabs (sgn_n n / odd1 n * exp (- (PI ^ 2 / 4) * Fo * odd1 n ^ 2) * cos (C * odd1 n)) <= q ^ ((2 * n + 1) * (2 * n + 1)) * cos C).
    { intros n. rewrite Q, !Rabs_mult. rewrite (Rabs_right (q ^ _)) by (apply Rle_ge; left; now apply pow_lt). assert (On : 0 < odd1 n) by (unfold odd1; apply lt_0_INR; lia).
      unfold Rdiv. rewrite Rabs_mult. rewrite (Rabs_right (/ odd1 n)) by (apply Rle_ge; left; now apply Rinv_0_lt_compat).
      replace (Rabs (sgn_n n)) with 1 by (unfold sgn_n; destruct (Nat.odd n); [rewrite Rabs_left|rewrite Rabs_right]; lra).
      pose proof (cos_odd_bound C n) as CB. fold (odd1 n) in CB. rewrite (Rmult_comm (odd1 n) C), (Rabs_right (cos C)) in CB by lra. pose proof (pow_lt q ((2 * n + 1) * (2 * n + 1)) Hq) as PW.
      set (w := Rabs (cos (C * odd1 n))) in *. replace (1 * / odd1 n * q ^ ((2 * n + 1) * (2 * n + 1)) * w) with (q ^ ((2 * n + 1) * (2 * n + 1)) * (/ odd1 n * w)) by ring.
      apply Rmult_le_compat_l; [lra|]. apply (Rmult_le_reg_l (odd1 n)); auto. rewrite <- Rmult_assoc, Rinv_r, Rmult_1_l by lra. exact CB. }
    pose proof (T 1%nat) as T1. pose proof (T 2%nat) as T2. pose proof (T 3%nat) as T3. cbn [Nat.mul Nat.add] in T1, T2, T3.
    assert (T0 : sgn_n 0 / odd1 0 * exp (- (PI ^ 2 / 4) * Fo * odd1 0 ^ 2) * cos (C * odd1 0) = q * cos C). { rewrite Q, S0, O0. cbn [Nat.mul Nat.add]. rewrite Rmult_1_r. replace (1 / 1) with 1 by field. ring. }
    assert (ES : S = q * cos C + sgn_n 1 / odd1 1 * exp (- (PI ^ 2 / 4) * Fo * odd1 1 ^ 2) * cos (C * odd1 1) + sgn_n 2 / odd1 2 * exp (- (PI ^ 2 / 4) * Fo * odd1 2 ^ 2) * cos (C * odd1 2) + sgn_n 3 / odd1 3 * exp (- (PI ^ 2 / 4) * Fo * odd1 3 ^ 2) * cos (C * odd1 3)).
    { unfold S. cbn [sumn]. rewrite T0. ring. }
    apply Rcomplements.Rabs_le_between in T1. apply Rcomplements.Rabs_le_between in T2. apply Rcomplements.Rabs_le_between in T3.
    assert (PW : forall n, (9 <= n)%nat -> 0 <= q ^ n <= q / 50).
    { intros n Hn. split; [left; now apply pow_lt|]. replace n with (1 + 8 + (n - 9))%nat by lia. rewrite !pow_add, pow_1. assert (q ^ 8 <= / 50) by (apply Rle_trans with ((6 / 10) ^ 8); [apply pow_incr; lra|lra]).
      assert (0 < q ^ 8) by now apply pow_lt. assert (0 <= q ^ (n - 9) <= 1) by (split; [left; now apply pow_lt|rewrite <- (pow1 (n - 9)); apply pow_incr; lra]). assert (q * q ^ 8 * q ^ (n - 9) <= q * q ^ 8 * 1) by (apply Rmult_le_compat_l; nra). nra. }
    pose proof (PW 9%nat ltac:(lia)). pose proof (PW 25%nat ltac:(lia)). pose proof (PW 49%nat ltac:(lia)).
    assert (L : 0 <= S) by (rewrite ES; nra). assert (U : S <= 65 / 100) by (rewrite ES; nra).
    assert (0 < / PI) by (apply Rinv_0_lt_compat; lra). assert (/ PI <= / 3) by (apply Rinv_le_contravar; lra). unfold Rdiv. split; nra.
Qed.

Lemma Reqb_refl x : Reqb x x = true.
Proof. now apply Reqb_true. Qed.
Lemma Rltb_t x y : x < y -> Rltb x y = true.
Proof. intros H. now apply Rltb_true. Qed.
Lemma q12 Fo : 1 / 4 <= Fo -> 0 < exp (- PI ^ 2 * Fo) <= 12 / 100.
Proof.
  intros H. split; [apply exp_pos|]. pose proof PI_bounds as (P1 & P2). replace (- PI ^ 2 * Fo) with (- (1 * Fo * PI ^ 2)) by ring.
  eapply Rle_trans; [apply (q_small Fo 1 24); [lra|lra|]|lra]. replace (INR 24) with 24 by (rewrite INR_IZR_INZ; reflexivity). assert (979 / 100 <= PI ^ 2) by nra. nra.
Qed.
Lemma pow_le1 q n m : 0 <= q <= 1 -> (n <= m)%nat -> 0 <= q ^ m <= q ^ n.
Proof.
  intros Hq H. split; [now apply pow_le|]. replace m with (n + (m - n))%nat by lia. rewrite pow_add. assert (0 <= q ^ n) by now apply pow_le.
  assert (0 <= q ^ (m - n) <= 1) by (split; [now apply pow_le|rewrite <- (pow1 (m - n)); apply pow_incr; lra]). nra.
Qed.
Lemma sphere_even Fo r : profile_sphere Fo (- r) = profile_sphere Fo r.
Proof.
  unfold profile_sphere. rewrite Rabs_Ropp. destruct (Rltb (Rabs r) eps) eqn:E; auto. destruct (Reqb Fo 0); auto.
  assert (r <> 0). { intros ->. rewrite Rabs_R0, Rltb_t in E; [discriminate|]. unfold eps. apply Rinv_0_lt_compat. apply pow_lt. lra. }
  destruct (Rltb Fo (1 / 4)).
  - cbv zeta. cbn [sumn]. unfold Rminus. rewrite !Ropp_involutive. field; auto.
  - cbv zeta. pose proof PI_RGT_0. cbn [sumn]. replace (- r * PI * INR 1) with (- (r * PI * INR 1)) by ring. replace (- r * PI * INR 2) with (- (r * PI * INR 2)) by ring. replace (- r * PI * INR 3) with (- (r * PI * INR 3)) by ring.
    rewrite !sin_neg. cbn [INR]. field. lra.
Qed.
Lemma expk q B k : q = exp B -> exp (B * INR k ^ 2) = q ^ (k * k).
Proof. intros ->. rewrite <- exp_mult_pow. f_equal. rewrite mult_INR. ring. Qed.
(** the sphere profile away from the centre *)
Theorem C58_sphere Fo r : 0 <= Fo -> eps <= Rabs r <= 1 -> 0 <= profile_sphere Fo r <= 1 /\ profile_sphere 0 r = 0.
Proof.
  assert (EP : 0 < eps) by (unfold eps; apply Rinv_0_lt_compat; apply pow_lt; lra).
  assert (G : forall Fo r, 0 <= Fo -> eps <= r <= 1 -> 0 <= profile_sphere Fo r <= 1).
  { clear Fo r. intros Fo r HF Hr. unfold profile_sphere. rewrite (Rabs_right r) by lra. rewrite Rltb_f by lra. destruct (Reqb Fo 0) eqn:E0; [lra|].
    assert (F0 : Fo <> 0) by (intros E; apply (proj2 (Reqb_true _ _)) in E; congruence). destruct odd1_v as (O0 & O1 & O2 & O3). destruct (Rltb Fo (1 / 4)) eqn:E1.
    - apply Rltb_true in E1. cbv zeta. cbn [sumn]. rewrite O0, O1, O2, O3. pose proof (Ssp_bounds (2 * sqrt Fo) (A_short Fo ltac:(lra)) r ltac:(lra)) as B. unfold Ssp in B.
      match type of B with 0 <= ?S <= r => assert (0 <= S / r <= 1) as Q end.
      { split; [apply Rmult_le_pos; [lra|left; apply Rinv_0_lt_compat; lra]|]. apply (Rmult_le_reg_r r); [lra|]. unfold Rdiv. rewrite Rmult_assoc, Rinv_l by lra. lra. }
      match goal with |- 0 <= ?S / r <= 1 => match type of Q with 0 <= ?S' / r <= 1 => replace S with S' by ring end end. exact Q.
    - assert (F1 : 1 / 4 <= Fo) by (destruct (Rlt_dec Fo (1 / 4)) as [L|L]; [apply (proj2 (Rltb_true _ _)) in L; congruence|lra]).
      cbv zeta. destruct (q12 Fo F1) as (Q0 & Q1). set (q := exp (- PI ^ 2 * Fo)) in *. pose proof PI_bounds as (P1 & P2). set (th := r * PI). assert (TH : 0 < th <= PI) by (unfold th; nra).
      destruct sgn_v as (S0 & S1 & S2 & S3). cbn [sumn]. rewrite !(expk q (- PI ^ 2 * Fo)) by reflexivity. rewrite S1, S2, S3. cbn [Nat.mul Nat.add]. fold th. cbn [INR].
      assert (SN : 0 <= sin th <= th) by (split; [apply sin_ge_0; lra|left; apply sin_lt_x; lra]).
      replace (th * (1 + 1)) with (2 * th) by ring. replace (th * (1 + 1 + 1)) with (2 * th + th) by ring. rewrite Rmult_1_r.
      rewrite sin_plus, cos_2a_cos, sin_2a. pose proof (COS_bound th) as CB. set (c := cos th) in *. set (s := sin th) in *.
      set (b := q - q ^ 4 * c + q ^ 9 / 3 * (4 * c * c - 1)).
      assert (Hb : 0 <= b <= 2 / 10).
      { pose proof (pow_le1 q 4 9 ltac:(lra) ltac:(lia)). assert (0 <= q ^ 4 <= q * (2 / 1000)). { split; [apply pow_le; lra|]. assert (q ^ 3 <= (12 / 100) ^ 3) by (apply pow_incr; lra). replace (q ^ 4) with (q * q ^ 3) by ring. assert (0 <= q ^ 3) by (apply pow_le; lra). nra. }
        assert (-1 <= 4 * c * c - 1 <= 3) by nra. unfold b. set (q4 := q ^ 4) in *. set (q9 := q ^ 9) in *. split; nra. }
      match goal with |- 0 <= ?v <= 1 => replace v with (1 - 2 * (s / th) * b) end.
      + assert (0 <= s / th <= 1). { split; [apply Rmult_le_pos; [lra|left; apply Rinv_0_lt_compat; lra]|]. apply (Rmult_le_reg_r th); [lra|]. unfold Rdiv. rewrite Rmult_assoc, Rinv_l by lra. lra. }
        assert (0 <= s / th * b <= 1 * (2 / 10)) by (split; [apply Rmult_le_pos; lra|apply Rmult_le_compat; lra]). lra.
      + unfold b. replace (s * s) with (1 - c * c) by (unfold s, c; pose proof (sin2_cos2 th); unfold Rsqr in *; lra) || idtac. replace (PI * r) with th by (unfold th; ring). field. lra. }
  intros HF Hr. assert (Z : profile_sphere 0 r = 0). { unfold profile_sphere. rewrite Rltb_f by lra. now rewrite Reqb_refl. }
  split; auto. unfold Rabs in Hr. destruct (Rcase_abs r); [rewrite <- sphere_even|]; apply G; lra.
Qed.
(** at the centre the value never exceeds 1 and is nonnegative once Fo >= 1/20 *)
Theorem C58_centre Fo r : 0 <= Fo -> Rabs r < eps -> profile_sphere Fo r <= 1 /\ (1 / 20 <= Fo -> 0 <= profile_sphere Fo r) /\ (Fo <= 1 / 100 -> profile_sphere Fo r < 0).
Proof.
  intros HF Hr. unfold profile_sphere. rewrite Rltb_t by auto. cbv zeta. pose proof PI_bounds as (P1 & P2). set (q := exp (- PI ^ 2 * Fo)).
  destruct sgn_v as (S0 & S1 & S2 & S3). cbn [sumn]. rewrite !(expk q (- PI ^ 2 * Fo)) by reflexivity. rewrite S1, S2, S3. cbn [Nat.mul Nat.add].
  assert (P3 : 979 / 100 <= PI ^ 2 <= 993 / 100) by nra.
  assert (Q0 : 0 < q) by apply exp_pos. assert (Q1 : q <= 1). { unfold q. rewrite <- exp_0. apply exp_le. nra. }
  pose proof (pow_le1 q 4 9 ltac:(lra) ltac:(lia)). pose proof (pow_le1 q 1 4 ltac:(lra) ltac:(lia)). rewrite pow_1 in *.
  split; [lra|]. split.
  - intros F. assert (Q2 : q <= 64 / 100).
    { unfold q. replace (- PI ^ 2 * Fo) with (- (PI ^ 2 * Fo)) by ring. rewrite exp_Ropp. replace (64 / 100) with (/ (100 / 64)) by field. apply Rinv_le_contravar; [lra|].
      apply Rle_trans with (exp (48 / 100)); [apply exp_lower; unfold q6; lra|apply exp_le; nra]. }
    assert (q ^ 9 <= 181 / 10000) by (apply Rle_trans with ((64 / 100) ^ 9); [apply pow_incr; lra|lra]).
    assert (q ^ 4 - q + 4819 / 10000 >= 0). { replace (q ^ 4) with (q * q * (q * q)) by ring. pose proof (Rle_0_sqr (q * q - 4 / 10)) as E1. pose proof (Rle_0_sqr (q - 625 / 1000)) as E2. unfold Rsqr in *. nra. }
    lra.
  - intros F. assert (Q2 : 9 / 10 <= q). { unfold q. destruct (Req_dec Fo 0) as [-> |N]; [rewrite Rmult_0_r, exp_0; lra|]. pose proof (exp_ineq1 (- PI ^ 2 * Fo) ltac:(nra)). nra. }
    replace (q ^ 9) with (q * (q ^ 4 * q ^ 4)) by ring. set (y := q ^ 4) in *. assert (9 / 10 * (y * y) <= q * (y * y)) by (apply Rmult_le_compat_r; nra). pose proof (Rle_0_sqr (y - 5 / 9)) as E1. unfold Rsqr in E1. nra.
Qed.
(** finding: at the centre the long-time series is used at every time, so that at time zero the accomplished
    fraction is -1 instead of 0 *)
Theorem C58_refuted : exists Fo r, 0 <= Fo /\ Rabs r <= 1 /\ profile_sphere Fo r = -1.
Proof.
  exists 0, 0. rewrite Rabs_R0. repeat split; try lra. unfold profile_sphere. rewrite Rabs_R0, Rltb_t by (unfold eps; apply Rinv_0_lt_compat; apply pow_lt; lra).
  cbv zeta. rewrite Rmult_0_r. cbn [sumn]. rewrite !Rmult_0_l, exp_0. destruct sgn_v as (S0 & S1 & S2 & S3). rewrite S1, S2, S3. lra.
Qed.
(** uptakes *)
Lemma s_bounds : 561 / 1000 < 1 / sqrt PI < 569 / 1000.
Proof.
  pose proof spi_bounds as (A & B). unfold Rdiv. rewrite Rmult_1_l. split.
  - apply Rlt_trans with (/ (178 / 100)); [lra|]. apply Rinv_lt_contravar; nra.
  - apply Rlt_trans with (/ (176 / 100)); [|lra]. apply Rinv_lt_contravar; nra.
Qed.
Theorem C58_uptake_sheet Fo : 0 <= Fo -> 0 <= uptake_sheet Fo <= 1 /\ uptake_sheet 0 = 0.
Proof.
  intros HF. split; [|unfold uptake_sheet; now rewrite Reqb_refl]. unfold uptake_sheet. destruct (Reqb Fo 0) eqn:E0; [lra|].
  assert (F0 : Fo <> 0) by (intros E; apply (proj2 (Reqb_true _ _)) in E; congruence). destruct (Rltb Fo (1 / 4)) eqn:E1.
  - apply Rltb_true in E1. cbv zeta. pose proof (A_short Fo ltac:(lra)) as HA. set (A := sqrt Fo) in *. destruct sgn_v as (S0 & S1 & S2 & S3). cbn [sumn]. rewrite S1, S2, S3.
    assert (I : forall k, (1 <= k)%nat -> 0 <= ierfc (INR k / A) <= 1 / sqrt PI / 450).
    { intros k Hk. apply ierfc_small. assert (1 <= INR k) by (change 1 with (INR 1); now apply le_INR). apply (Rmult_le_reg_r A); [lra|]. unfold Rdiv. rewrite Rmult_assoc, Rinv_l by lra. nra. }
    pose proof (I 1%nat ltac:(lia)). pose proof (I 2%nat ltac:(lia)). pose proof (I 3%nat ltac:(lia)). pose proof s_bounds as SB. set (s := 1 / sqrt PI) in *.
    set (a1 := ierfc (INR 1 / A)) in *. set (a2 := ierfc (INR 2 / A)) in *. set (a3 := ierfc (INR 3 / A)) in *. assert (0 <= s + 2 * (0 + -1 * a1 + 1 * a2 + -1 * a3) <= 6 / 10) by lra. split; nra.
  - cbv zeta. destruct odd1_v as (O0 & O1 & O2 & O3). cbn [sumn]. rewrite O0, O1, O2. pose proof PI_bounds as (P1 & P2). assert (P3 : 979 / 100 <= PI ^ 2 <= 993 / 100) by nra.
    assert (E : forall y, 0 <= y -> 0 < exp (- (Fo * PI ^ 2) / 4 * y) <= 1). { intros y Hy. split; [apply exp_pos|]. rewrite <- exp_0. apply exp_le. assert (0 <= Fo * PI ^ 2 * y) by (apply Rmult_le_pos; [apply Rmult_le_pos; lra|lra]). lra. }
    pose proof (E (1 ^ 2) ltac:(lra)). pose proof (E (3 ^ 2) ltac:(lra)). pose proof (E (5 ^ 2) ltac:(lra)). set (e1 := exp (_ * 1 ^ 2)) in *. set (e2 := exp (_ * 3 ^ 2)) in *. set (e3 := exp (_ * 5 ^ 2)) in *.
    set (S := 0 + 1 / 1 ^ 2 * e1 + 1 / 3 ^ 2 * e2 + 1 / 5 ^ 2 * e3). assert (0 <= S <= 116 / 100) by (unfold S; lra).
    assert (0 < / PI ^ 2 <= / (979 / 100)) by (split; [apply Rinv_0_lt_compat|apply Rinv_le_contravar]; lra). unfold Rdiv. split; nra.
Qed.
Theorem C58_uptake_sphere Fo : 0 <= Fo -> 0 <= uptake_sphere Fo <= 1 /\ uptake_sphere 0 = 0.
Proof.
  intros HF. split; [|unfold uptake_sphere; now rewrite Reqb_refl]. unfold uptake_sphere. destruct (Reqb Fo 0) eqn:E0; [lra|].
  assert (F0 : Fo <> 0) by (intros E; apply (proj2 (Reqb_true _ _)) in E; congruence). destruct (Rltb Fo (1 / 4)) eqn:E1.
  - apply Rltb_true in E1. cbv zeta. pose proof (A_short Fo ltac:(lra)) as HA. pose proof (sqrt_sqrt Fo ltac:(lra)) as SQ. set (A := sqrt Fo) in *. cbn [sumn].
    assert (I : forall k, (1 <= k)%nat -> 0 <= ierfc (INR k / A) <= 1 / sqrt PI / 450).
    { intros k Hk. apply ierfc_small. assert (1 <= INR k) by (change 1 with (INR 1); now apply le_INR). apply (Rmult_le_reg_r A); [lra|]. unfold Rdiv. rewrite Rmult_assoc, Rinv_l by lra. nra. }
    pose proof (I 1%nat ltac:(lia)). pose proof (I 2%nat ltac:(lia)). pose proof (I 3%nat ltac:(lia)). pose proof s_bounds as SB. set (s := 1 / sqrt PI) in *.
    set (a1 := ierfc (INR 1 / A)) in *. set (a2 := ierfc (INR 2 / A)) in *. set (a3 := ierfc (INR 3 / A)) in *. set (w := s + 2 * (0 + a1 + a2 + a3)). assert (561 / 1000 <= w <= 577 / 1000) by (unfold w; lra). rewrite <- SQ.
    split; nra.
  - cbv zeta. cbn [sumn]. pose proof PI_bounds as (P1 & P2). assert (P3 : 979 / 100 <= PI ^ 2 <= 993 / 100) by nra.
    assert (E : forall y, 0 <= y -> 0 < exp (- Fo * PI ^ 2 * y) <= 1). { intros y Hy. split; [apply exp_pos|]. rewrite <- exp_0. apply exp_le. assert (0 <= Fo * PI ^ 2 * y) by (apply Rmult_le_pos; [apply Rmult_le_pos; lra|lra]). lra. }
    pose proof (E (INR 1 ^ 2) ltac:(cbn; lra)). pose proof (E (INR 2 ^ 2) ltac:(cbn; lra)). pose proof (E (INR 3 ^ 2) ltac:(cbn; lra)). set (e1 := exp (_ * INR 1 ^ 2)) in *. set (e2 := exp (_ * INR 2 ^ 2)) in *. set (e3 := exp (_ * INR 3 ^ 2)) in *. cbn [INR].
    set (S := 0 + 1 / 1 ^ 2 * e1 + 1 / (1 + 1) ^ 2 * e2 + 1 / (1 + 1 + 1) ^ 2 * e3). assert (0 <= S <= 137 / 100) by (unfold S; lra).
    assert (0 < / PI ^ 2 <= / (979 / 100)) by (split; [apply Rinv_0_lt_compat|apply Rinv_le_contravar]; lra). unfold Rdiv. split; nra.
Qed.
(** the semi-infinite medium: a decreasing profile in (0, 1]; 0 inside at time zero, but nan at the surface *)
Theorem C58_semiinf Dc : 0 < Dc ->
  (forall t x, 0 < t -> 0 <= x -> exists v, profile_semiinf t x Dc = Fin v /\ 0 < v <= 1 /\ (0 < x -> v < 1)) /\
  (forall t x y v w, 0 < t -> x < y -> profile_semiinf t x Dc = Fin v -> profile_semiinf t y Dc = Fin w -> w < v) /\
  (forall s t x v w, 0 < s < t -> 0 < x -> profile_semiinf s x Dc = Fin v -> profile_semiinf t x Dc = Fin w -> v < w) /\
  (forall x, 0 < x -> profile_semiinf 0 x Dc = Fin 0) /\ profile_semiinf 0 0 Dc = NaN.
Proof.
  intros HD. assert (A : forall t, 0 < t -> 0 < 2 * sqrt (Dc * t)) by (intros t Ht; pose proof (sqrt_lt_R0 (Dc * t) ltac:(nra)); lra).
  assert (V : forall t x, 0 < t -> profile_semiinf t x Dc = Fin (erfc (x / (2 * sqrt (Dc * t))))). { intros t x Ht. unfold profile_semiinf, np_div. rewrite Reqb_f by (pose proof (A t Ht); lra). reflexivity. }
  assert (Z : 2 * sqrt (Dc * 0) = 0) by (rewrite Rmult_0_r, sqrt_0; ring).
  repeat apply conj.
  - intros t x Ht Hx. rewrite V by auto. eexists. split; [reflexivity|]. pose proof (A t Ht) as At. pose proof (Rinv_0_lt_compat _ At). split; [split; [apply erfc_bounds|]|].
    + rewrite <- erfc_0. apply erfc_decr_le. apply Rmult_le_pos; lra.
    + intros. rewrite <- erfc_0. apply erfc_decr. apply Rmult_lt_0_compat; lra.
  - intros t x y v w Ht Hxy. rewrite !V by auto. intros [= <-] [= <-]. apply erfc_decr. apply Rmult_lt_compat_r; auto. apply Rinv_0_lt_compat. auto.
  - intros s t x v w Hst Hx. rewrite !V by lra. intros [= <-] [= <-]. apply erfc_decr. apply Rmult_lt_compat_l; auto. apply Rinv_lt_contravar; [apply Rmult_lt_0_compat; apply A; lra|]. apply Rmult_lt_compat_l; [lra|]. apply sqrt_lt_1_alt. nra.
  - intros x Hx. unfold profile_semiinf, np_div. rewrite Z, Reqb_refl, Reqb_f by lra. rewrite Rltb_t by auto. reflexivity.
  - unfold profile_semiinf, np_div. rewrite Z, !Reqb_refl. reflexivity.
Qed.
(** concrete: the middle of a sheet at Fo = 1 is almost equilibrated *)
Example C58_example : 8 / 10 <= profile_sheet 1 0 <= 1.
Proof.
  destruct (C58_sheet 1 0 ltac:(lra) ltac:(rewrite Rabs_R0; lra)) as (B & _). split; [|apply B]. unfold profile_sheet. rewrite Reqb_f, Rltb_f by lra. cbv zeta. rewrite Rmult_0_r.
  destruct odd1_v as (O0 & O1 & O2 & O3). destruct sgn_v as (S0 & S1 & S2 & S3). cbn [sumn]. rewrite O0, O1, O2, O3, S0, S1, S2, S3, !Rmult_0_l, cos_0. rewrite !Rmult_1_r.
  pose proof PI_bounds as (P1 & P2). assert (P3 : 979 / 100 <= PI ^ 2 <= 993 / 100) by nra.
  set (q := exp (- (PI ^ 2 / 4))). assert (Q : 0 < q <= 1 / 10).
  { split; [apply exp_pos|]. unfold q. rewrite exp_Ropp. replace (1 / 10) with (/ 10) by field. apply Rinv_le_contravar; [lra|]. apply Rle_trans with (exp (INR 4 * (6 / 10))); [|apply exp_le; cbn; nra]. rewrite exp_mult_pow.
    assert (18 / 10 <= exp (6 / 10)) by (apply exp_lower; unfold q6; lra). apply Rle_trans with ((18 / 10) ^ 4); [lra|apply pow_incr; lra]. }
  assert (E : forall y, 1 <= y -> 0 < exp (- (PI ^ 2 / 4) * y) <= q). { intros y Hy. split; [apply exp_pos|]. unfold q. apply exp_le. nra. }
  pose proof (E (1 ^ 2) ltac:(lra)). pose proof (E (3 ^ 2) ltac:(lra)). pose proof (E (5 ^ 2) ltac:(lra)). pose proof (E (7 ^ 2) ltac:(lra)).
  set (e1 := exp (_ * 1 ^ 2)) in *. set (e2 := exp (_ * 3 ^ 2)) in *. set (e3 := exp (_ * 5 ^ 2)) in *. set (e4 := exp (_ * 7 ^ 2)) in *.
  set (S := 0 + _ * e1 + _ + _ + _). assert (S <= 13 / 100) by (unfold S; lra). assert (0 < / PI <= / (313 / 100)) by (split; [apply Rinv_0_lt_compat|apply Rinv_le_contravar]; lra). unfold Rdiv. nra.
Qed.
