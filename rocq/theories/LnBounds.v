(** Two-sided numerical bounds for the natural logarithm, used by the concrete cases and by the checks of
    published coefficients: ln((1 + t)/(1 - t)) = 2 (t + t^3/3 + t^5/5 + ...). *)
From Coq Require Import Reals Lra Lia Psatz.
From Coquelicot Require Import Coquelicot.
From Verif Require Import Prelude Deriv NumBounds.
Open Scope R_scope.

Definition at6 (t : R) : R := 2 * (t + t ^ 3 / 3 + t ^ 5 / 5 + t ^ 7 / 7 + t ^ 9 / 9 + t ^ 11 / 11).
Lemma at6_D t : D at6 t (2 * (1 + t ^ 2 + t ^ 4 + t ^ 6 + t ^ 8 + t ^ 10)).
Proof. unfold at6, D. auto_derive; auto. field. Qed.
Lemma lnq_D t : -1 < t < 1 -> D (fun t => ln ((1 + t) / (1 - t))) t (2 / (1 - t ^ 2)).
Proof.
  intros H. eapply D_eq.
  - apply (D_ln (fun t => (1 + t) / (1 - t))); [|apply Rdiv_lt_0_compat; lra].
    apply (D_div (fun t => 1 + t) (fun t => 1 - t)).
    + apply (D_plus (fun _ => 1) (fun t => t)); [apply D_const|apply D_id].
    + apply (D_minus (fun _ => 1) (fun t => t)); [apply D_const|apply D_id].
    + lra.
  - field. repeat split; nra.
Qed.
Lemma ln_at_lo t : 0 <= t < 1 -> at6 t <= ln ((1 + t) / (1 - t)).
Proof.
  intros H.
  pose proof (mono_incr (fun t => ln ((1 + t) / (1 - t)) - at6 t) (fun t => 2 / (1 - t ^ 2) - 2 * (1 + t ^ 2 + t ^ 4 + t ^ 6 + t ^ 8 + t ^ 10)) 0 t) as M.
  assert (E0 : ln ((1 + 0) / (1 - 0)) - at6 0 = 0) by (unfold at6; replace ((1 + 0) / (1 - 0)) with 1 by field; rewrite ln_1; field).
  cut (ln ((1 + 0) / (1 - 0)) - at6 0 <= ln ((1 + t) / (1 - t)) - at6 t); [lra|]. apply M; [lra| |].
  - intros s Hs. apply (D_minus (fun t => ln ((1 + t) / (1 - t))) at6); [apply lnq_D; lra|apply at6_D].
  - intros s Hs. assert (0 < 1 - s ^ 2) by nra.
    replace (2 / (1 - s ^ 2) - _) with (2 * (s ^ 12 / (1 - s ^ 2))) by (field; lra).
    apply Rmult_le_pos; [lra|]. apply Rmult_le_pos; [apply pow_le; lra|left; now apply Rinv_0_lt_compat].
Qed.
Lemma ln_at_hi t : 0 <= t < 1 -> ln ((1 + t) / (1 - t)) <= at6 t + 2 * t ^ 13 / (13 * (1 - t ^ 2)).
Proof.
  intros H. set (c := / (1 - t ^ 2)). assert (Pc : 0 < 1 - t ^ 2) by nra.
  pose proof (mono_incr (fun s => at6 s + 2 * c / 13 * s ^ 13 - ln ((1 + s) / (1 - s))) (fun s => 2 * (1 + s ^ 2 + s ^ 4 + s ^ 6 + s ^ 8 + s ^ 10) + 2 * c / 13 * (13 * s ^ 12) - 2 / (1 - s ^ 2)) 0 t) as M.
  assert (E0 : at6 0 + 2 * c / 13 * 0 ^ 13 - ln ((1 + 0) / (1 - 0)) = 0) by (unfold at6; replace ((1 + 0) / (1 - 0)) with 1 by field; rewrite ln_1; field; unfold c; lra).
  assert (E1 : 2 * t ^ 13 / (13 * (1 - t ^ 2)) = 2 * c / 13 * t ^ 13) by (unfold c; field; lra). rewrite E1.
  cut (at6 0 + 2 * c / 13 * 0 ^ 13 - ln ((1 + 0) / (1 - 0)) <= at6 t + 2 * c / 13 * t ^ 13 - ln ((1 + t) / (1 - t))); [lra|]. apply M; [lra| |].
  - intros s Hs. apply (D_minus (fun s => at6 s + 2 * c / 13 * s ^ 13) (fun t => ln ((1 + t) / (1 - t)))); [|apply lnq_D; lra].
    apply (D_plus at6 (fun s => 2 * c / 13 * s ^ 13)); [apply at6_D|]. apply (D_scal (2 * c / 13) (fun s => s ^ 13)). unfold D. auto_derive; auto. ring.
  - intros s Hs. assert (P2 : 0 < 1 - s ^ 2) by nra.
    assert (L : / (1 - s ^ 2) <= c) by (unfold c; apply Rinv_le_contravar; nra).
    replace (2 * (1 + s ^ 2 + s ^ 4 + s ^ 6 + s ^ 8 + s ^ 10) + 2 * c / 13 * (13 * s ^ 12) - 2 / (1 - s ^ 2)) with (2 * (s ^ 12 * (c - / (1 - s ^ 2)))) by (field; lra).
    apply Rmult_le_pos; [lra|]. apply Rmult_le_pos; [apply pow_le; lra|lra].
Qed.
(** ln of a quotient bracketed through t = (x - 1)/(x + 1) *)
Lemma ln_bracket x lo hi : 1 <= x ->
  lo <= at6 ((x - 1) / (x + 1)) -> at6 ((x - 1) / (x + 1)) + 2 * ((x - 1) / (x + 1)) ^ 13 / (13 * (1 - ((x - 1) / (x + 1)) ^ 2)) <= hi -> lo <= ln x <= hi.
Proof.
  intros H L U. set (t := (x - 1) / (x + 1)) in *.
  assert (T : 0 <= t < 1). { unfold t. split; [apply Rmult_le_pos; [lra|left; apply Rinv_0_lt_compat; lra]|]. apply (Rmult_lt_reg_r (x + 1)); [lra|]. unfold Rdiv. rewrite Rmult_assoc, Rinv_l; lra. }
  assert (E : (1 + t) / (1 - t) = x). { unfold t. field. split; lra. }
  pose proof (ln_at_lo t T) as A. pose proof (ln_at_hi t T) as B. rewrite E in A, B. lra.
Qed.
Ltac ln_num := apply ln_bracket; [lra|unfold at6; lra|unfold at6; lra].
Lemma ln_2_bounds : 6931470 / 10000000 <= ln 2 <= 6931473 / 10000000.
Proof. ln_num. Qed.
Lemma ln_54_bounds : 22314355 / 100000000 <= ln (5 / 4) <= 22314356 / 100000000.
Proof. ln_num. Qed.
Lemma ln_107_bounds : 35667494 / 100000000 <= ln (10 / 7) <= 35667495 / 100000000.
Proof. ln_num. Qed.
Lemma ln_10_split : ln 10 = 3 * ln 2 + ln (5 / 4).
Proof.
  replace 10 with (2 * (2 * (2 * (5 / 4)))) at 1 by field. rewrite !ln_mult by lra. ring.
Qed.
Lemma ln_10_bounds : 2302584 / 1000000 <= ln 10 <= 2302586 / 1000000.
Proof. rewrite ln_10_split. pose proof ln_2_bounds. pose proof ln_54_bounds. lra. Qed.
Lemma ln_07_bounds : - (35667495 / 100000000) <= ln (7 / 10) <= - (35667494 / 100000000).
Proof. replace (7 / 10) with (/ (10 / 7)) by field. rewrite ln_Rinv by lra. pose proof ln_107_bounds. lra. Qed.
