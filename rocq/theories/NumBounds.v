(** Numerical bounds for exp, ln and real powers, used by the concrete cases. *)
From Coq Require Import Reals Lra Lia Arith ZArith Psatz.
From Coquelicot Require Import Coquelicot.
From Verif Require Import Prelude Deriv.
Open Scope R_scope.

Lemma mono_incr (f f' : R -> R) a b : a <= b -> (forall t, a <= t <= b -> D f t (f' t)) -> (forall t, a <= t <= b -> 0 <= f' t) -> f a <= f b.
Proof.
  intros H HD Hp. destruct (Req_dec a b) as [-> |N]; [lra|].
  destruct (MVT_gen f a b f') as (c & Hc & E).
  - intros t Ht. rewrite Rmin_left, Rmax_right in Ht by lra. apply HD. lra.
  - intros t Ht. rewrite Rmin_left, Rmax_right in Ht by lra. apply continuity_pt_filterlim. apply (ex_derive_continuous f). eexists. apply HD. lra.
  - rewrite Rmin_left, Rmax_right in Hc by lra. pose proof (Hp c Hc). nra.
Qed.
Lemma mono_strict (f f' : R -> R) a b : a < b -> (forall t, a <= t <= b -> D f t (f' t)) -> (forall t, a < t < b -> 0 < f' t) -> f a < f b.
Proof.
  intros H HD Hp. destruct (MVT_cor2 f f' a b H) as (c & E & Hc).
  - intros t Ht. apply is_derive_Reals. now apply HD.
  - pose proof (Hp c Hc). nra.
Qed.

(** truncated series of exp(-x) *)
Definition q3 (x : R) := 1 - x + x ^ 2 / 2 - x ^ 3 / 6.
Definition q4 (x : R) := 1 - x + x ^ 2 / 2 - x ^ 3 / 6 + x ^ 4 / 24.
Definition q5 (x : R) := 1 - x + x ^ 2 / 2 - x ^ 3 / 6 + x ^ 4 / 24 - x ^ 5 / 120.
Definition q6 (x : R) := 1 - x + x ^ 2 / 2 - x ^ 3 / 6 + x ^ 4 / 24 - x ^ 5 / 120 + x ^ 6 / 720.
Lemma D_expq (q q' : R -> R) x : D q x (q' x) -> D (fun t => exp t * q t) x (exp x * (q x + q' x)).
Proof. intros H. eapply D_eq; [apply (D_mult exp q); [apply is_derive_exp|exact H]|ring]. Qed.
Lemma exp_q5 x : 0 <= x -> exp x * q5 x <= 1.
Proof.
  intros H. pose proof (mono_incr (fun t => - (exp t * q5 t)) (fun t => exp t * (t ^ 5 / 120)) 0 x H) as M.
  assert (E0 : exp 0 * q5 0 = 1) by (unfold q5; rewrite exp_0; field).
  assert (- (exp 0 * q5 0) <= - (exp x * q5 x)); [|lra]. apply M.
  - intros t _. eapply D_eq; [apply (D_opp (fun t => exp t * q5 t)); apply (D_expq q5 (fun t => - 1 + t - t ^ 2 / 2 + t ^ 3 / 6 - t ^ 4 / 24))|unfold q5; field].
    unfold q5. unfold D. auto_derive; auto. field.
  - intros t Ht. apply Rmult_le_pos; [left; apply exp_pos|]. assert (0 <= t ^ 5) by (apply pow_le; lra). lra.
Qed.
Lemma exp_q6 x : 0 <= x -> 1 <= exp x * q6 x.
Proof.
  intros H. pose proof (mono_incr (fun t => exp t * q6 t) (fun t => exp t * (t ^ 6 / 720)) 0 x H) as M.
  assert (E0 : exp 0 * q6 0 = 1) by (unfold q6; rewrite exp_0; field).
  assert (exp 0 * q6 0 <= exp x * q6 x); [|lra]. apply M.
  - intros t _. eapply D_eq; [apply (D_expq q6 (fun t => - 1 + t - t ^ 2 / 2 + t ^ 3 / 6 - t ^ 4 / 24 + t ^ 5 / 120))|unfold q6; field].
    unfold q6. unfold D. auto_derive; auto. field.
  - intros t Ht. apply Rmult_le_pos; [left; apply exp_pos|]. assert (0 <= t ^ 6) by (apply pow_le; lra). lra.
Qed.
(** usable forms *)
Lemma exp_upper x c : 0 <= x -> 0 < c -> 1 <= c * q5 x -> exp x <= c.
Proof.
  intros H Hc Q. pose proof (exp_q5 x H) as E. pose proof (exp_pos x) as P.
  assert (0 < q5 x) by (apply (Rmult_lt_reg_l c); lra). apply (Rmult_le_reg_r (q5 x)); auto. lra.
Qed.
Lemma exp_lower x c : 0 <= x -> 0 < c -> c * q6 x <= 1 -> c <= exp x.
Proof.
  intros H Hc Q. pose proof (exp_q6 x H) as E. pose proof (exp_pos x) as P.
  assert (0 < q6 x) by (apply (Rmult_lt_reg_l (exp x)); lra). apply (Rmult_le_reg_r (q6 x)); auto. lra.
Qed.
Lemma exp_mult_pow x n : exp (INR n * x) = exp x ^ n.
Proof. induction n as [|n IH]; [cbn; rewrite Rmult_0_l; apply exp_0|]. rewrite S_INR, Rmult_plus_distr_r, exp_plus, IH. cbn. rewrite Rmult_1_l. ring. Qed.

(** real powers with rational exponents against integer powers *)
Lemma rpow_gt x y (p q : nat) : 0 < x -> 0 < y -> (0 < q)%nat -> y ^ q < x ^ p -> y < Rpower x (INR p / INR q).
Proof.
  intros Hx Hy Hq H. assert (Q : 0 < INR q) by now apply lt_0_INR.
  apply ln_lt_inv; auto; [apply exp_pos|]. unfold Rpower. rewrite ln_exp.
  apply (Rmult_lt_reg_l (INR q)); auto. replace (INR q * (INR p / INR q * ln x)) with (INR p * ln x) by (field; lra).
  apply exp_lt_inv. rewrite !exp_mult_pow, !exp_ln by auto. exact H.
Qed.
Lemma rpow_lt x y (p q : nat) : 0 < x -> 0 < y -> (0 < q)%nat -> x ^ p < y ^ q -> Rpower x (INR p / INR q) < y.
Proof.
  intros Hx Hy Hq H. assert (Q : 0 < INR q) by now apply lt_0_INR.
  apply ln_lt_inv; auto; [apply exp_pos|]. unfold Rpower. rewrite ln_exp.
  apply (Rmult_lt_reg_l (INR q)); auto. replace (INR q * (INR p / INR q * ln x)) with (INR p * ln x) by (field; lra).
  apply exp_lt_inv. rewrite !exp_mult_pow, !exp_ln by auto. exact H.
Qed.
Lemma IZR_pow_lt (a b : Z) (m n : nat) : (a ^ Z.of_nat m <? b ^ Z.of_nat n)%Z = true -> IZR a ^ m < IZR b ^ n.
Proof. intros H. apply Z.ltb_lt in H. rewrite !pow_IZR. now apply IZR_lt. Qed.
(** Rpower is monotone in both arguments *)
Lemma rp_base x y a : 0 < x -> x < y -> 0 < a -> Rpower x a < Rpower y a.
Proof. intros. unfold Rpower. apply exp_increasing. apply Rmult_lt_compat_l; auto. now apply ln_increasing. Qed.
Lemma rp_base_le x y a : 0 < x -> x <= y -> 0 <= a -> Rpower x a <= Rpower y a.
Proof. intros H [L| ->] A; [|lra]. destruct A as [A| <-]; [left; now apply rp_base|]. rewrite !Rpower_O by lra. lra. Qed.
Lemma rp_pos x a : 0 < Rpower x a. Proof. apply exp_pos. Qed.
Lemma rp_one a : Rpower 1 a = 1. Proof. unfold Rpower. rewrite ln_1, Rmult_0_r. apply exp_0. Qed.
Lemma rp_lt1 x a : 0 < x < 1 -> 0 < a -> Rpower x a < 1.
Proof. intros. rewrite <- (rp_one a). apply rp_base; lra. Qed.
Lemma rp_exp_decr x a b : 0 < x < 1 -> a < b -> Rpower x b < Rpower x a.
Proof.
  intros (H1 & H2) L. unfold Rpower. apply exp_increasing. assert (ln x < 0) by (rewrite <- ln_1; now apply ln_increasing). nra.
Qed.
(** PI from Machin's formula *)
Lemma PI_bounds : 313 / 100 < PI < 315 / 100.
Proof.
  destruct (PI_2_3_7_ineq 0) as (L & _). destruct (PI_2_3_7_ineq 1) as (_ & U).
  cbn [sum_f_R0 Nat.mul Nat.add] in L, U. unfold tg_alt, PI_2_3_7_tg, Ratan_seq in L, U. cbn [Nat.mul Nat.add] in L, U. cbn [pow INR] in L, U. split; lra.
Qed.
