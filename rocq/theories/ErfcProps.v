(** C120: ierfc and i2erfc are the repeated integrals of the complementary error function. *)
From Coq Require Import Reals Lra Lia List Bool Arith Psatz.
From Coquelicot Require Import Coquelicot.
From Verif Require Import Prelude RootsModel KinModel CopoModel Deriv NumBounds Erf HmtModel HmtProps RtdProps IvTac.
Open Scope R_scope.

Definition gi2 (x : R) : R := (erfc x - 2 * x * gi x) / 4.
Lemma gi2_D x : D gi2 x (- gi x).
Proof.
  unfold gi2. eapply D_eq.
  - apply (D_ext (fun x => / 4 * (erfc x - 2 * (x * gi x)))); [intros; field|]. apply (D_scal (/ 4) (fun x => erfc x - 2 * (x * gi x))).
    apply (D_minus erfc (fun x => 2 * (x * gi x))); [apply erfc_D|]. apply (D_scal 2 (fun x => x * gi x)). apply (D_mult (fun x => x) gi); [apply D_id|apply gi_D].
  - pose proof spi_pos. unfold gi. field. lra.
Qed.
Lemma gi2_pos x : 0 < gi2 x.
Proof.
  unfold gi2. pose proof (erfc_bounds x) as E. pose proof (gi_pos x) as G. destruct (Rle_dec 0 x) as [H|H].
  - pose proof (erfc_lower x H) as L. unfold gi. set (e := exp (- x ^ 2) / sqrt PI) in *. assert (P : 0 < 1 + 2 * x ^ 2) by nra.
    apply (Rmult_lt_compat_l (1 + 2 * x ^ 2)) in L; auto. replace ((1 + 2 * x ^ 2) * (2 * x / (1 + 2 * x ^ 2) * e)) with (2 * x * e) in L by (field; lra). lra.
  - assert (x * gi x <= 0) by nra. lra.
Qed.
Lemma gi2_decr a b : a < b -> gi2 b < gi2 a.
Proof.
  intros H. cut (- gi2 a < - gi2 b); [lra|]. apply (mono_strict (fun x => - gi2 x) (fun x => gi x)); auto.
  - intros t _. eapply D_eq; [apply (D_opp gi2); apply gi2_D|ring].
  - intros t _. apply gi_pos.
Qed.
Lemma D_cont f x l : D f x l -> continuous f x.
Proof. intros H. apply (@ex_derive_continuous _ R_NormedModule). now exists l. Qed.
Lemma erfc_int a b : a <= b -> RInt erfc a b = gi a - gi b.
Proof.
  intros H. apply is_RInt_unique. replace (gi a - gi b) with ((fun x => - gi x) b - (fun x => - gi x) a) by (cbv beta; ring).
  apply (RInt_D (fun x => - gi x) erfc); auto.
  - intros t _. eapply D_eq; [apply (D_opp gi); apply gi_D|ring].
  - intros t _. eapply D_cont. apply erfc_D.
Qed.
Lemma gi_int a b : a <= b -> RInt gi a b = gi2 a - gi2 b.
Proof.
  intros H. apply is_RInt_unique. replace (gi2 a - gi2 b) with ((fun x => - gi2 x) b - (fun x => - gi2 x) a) by (cbv beta; ring).
  apply (RInt_D (fun x => - gi2 x) gi); auto.
  - intros t _. eapply D_eq; [apply (D_opp gi2); apply gi2_D|ring].
  - intros t _. eapply D_cont. apply gi_D.
Qed.
Lemma spi_inv1 : 0 < / sqrt PI < 1.
Proof. pose proof spi_bounds as (A & B). split; [apply Rinv_0_lt_compat; lra|]. rewrite <- Rinv_1. apply Rinv_lt_contravar; lra. Qed.
Lemma gi_up1 x : 0 <= x -> gi x <= exp (- x ^ 2).
Proof.
  intros H. pose proof (erfc_bounds x). pose proof (exp_pos (- x ^ 2)). pose proof spi_inv1. unfold gi, Rdiv. assert (0 <= x * erfc x) by (apply Rmult_le_pos; lra). nra.
Qed.
Lemma gi2_up1 x : 0 <= x -> gi2 x <= exp (- x ^ 2).
Proof.
  intros H. pose proof (erfc_upper x H). pose proof (gi_pos x). pose proof (exp_pos (- x ^ 2)). unfold gi2. assert (0 <= x * gi x) by (apply Rmult_le_pos; lra). lra.
Qed.
Lemma lim_tail f g x : (forall y, 0 <= y -> 0 <= g y <= exp (- y ^ 2)) -> (forall b, x <= b -> f b = g x - g b) -> is_lim f p_infty (g x).
Proof.
  intros Hg Hf. apply is_lim_spec. intros e. destruct (exp_neg_small e (cond_pos e)) as (X & X0 & HX). exists (Rmax x X). intros b Hb.
  assert (x <= b /\ X <= b) as (B1 & B2) by (pose proof (Rmax_l x X); pose proof (Rmax_r x X); lra).
  rewrite Hf by auto. pose proof (Hg b ltac:(lra)). pose proof (HX b B2). replace (g x - g b - g x) with (- g b) by ring. rewrite Rabs_Ropp, Rabs_right; lra.
Qed.
Lemma gi_lim x : is_lim (fun b => RInt erfc x b) p_infty (gi x).
Proof. apply lim_tail; [|intros; now apply erfc_int]. intros y Hy. pose proof (gi_pos y). pose proof (gi_up1 y Hy). lra. Qed.

(** ierfc x is the integral of erfc from x to infinity; above 30 it is replaced by 0, which is in error by
    less than e^(-900) *)
Theorem C120_ierfc x : exists I, is_lim (fun b => RInt erfc x b) p_infty (Finite I) /\
  (x <= 30 -> ierfc x = I) /\ (30 < x -> ierfc x = 0 /\ 0 < I < exp (- 900)).
Proof.
  exists (gi x). split; [apply gi_lim|]. split; intros H.
  - unfold ierfc. rewrite Rltb_f by auto. reflexivity.
  - split; [unfold ierfc; destruct (Rltb 30 x) eqn:E; [reflexivity|apply Rltb_false in E; lra]|]. split; [apply gi_pos|]. eapply Rle_lt_trans; [apply gi_up1; lra|]. apply exp_increasing. nra.
Qed.
(** i2erfc x is the integral from x to infinity of the integral of erfc *)
Theorem C120_i2erfc I x : (forall s, is_lim (fun b => RInt erfc s b) p_infty (Finite (I s))) ->
  exists J, is_lim (fun b => RInt I x b) p_infty (Finite J) /\
  (x <= 30 -> i2erfc x = J) /\ (30 < x -> i2erfc x = 0 /\ 0 < J < exp (- 900)).
Proof.
  intros HI. assert (EI : forall s, I s = gi s).
  { intros s. pose proof (is_lim_unique _ _ _ (HI s)) as A. pose proof (is_lim_unique _ _ _ (gi_lim s)) as B. rewrite A in B. now injection B. }
  exists (gi2 x). split.
  - apply lim_tail.
    + intros y Hy. pose proof (gi2_pos y). pose proof (gi2_up1 y Hy). lra.
    + intros b Hb. rewrite <- gi_int by auto. apply RInt_ext. intros; apply EI.
  - split; intros H.
    + unfold i2erfc, ierfc. rewrite Rltb_f by auto. reflexivity.
    + split; [unfold i2erfc; destruct (Rltb 30 x) eqn:E; [reflexivity|apply Rltb_false in E; lra]|]. split; [apply gi2_pos|]. eapply Rle_lt_trans; [apply gi2_up1; lra|]. apply exp_increasing. nra.
Qed.
(** both are positive up to 30 and 0 above, and decrease; the value at 0 and the reflection *)
Theorem C120_shape : (forall x, 0 < ierfc x <-> x <= 30) /\ (forall x, 0 < i2erfc x <-> x <= 30) /\
  (forall a b, a < b -> a <= 30 -> ierfc b < ierfc a /\ i2erfc b < i2erfc a) /\
  ierfc 0 = 1 / sqrt PI /\ i2erfc 0 = 1 / 4 /\
  (forall x, - 30 <= x <= 30 -> ierfc (- x) = ierfc x + 2 * x /\ i2erfc (- x) + i2erfc x = 1 / 2 + x ^ 2).
Proof.
  assert (G : forall x, x <= 30 -> ierfc x = gi x /\ i2erfc x = gi2 x) by (intros x H; unfold i2erfc, ierfc; rewrite Rltb_f by auto; split; reflexivity).
  assert (Z : forall x, 30 < x -> ierfc x = 0 /\ i2erfc x = 0) by (intros x H; unfold i2erfc, ierfc; destruct (Rltb 30 x) eqn:E; [split; reflexivity|apply Rltb_false in E; lra]).
  repeat split.
  - intros H. destruct (Rle_dec x 30) as [|N]; auto. destruct (Z x); lra.
  - intros H. destruct (G x H) as (-> & _). apply gi_pos.
  - intros H. destruct (Rle_dec x 30) as [|N]; auto. destruct (Z x); lra.
  - intros H. destruct (G x H) as (_ & ->). apply gi2_pos.
  - destruct (G a) as (-> & _); auto. destruct (Rle_dec b 30); [destruct (G b) as (-> & _); auto; now apply gi_decr|destruct (Z b) as (-> & _); [lra|apply gi_pos]].
  - destruct (G a) as (_ & ->); auto. destruct (Rle_dec b 30); [destruct (G b) as (_ & ->); auto; now apply gi2_decr|destruct (Z b) as (_ & ->); [lra|apply gi2_pos]].
  - destruct (G 0) as (-> & _); [lra|]. unfold gi. replace (- 0 ^ 2) with 0 by ring. rewrite exp_0. unfold Rdiv. ring.
  - destruct (G 0) as (_ & ->); [lra|]. unfold gi2. rewrite erfc_0. field.
  - destruct (G x) as (-> & _); [lra|]. destruct (G (- x)) as (-> & _); [lra|]. unfold gi. rewrite erfc_opp. replace ((- x) ^ 2) with (x ^ 2) by ring. ring.
  - destruct (G x) as (_ & ->); [lra|]. destruct (G (- x)) as (_ & ->); [lra|]. unfold gi2, gi. rewrite erfc_opp. replace ((- x) ^ 2) with (x ^ 2) by ring. field. pose proof spi_pos; lra.
Qed.

(** series of exp (- u) from both sides, for the value of erf *)
Lemma gauss_series x : 0 <= x -> x - x ^ 3 / 3 + x ^ 5 / 10 - x ^ 7 / 42 <= Gint x <= x - x ^ 3 / 3 + x ^ 5 / 10 - x ^ 7 / 42 + x ^ 9 / 216.
Proof.
  assert (Hd : forall u, D (fun u => exp (- u)) u (- exp (- u))) by (intros; unfold D; auto_derive; auto; ring).
  assert (E0 : forall u, 0 <= u -> exp (- u) <= 1) by (intros; rewrite <- exp_0; apply exp_le; lra).
  assert (mono : forall f df, (forall t, 0 <= t -> D f t (df t)) -> (forall t, 0 <= t -> 0 <= df t) -> forall u, 0 <= u -> f 0 <= f u).
  { intros f df Hf Hp u [Hu| <-]; [|lra]. destruct (MVT_gen f 0 u df) as (c & Hc & Ec).
    - intros t Ht. rewrite Rmin_left in Ht by lra. apply Hf. lra.
    - intros t Ht. rewrite Rmin_left, Rmax_right in Ht by lra. apply continuity_pt_filterlim. eapply D_cont. apply Hf. lra.
    - rewrite Rmin_left, Rmax_right in Hc by lra. pose proof (Hp c ltac:(lra)). assert (0 <= df c * (u - 0)) by (apply Rmult_le_pos; lra). lra. }
  assert (E1 : forall u, 0 <= u -> 1 - u <= exp (- u)).
  { intros u Hu. pose proof (mono (fun u => exp (- u) - (1 - u)) (fun u => 1 - exp (- u)) ltac:(intros; unfold D; auto_derive; auto; ring) ltac:(intros t Ht; pose proof (E0 t Ht); lra) u Hu) as M. cbv beta in M. rewrite Ropp_0, exp_0 in M. lra. }
  assert (E2 : forall u, 0 <= u -> exp (- u) <= 1 - u + u ^ 2 / 2).
  { intros u Hu. pose proof (mono (fun u => (1 - u + u ^ 2 / 2) - exp (- u)) (fun u => exp (- u) - (1 - u)) ltac:(intros; unfold D; auto_derive; auto; field) ltac:(intros t Ht; pose proof (E1 t Ht); lra) u Hu) as M. cbv beta in M. rewrite Ropp_0, exp_0 in M. lra. }
  assert (E3 : forall u, 0 <= u -> 1 - u + u ^ 2 / 2 - u ^ 3 / 6 <= exp (- u)).
  { intros u Hu. pose proof (mono (fun u => exp (- u) - (1 - u + u ^ 2 / 2 - u ^ 3 / 6)) (fun u => (1 - u + u ^ 2 / 2) - exp (- u)) ltac:(intros; unfold D; auto_derive; auto; field) ltac:(intros t Ht; pose proof (E2 t Ht); lra) u Hu) as M. cbv beta in M. rewrite Ropp_0, exp_0 in M. lra. }
  assert (E4 : forall u, 0 <= u -> exp (- u) <= 1 - u + u ^ 2 / 2 - u ^ 3 / 6 + u ^ 4 / 24).
  { intros u Hu. pose proof (mono (fun u => (1 - u + u ^ 2 / 2 - u ^ 3 / 6 + u ^ 4 / 24) - exp (- u)) (fun u => exp (- u) - (1 - u + u ^ 2 / 2 - u ^ 3 / 6)) ltac:(intros; unfold D; auto_derive; auto; field) ltac:(intros t Ht; pose proof (E3 t Ht); lra) u Hu) as M. cbv beta in M. rewrite Ropp_0, exp_0 in M. lra. }
  intros Hx. split.
  - pose proof (mono (fun x => Gint x - (x - x ^ 3 / 3 + x ^ 5 / 10 - x ^ 7 / 42)) (fun x => exp (- x ^ 2) - (1 - x ^ 2 + (x ^ 2) ^ 2 / 2 - (x ^ 2) ^ 3 / 6))) as M.
    cut (Gint 0 - (0 - 0 ^ 3 / 3 + 0 ^ 5 / 10 - 0 ^ 7 / 42) <= Gint x - (x - x ^ 3 / 3 + x ^ 5 / 10 - x ^ 7 / 42)); [rewrite Gint_0; lra|]. apply M; auto.
    + intros t _. apply (D_minus Gint (fun x => x - x ^ 3 / 3 + x ^ 5 / 10 - x ^ 7 / 42)); [apply Gint_D|]. unfold D. auto_derive; auto. field.
    + intros t _. pose proof (E3 (t ^ 2) ltac:(nra)). lra.
  - pose proof (mono (fun x => (x - x ^ 3 / 3 + x ^ 5 / 10 - x ^ 7 / 42 + x ^ 9 / 216) - Gint x) (fun x => (1 - x ^ 2 + (x ^ 2) ^ 2 / 2 - (x ^ 2) ^ 3 / 6 + (x ^ 2) ^ 4 / 24) - exp (- x ^ 2))) as M.
    cut ((0 - 0 ^ 3 / 3 + 0 ^ 5 / 10 - 0 ^ 7 / 42 + 0 ^ 9 / 216) - Gint 0 <= (x - x ^ 3 / 3 + x ^ 5 / 10 - x ^ 7 / 42 + x ^ 9 / 216) - Gint x); [rewrite Gint_0; lra|]. apply M; auto.
    + intros t _. apply (D_minus (fun x => x - x ^ 3 / 3 + x ^ 5 / 10 - x ^ 7 / 42 + x ^ 9 / 216) Gint); [|apply Gint_D]. unfold D. auto_derive; auto. field.
    + intros t _. pose proof (E4 (t ^ 2) ltac:(nra)). lra.
Qed.

(** the docstring values at 0.5: ierfc 0.19964, i2erfc 0.06996 *)
Example C120_case : Rabs (ierfc (1 / 2) - 19964 / 100000) < 1 / 10000 /\ Rabs (i2erfc (1 / 2) - 6996 / 100000) < 1 / 10000.
Proof.
  pose proof (gauss_series (1 / 2) ltac:(lra)) as G. set (a := Gint (1 / 2)) in *.
  assert (A : 0.461272 <= a <= 0.461282) by lra. clear G.
  assert (S : 5641895 / 10000000 <= / sqrt PI <= 5641896 / 10000000) by (replace (/ sqrt PI) with (1 / sqrt PI) by (unfold Rdiv; ring); iv_num 60%Z 6%nat).
  assert (E : 7788007 / 10000000 <= exp (- (1 / 2) ^ 2) <= 7788008 / 10000000) by (replace (- (1 / 2) ^ 2) with (- (1 / 4)) by field; iv_num 60%Z 6%nat).
  unfold i2erfc, ierfc, erfc, erf. rewrite Rltb_f by lra. fold a. set (e := exp (- (1 / 2) ^ 2)) in *. change (e / sqrt PI) with (e * / sqrt PI). change (2 / sqrt PI) with (2 * / sqrt PI). set (s := / sqrt PI) in *.
  assert (es : 0.43939 <= e * s <= 0.43940) by nra. assert (sa : 0.26024 <= s * a <= 0.26026) by nra.
  split; apply Rabs_def1; lra.
Qed.
Print Assumptions C120_ierfc.
Print Assumptions C120_i2erfc.
