(** Azeotropes of the penultimate model (C29, continued): their number, and two of them that are missed. *)
From Coq Require Import Reals Lra Lia List Bool Arith.
From Verif Require Import Prelude UtilsModel RootsModel CopoModel CopoProps.
Import ListNotations.
Open Scope R_scope.

(** F1 = f1 for the penultimate model, as a cubic in f1. *)
Definition pen_cubic (r11 r12 r21 r22 x : R) : R :=
  (r21 * (x * r11 + (1 - x)) - (x * r21 + (1 - x))) * ((1 - x) * r12 + x) * x
  - (r12 * ((1 - x) * r22 + x) - ((1 - x) * r12 + x)) * (x * r21 + (1 - x)) * (1 - x).

Lemma pen_ri r11 r12 r21 r22 s1 s2 k1 k2 x : 0 <= r12 -> 0 <= r21 -> 0 < x < 1 ->
  ri (Penultimate r11 r12 r21 r22 s1 s2 k1 k2) x
  = Ok (r21 * (x * r11 + (1 - x)) / (x * r21 + (1 - x)), r12 * ((1 - x) * r22 + x) / ((1 - x) * r12 + x)).
Proof. intros H1 H2 Hx. unfold ri. cbv zeta. rewrite !pydiv_ok' by nra. reflexivity. Qed.

Lemma pen_azeo r11 r12 r21 r22 s1 s2 k1 k2 x : 0 <= r11 -> 0 <= r12 -> 0 <= r21 -> 0 <= r22 -> 0 < x < 1 ->
  exists F, model_F1 (Penultimate r11 r12 r21 r22 s1 s2 k1 k2) x = Ok (Fin F) /\ (F = x <-> pen_cubic r11 r12 r21 r22 x = 0).
Proof.
  intros H11 H12 H21 H22 Hx. unfold model_F1. rewrite check_f1_ok by lra. cbn [bind]. rewrite pen_ri by auto. cbn [bind fst snd].
  set (d1 := x * r21 + (1 - x)). set (d2 := (1 - x) * r12 + x).
  assert (D1 : 0 < d1) by (unfold d1; nra). assert (D2 : 0 < d2) by (unfold d2; nra).
  set (a := r21 * (x * r11 + (1 - x)) / d1). set (b := r12 * ((1 - x) * r22 + x) / d2).
  assert (A : 0 <= a).
  { apply Rmult_le_pos; [|left; now apply Rinv_0_lt_compat]. apply Rmult_le_pos; [auto|]. assert (0 <= x * r11) by (apply Rmult_le_pos; lra). lra. }
  assert (B : 0 <= b).
  { apply Rmult_le_pos; [|left; now apply Rinv_0_lt_compat]. apply Rmult_le_pos; [auto|]. assert (0 <= (1 - x) * r22) by (apply Rmult_le_pos; lra). lra. }
  assert (Ad : admissible x a b) by (repeat split; lra).
  rewrite inst_val by auto. eexists; split; [reflexivity|]. rewrite azeo_eq by (auto; lra).
  assert (E : pen_cubic r11 r12 r21 r22 x = ((a - 1) * x - (b - 1) * (1 - x)) * (d1 * d2)).
  { unfold pen_cubic. fold d1 d2. unfold a, b. field. lra. }
  rewrite E. assert (0 < d1 * d2) by now apply Rmult_lt_0_compat. split; intros K; [replace ((a - 1) * x) with ((b - 1) * (1 - x)) by lra; ring|].
  apply Rmult_integral in K. lra.
Qed.

(** A cubic with four different zeros vanishes. *)
Lemma cubic4 c0 c1 c2 c3 x1 x2 x3 x4 : x1 <> x2 -> x1 <> x3 -> x1 <> x4 -> x2 <> x3 -> x2 <> x4 -> x3 <> x4 ->
  (forall x, x = x1 \/ x = x2 \/ x = x3 \/ x = x4 -> c0 + c1 * x + c2 * x ^ 2 + c3 * x ^ 3 = 0) ->
  forall x, c0 + c1 * x + c2 * x ^ 2 + c3 * x ^ 3 = 0.
Proof.
  intros N12 N13 N14 N23 N24 N34 H.
  pose proof (H x1 ltac:(auto)) as E1. pose proof (H x2 ltac:(auto)) as E2. pose proof (H x3 ltac:(auto)) as E3. pose proof (H x4 ltac:(auto)) as E4. clear H.
  assert (P : forall y, y <> x1 -> c0 + c1 * y + c2 * y ^ 2 + c3 * y ^ 3 = 0 -> c1 + c2 * (y + x1) + c3 * (y ^ 2 + y * x1 + x1 ^ 2) = 0).
  { intros y Ny Ey. assert (K : (y - x1) * (c1 + c2 * (y + x1) + c3 * (y ^ 2 + y * x1 + x1 ^ 2)) = 0).
    { transitivity ((c0 + c1 * y + c2 * y ^ 2 + c3 * y ^ 3) - (c0 + c1 * x1 + c2 * x1 ^ 2 + c3 * x1 ^ 3)); [ring|lra]. }
    apply Rmult_integral in K. destruct K as [K|K]; [exfalso; apply Ny; lra|exact K]. }
  pose proof (P x2 ltac:(auto) E2) as P2. pose proof (P x3 ltac:(auto) E3) as P3. pose proof (P x4 ltac:(auto) E4) as P4. clear P.
  assert (Q : forall y, y <> x2 -> c1 + c2 * (y + x1) + c3 * (y ^ 2 + y * x1 + x1 ^ 2) = 0 -> c2 + c3 * (y + x2 + x1) = 0).
  { intros y Ny Ey. assert (K : (y - x2) * (c2 + c3 * (y + x2 + x1)) = 0).
    { transitivity ((c1 + c2 * (y + x1) + c3 * (y ^ 2 + y * x1 + x1 ^ 2)) - (c1 + c2 * (x2 + x1) + c3 * (x2 ^ 2 + x2 * x1 + x1 ^ 2))); [ring|lra]. }
    apply Rmult_integral in K. destruct K as [K|K]; [exfalso; apply Ny; lra|exact K]. }
  pose proof (Q x3 ltac:(auto) P3) as Q3. pose proof (Q x4 ltac:(auto) P4) as Q4. clear Q.
  assert (Z3 : c3 = 0). { assert (K : (x4 - x3) * c3 = 0) by lra. apply Rmult_integral in K. destruct K as [K|K]; [exfalso; apply N34; lra|exact K]. }
  subst c3. assert (c2 = 0) by lra. subst c2. assert (c1 = 0) by lra. subst c1. assert (c0 = 0) by lra. subst c0. intros x. ring.
Qed.

(** The penultimate model has at most three azeotropes, or every composition is one. *)
Theorem C29_penultimate_count : forall r11 r12 r21 r22 s1 s2 k1 k2,
  0 <= r11 -> 0 <= r12 -> 0 <= r21 -> 0 <= r22 ->
  let az x := 0 < x < 1 /\ model_F1 (Penultimate r11 r12 r21 r22 s1 s2 k1 k2) x = Ok (Fin x) in
  (exists x1 x2 x3 x4, x1 < x2 < x3 /\ x3 < x4 /\ az x1 /\ az x2 /\ az x3 /\ az x4) -> forall x, 0 < x < 1 -> az x.
Proof.
  intros r11 r12 r21 r22 s1 s2 k1 k2 H11 H12 H21 H22 az (x1 & x2 & x3 & x4 & (L12 & L23) & L34 & A1 & A2 & A3 & A4) x Hx.
  assert (I : forall y, az y -> pen_cubic r11 r12 r21 r22 y = 0).
  { intros y (Hy & Ey). destruct (pen_azeo r11 r12 r21 r22 s1 s2 k1 k2 y H11 H12 H21 H22 Hy) as (F & EF & K). rewrite Ey in EF. injection EF as <-. now apply K. }
  destruct (pen_azeo r11 r12 r21 r22 s1 s2 k1 k2 x H11 H12 H21 H22 Hx) as (F & EF & K). split; [auto|]. rewrite EF. do 2 f_equal. apply K.
  set (p := pen_cubic r11 r12 r21 r22).
  set (c0 := p 0). set (c3 := (p 3 - 3 * p 2 + 3 * p 1 - p 0) / 6). set (c2 := (p 2 - 2 * p 1 + p 0) / 2 - 3 * c3). set (c1 := p 1 - p 0 - c2 - c3).
  assert (EP : forall y, p y = c0 + c1 * y + c2 * y ^ 2 + c3 * y ^ 3) by (intros y; unfold c1, c2, c3, c0, p, pen_cubic; field).
  fold p. rewrite EP. apply (cubic4 c0 c1 c2 c3 x1 x2 x3 x4); try lra.
  intros y [-> | [-> | [-> | -> ]]]; rewrite <- EP; apply I; auto.
Qed.

Lemma gap n d x e : 0 < d -> (e + x) * d < n -> e < n / d - x.
Proof.
  intros Hd H. assert (e + x < n / d); [|lra]. apply (Rmult_lt_reg_r d); [exact Hd|]. replace (n / d * d) with n by (field; lra). exact H.
Qed.

(** Finding: with two azeotropes F1 - f1 has the same sign at both ends of the search bracket, and None is returned. *)
Theorem C29_two_azeotropes_refuted :
  let m := Penultimate (229 / 200) (11 / 20) (10 / 29) (11 / 20) 1 1 None None in
  make_model m = Ok m /\ azeotrope m = Ok None /\
  model_F1 m (1 / 2) = Ok (Fin (1 / 2)) /\ model_F1 m (9 / 10) = Ok (Fin (9 / 10)).
Proof.
  intros m. split; [|split; [|split]].
  - cbn. unfold nonneg_check.
    repeat match goal with |- context [Rleb 0 ?b] => assert (Rleb 0 b = true) as -> by (apply (proj2 (Rleb_true _ _)); lra) end. reflexivity.
  - unfold azeotrope, m. fold m. unfold azeotrope_generic.
    unfold m at 1 2. rewrite !pen_ri by lra. cbn [bind fst snd].
    match goal with |- context [close1 ?a && close1 ?b && _ && _] => assert (close1 b = false) as -> end.
    { unfold close1. apply (proj2 (Rleb_false _ _)). rewrite Rabs_left; lra. }
    rewrite andb_false_r. cbn [andb].
    assert (V : forall x, 0 < x < 1 -> exists a b, ri m x = Ok (a, b) /\ a = 10 / 29 * (x * (229 / 200) + (1 - x)) / (x * (10 / 29) + (1 - x)) /\ b = 11 / 20).
    { intros x Hx. unfold m. rewrite pen_ri by lra. do 2 eexists. split; [reflexivity|]. split; [reflexivity|]. field. lra. }
    unfold root_brent.
    assert (W1 : 1 / 10 ^ 5 < fzero m (1 / 10000)).
    { unfold fzero. destruct (V (1 / 10000) ltac:(lra)) as (a & b & -> & Ea & Eb). cbn [fst snd].
      assert (0 <= a <= 1) by (subst a; lra). rewrite inst_val by (repeat split; lra). cbn [fin]. unfold F1val. subst b.
      apply gap; lra. }
    assert (W2 : 1 / 10 ^ 6 < fzero m (9999 / 10000)).
    { unfold fzero. destruct (V (9999 / 10000) ltac:(lra)) as (a & b & -> & Ea & Eb). cbn [fst snd].
      assert (114 / 100 <= a <= 115 / 100) by (subst a; lra). rewrite inst_val by (repeat split; lra). cbn [fin]. unfold F1val. subst b.
      apply gap; lra. }
    assert (Rleb (Rabs (fzero m (1 / 10000))) (1 / 10 ^ 6) = false) as -> by (apply (proj2 (Rleb_false _ _)); rewrite Rabs_pos_eq; lra).
    assert (Rleb (Rabs (fzero m (9999 / 10000))) (1 / 10 ^ 6) = false) as -> by (apply (proj2 (Rleb_false _ _)); rewrite Rabs_pos_eq; lra).
    assert (Rltb 0 (fzero m (1 / 10000) * fzero m (9999 / 10000)) = true) as -> by (apply Rltb_true; apply Rmult_lt_0_compat; lra). reflexivity.
  - destruct (pen_azeo (229 / 200) (11 / 20) (10 / 29) (11 / 20) 1 1 None None (1 / 2)) as (F & E & K); try lra.
    unfold m. rewrite E. do 2 f_equal. apply K. unfold pen_cubic. field.
  - destruct (pen_azeo (229 / 200) (11 / 20) (10 / 29) (11 / 20) 1 1 None None (9 / 10)) as (F & E & K); try lra.
    unfold m. rewrite E. do 2 f_equal. apply K. unfold pen_cubic. field.
Qed.

(** With one azeotrope: r11 = r21 = 1/2, r12 = r22 = 1/4 has it at 3/5, as the terminal model. *)
Example C29_penultimate_case : model_F1 (Penultimate (1 / 2) (1 / 4) (1 / 2) (1 / 4) 1 1 None None) (3 / 5) = Ok (Fin (3 / 5)).
Proof.
  destruct (pen_azeo (1 / 2) (1 / 4) (1 / 2) (1 / 4) 1 1 None None (3 / 5)) as (F & E & K); try lra.
  rewrite E. do 2 f_equal. apply K. unfold pen_cubic. field.
Qed.

Print Assumptions C29_penultimate_count. Print Assumptions C29_two_azeotropes_refuted.
