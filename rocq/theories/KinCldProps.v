(** Chain-length dependent coefficients, Eyring equation, emulsion models and reaction
    classes: C27, C69, C70, C71. *)
From Coq Require Import Reals Lra Lia List Bool Arith String Permutation.
From Verif Require Import Prelude UtilsModel KinModel KinProps.
Import ListNotations.
Open Scope R_scope.

Lemma between_fin lo hi x : between (Fin lo) (Fin hi) (Fin x) = true <-> lo <= x <= hi.
Proof.
  unfold between; cbn -[Rleb]. rewrite andb_true_iff, !Rleb_true. tauto.
Qed.

(* ------------------------------------------------------------------ *)
(** * C27 Propagation half-length model                               *)
(* ------------------------------------------------------------------ *)

Lemma half_inv kp C ihalf p : PropagationHalfLength kp C ihalf = Ok p ->
  p = mkHalf kp C ihalf /\ 1 <= C <= 100 /\ 1 / 10 <= ihalf <= 10.
Proof.
  unfold PropagationHalfLength. intros H.
  destruct (check_bounds (VNum (Fin C)) (Fin 1) (Fin 100)) eqn:E1; [|easy]. cbn [bind] in H.
  destruct (check_bounds (VNum (Fin ihalf)) (Fin (1 / 10)) (Fin 10)) eqn:E2; [|easy]. cbn [bind] in H.
  injection H as <-. apply check_num, (proj1 (between_fin _ _ _)) in E1, E2. auto.
Qed.

(** The call of the model in any admissible unit is the equation at the coefficient
    evaluated at the same temperature. *)
Lemma conv_K T Tm TM : 0 <= T ->
  exists w, convert_check_temperature [Fin T] "K" Tm TM = Ok ([Fin T], w).
Proof.
  intros H. unfold convert_check_temperature. cbn -[Rltb fltb].
  assert (fltb (Fin T) (Fin 0) = false) as -> by (cbn -[Rltb]; apply Rltb_false; lra).
  cbn -[Rltb fltb]. eauto.
Qed.
Lemma conv_C T Tm TM : 0 <= T + 27315 / 100 ->
  exists w, convert_check_temperature [Fin T] "C" Tm TM = Ok ([Fin (T + 27315 / 100)], w).
Proof.
  intros H. unfold convert_check_temperature. cbn -[Rltb fltb].
  assert (fltb (Fin (T + 27315 / 100)) (Fin 0) = false) as -> by (cbn -[Rltb]; apply Rltb_false; lra).
  cbn -[Rltb fltb]. eauto.
Qed.

Theorem C27_half_call kp C ihalf p T i k w :
  PropagationHalfLength kp C ihalf = Ok p -> 0 <= T ->
  coef_call kp T "K" = Ok (k, w) ->
  half_call p T i "K" = Ok (k * (1 + (C - 1) * Rpower (1 / 2) ((i - 1) / ihalf))) /\
  half_call p (T - 27315 / 100) i "C" = half_call p T i "K".
Proof.
  intros H HT E. destruct (half_inv _ _ _ _ H) as (-> & HC & Hi).
  unfold half_call. cbn [h_kp h_C h_ihalf].
  destruct (conv_K T (coef_Tmin kp) (coef_Tmax kp) HT) as (w1 & ->).
  destruct (conv_C (T - 27315 / 100) (coef_Tmin kp) (coef_Tmax kp)) as (w2 & ->); [lra|].
  cbn [bind fst nth]. replace (T - 27315 / 100 + 27315 / 100) with T by ring.
  rewrite E. cbn [bind fst]. split; [|reflexivity].
  unfold half_equation, Rpower. do 5 f_equal.
  replace (1 / 2) with (/ 2) by field. rewrite ln_Rinv by lra. field. lra.
Qed.

(** Values: C*kp at i = 1; the excess over kp is halved by every increase of ihalf;
    strictly decreasing; above kp and tending to kp. *)
Theorem C27_half_equation kp C ihalf :
  0 < kp -> 1 < C -> 0 < ihalf ->
  half_equation 1 kp C ihalf = C * kp /\
  (forall i, half_equation (i + ihalf) kp C ihalf - kp = (half_equation i kp C ihalf - kp) / 2) /\
  (forall i j, i < j -> half_equation j kp C ihalf < half_equation i kp C ihalf) /\
  (forall i, kp < half_equation i kp C ihalf) /\
  (forall e, 0 < e -> exists i0, forall i, i0 <= i -> half_equation i kp C ihalf - kp < e).
Proof.
  intros Hk HC Hi. pose proof ln_lt_2 as Hl. assert (0 < ln 2) by lra.
  unfold half_equation. repeat split.
  - replace (- ln 2 * (1 - 1) / ihalf) with 0 by (field; lra). rewrite exp_0. ring.
  - intros i. replace (- ln 2 * (i + ihalf - 1) / ihalf) with (- ln 2 * (i - 1) / ihalf + - ln 2) by (field; lra).
    rewrite exp_plus, (exp_Ropp (ln 2)), exp_ln by lra. field.
  - intros i j Hij. apply Rmult_lt_compat_l; auto. apply Rplus_lt_compat_l.
    apply Rmult_lt_compat_l; [lra|]. apply exp_increasing.
    apply Rmult_lt_compat_r; [now apply Rinv_0_lt_compat|].
    assert (0 < ln 2 * (j - i)) by (apply Rmult_lt_0_compat; lra). lra.
  - intros i. pose proof (exp_pos (- ln 2 * (i - 1) / ihalf)).
    assert (0 < kp * ((C - 1) * exp (- ln 2 * (i - 1) / ihalf))); [|lra].
    apply Rmult_lt_0_compat; auto. apply Rmult_lt_0_compat; lra.
  - intros e He. assert (HK : 0 < kp * (C - 1)) by (apply Rmult_lt_0_compat; lra).
    set (L := ln (e / (kp * (C - 1)))).
    exists (1 - L * ihalf / ln 2 + 1). intros i Hii.
    assert (exp (- ln 2 * (i - 1) / ihalf) < e / (kp * (C - 1))).
    { rewrite <- (exp_ln (e / (kp * (C - 1)))) by (apply Rdiv_lt_0_compat; lra). fold L.
      apply exp_increasing.
      apply (Rmult_lt_reg_r (ihalf / ln 2)); [apply Rdiv_lt_0_compat; lra|].
      replace (- ln 2 * (i - 1) / ihalf * (ihalf / ln 2)) with (- (i - 1)) by (field; lra).
      replace (L * (ihalf / ln 2)) with (L * ihalf / ln 2) by (field; lra). lra. }
    apply (Rmult_lt_compat_l (kp * (C - 1))) in H0; auto.
    replace (kp * (C - 1) * (e / (kp * (C - 1)))) with e in H0 by (field; lra). lra.
Qed.

Example C27_half_case : half_equation 3 100 11 1 = 350.
Proof.
  unfold half_equation. replace (- ln 2 * (3 - 1) / 1) with (- ln 2 + - ln 2) by field.
  rewrite exp_plus, (exp_Ropp (ln 2)), exp_ln by lra. field.
Qed.

(* ------------------------------------------------------------------ *)
(** * C27 Composite termination model                                 *)
(* ------------------------------------------------------------------ *)

Lemma comp_inv kt icrit aS aL p : TerminationCompositeModel kt icrit aS aL = Ok p ->
  p = mkComp kt icrit aS aL /\ 1 <= icrit <= 200 /\ 0 <= aS <= 1 /\ 0 <= aL <= 1 / 2.
Proof.
  unfold TerminationCompositeModel. intros H.
  destruct (check_bounds (VNum (Fin icrit)) (Fin 1) (Fin 200)) eqn:E1; [|easy]. cbn [bind] in H.
  destruct (check_bounds (VNum (Fin aS)) (Fin 0) (Fin 1)) eqn:E2; [|easy]. cbn [bind] in H.
  destruct (check_bounds (VNum (Fin aL)) (Fin 0) (Fin (1 / 2))) eqn:E3; [|easy]. cbn [bind] in H.
  injection H as <-. apply check_num, (proj1 (between_fin _ _ _)) in E1, E2, E3. auto.
Qed.

Lemma Rpower_neg_le x y a : 0 < x <= y -> 0 <= a -> Rpower y (- a) <= Rpower x (- a).
Proof.
  intros (Hx & Hxy) Ha. unfold Rpower.
  destruct (Req_dec (ln y) (ln x)) as [->|Hn]; [lra|].
  assert (ln x <= ln y) by (destruct Hxy as [Hl | ->]; [left; now apply ln_increasing|lra]).
  destruct (Rle_lt_or_eq_dec 0 a Ha) as [Hp| <-]; [left; apply exp_increasing; nra|].
  right. f_equal. ring.
Qed.

Lemma ktii_pos kt icrit aS aL i : 0 < kt -> 0 < ktii kt icrit aS aL i.
Proof.
  intros. unfold ktii. pose proof (exp_pos) as P. destruct (Rleb i icrit); unfold Rpower;
    repeat apply Rmult_lt_0_compat; auto.
Qed.

Lemma ktii_dec kt icrit aS aL i i' :
  0 < kt -> 1 <= icrit -> 0 <= aS -> 0 <= aL -> 1 <= i <= i' ->
  ktii kt icrit aS aL i' <= ktii kt icrit aS aL i.
Proof.
  intros Hk Hc Hs Hl (H1 & Hi). unfold ktii.
  assert (HX : Rpower icrit (- aS + aL) * Rpower icrit (- aL) = Rpower icrit (- aS)).
  { rewrite <- Rpower_plus. f_equal. ring. }
  destruct (Rleb i' icrit) eqn:E'; destruct (Rleb i icrit) eqn:E;
    repeat match goal with
    | H : Rleb _ _ = true |- _ => apply (proj1 (Rleb_true _ _)) in H
    | H : Rleb _ _ = false |- _ => apply (proj1 (Rleb_false _ _)) in H end; try lra.
  - apply Rmult_le_compat_l; [lra|]. apply Rpower_neg_le; lra.
  - rewrite Rmult_assoc. apply Rmult_le_compat_l; [lra|].
    apply Rle_trans with (Rpower icrit (- aS)).
    + rewrite <- HX. apply Rmult_le_compat_l; [left; apply exp_pos|]. apply Rpower_neg_le; lra.
    + apply Rpower_neg_le; lra.
  - apply Rmult_le_compat_l; [left; apply Rmult_lt_0_compat; [lra|apply exp_pos]|].
    apply Rpower_neg_le; lra.
Qed.

(** kt(i,j) is symmetric, equals kt11 at i = j = 1, is the geometric mean of the
    homo-termination coefficients, is nonincreasing in both chain lengths and hence
    bounded by kt11; the homo-termination coefficient follows the short-chain power law
    up to icrit and a law continuous at icrit beyond. *)
Theorem C27_termination kt icrit aS aL :
  0 < kt -> 1 <= icrit -> 0 <= aS -> 0 <= aL ->
  let k i j := comp_equation i j kt icrit aS aL in
  k 1 1 = kt /\
  (forall i j, k i j = k j i) /\
  (forall i j, 1 <= i -> 1 <= j -> k i j * k i j = k i i * k j j /\ 0 < k i j <= kt) /\
  (forall i i' j, 1 <= i <= i' -> 1 <= j -> k i' j <= k i j) /\
  (forall i, 1 <= i <= icrit -> k i i = kt * Rpower i (- aS)) /\
  (forall i, icrit <= i -> k i i = k icrit icrit * Rpower (i / icrit) (- aL)).
Proof.
  intros Hk Hc Hs Hl k.
  assert (P : forall i, 0 < ktii kt icrit aS aL i) by (intros; now apply ktii_pos).
  assert (SQ : forall i, k i i = ktii kt icrit aS aL i).
  { intros i. unfold k, comp_equation. apply sqrt_square. left. apply P. }
  assert (K1 : ktii kt icrit aS aL 1 = kt).
  { unfold ktii. assert (Rleb 1 icrit = true) as -> by (apply (proj2 (Rleb_true _ _)); lra).
    unfold Rpower. rewrite ln_1, Rmult_0_r, exp_0. ring. }
  assert (MON : forall i i' j, 1 <= i <= i' -> 1 <= j -> k i' j <= k i j).
  { intros i i' j Hi Hj. unfold k, comp_equation. apply sqrt_le_1_alt.
    apply Rmult_le_compat_r; [left; apply P|]. apply ktii_dec; auto. }
  assert (SYM : forall i j, k i j = k j i).
  { intros. unfold k, comp_equation. f_equal. ring. }
  split; [rewrite SQ; exact K1|]. split; [exact SYM|]. split; [|split; [exact MON|split]].
  - intros i j Hi Hj. split; [|split].
    + rewrite !SQ. unfold k, comp_equation. apply sqrt_sqrt.
      left. apply Rmult_lt_0_compat; apply P.
    + unfold k, comp_equation. apply sqrt_lt_R0. apply Rmult_lt_0_compat; apply P.
    + apply Rle_trans with (k 1 j); [apply MON; lra|]. rewrite SYM.
      apply Rle_trans with (k 1 1); [apply MON; lra|]. rewrite SQ, K1. lra.
  - intros i (Hi & Hc'). rewrite SQ. unfold ktii.
    assert (Rleb i icrit = true) as -> by (apply (proj2 (Rleb_true _ _)); lra). reflexivity.
  - intros i Hi. rewrite !SQ. unfold ktii.
    assert (Rleb icrit icrit = true) as -> by (apply (proj2 (Rleb_true _ _)); lra).
    assert (R1 : Rpower (i / icrit) (- aL) = Rpower i (- aL) * Rpower icrit aL).
    { unfold Rpower, Rdiv. rewrite ln_mult, ln_Rinv by (try apply Rinv_0_lt_compat; lra).
      rewrite <- exp_plus. f_equal. ring. }
    rewrite R1. destruct (Rleb i icrit) eqn:E.
    + apply (proj1 (Rleb_true _ _)) in E. assert (i = icrit) as -> by lra.
      rewrite Ropp_involutive || idtac. rewrite <- Rpower_plus.
      replace (- aL + aL) with 0 by ring. rewrite Rpower_O by lra. ring.
    + rewrite Rpower_plus. ring.
Qed.

Theorem C27_termination_call kt icrit aS aL p T i j k w :
  TerminationCompositeModel kt icrit aS aL = Ok p -> 0 <= T -> 0 < k ->
  coef_call kt T "K" = Ok (k, w) ->
  exists v, comp_call p T i j "K" = Ok v /\ comp_call p T j i "K" = Ok v /\
    comp_call p T 1 1 "K" = Ok k /\
    comp_call p (T - 27315 / 100) i j "C" = Ok v /\
    (1 <= i -> 1 <= j -> 0 < v <= k).
Proof.
  intros H HT Hk E. destruct (comp_inv _ _ _ _ _ H) as (-> & HC & Hs & Hl).
  destruct (C27_termination k icrit aS aL) as (A1 & A2 & A3 & _); try lra.
  unfold comp_call. cbn [t_kt11 t_icrit t_aS t_aL].
  destruct (conv_K T (coef_Tmin kt) (coef_Tmax kt) HT) as (w1 & ->).
  destruct (conv_C (T - 27315 / 100) (coef_Tmin kt) (coef_Tmax kt)) as (w2 & ->); [lra|].
  cbn [bind fst nth]. replace (T - 27315 / 100 + 27315 / 100) with T by ring.
  rewrite E. cbn [bind fst]. eexists; repeat split; try reflexivity.
  - now rewrite A2.
  - now rewrite A1.
  - now apply A3.
  - now apply A3.
Qed.

Example C27_termination_case : comp_equation 4 4 100 4 (1 / 2) (1 / 4) = 50.
Proof.
  destruct (C27_termination 100 4 (1 / 2) (1 / 4)) as (_ & _ & _ & _ & A & _); try lra.
  rewrite A by lra. unfold Rpower. replace 4 with (2 * 2) by ring. rewrite ln_mult by lra.
  replace (- (1 / 2) * (ln 2 + ln 2)) with (- ln 2) by field.
  rewrite (exp_Ropp (ln 2)), exp_ln by lra. field.
Qed.

(* ------------------------------------------------------------------ *)
(** * C71 Eyring equation                                             *)
(* ------------------------------------------------------------------ *)

Lemma kB_pos : 0 < kB. Proof. unfold kB. apply Rdiv_lt_0_compat; [lra|apply pow_lt; lra]. Qed.
Lemma hP_pos : 0 < hP. Proof. unfold hP. apply Rdiv_lt_0_compat; [lra|apply pow_lt; lra]. Qed.
Lemma Rgas_pos : 0 < Rgas. Proof. unfold Rgas. apply Rdiv_lt_0_compat; [lra|apply pow_lt; lra]. Qed.

Lemma eyr_inv DS DH kp Tm TM e : Eyring DS DH kp Tm TM = Ok e ->
  e = mkEyr DS DH kp Tm TM /\ 0 <= DS /\ 0 <= DH /\ 0 <= kp <= 1.
Proof.
  unfold Eyring. intros H.
  destruct (check_bounds (VNum (Fin DS)) (Fin 0) PInf) eqn:E1; [|easy]. cbn [bind] in H.
  destruct (check_bounds (VNum (Fin DH)) (Fin 0) PInf) eqn:E2; [|easy]. cbn [bind] in H.
  destruct (check_bounds (VNum (Fin kp)) (Fin 0) (Fin 1)) eqn:E3; [|easy]. cbn [bind] in H.
  destruct (check_Trange Tm TM); [|easy]. cbn [bind] in H.
  injection H as <-. apply check_num in E1, E2, E3. apply (proj1 (between_fin _ _ _)) in E3.
  unfold between in E1, E2. cbn -[Rleb] in E1, E2. rewrite andb_true_r in E1, E2.
  apply (proj1 (Rleb_true _ _)) in E1, E2. auto.
Qed.

(** An accepted Eyring coefficient is bounded by the universal frequency times the entropy
    factor, increases strictly with temperature, and the temperature dependence of ln(k/T)
    against 1/T is a straight line of slope -DHa/R. *)
Theorem C71_eyring DS DH kp Tm TM e :
  Eyring DS DH kp Tm TM = Ok e -> 0 < kp ->
  (forall T, 0 < T -> exists k w, coef_call (CEyr e) T "K" = Ok (k, w) /\
     0 < k <= kB * T / hP * exp (DS / Rgas)) /\
  (forall T1 T2 k1 k2 w1 w2, 0 < T1 < T2 ->
     coef_call (CEyr e) T1 "K" = Ok (k1, w1) -> coef_call (CEyr e) T2 "K" = Ok (k2, w2) ->
     k1 < k2 /\ ln (k2 / T2) - ln (k1 / T1) = - DH / Rgas * (1 / T2 - 1 / T1)) /\
  coef_call (CEyr e) 0 "K" = Err ZeroDivisionError.
Proof.
  intros H Hkp. destruct (eyr_inv _ _ _ _ _ _ H) as (-> & HS & HH & HK).
  pose proof kB_pos; pose proof hP_pos; pose proof Rgas_pos.
  assert (CALL : forall T, 0 < T -> exists w, coef_call (CEyr (mkEyr DS DH kp Tm TM)) T "K" =
            Ok (kp * kB * T / hP * exp ((DS - DH / T) / Rgas), w)).
  { intros T HT. cbn [coef_call e_Tmin e_Tmax e_DSa e_DHa e_kappa].
    destruct (conv_K T Tm TM) as (w & ->); [lra|]. cbn [bind fst snd nth].
    unfold eyr_equation. rewrite pydiv_ok by lra. cbn [bind]. eauto. }
  assert (PRE : forall T, 0 < T -> 0 < kp * kB * T / hP).
  { intros T HT. apply Rdiv_lt_0_compat; auto. apply Rmult_lt_0_compat; auto. apply Rmult_lt_0_compat; auto. }
  split; [|split].
  - intros T HT. destruct (CALL T HT) as (w & E). do 2 eexists; split; [exact E|]. split.
    + apply Rmult_lt_0_compat; [now apply PRE|apply exp_pos].
    + apply Rle_trans with (kp * kB * T / hP * exp (DS / Rgas)).
      * apply Rmult_le_compat_l; [left; now apply PRE|].
        assert (0 <= DH / T / Rgas).
        { unfold Rdiv. repeat apply Rmult_le_pos; auto; left; now apply Rinv_0_lt_compat. }
        replace ((DS - DH / T) / Rgas) with (DS / Rgas - DH / T / Rgas) by (field; lra).
        destruct (Req_dec (DH / T / Rgas) 0) as [->|Hn]; [rewrite Rminus_0_r; lra|].
        left. apply exp_increasing. lra.
      * apply Rmult_le_compat_r; [left; apply exp_pos|].
        replace (kp * kB * T / hP) with (kp * (kB * T / hP)) by (field; lra).
        rewrite <- (Rmult_1_l (kB * T / hP)) at 2. apply Rmult_le_compat_r; [|lra].
        left. apply Rdiv_lt_0_compat; auto. apply Rmult_lt_0_compat; auto.
  - intros T1 T2 k1 k2 w1 w2 (HT1 & HT2) E1 E2.
    destruct (CALL T1 HT1) as (v1 & F1). destruct (CALL T2) as (v2 & F2); [lra|].
    rewrite F1 in E1. rewrite F2 in E2. injection E1 as <- <-. injection E2 as <- <-.
    assert (HI : 1 / T2 < 1 / T1).
    { unfold Rdiv. rewrite !Rmult_1_l. apply Rinv_lt_contravar; [|lra]. apply Rmult_lt_0_compat; lra. }
    split.
    + apply Rlt_le_trans with (kp * kB * T2 / hP * exp ((DS - DH / T1) / Rgas)).
      * apply Rmult_lt_compat_r; [apply exp_pos|].
        unfold Rdiv. apply Rmult_lt_compat_r; [now apply Rinv_0_lt_compat|].
        apply Rmult_lt_compat_l; [apply Rmult_lt_0_compat; lra|lra].
      * apply Rmult_le_compat_l; [left; apply PRE; lra|].
        assert ((DS - DH / T1) / Rgas <= (DS - DH / T2) / Rgas).
        { unfold Rdiv. apply Rmult_le_compat_r; [left; now apply Rinv_0_lt_compat|].
          assert (DH * (1 / T2) <= DH * (1 / T1)) by (apply Rmult_le_compat_l; lra).
          unfold Rdiv in H3. rewrite !Rmult_1_l in H3. lra. }
        destruct H3 as [H3|H3]; [left; now apply exp_increasing|rewrite H3; lra].
    + assert (L : forall T, 0 < T -> ln (kp * kB * T / hP * exp ((DS - DH / T) / Rgas) / T) =
                 ln (kp * kB / hP) + (DS - DH / T) / Rgas).
      { intros T HT. replace (kp * kB * T / hP * exp ((DS - DH / T) / Rgas) / T) with
          (kp * kB / hP * exp ((DS - DH / T) / Rgas)) by (field; lra).
        assert (0 < kp * kB / hP) by (apply Rdiv_lt_0_compat; auto; apply Rmult_lt_0_compat; auto).
        rewrite (ln_mult (kp * kB / hP)) by (auto using exp_pos). now rewrite ln_exp. }
      rewrite !L by lra. field. lra.
  - cbn [coef_call e_Tmin e_Tmax e_DSa e_DHa e_kappa].
    destruct (conv_K 0 Tm TM) as (w & ->); [lra|]. cbn [bind fst snd nth].
    unfold eyr_equation. now rewrite pydiv_zero.
Qed.

(** The value in terms of the activation Gibbs energy DHa - T DSa, with the exact SI values of the constants. *)
Theorem C71_gibbs DS DH kp Tm TM e T : Eyring DS DH kp Tm TM = Ok e -> 0 < T ->
  exists w, coef_call (CEyr e) T "K" =
    Ok (kp * (1380649 / 10 ^ 29 * T / (662607015 / 10 ^ 42)) * exp (- (DH - T * DS) / (831446261815324 / 10 ^ 14 * T)), w).
Proof.
  intros H HT. destruct (eyr_inv _ _ _ _ _ _ H) as (-> & _). cbn [coef_call e_Tmin e_Tmax e_DSa e_DHa e_kappa].
  destruct (conv_K T Tm TM) as (w & ->); [lra|]. exists w. cbn [bind fst snd nth]. unfold eyr_equation. rewrite pydiv_ok by lra. cbn [bind]. do 2 f_equal.
  change (1380649 / 10 ^ 29) with kB. change (662607015 / 10 ^ 42) with hP. change (831446261815324 / 10 ^ 14) with Rgas. pose proof kB_pos; pose proof hP_pos; pose proof Rgas_pos.
  replace ((DS - DH / T) / Rgas) with (- (DH - T * DS) / (Rgas * T)) by (field; lra). field. lra.
Qed.

(** Negative activation entropies are rejected. *)
Theorem C71_negative_entropy DS DH kp Tm TM : DS < 0 -> Eyring DS DH kp Tm TM = Err RangeError.
Proof.
  intros H. unfold Eyring. cbn [check_bounds]. unfold between. cbn -[Rleb].
  assert (Rleb 0 DS = false) as -> by (apply (proj2 (Rleb_false _ _)); lra). reflexivity.
Qed.

Example C71_case : exists e, Eyring 20 50000 1 (Fin 0) PInf = Ok e /\
  exists k w, coef_call (CEyr e) 300 "K" = Ok (k, w) /\ 0 < k.
Proof.
  pose proof eps64_pos.
  assert (E : Eyring 20 50000 1 (Fin 0) PInf = Ok (mkEyr 20 50000 1 (Fin 0) PInf)).
  { unfold Eyring, check_Trange. cbn [check_bounds]. unfold between. cbn -[Rleb eps64].
    repeat match goal with |- context [Rleb ?a ?b] =>
      assert (Rleb a b = true) as -> by (apply (proj2 (Rleb_true _ _)); lra) end. reflexivity. }
  exists (mkEyr 20 50000 1 (Fin 0) PInf). split; [exact E|].
  destruct (C71_eyring _ _ _ _ _ _ E) as (A & _); [lra|].
  destruct (A 300) as (k & w & E1 & E2 & _); [lra|]. exists k, w. auto.
Qed.

(* ------------------------------------------------------------------ *)
(** * C69 Average number of radicals per particle                     *)
(* ------------------------------------------------------------------ *)

(** O'Toole's recurrence: with the Bessel functions given by any function satisfying the
    three-term recurrence and positivity, nbar(m) = alpha/(m + 2 nbar(m+1)). *)
Theorem C69_recurrence iv alpha m :
  0 < alpha -> 0 < m ->
  (forall v x, 0 < x -> m - 1 <= v -> 0 < iv v x) ->
  (forall v x, 0 < x -> m <= v -> iv (v - 1) x - iv (v + 1) x = 2 * v / x * iv v x) ->
  nbar_SO iv alpha m * (m + 2 * nbar_SO iv alpha (m + 1)) = alpha /\
  0 < nbar_SO iv alpha m < alpha / m.
Proof.
  intros Ha Hm Hp Hr. unfold nbar_SO. set (a := sqrt (8 * alpha)).
  assert (A : 0 < a) by (apply sqrt_lt_R0; lra).
  assert (AA : a * a = 8 * alpha) by (apply sqrt_sqrt; lra).
  replace (m + 1 - 1) with m by ring.
  pose proof (Hp (m - 1) a A ltac:(lra)) as P0. pose proof (Hp m a A ltac:(lra)) as P1.
  pose proof (Hp (m + 1) a A ltac:(lra)) as P2. specialize (Hr m a A ltac:(lra)).
  assert (E : a / 4 * iv m a / iv (m - 1) a * (m + 2 * (a / 4 * iv (m + 1) a / iv m a)) = alpha).
  { assert (I0 : iv (m - 1) a = iv (m + 1) a + 2 * m / a * iv m a) by lra.
    replace alpha with (a * a / 8) by lra.
    replace (a / 4 * iv m a / iv (m - 1) a * (m + 2 * (a / 4 * iv (m + 1) a / iv m a)))
      with (a * a / 8 * (iv (m + 1) a + 2 * m / a * iv m a) / iv (m - 1) a) by (field; lra).
    rewrite <- I0. field. lra. }
  assert (N : 0 < a / 4 * iv m a / iv (m - 1) a).
  { apply Rdiv_lt_0_compat; auto. apply Rmult_lt_0_compat; lra. }
  assert (N2 : 0 < 2 * (a / 4 * iv (m + 1) a / iv m a)).
  { apply Rmult_lt_0_compat; [lra|]. apply Rdiv_lt_0_compat; auto. apply Rmult_lt_0_compat; lra. }
  split; [exact E|]. split; [exact N|].
  apply (Rmult_lt_reg_r m); auto. replace (alpha / m * m) with alpha by (field; lra).
  revert E N N2. generalize (a / 4 * iv m a / iv (m - 1) a) (2 * (a / 4 * iv (m + 1) a / iv m a)).
  intros x y E N N2. nra.
Qed.

(** Li-Brooks: the positive root of 2(2a+m)/(2a+m+1) n^2 + m n - a = 0. *)
Definition lb_poly (alpha m n : R) : R :=
  2 * (2 * alpha + m) / (2 * alpha + m + 1) * n ^ 2 + m * n - alpha.

Lemma lb_root alpha m : 0 < alpha -> 0 <= m ->
  0 < nbar_LB alpha m /\ lb_poly alpha m (nbar_LB alpha m) = 0.
Proof.
  intros Ha Hm. unfold nbar_LB, lb_poly.
  set (D := m ^ 2 + 8 * alpha * (2 * alpha + m) / (2 * alpha + m + 1)).
  assert (HD : 0 < D).
  { unfold D. assert (0 < 8 * alpha * (2 * alpha + m) / (2 * alpha + m + 1)).
    { apply Rdiv_lt_0_compat; [apply Rmult_lt_0_compat; lra|lra]. }
    assert (0 <= m ^ 2) by apply pow2_ge_0. lra. }
  assert (S : 0 < sqrt D) by now apply sqrt_lt_R0.
  assert (SS : sqrt D * sqrt D = D) by (apply sqrt_sqrt; lra).
  assert (P : 0 < m + sqrt D) by lra. split; [apply Rdiv_lt_0_compat; lra|].
  set (s := sqrt D) in *. clearbody s.
  assert (Q : 2 * (2 * alpha + m) / (2 * alpha + m + 1) = (s * s - m ^ 2) / (4 * alpha)).
  { rewrite SS. unfold D. field. lra. }
  rewrite Q. field. lra.
Qed.

Lemma lb_poly_incr alpha m x y : 0 < alpha -> 0 <= m -> 0 < x < y ->
  lb_poly alpha m x < lb_poly alpha m y.
Proof.
  intros Ha Hm (Hx & Hy). unfold lb_poly.
  assert (C : 0 < 2 * (2 * alpha + m) / (2 * alpha + m + 1)) by (apply Rdiv_lt_0_compat; lra).
  revert C. generalize (2 * (2 * alpha + m) / (2 * alpha + m + 1)). intros c C.
  assert (x ^ 2 < y ^ 2) by nra. assert (c * x ^ 2 < c * y ^ 2) by (apply Rmult_lt_compat_l; lra). nra.
Qed.

Lemma lb_le alpha m x : 0 < alpha -> 0 <= m -> 0 < x ->
  (lb_poly alpha m x < 0 -> x < nbar_LB alpha m) /\ (0 < lb_poly alpha m x -> nbar_LB alpha m < x).
Proof.
  intros Ha Hm Hx. destruct (lb_root alpha m Ha Hm) as (N & E). split; intros H.
  - destruct (Rtotal_order x (nbar_LB alpha m)) as [|[Eq|G]]; auto; exfalso.
    + rewrite Eq in H. lra.
    + pose proof (lb_poly_incr alpha m (nbar_LB alpha m) x Ha Hm ltac:(lra)). lra.
  - destruct (Rtotal_order x (nbar_LB alpha m)) as [G|[Eq|G]]; auto; exfalso.
    + pose proof (lb_poly_incr alpha m x (nbar_LB alpha m) Ha Hm ltac:(lra)). lra.
    + rewrite Eq in H. lra.
Qed.

(** Unique positive root; strictly increasing with entry, strictly decreasing with
    desorption; at least 1/2 without desorption; bounded by alpha/m. *)
Theorem C69_Li_Brooks alpha m :
  0 < alpha -> 0 <= m ->
  0 < nbar_LB alpha m /\ lb_poly alpha m (nbar_LB alpha m) = 0 /\
  (forall n, 0 < n -> lb_poly alpha m n = 0 -> n = nbar_LB alpha m) /\
  (forall m', m < m' -> nbar_LB alpha m' < nbar_LB alpha m) /\
  (forall alpha', alpha < alpha' -> nbar_LB alpha m < nbar_LB alpha' m) /\
  1 / 2 < nbar_LB alpha 0 /\ nbar_LB alpha 0 = sqrt ((2 * alpha + 1) / 4) /\
  (0 < m -> nbar_LB alpha m < alpha / m).
Proof.
  intros Ha Hm. destruct (lb_root alpha m Ha Hm) as (N & E).
  assert (UNI : forall a m n, 0 < a -> 0 <= m -> 0 < n -> lb_poly a m n = 0 -> n = nbar_LB a m).
  { clear. intros a m n Ha Hm Hn En. destruct (lb_root a m Ha Hm) as (N & E).
    destruct (Rtotal_order n (nbar_LB a m)) as [G|[G|G]]; auto; exfalso.
    - pose proof (lb_poly_incr a m n _ Ha Hm (conj Hn G)). lra.
    - pose proof (lb_poly_incr a m _ n Ha Hm (conj N G)). lra. }
  assert (COEF : forall u v, 0 < u < v -> 2 * u / (u + 1) < 2 * v / (v + 1)).
  { intros u v (Hu & Hv). apply (Rmult_lt_reg_r ((u + 1) * (v + 1))); [apply Rmult_lt_0_compat; lra|].
    replace (2 * u / (u + 1) * ((u + 1) * (v + 1))) with (2 * u * (v + 1)) by (field; lra).
    replace (2 * v / (v + 1) * ((u + 1) * (v + 1))) with (2 * v * (u + 1)) by (field; lra). lra. }
  assert (N2 : 0 < nbar_LB alpha m ^ 2) by (apply pow_lt; auto).
  split; auto. split; auto. split; [intros; now apply UNI|]. split; [|split; [|split; [|split]]].
  - intros m' Hm'. apply (lb_le alpha m' (nbar_LB alpha m)); auto; [lra|].
    rewrite <- E. unfold lb_poly.
    pose proof (COEF (2 * alpha + m) (2 * alpha + m') ltac:(lra)).
    apply Rplus_lt_compat_r. apply Rplus_lt_compat; apply Rmult_lt_compat_r; auto.
  - intros a' Ha'. apply (lb_le a' m (nbar_LB alpha m)); auto; [lra|].
    (* the coefficient grows as well, so compare the reduced polynomial *)
    assert (Q : lb_poly a' m (nbar_LB alpha m) =
       (2 * (2 * a' + m) / (2 * a' + m + 1) - 2 * (2 * alpha + m) / (2 * alpha + m + 1)) * nbar_LB alpha m ^ 2
        - (a' - alpha)).
    { unfold lb_poly in *. lra. }
    rewrite Q.
    assert (B : 2 * (2 * alpha + m) / (2 * alpha + m + 1) * nbar_LB alpha m ^ 2 <= alpha).
    { unfold lb_poly in E. assert (0 <= m * nbar_LB alpha m) by (apply Rmult_le_pos; lra). lra. }
    set (u := 2 * alpha + m) in *. set (v := 2 * a' + m).
    assert (Hu : 0 < u) by (unfold u; lra). assert (Huv : u < v) by (unfold u, v; lra).
    assert (DD : 2 * v / (v + 1) - 2 * u / (u + 1) = 2 * (v - u) / ((u + 1) * (v + 1))) by (field; lra).
    rewrite DD. replace (a' - alpha) with ((v - u) / 2) by (unfold u, v; field).
    assert (n2 : nbar_LB alpha m ^ 2 <= alpha * (u + 1) / (2 * u)).
    { apply (Rmult_le_reg_l (2 * u / (u + 1))); [apply Rdiv_lt_0_compat; lra|].
      replace (2 * u / (u + 1) * (alpha * (u + 1) / (2 * u))) with alpha by (field; lra). exact B. }
    assert (n3 : 2 * (v - u) / ((u + 1) * (v + 1)) * nbar_LB alpha m ^ 2 <=
                 2 * (v - u) / ((u + 1) * (v + 1)) * (alpha * (u + 1) / (2 * u))).
    { apply Rmult_le_compat_l; auto. left. apply Rdiv_lt_0_compat; [lra|apply Rmult_lt_0_compat; lra]. }
    assert (n4 : 2 * (v - u) / ((u + 1) * (v + 1)) * (alpha * (u + 1) / (2 * u)) < (v - u) / 2).
    { replace (2 * (v - u) / ((u + 1) * (v + 1)) * (alpha * (u + 1) / (2 * u)))
        with ((v - u) / 2 * (2 * alpha / (u * (v + 1)))) by (field; lra).
      rewrite <- (Rmult_1_r ((v - u) / 2)) at 2. apply Rmult_lt_compat_l; [lra|].
      apply (Rmult_lt_reg_r (u * (v + 1))); [apply Rmult_lt_0_compat; lra|].
      replace (2 * alpha / (u * (v + 1)) * (u * (v + 1))) with (2 * alpha) by (field; lra).
      assert (2 * alpha <= u) by (unfold u; lra). nra. }
    lra.
  - apply (lb_le alpha 0 (1 / 2)); auto; try lra. unfold lb_poly.
    rewrite Rplus_0_r. apply (Rmult_lt_reg_r (2 * alpha + 1)); [lra|].
    replace ((2 * (2 * alpha) / (2 * alpha + 1) * (1 / 2) ^ 2 + 0 * (1 / 2) - alpha) * (2 * alpha + 1))
      with (alpha - alpha * (2 * alpha + 1)) by (field; lra). nra.
  - symmetry. apply UNI; auto; try lra.
    + apply sqrt_lt_R0. lra.
    + unfold lb_poly. rewrite pow2_sqrt by lra. rewrite Rplus_0_r. field. lra.
  - intros Hp. apply (Rmult_lt_reg_r m); auto. replace (alpha / m * m) with alpha by (field; lra).
    unfold lb_poly in E.
    assert (0 < 2 * (2 * alpha + m) / (2 * alpha + m + 1) * nbar_LB alpha m ^ 2).
    { apply Rmult_lt_0_compat; auto. apply Rdiv_lt_0_compat; lra. }
    lra.
Qed.

Example C69_case : nbar_LB (3 / 2) 0 = 1.
Proof.
  destruct (C69_Li_Brooks (3 / 2) 0) as (_ & _ & _ & _ & _ & _ & E & _); try lra.
  rewrite E. replace ((2 * (3 / 2) + 1) / 4) with 1 by field. apply sqrt_1.
Qed.

(* ------------------------------------------------------------------ *)
(** * C70 Reaction classes                                            *)
(* ------------------------------------------------------------------ *)

Lemma vadd_eq rx i v : vadd rx i v i = rx i + v.
Proof. unfold vadd, upd. now destruct (Nat.eq_dec i i). Qed.
Lemma vadd_neq rx i j v : i <> j -> vadd rx i v j = rx j.
Proof. intros. unfold vadd, upd. destruct (Nat.eq_dec j i); congruence. Qed.

(** indices used by a propagation step are pairwise different *)
Definition idx_ok (p : prop_rx) : Prop :=
  (p_iM p < p_iP p \/ p_iP p + 2 < p_iM p)%nat /\
  match p_iA p with
  | Some a => a <> p_iM p /\ (a < p_iP p \/ p_iP p + 2 < a)%nat
  | None => True
  end.

(** What one propagation step contributes: monomer consumed = first moment gained, number
    of chains unchanged, second moment k M (2 P1 + P0), nothing else touched. *)
Theorem C70_propagation p T x rx k :
  idx_ok p -> p_k p T = Ok k ->
  exists rx', prop_eval p T x rx = Ok rx' /\
    let r := k * x (p_iM p) * x (p_iP p) in
    rx' (p_iM p) = rx (p_iM p) - r /\
    rx' (p_iP p) = rx (p_iP p) /\
    rx' (p_iP p + 1)%nat = rx (p_iP p + 1)%nat + r /\
    rx' (p_iP p + 2)%nat = rx (p_iP p + 2)%nat + k * x (p_iM p) * (2 * x (p_iP p + 1)%nat + x (p_iP p)) /\
    rx' (p_iM p) + rx' (p_iP p + 1)%nat = rx (p_iM p) + rx (p_iP p + 1)%nat /\
    (forall a, p_iA p = Some a -> rx' a = rx a + r) /\
    (forall j, j <> p_iM p -> j <> (p_iP p + 1)%nat -> j <> (p_iP p + 2)%nat ->
       p_iA p <> Some j -> rx' j = rx j).
Proof.
  intros (H1 & H2) Hk. unfold prop_eval. rewrite Hk. cbn [bind]. eexists; split; [reflexivity|].
  cbn zeta.
  destruct (p_iA p) as [a|]; [destruct H2 as (H2 & H3)|];
    rewrite ?(vadd_neq _ a) by lia; repeat split;
    repeat (rewrite vadd_eq || rewrite vadd_neq by lia); try ring; try discriminate.
  - intros b E; injection E as <-. repeat (rewrite vadd_eq || rewrite vadd_neq by lia). ring.
  - intros j G1 G2 G3 G4. assert (a <> j) by congruence.
    repeat (rewrite vadd_neq by lia). reflexivity.
  - intros j G1 G2 G3 G4. repeat (rewrite vadd_neq by lia). reflexivity.
Qed.

(** The moment source terms agree with the chain-by-chain propagation balance: if P_n are
    the chain concentrations and d P_n = k M (P_{n-1} - P_n), the truncated moments change
    accordingly.  (Telescoping sum; the boundary terms are those of the longest chain.) *)
Theorem C70_moments (P : nat -> R) (k M : R) (N : nat) :
  P 0%nat = 0 ->
  let dP n := match n with O => 0 | S m => k * M * (P m - P (S m)) end in
  let mom q := sumn (S N) (fun n => INR n ^ q * P n) in
  let dmom q := sumn (S N) (fun n => INR n ^ q * dP n) in
  dmom 0%nat = - (k * M * P N) /\
  dmom 1%nat = k * M * mom 0%nat - k * M * INR (S N) * P N /\
  dmom 2%nat = k * M * (2 * mom 1%nat + mom 0%nat) - k * M * INR (S N) ^ 2 * P N.
Proof.
  intros P0. cbn zeta. induction N as [|N (I0 & I1 & I2)].
  - cbn. rewrite P0. repeat split; ring.
  - set (f := fun q n => INR n ^ q * match n with O => 0 | S m => k * M * (P m - P (S m)) end) in *.
    set (g := fun q n => INR n ^ q * P n) in *.
    change (sumn (S (S N)) (f 0%nat) = - (k * M * P (S N)) /\
            sumn (S (S N)) (f 1%nat) = k * M * sumn (S (S N)) (g 0%nat) - k * M * INR (S (S N)) * P (S N) /\
            sumn (S (S N)) (f 2%nat) = k * M * (2 * sumn (S (S N)) (g 1%nat) + sumn (S (S N)) (g 0%nat))
              - k * M * INR (S (S N)) ^ 2 * P (S N)).
    change (sumn (S N) (f 0%nat) = - (k * M * P N)) in I0.
    change (sumn (S N) (f 1%nat) = k * M * sumn (S N) (g 0%nat) - k * M * INR (S N) * P N) in I1.
    change (sumn (S N) (f 2%nat) = k * M * (2 * sumn (S N) (g 1%nat) + sumn (S N) (g 0%nat))
              - k * M * INR (S N) ^ 2 * P N) in I2.
    assert (SU : forall h, sumn (S (S N)) h = sumn (S N) h + h (S N)) by reflexivity.
    rewrite !SU, I0, I1, I2. unfold f, g. rewrite (S_INR (S N)). repeat split; ring.
Qed.

(** Reaction.rate is k(T) times the product of the reactant concentrations, whatever their
    order. *)
Lemma rate_loop_prod C l r : rate_loop C l r = r * fold_right (fun i p => C i * p) 1 l.
Proof. revert r; induction l as [|i l IH]; intros r; cbn; [ring|rewrite IH; ring]. Qed.
Theorem C70_rate k l l' C T v :
  Permutation l l' -> rx_rate k l C T = Ok v ->
  rx_rate k l' C T = Ok v /\ exists k0, k T = Ok k0 /\ v = k0 * fold_right (fun i p => C i * p) 1 l.
Proof.
  intros HP. unfold rx_rate. destruct (k T) as [k0|]; [|easy]. cbn [bind]. intros E; injection E as <-.
  rewrite !rate_loop_prod. split; [|eauto]. do 2 f_equal. symmetry.
  induction HP; cbn; try congruence; ring.
Qed.

(** Total over a network of propagation steps: monomer plus first-moment rates of all steps
    cancel. *)
Theorem C70_network l T x rx' iM iP :
  (forall p, In p l -> idx_ok p /\ p_iM p = iM /\ p_iP p = iP) ->
  rs_rates l T x = Ok rx' -> rx' iM + rx' (iP + 1)%nat = 0 /\ (l <> [] -> rx' iP = 0).
Proof.
  intros H E. unfold rs_rates in E.
  assert (G : forall rx, rates_loop l T x rx = Ok rx' ->
    rx' iM + rx' (iP + 1)%nat = rx iM + rx (iP + 1)%nat /\ rx' iP = rx iP).
  { clear E. induction l as [|p l IH]; intros rx E; cbn in E.
    - now injection E as <-.
    - destruct (p_k p T) as [k|e] eqn:Ek; [|unfold prop_eval in E; rewrite Ek in E; easy].
      destruct (H p (or_introl eq_refl)) as (Hi & <- & <-).
      destruct (C70_propagation p T x rx k Hi Ek) as (r1 & E1 & _ & A0 & _ & _ & A & _).
      rewrite E1 in E. cbn [bind] in E.
      destruct (IH (fun q Hq => H q (or_intror Hq)) r1 E) as (B1 & B2).
      split; [rewrite B1; exact A|rewrite B2; exact A0]. }
  destruct (G _ E) as (G1 & G2). cbn in G1, G2. split; [lra|auto].
Qed.

(** Finding: no reaction system with a reaction can be built; adding two different
    reactions raises AttributeError. *)
Theorem C70_system_refuted : forall l, l <> [] -> exists e, ReactionSystem l = Err e.
Proof.
  intros l H. unfold ReactionSystem. destruct (has_dup l); [eauto|]. destruct l; [easy|eauto].
Qed.
Theorem C70_add_refuted : exists a b, a <> b /\ rx_add a b = Err AttributeError.
Proof. exists 0%nat, 1%nat. split; [lia|reflexivity]. Qed.

Example C70_case :
  exists rx', prop_eval (mkProp 0 1 None (fun _ => Ok 2)) 300
     (fun i => match i with O => 5 | 1%nat => 3 | 2%nat => 7 | _ => 0 end) (fun _ => 0) = Ok rx' /\
   rx' 0%nat = -30 /\ rx' 2%nat = 30 /\ rx' 3%nat = 170.
Proof.
  edestruct (C70_propagation (mkProp 0 1 None (fun _ => Ok 2)) 300
     (fun i => match i with O => 5 | 1%nat => 3 | 2%nat => 7 | _ => 0 end) (fun _ => 0) 2)
    as (rx' & E & A & _ & B & C & _).
  - split; cbn; auto. - reflexivity.
  - exists rx'. split; [exact E|]. cbn in A, B, C. repeat split; lra.
Qed.

Print Assumptions C27_half_call.
Print Assumptions C27_half_equation.
Print Assumptions C27_termination_call.
Print Assumptions C69_recurrence.
Print Assumptions C69_Li_Brooks.
Print Assumptions C70_propagation.
Print Assumptions C70_network.
Print Assumptions C71_eyring.
