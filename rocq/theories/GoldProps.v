(** Weibull-Nycander-Gold distribution (C67, continued): the fractions are probabilities, the tail sum used
    for r < 1, the Poisson shortcut and the limiting value of p0. *)
From Coq Require Import Reals Lra Lia List Bool Arith ZArith.
From Coquelicot Require Import Coquelicot.
From Verif Require Import Prelude RootsModel RootsProps DistModel DistFamProps MomModel MomProps Deriv HmtProps LnBounds NumBounds.
Import ListNotations.
Open Scope R_scope.

Local Ltac eqR := match goal with |- ?a = ?b => change (@eq R a b) end.

(** *** Remainder of the exponential series at non-positive arguments *)
Lemma expn_0 n : (1 <= n)%nat -> expn 0 n = 1.
Proof.
  intros H. destruct n as [|n]; [lia|]. clear H. induction n as [|n IH].
  - unfold expn. cbn. field.
  - change (expn 0 (S (S n))) with (expn 0 (S n) + 0 ^ S n / INR (fact (S n))).
    rewrite IH. rewrite pow_i by lia. unfold Rdiv. ring.
Qed.
Lemma term_D n y : D (fun y => y ^ S n / INR (fact (S n))) y (y ^ n / INR (fact n)).
Proof.
  pose proof (INR_fact_lt_0 n). pose proof (lt_0_INR (S n) ltac:(lia)).
  assert (E : INR (fact (S n)) = INR (S n) * INR (fact n)) by (rewrite fact_simpl, mult_INR; reflexivity).
  apply D_ext with (fun y => / INR (fact (S n)) * y ^ S n). { intros t. unfold Rdiv. ring. }
  apply D_eq with (/ INR (fact (S n)) * (INR (S n) * y ^ n)).
  - apply D_scal. apply is_derive_Reals. apply derivable_pt_lim_pow.
  - rewrite E. field. lra.
Qed.
Lemma expn_D n y : D (fun y => expn y (S n)) y (expn y n).
Proof.
  induction n as [|n IH].
  - apply is_derive_ext with (fun _ : R => 1). { intros t. unfold expn. cbn. eqR. field. }
    unfold expn. cbn. apply (is_derive_const 1).
  - apply is_derive_ext with (fun t => expn t (S n) + t ^ S n / INR (fact (S n))). { intros t. reflexivity. }
    change (expn y (S n)) with (expn y n + y ^ n / INR (fact n)).
    apply (is_derive_plus (fun t => expn t (S n)) (fun t => t ^ S n / INR (fact (S n)))); [exact IH|apply term_D].
Qed.

Lemma nonneg_D (f f' : R -> R) : f 0 = 0 -> (forall y, D f y (f' y)) -> (forall y, 0 <= y -> 0 <= f' y) ->
  forall y, 0 <= y -> 0 <= f y.
Proof.
  intros H0 HD Hp y Hy. destruct (MVT_gen f 0 y f') as (c & Hc & E).
  - intros x _. apply HD.
  - intros x _. apply derivable_continuous_pt. exists (f' x). apply is_derive_Reals. apply HD.
  - rewrite Rmin_left, Rmax_right in Hc by lra. pose proof (Hp c ltac:(lra)). rewrite H0 in E. nra.
Qed.

Definition rem (k : nat) (y : R) : R := (-1) ^ k * (exp (- y) - expn (- y) k).
Lemma rem_D k y : D (rem (S k)) y (rem k y).
Proof.
  unfold rem.
  apply D_eq with ((-1) ^ S k * (exp (- y) * -1 - expn (- y) k * -1)); [|cbn; ring].
  assert (O : D (fun t => - t) y (-1)).
  { apply (D_opp (fun t => t)), D_id. }
  apply (D_scal ((-1) ^ S k) (fun t => exp (- t) - expn (- t) (S k))).
  apply (D_minus (fun t => exp (- t)) (fun t => expn (- t) (S k))).
  - now apply D_exp.
  - apply (D_comp (fun t => expn t (S k)) (fun t => - t)); [exact O|apply expn_D].
Qed.
Lemma rem_bound k : forall y, 0 <= y -> 0 <= rem k y <= y ^ k / INR (fact k).
Proof.
  induction k as [|k IH]; intros y Hy.
  - unfold rem, expn. cbn. pose proof (exp_pos (- y)).
    assert (exp (- y) <= exp 0) by (destruct (Req_dec y 0) as [->|]; [rewrite Ropp_0; lra|left; apply exp_increasing; lra]).
    rewrite exp_0 in *. lra.
  - assert (Z : rem (S k) 0 = 0). { unfold rem. rewrite Ropp_0, exp_0, expn_0 by lia. ring. }
    split.
    + apply (nonneg_D (rem (S k)) (rem k)); auto; [apply rem_D|]. intros t Ht. now apply IH.
    + assert (0 <= y ^ S k / INR (fact (S k)) - rem (S k) y); [|lra].
      apply (nonneg_D (fun y => y ^ S k / INR (fact (S k)) - rem (S k) y) (fun y => y ^ k / INR (fact k) - rem k y)); auto.
      * rewrite Z, pow_i by lia. unfold Rdiv. ring.
      * intros t. apply D_minus; [apply term_D|apply rem_D].
      * intros t Ht. pose proof (IH t Ht). lra.
Qed.

Lemma tail_rem k y : 1 - exp y * expn (- y) k = (-1) ^ k * (exp y * rem k y).
Proof.
  unfold rem. assert (E : exp y * exp (- y) = 1) by (rewrite <- exp_plus, Rplus_opp_r; apply exp_0).
  assert (Q : (-1) ^ k * (-1) ^ k = 1) by (rewrite <- Rpow_mult_distr; replace (-1 * -1) with 1 by ring; apply pow1).
  transitivity ((-1) ^ k * (-1) ^ k * (exp y * exp (- y) - exp y * expn (- y) k)); [rewrite Q, E; ring|ring].
Qed.
Lemma rem_S k y : rem (S k) y = y ^ k / INR (fact k) - rem k y.
Proof.
  unfold rem. change (expn (- y) (S k)) with (expn (- y) k + (- y) ^ k / INR (fact k)).
  replace (- y) with (-1 * y) at 3 by ring. rewrite Rpow_mult_distr.
  assert (Q : (-1) ^ k * (-1) ^ k = 1) by (rewrite <- Rpow_mult_distr; replace (-1 * -1) with 1 by ring; apply pow1).
  cbn [pow].
  transitivity ((-1) ^ k * (-1) ^ k * (y ^ k / INR (fact k)) - (-1) ^ k * (exp (- y) - expn (- y) k)); [unfold Rdiv; ring|].
  rewrite Q. ring.
Qed.

Lemma expn_le a k : 0 <= a -> expn a k <= exp a.
Proof.
  intros Ha. pose proof (expn_lim a) as H.
  assert (M : forall n, expn a n <= expn a (S n)).
  { intros n. change (expn a (S n)) with (expn a n + a ^ n / INR (fact n)). pose proof (INR_fact_lt_0 n).
    assert (0 <= a ^ n / INR (fact n)); [|lra]. apply Rmult_le_pos; [now apply pow_le|left; now apply Rinv_0_lt_compat]. }
  exact (is_lim_seq_incr_compare (expn a) (exp a) H M k).
Qed.

Lemma le_series (f : nat -> R) : (forall k, 0 <= f k) -> is_series f 1 -> forall k, f k <= 1.
Proof.
  intros Hf Hs k. assert (M : forall n, sum_n f n <= sum_n f (S n)).
  { intros n. rewrite sum_Sn. specialize (Hf (S n)). unfold plus; simpl. lra. }
  pose proof (is_lim_seq_incr_compare (sum_n f) 1 Hs M k) as L.
  assert (f k <= sum_n f k); [|lra].
  destruct k as [|k]; [rewrite sum_O; lra|]. rewrite sum_Sn. unfold plus; simpl.
  assert (0 <= sum_n f k); [|lra]. clear - Hf. induction k as [|k IH]; [rewrite sum_O; apply Hf|].
  rewrite sum_Sn. unfold plus; simpl. pose proof (Hf (S k)). lra.
Qed.

Lemma ln_p0 p0 : 0 < p0 < 1 -> ln p0 < 0.
Proof. intros H. rewrite <- ln_1. apply ln_increasing; lra. Qed.

(** Exact value for r < 1 as a remainder of the exponential series. *)
Lemma lt1_rem p0 r k : 0 < p0 < 1 -> 0 < r < 1 -> (1 <= k)%nat ->
  gold_pdf_lt1 p0 r k = exp (ln (p0 / r) + INR k * ln (r / (1 - r))) * exp (- ((1 - r) * ln p0)) * rem k (- ((1 - r) * ln p0)).
Proof.
  intros Hp Hr Hk. destruct k as [|k]; [lia|]. unfold gold_pdf_lt1. rewrite gold_S_ok by lia.
  set (y := - ((1 - r) * ln p0)). replace ((1 - r) * ln p0) with (- y) by (unfold y; ring). rewrite tail_rem.
  assert (Q : (-1) ^ S k * (-1) ^ S k = 1) by (rewrite <- Rpow_mult_distr; replace (-1 * -1) with 1 by ring; apply pow1).
  transitivity (exp (ln (p0 / r) + INR (S k) * ln (r / (1 - r))) * ((-1) ^ S k * (-1) ^ S k) * (exp y * rem (S k) y)); [ring|].
  rewrite Q. ring.
Qed.

(** The number fractions are probabilities. *)
Theorem C67_gold_probability : forall inc p0 r k, gammainc_int inc -> 0 < p0 < 1 -> 0 < r ->
  (1 < r -> 0 <= gold_pdf_gt1 inc p0 r k <= 1) /\ (r < 1 -> 0 <= gold_pdf_lt1 p0 r k <= 1).
Proof.
  intros inc p0 r k Hi Hp Hr. pose proof (ln_p0 p0 Hp) as Hl. split; intros Hr1.
  - assert (N : forall k, 0 <= gold_pdf_gt1 inc p0 r k).
    { intros [|j]; [simpl; lra|]. unfold gold_pdf_gt1. apply Rmult_le_pos; [left; apply exp_pos|].
      assert (0 < (1 - r) * ln p0) by nra. rewrite Hi by (auto; lia).
      change (sumn (S j) (fun i => ((1 - r) * ln p0) ^ i / INR (fact i))) with (expn ((1 - r) * ln p0) (S j)).
      pose proof (expn_le ((1 - r) * ln p0) (S j) ltac:(lra)). pose proof (exp_pos (- ((1 - r) * ln p0))).
      assert (exp (- ((1 - r) * ln p0)) * exp ((1 - r) * ln p0) = 1) by (rewrite <- exp_plus, Rplus_opp_l; apply exp_0). nra. }
    split; [apply N|]. apply (le_series _ N). now apply (C67_gold_gt1 inc p0 r 0).
  - assert (N : forall k, 0 <= gold_pdf_lt1 p0 r k).
    { intros j. destruct (Nat.eq_dec j 0) as [->|Hj]; [simpl; lra|]. rewrite lt1_rem by (auto; lia || lra).
      apply Rmult_le_pos; [apply Rmult_le_pos; left; apply exp_pos|]. apply rem_bound. nra. }
    split; [apply N|]. apply (le_series _ N). apply (C67_gold_lt1 p0 r 0); auto; lra.
Qed.

(** *** The tail sum *)
Lemma tail_loop_spec eps a n : forall j s S0, (1 <= j)%nat -> s = a ^ (j - 1) / INR (fact (j - 1)) -> (1 <= n)%nat ->
  exists J, (j <= J <= j + n - 1)%nat /\ gold_tail_loop eps a j n s S0 = S0 + (expn a (S J) - expn a j) /\
    ((J = j + n - 1)%nat \/ Rabs (a ^ J / INR (fact J)) < 100 * eps).
Proof.
  induction n as [|n IH]; intros j s S0 Hj Hs Hn; [lia|].
  assert (E : s * (a / INR j) = a ^ j / INR (fact j)).
  { rewrite Hs. destruct j as [|j]; [lia|]. replace (S j - 1)%nat with j by lia. rewrite fact_simpl, mult_INR.
    pose proof (INR_fact_lt_0 j). pose proof (lt_0_INR (S j) ltac:(lia)). cbn [pow]. field. lra. }
  cbn [gold_tail_loop]. rewrite E. clear E Hs s.
  assert (X : expn a (S j) - expn a j = a ^ j / INR (fact j)) by (change (expn a (S j)) with (expn a j + a ^ j / INR (fact j)); ring).
  unfold Rltb at 1. destruct (Rlt_dec (Rabs (a ^ j / INR (fact j))) (eps * 100)) as [L|L].
  - exists j. split; [lia|]. split; [rewrite X; reflexivity|right; lra].
  - destruct n as [|n].
    + cbn [gold_tail_loop]. exists j. split; [lia|]. split; [rewrite X; reflexivity|left; lia].
    + destruct (IH (S j) (a ^ j / INR (fact j)) (S0 + a ^ j / INR (fact j))) as (J & B & V & T); try lia.
      { replace (S j - 1)%nat with j by lia. reflexivity. }
      exists J. split; [lia|]. split; [|destruct T; [left; lia|right; auto]].
      rewrite V. rewrite <- X. ring.
Qed.

Lemma gold_tail_ok eps a k : exists J, (k + 1 <= J <= k + 100)%nat /\ gold_tail eps a k = expn a (S J) - expn a k /\
  ((J = k + 100)%nat \/ Rabs (a ^ J / INR (fact J)) < 100 * eps).
Proof.
  unfold gold_tail. destruct (tail_loop_spec eps a 100 (k + 1) (a ^ k / INR (fact k)) (a ^ k / INR (fact k))) as (J & B & V & T); try lia.
  { replace (k + 1 - 1)%nat with k by lia. reflexivity. }
  exists J. split; [lia|]. split; [|destruct T; [left; lia|right; auto]].
  rewrite V. replace (k + 1)%nat with (S k) by lia. change (expn a (S k)) with (expn a k + a ^ k / INR (fact k)). ring.
Qed.

(** The amplitude of the tail sum, p0^r / r (r / (1 - r))^k. *)
Lemma amp_eq p0 r k : 0 < p0 -> 0 < r < 1 ->
  exp (ln (p0 / r) + INR k * ln (r / (1 - r))) * exp (- ((1 - r) * ln p0)) = Rpower p0 r / r * (r / (1 - r)) ^ k.
Proof.
  intros Hp Hr. assert (0 < r / (1 - r)) by (apply Rdiv_lt_0_compat; lra).
  rewrite exp_plus. fold (Rpower (r / (1 - r)) (INR k)). rewrite Rpower_pow by auto.
  rewrite ln_div by lra. unfold Rminus at 1. rewrite exp_plus, exp_Ropp, exp_ln, (exp_ln r) by lra. unfold Rpower.
  replace (r * ln p0) with (ln p0 + - ((1 - r) * ln p0)) by ring. rewrite exp_plus, exp_ln by auto. field; lra.
Qed.

(** Value returned for r < 1 against the exact one: the first branch is exact, the tail sum stops
    at some index J with an error below the next term. *)
Theorem C67_gold_tail : forall eps v p0 r k, 0 < p0 < 1 -> 0 < r < 1 -> (1 <= k)%nat ->
  gold_lt1 eps v r p0 k = gold_pdf_lt1 p0 r k \/
  exists J, (k + 1 <= J <= k + 100)%nat /\
    ((J = k + 100)%nat \/ ((1 - r) * - ln p0) ^ J / INR (fact J) < 100 * eps) /\
    Rabs (gold_lt1 eps v r p0 k - gold_pdf_lt1 p0 r k)
      <= Rpower p0 r / r * (r / (1 - r)) ^ k * (((1 - r) * - ln p0) ^ S J / INR (fact (S J))).
Proof.
  intros eps v p0 r k Hp Hr Hk. pose proof (ln_p0 p0 Hp) as Hl. destruct k as [|k]; [lia|].
  unfold gold_lt1. fold (gold_pdf_lt1 p0 r (S k)).
  match goal with |- (if ?c then _ else _) = _ \/ _ => destruct c end; [left; reflexivity|right].
  destruct (gold_tail_ok eps ((1 - r) * ln p0) (S k)) as (J & B & V & T). exists J. split; [exact B|].
  set (y := (1 - r) * - ln p0). assert (Hy : 0 <= y) by (unfold y; nra).
  assert (Ey : (1 - r) * ln p0 = - y) by (unfold y; ring).
  split.
  - destruct T as [T|T]; [left; exact T|right]. eapply Rle_lt_trans; [|exact T]. rewrite Ey.
    unfold Rdiv. rewrite Rabs_mult, <- RPow_abs, Rabs_Ropp, (Rabs_pos_eq y) by lra.
    rewrite (Rabs_pos_eq (/ INR (fact J))) by (left; apply Rinv_0_lt_compat, INR_fact_lt_0). lra.
  - rewrite <- amp_eq by (auto; lra). unfold gold_pdf_lt1. rewrite gold_S_ok by lia. rewrite V, Ey, Ropp_involutive.
    set (A := exp (ln (p0 / r) + INR (S k) * ln (r / (1 - r)))).
    assert (HA : 0 < A) by apply exp_pos. pose proof (exp_pos y) as Hey.
    replace (A * (-1) ^ S k * exp y * (expn (- y) (S J) - expn (- y) (S k)) - A * (-1) ^ S k * (1 - exp y * expn (- y) (S k)))
      with (- (A * (-1) ^ S k * (1 - exp y * expn (- y) (S J)))) by ring.
    rewrite tail_rem, Rabs_Ropp, !Rabs_mult, <- !RPow_abs.
    replace (Rabs (-1)) with 1 by (rewrite Rabs_left; lra). rewrite !pow1.
    destruct (rem_bound (S J) y Hy) as [R0 R1]. rewrite !Rabs_pos_eq by lra.
    rewrite Rmult_1_r, Rmult_1_l, <- Rmult_assoc. apply Rmult_le_compat_l; [nra|exact R1].
Qed.

(** The Poisson shortcut near r = 1. *)
Lemma poisson_term v k : 0 < v -> exp (INR k * ln v - v - ln (INR (fact k))) = exp (- v) * (v ^ k / INR (fact k)).
Proof.
  intros Hv. pose proof (INR_fact_lt_0 k). unfold Rminus. rewrite !exp_plus, exp_Ropp, (exp_Ropp (ln _)), exp_ln by auto.
  fold (Rpower v (INR k)). rewrite Rpower_pow by auto. rewrite <- exp_Ropp. field; lra.
Qed.
Theorem C67_gold_poisson : forall eps root inc v r, 0 < v -> Rabs (r - 1) < 1 / 1000 ->
  is_series (gold_pdf eps root inc v r) 1 /\ is_series (fun k => INR k * gold_pdf eps root inc v r k) v.
Proof.
  intros eps root inc v r Hv Hr.
  assert (E : forall k, gold_pdf eps root inc v r k = exp (- v) * (v ^ k / INR (fact k))).
  { intros k. unfold gold_pdf, Rltb. destruct (Rlt_dec _ _); [|contradiction]. now apply poisson_term. }
  assert (X : exp (- v) * exp v = 1) by (rewrite <- exp_plus, Rplus_opp_l; apply exp_0).
  split.
  - rewrite <- X. apply is_series_ext with (fun k => scal (exp (- v)) (v ^ k / INR (fact k))). { intros k. now rewrite E. }
    apply (is_series_scal (exp (- v)) (fun k => v ^ k / INR (fact k)) (exp v)).
    pose proof (ff_series v 0) as H. rewrite pow_O, Rmult_1_l in H. revert H. apply is_series_ext.
    intros k. cbn [ff]. eqR. unfold Rdiv. ring.
  - assert (V : v = scal (exp (- v)) (v * exp v)).
    { unfold scal; simpl; unfold mult; simpl. eqR. transitivity (v * (exp (- v) * exp v)); [rewrite X; ring|ring]. }
    cut (is_series (fun k => INR k * gold_pdf eps root inc v r k) (scal (exp (- v)) (v * exp v))); [rewrite <- V; auto|].
    apply is_series_ext with (fun k => scal (exp (- v)) (INR k * (v ^ k / INR (fact k)))).
    { intros k. rewrite E. unfold scal; simpl; unfold mult; simpl. eqR. ring. }
    apply (is_series_scal (exp (- v)) (fun k => INR k * (v ^ k / INR (fact k))) (v * exp v)).
    pose proof (ff_series v 1) as H. rewrite pow_1 in H. revert H. apply is_series_ext.
    intros k. eqR. destruct k; cbn [ff]; [cbn|]; unfold Rdiv; ring.
Qed.

(** The limiting value of p0: the mean is v + (r - 1) p0, where p0 is at most about the machine epsilon. *)
Theorem C67_gold_limit : forall eps root inc v r, gammainc_int inc -> 0 < eps < 1 -> 1 <= v -> 0 < r ->
  0 <= gold_find_p0 v r eps ->
  let p0 := gold_p0 eps root v r in
  0 < p0 < 1 /\ p0 <= eps * exp (eps * (1 - r) / r) /\
  (1 < r -> is_series (fun k => INR k * gold_pdf_gt1 inc p0 r k) (v + (r - 1) * p0)) /\
  (r < 1 -> is_series (fun k => INR k * gold_pdf_lt1 p0 r k) (v + (r - 1) * p0)).
Proof.
  intros eps root inc v r Hi He Hv Hr Hf p0.
  assert (E0 : p0 = exp ((1 - v - r) / r)). { unfold p0, gold_p0, Rltb. destruct (Rlt_dec _ _); [lra|reflexivity]. }
  assert (Hp : 0 < p0 < 1).
  { rewrite E0. split; [apply exp_pos|]. apply Rlt_le_trans with (exp 0); [apply exp_increasing|rewrite exp_0; lra].
    apply Rmult_lt_reg_r with r; auto. unfold Rdiv. rewrite Rmult_assoc, Rinv_l, Rmult_0_l by lra. lra. }
  assert (F : gold_find_p0 (v + (r - 1) * p0) r p0 = 0).
  { unfold gold_find_p0. rewrite E0 at 2. rewrite ln_exp. field. lra. }
  split; [exact Hp|]. split; [|split; intros Hr1].
  - rewrite E0. replace eps with (exp (ln eps)) at 1 by (apply exp_ln; lra). rewrite <- exp_plus.
    apply exp_le. apply Rmult_le_reg_r with r; auto. unfold Rdiv. rewrite Rmult_plus_distr_r, !Rmult_assoc, Rinv_l by lra.
    unfold gold_find_p0 in Hf. lra.
  - apply C67_gold_gt1; auto.
  - apply C67_gold_lt1; auto; lra.
Qed.

(** The equation for p0 solved by root_brent: the mean equals v up to the residual tolerance, or p0 is within the
    position tolerance of an exact solution. *)
Lemma find_p0_ivt v r e a b : 0 < e -> e <= a -> e <= b -> gold_find_p0 v r a * gold_find_p0 v r b <= 0 ->
  exists z, Rmin a b <= z <= Rmax a b /\ gold_find_p0 v r z = 0.
Proof.
  intros He Ha Hb Hs.
  set (g := fun x => v + r * ln (Rmax e x) + (r - 1) * (1 - x)).
  assert (G : forall x, e <= x -> g x = gold_find_p0 v r x) by (intros x Hx; unfold g, gold_find_p0; rewrite Rmax_right by lra; reflexivity).
  assert (Cm : forall x, continuity_pt (Rmax e) x).
  { intros x. apply (continuity_pt_ext (fun t => (e + t + Rabs (e - t)) * / 2)).
    - intros t. unfold Rmax. destruct (Rle_dec e t); unfold Rabs; destruct (Rcase_abs _); lra.
    - apply continuity_pt_mult; [|apply continuity_pt_const; intros ? ?; reflexivity].
      apply continuity_pt_plus.
      + apply continuity_pt_plus; [apply continuity_pt_const; intros ? ?; reflexivity|apply continuity_pt_id].
      + apply (continuity_pt_comp (fun t => e - t) Rabs); [|apply Rcontinuity_abs].
        apply continuity_pt_minus; [apply continuity_pt_const; intros ? ?; reflexivity|apply continuity_pt_id]. }
  assert (Cg : continuity g).
  { intros x. unfold g. apply continuity_pt_plus.
    - apply continuity_pt_plus; [apply continuity_pt_const; intros ? ?; reflexivity|].
      apply continuity_pt_mult; [apply continuity_pt_const; intros ? ?; reflexivity|].
      apply (continuity_pt_comp (Rmax e) ln); [apply Cm|]. apply derivable_continuous_pt. exists (/ Rmax e x). apply derivable_pt_lim_ln. apply Rlt_le_trans with e; [auto|apply Rmax_l].
    - apply continuity_pt_mult; [apply continuity_pt_const; intros ? ?; reflexivity|].
      apply continuity_pt_minus; [apply continuity_pt_const; intros ? ?; reflexivity|apply continuity_pt_id]. }
  destruct (IVT_gen g a b 0 Cg) as (z & Hz & Ez).
  { rewrite !G by auto. unfold Rmin, Rmax. destruct (Rle_dec _ _); nra. }
  exists z. split; [exact Hz|]. rewrite <- G; [exact Ez|]. eapply Rle_trans; [|apply Hz]. now apply Rmin_glb.
Qed.

Theorem C67_gold_solution : forall inc v r maxiter tr s, gammainc_int inc -> 0 < r -> gold_find_p0 v r eps < 0 ->
  root_brent (gold_find_p0 v r) eps 1 (1 / 10 ^ 12) (1 / 10 ^ 12) maxiter = (tr, Ok s) -> rr_success s = true -> rr_x s < 1 ->
  let p0 := gold_p0 eps (rr_x s) v r in exists mean,
  (1 < r -> is_series (fun k => INR k * gold_pdf_gt1 inc p0 r k) mean) /\
  (r < 1 -> is_series (fun k => INR k * gold_pdf_lt1 p0 r k) mean) /\
  (Rabs (mean - v) <= 1 / 10 ^ 12 \/
   exists z, eps <= z <= 1 /\ gold_find_p0 v r z = 0 /\ Rabs (z - p0) <= 1 / 10 ^ 12 + 4 * eps * p0).
Proof.
  intros inc v r maxiter tr s Hi Hr Hf E Hs H1 p0.
  assert (Ep : p0 = rr_x s) by (unfold p0, gold_p0, Rltb; destruct (Rlt_dec _ _); [reflexivity|lra]).
  assert (He : 0 < eps) by (unfold eps; apply Rinv_0_lt_compat; lra).
  assert (He1 : eps < 1) by (unfold eps; lra).
  assert (Tol : 0 <= 1 / 10 ^ 12) by lra.
  assert (P : eps <= p0).
  { pose proof (C04_brent_total_and_counted (gold_find_p0 v r) eps 1 (1 / 10 ^ 12) (1 / 10 ^ 12) maxiter Tol Tol) as T.
    destruct maxiter as [|n].
    - unfold root_brent in E. rewrite Ep. destruct (Rleb _ _); [injection E as _ <-; simpl; lra|].
      destruct (Rleb _ _); [injection E as _ <-; simpl; lra|]. destruct (Rltb _ _); [discriminate|]. simpl in E. discriminate.
    - destruct (T ltac:(lia)) as [(_ & _ & _ & K)|(_ & tr' & s' & E' & _ & _ & In' & _)]; [rewrite E in K; discriminate|].
      rewrite E in E'. injection E' as <- <-.
      pose proof (C04_brent_stays_in_bracket (gold_find_p0 v r) eps 1 (1 / 10 ^ 12) (1 / 10 ^ 12) (S n) Tol Tol (rr_x s)) as B.
      rewrite E in B. specialize (B In'). rewrite Rmin_left in B by lra. lra. }
  assert (Hp : 0 < p0 < 1) by lra.
  exists (- (r * ln p0 + (r - 1) * (1 - p0))). split; [|split].
  - intros Hr1. apply C67_gold_gt1; auto. unfold gold_find_p0. ring.
  - intros Hr1. apply C67_gold_lt1; auto. unfold gold_find_p0. ring.
  - destruct (C03_brent_success_is_enclosure (gold_find_p0 v r) eps 1 (1 / 10 ^ 12) (1 / 10 ^ 12) maxiter tr s Tol Tol E) as (_ & K).
    destruct (K Hs) as [B|(c & B1 & B2 & B3)]; rewrite <- Ep in *.
    + left. replace (- (r * ln p0 + (r - 1) * (1 - p0)) - v) with (- gold_find_p0 v r p0) by (unfold gold_find_p0; ring).
      now rewrite Rabs_Ropp.
    + right. rewrite Rmin_left, Rmax_right in B1 by lra.
      destruct (find_p0_ivt v r eps p0 c He P ltac:(lra) B3) as (z & Hz & Ez). exists z.
      rewrite (Rabs_pos_eq p0) in B2 by lra.
      assert (ZB : eps <= z <= 1).
      { destruct Hz as [Z1 Z2]. split; [eapply Rle_trans; [|exact Z1]; apply Rmin_glb; lra|eapply Rle_trans; [exact Z2|]; apply Rmax_lub; lra]. }
      split; [exact ZB|]. split; [exact Ez|]. eapply Rle_trans; [|exact B2].
      unfold Rmin, Rmax in Hz. destruct (Rle_dec p0 c); unfold Rabs; repeat destruct (Rcase_abs _); lra.
Qed.

(** *** Numerical cases *)
Fixpoint zfact (n : nat) : Z := match n with O => 1%Z | S m => (Z.of_nat n * zfact m)%Z end.
Lemma zfact_ok n : INR (fact n) = IZR (zfact n).
Proof. induction n as [|n IH]; [reflexivity|]. rewrite fact_simpl, mult_INR, IH, INR_IZR_INZ, <- mult_IZR. reflexivity. Qed.

Lemma zlt p q n F c d : (0 < q)%Z -> (0 < F)%Z -> (0 < d)%Z ->
  (p ^ Z.of_nat n * d <? c * (q ^ Z.of_nat n * F))%Z = true -> (IZR p / IZR q) ^ n / IZR F < IZR c / IZR d.
Proof.
  intros Hq HF Hd H. apply Z.ltb_lt, IZR_lt in H. rewrite !mult_IZR, <- !pow_IZR in H.
  apply IZR_lt in Hq, HF, Hd. pose proof (pow_lt (IZR q) n Hq) as Hn.
  unfold Rdiv at 2. rewrite Rpow_mult_distr, pow_inv.
  apply Rmult_lt_reg_r with (IZR q ^ n * IZR F * IZR d); [apply Rmult_lt_0_compat; [now apply Rmult_lt_0_compat|auto]|].
  replace (IZR p ^ n * / IZR q ^ n / IZR F * (IZR q ^ n * IZR F * IZR d)) with (IZR p ^ n * IZR d) by (field; lra).
  replace (IZR c / IZR d * (IZR q ^ n * IZR F * IZR d)) with (IZR c * (IZR q ^ n * IZR F)) by (field; lra). exact H.
Qed.
Lemma zgt p q n F c d : (0 < q)%Z -> (0 < F)%Z -> (0 < d)%Z ->
  (c * (q ^ Z.of_nat n * F) <? p ^ Z.of_nat n * d)%Z = true -> IZR c / IZR d < (IZR p / IZR q) ^ n / IZR F.
Proof.
  intros Hq HF Hd H. apply Z.ltb_lt, IZR_lt in H. rewrite !mult_IZR, <- !pow_IZR in H.
  apply IZR_lt in Hq, HF, Hd. pose proof (pow_lt (IZR q) n Hq) as Hn.
  unfold Rdiv at 3. rewrite Rpow_mult_distr, pow_inv.
  apply Rmult_lt_reg_r with (IZR q ^ n * IZR F * IZR d); [apply Rmult_lt_0_compat; [now apply Rmult_lt_0_compat|auto]|].
  replace (IZR p ^ n * / IZR q ^ n / IZR F * (IZR q ^ n * IZR F * IZR d)) with (IZR p ^ n * IZR d) by (field; lra).
  replace (IZR c / IZR d * (IZR q ^ n * IZR F * IZR d)) with (IZR c * (IZR q ^ n * IZR F)) by (field; lra). exact H.
Qed.
Lemma zfact_pos n : (0 < zfact n)%Z.
Proof. induction n as [|n IH]; [reflexivity|]. cbn [zfact]. apply Z.mul_pos_pos; [lia|exact IH]. Qed.

Lemma tail_stop eps a k : Rabs (a ^ S k / INR (fact (S k))) < 100 * eps -> gold_tail eps a k = expn a (S (S k)) - expn a k.
Proof.
  intros H. unfold gold_tail. replace (k + 1)%nat with (S k) by lia. change 100%nat with (S 99). generalize 99%nat. intros n.
  set (s := a ^ k / INR (fact k)). cbn [gold_tail_loop].
  assert (E : a ^ k / INR (fact k) * (a / INR (S k)) = a ^ S k / INR (fact (S k))).
  { rewrite fact_simpl, mult_INR. pose proof (INR_fact_lt_0 k). pose proof (lt_0_INR (S k) ltac:(lia)). cbn [pow]. field. lra. }
  fold s in E. rewrite E. unfold Rltb. destruct (Rlt_dec _ _) as [_|N]; [|lra]. unfold s.
  change (expn a (S (S k))) with (expn a k + a ^ k / INR (fact k) + a ^ S k / INR (fact (S k))). ring.
Qed.

Lemma ln_eps : -37 < ln eps < -36.
Proof.
  unfold eps. rewrite ln_Rinv by lra. rewrite <- Rpower_pow by lra. unfold Rpower. rewrite ln_exp.
  rewrite INR_IZR_INZ. simpl IZR. pose proof ln_2_bounds. lra.
Qed.

Lemma lt1_stop eps v r p0 k y : 0 < p0 -> 0 < r < 1 -> (1 <= k)%nat -> v <= INR k -> (1 - r) * ln p0 = - y -> 0 <= y ->
  y ^ S k / INR (fact (S k)) < 100 * eps ->
  gold_lt1 eps v r p0 k = Rpower p0 r / r * (r / (1 - r)) ^ k * (rem k y - rem (S (S k)) y).
Proof.
  intros Hp Hr Hk Hv Ey Hy Hs. destruct k as [|k]; [lia|]. unfold gold_lt1. unfold Rltb at 2.
  destruct (Rlt_dec (INR (S k)) v) as [L|_]; [lra|]. rewrite andb_false_r. rewrite <- amp_eq by auto. rewrite tail_stop.
  - rewrite Ey, Ropp_involutive. unfold rem. rewrite <- !tech_pow_Rmult. ring.
  - rewrite Ey. unfold Rdiv. rewrite Rabs_mult, <- RPow_abs, Rabs_Ropp, (Rabs_pos_eq y) by auto.
    rewrite Rabs_pos_eq by (left; apply Rinv_0_lt_compat, INR_fact_lt_0). exact Hs.
Qed.

Lemma num50 : 1 / (100 * 11 ^ 40) < (199 / 5) ^ 50 / (INR (fact 50) * 30 ^ 40).
Proof.
  rewrite zfact_ok, !pow_IZR, <- !mult_IZR.
  apply (zgt 199 5 50 (zfact 50 * 30 ^ Z.of_nat 40) 1 (100 * 11 ^ Z.of_nat 40)); [reflexivity| |reflexivity|vm_compute; reflexivity].
  apply Z.mul_pos_pos; [apply zfact_pos|reflexivity].
Qed.
Lemma num51 : (199 / 20) ^ 51 / INR (fact 51) < 100 * eps.
Proof.
  rewrite zfact_ok. apply Rlt_trans with (2 / 100000000000000).
  - apply (zlt 199 20 51 (zfact 51) 2 100000000000000); [reflexivity|apply zfact_pos|reflexivity|vm_compute; reflexivity].
  - unfold eps. lra.
Qed.

Lemma rem_terms k y : 0 < y -> let s := y ^ k / INR (fact k) in
  0 < s /\ s * (1 - y / (INR k + 1)) <= rem k y <= s /\
  s * (y / (INR k + 1)) * (y / (INR k + 2)) * (1 - y / (INR k + 3)) <= rem (S (S k)) y.
Proof.
  intros Hy s.
  assert (F : forall j, y ^ S j / INR (fact (S j)) = y ^ j / INR (fact j) * (y / INR (S j))).
  { intros j. rewrite fact_simpl, mult_INR. pose proof (INR_fact_lt_0 j). pose proof (lt_0_INR (S j) ltac:(lia)). cbn [pow]. field. lra. }
  assert (Hy0 : 0 <= y) by lra.
  destruct (rem_bound k y Hy0) as [_ U0]. destruct (rem_bound (S k) y Hy0) as [_ U1]. destruct (rem_bound (S (S (S k))) y Hy0) as [_ U3].
  pose proof (rem_S k y) as E0. pose proof (rem_S (S (S k)) y) as E2. rewrite !F in U3. rewrite F in U1. rewrite !F in E2.
  fold s in U0, U1, U3, E0, E2. rewrite !S_INR in *.
  replace (INR k + 1 + 1 + 1) with (INR k + 3) in * by ring. replace (INR k + 1 + 1) with (INR k + 2) in * by ring.
  split; [apply Rdiv_lt_0_compat; [now apply pow_lt|apply INR_fact_lt_0]|]. split; [lra|]. lra.
Qed.
Lemma num_amp : 1 / 80 < 5 / 4 * exp (- (199 / 5)) * 4 ^ 50 * ((199 / 20) ^ 50 / INR (fact 50)).
Proof.
  pose proof num50 as Z. pose proof (INR_fact_lt_0 50) as Q50. revert Z Q50. generalize (INR (fact 50)). intros f Z Q50.
  assert (L : (11 / 30) ^ 40 <= exp (- (199 / 5))).
  { apply Rle_trans with (exp (- (1)) ^ 40).
    - apply pow_incr. split; [lra|]. rewrite exp_Ropp. pose proof (exp_upper 1 (30 / 11) ltac:(lra) ltac:(lra) ltac:(unfold q5; lra)) as U. pose proof (exp_pos 1).
      replace (11 / 30) with (/ (30 / 11)) by lra. apply Rinv_le_contravar; lra.
    - rewrite <- exp_mult_pow. apply exp_le. rewrite INR_IZR_INZ. simpl IZR. lra. }
  assert (P : forall n, (199 / 5) ^ n = 4 ^ n * (199 / 20) ^ n).
  { intros n. rewrite <- Rpow_mult_distr. f_equal. lra. }
  assert (Q : forall n, (11 / 30) ^ n = 11 ^ n / 30 ^ n). { intros n. unfold Rdiv. rewrite Rpow_mult_distr, pow_inv. reflexivity. }
  rewrite P in Z. rewrite Q in L.
  pose proof (pow_lt 11 40 ltac:(lra)) as Q11. pose proof (pow_lt 30 40 ltac:(lra)) as Q30.
  pose proof (pow_lt 4 50 ltac:(lra)) as Q4. pose proof (pow_lt (199 / 20) 50 ltac:(lra)) as Qy.
  clear P Q. revert Z L Q11 Q30 Q4 Qy. generalize (11 ^ 40), (30 ^ 40), (4 ^ 50), ((199 / 20) ^ 50), (exp (- (199 / 5))).
  intros u w z t e Z L Hu Hw Hz Ht.
  apply (Rmult_lt_compat_l u) in Z; [|auto]. replace (u * (1 / (100 * u))) with (1 / 100) in Z by (field; lra).
  replace (u * (z * t / (f * w))) with (u / w * (z * (t / f))) in Z by (field; lra).
  assert (0 < z * (t / f)) by (apply Rmult_lt_0_compat; [auto|now apply Rdiv_lt_0_compat]).
  replace (5 / 4 * e * z * (t / f)) with (5 / 4 * (e * (z * (t / f)))) by ring.
  assert (u / w * (z * (t / f)) <= e * (z * (t / f))) by (apply Rmult_le_compat_r; lra). lra.
Qed.

(** Finding: the tail sum is stopped by the absolute size of its terms, not relative to the sum.  For v = 40,
    r = 4/5, k = 50 it stops after two terms and the returned fraction, above 1 %, is 3 % too small. *)
Theorem C67_gold_accuracy_refuted : exists v r k, 1 <= v /\ 0 < r < 1 /\ forall root inc,
  let p0 := gold_p0 eps root v r in
  1 / 100 < gold_pdf_lt1 p0 r k /\ gold_pdf eps root inc v r k < 97 / 100 * gold_pdf_lt1 p0 r k.
Proof.
  exists 40, (4 / 5), 50%nat. split; [lra|]. split; [lra|]. intros root inc.
  assert (E : gold_p0 eps root 40 (4 / 5) = exp (- (199 / 4))).
  { unfold gold_p0, Rltb, gold_find_p0. destruct (Rlt_dec _ _) as [L|_].
    - pose proof ln_eps. assert (0 < eps) by (unfold eps; apply Rinv_0_lt_compat; lra). lra.
    - f_equal. field. }
  cbv zeta. unfold gold_pdf. unfold Rltb at 1. destruct (Rlt_dec _ _) as [L|_]; [rewrite Rabs_left in L; lra|].
  unfold Rltb at 1. destruct (Rlt_dec _ _) as [L|_]; [lra|]. rewrite E.
  assert (Hp : 0 < exp (- (199 / 4)) < 1). { split; [apply exp_pos|]. rewrite <- exp_0. apply exp_increasing. lra. }
  set (y := 199 / 20).
  assert (Ey : (1 - 4 / 5) * ln (exp (- (199 / 4))) = - y) by (rewrite ln_exp; unfold y; lra).
  assert (Hk : 40 <= INR 50) by (rewrite INR_IZR_INZ; simpl; lra).
  rewrite (lt1_stop eps 40 (4 / 5) _ 50 y); auto; try lra; try lia; [|unfold y; lra|].
  2:{ exact num51. }
  rewrite lt1_rem by (auto; lia || lra). rewrite amp_eq by lra. rewrite Ey, Ropp_involutive.
  set (AB := Rpower (exp (- (199 / 4))) (4 / 5) / (4 / 5) * (4 / 5 / (1 - 4 / 5)) ^ 50).
  assert (EA : AB = 5 / 4 * exp (- (199 / 5)) * 4 ^ 50).
  { unfold AB, Rpower. rewrite ln_exp. replace (4 / 5 * - (199 / 4)) with (- (199 / 5)) by lra.
    replace (4 / 5 / (1 - 4 / 5)) with 4 by field. generalize (4 ^ 50). intros. lra. }
  pose proof num_amp as N. rewrite <- EA in N. fold y in N.
  destruct (rem_terms 50 y ltac:(unfold y; lra)) as (Hs & [R1 R2] & R3).
  replace (INR 50) with 50 in R1, R3 by (rewrite INR_IZR_INZ; reflexivity).
  clearbody AB. clear EA. revert N Hs R1 R2 R3. generalize (rem 50 y), (rem 52 y), (y ^ 50 / INR (fact 50)). unfold y. clear.
  intros a b s N Hs R1 R2 R3. assert (A1 : 0 < AB) by nra.
  split; [nra|]. assert (3 / 100 * a < b) by lra. nra.
Qed.

Definition tm (y : R) (j : nat) : R := y ^ j / INR (fact j).
Lemma tm_S y j : tm y (S j) = tm y j * (y / INR (S j)).
Proof. unfold tm. rewrite fact_simpl, mult_INR. pose proof (INR_fact_lt_0 j). pose proof (lt_0_INR (S j) ltac:(lia)). cbn [pow]. field. lra. Qed.
Lemma m1sq j : (-1) ^ j * (-1) ^ j = 1.
Proof. rewrite <- Rpow_mult_distr; replace (-1 * -1) with 1 by ring; apply pow1. Qed.

(** As long as the index is below |a| the terms grow, the loop does not stop, and the alternating sum is
    dominated by its last two terms. *)
Lemma tail_grow eps y n : 100 * eps <= 1 -> forall m S0, INR (m + S n) <= y -> 1 <= tm y m -> 0 <= (-1) ^ m * S0 <= tm y m ->
  tm y (m + n) * (y / INR (m + S n) - 1) <= (-1) ^ (m + S n) * gold_tail_loop eps (- y) (S m) (S n) ((-1) ^ m * tm y m) S0.
Proof.
  intros He. induction n as [|n IH]; intros m S0 Hy Ht HS.
  all: assert (Hm : 0 < INR (S m)) by (apply lt_0_INR; lia).
  all: assert (Hmy : INR (S m) <= y) by (eapply Rle_trans; [apply le_INR|exact Hy]; lia).
  all: assert (G : tm y m <= tm y (S m)).
  1,3: rewrite tm_S; assert (1 <= y / INR (S m)); [apply Rmult_le_reg_r with (INR (S m)); auto; unfold Rdiv; rewrite Rmult_assoc, Rinv_l by lra; lra|nra].
  all: assert (E : (-1) ^ m * tm y m * (- y / INR (S m)) = (-1) ^ S m * tm y (S m)) by (rewrite tm_S, <- tech_pow_Rmult; unfold Rdiv; ring).
  all: assert (A : Rabs ((-1) ^ S m * tm y (S m)) = tm y (S m)) by (rewrite Rabs_mult, <- RPow_abs; replace (Rabs (-1)) with 1 by (rewrite Rabs_left; lra); rewrite pow1, Rabs_pos_eq by lra; ring).
  all: assert (V : (-1) ^ S m * (S0 + (-1) ^ S m * tm y (S m)) = tm y (S m) - (-1) ^ m * S0)
    by (rewrite Rmult_plus_distr_l, <- Rmult_assoc, m1sq, <- tech_pow_Rmult; ring).
  - cbn [gold_tail_loop]. rewrite E. replace (m + 1)%nat with (S m) by lia. rewrite Nat.add_0_r.
    assert (T : tm y m * (y / INR (S m) - 1) = tm y (S m) - tm y m) by (rewrite tm_S; ring). rewrite T.
    destruct (Rltb _ _); rewrite V; lra.
  - set (n' := S n). cbn [gold_tail_loop]. rewrite E, A. unfold Rltb. destruct (Rlt_dec _ _) as [L|_]; [lra|].
    unfold n'. replace (m + S (S n))%nat with (S m + S n)%nat in * by lia. replace (m + S n)%nat with (S m + n)%nat by lia.
    apply IH; auto; [lra|]. rewrite V. lra.
Qed.

Lemma num119 : 10 ^ 40 / (4 * 11 ^ 20) < (1719 / 10) ^ 119 / (INR (fact 119) * (9 ^ 20 * 30 ^ 20)).
Proof.
  rewrite zfact_ok, !pow_IZR, <- !mult_IZR.
  apply (zgt 1719 10 119 (zfact 119 * (9 ^ Z.of_nat 20 * 30 ^ Z.of_nat 20)) (10 ^ Z.of_nat 40) (4 * 11 ^ Z.of_nat 20)); [reflexivity| |reflexivity|vm_compute; reflexivity].
  apply Z.mul_pos_pos; [apply zfact_pos|reflexivity].
Qed.
Lemma num20 : 1 <= tm (1719 / 10) 20.
Proof.
  unfold tm. left. rewrite zfact_ok. replace 1 with (1 / 1) by field.
  apply (zgt 1719 10 20 (zfact 20) 1 1); [reflexivity|apply zfact_pos|reflexivity|vm_compute; reflexivity].
Qed.
Lemma num_big : 10 ^ 40 < Rpower (exp (- (191))) (1 / 10) / (1 / 10) * (1 / 10 / (1 - 1 / 10)) ^ 20 * (tm (1719 / 10) 119 * (4 / 10)).
Proof.
  unfold tm. pose proof num119 as Z. pose proof (INR_fact_lt_0 119) as Q50. revert Z Q50. generalize (INR (fact 119)). intros f Z Q50.
  unfold Rpower. rewrite ln_exp.
  assert (L : (11 / 30) ^ 20 <= exp (1 / 10 * - (191))).
  { apply Rle_trans with (exp (- (1)) ^ 20).
    - apply pow_incr. split; [lra|]. rewrite exp_Ropp. pose proof (exp_upper 1 (30 / 11) ltac:(lra) ltac:(lra) ltac:(unfold q5; lra)) as U. pose proof (exp_pos 1).
      replace (11 / 30) with (/ (30 / 11)) by lra. apply Rinv_le_contravar; lra.
    - rewrite <- exp_mult_pow. apply exp_le. rewrite INR_IZR_INZ. simpl IZR. lra. }
  assert (Q : forall n, (11 / 30) ^ n = 11 ^ n / 30 ^ n). { intros n. unfold Rdiv. rewrite Rpow_mult_distr, pow_inv. reflexivity. }
  assert (P : forall n, (1 / 10 / (1 - 1 / 10)) ^ n = / 9 ^ n). { intros n. rewrite <- pow_inv. f_equal. lra. }
  rewrite P. rewrite Q in L. clear P Q.
  pose proof (pow_lt 11 20 ltac:(lra)) as Q11. pose proof (pow_lt 30 20 ltac:(lra)) as Q30.
  pose proof (pow_lt 9 20 ltac:(lra)) as Q9. pose proof (pow_lt (1719 / 10) 119 ltac:(lra)) as Qy.
  revert Z L Q11 Q30 Q9 Qy. generalize (11 ^ 20), (30 ^ 20), (9 ^ 20), ((1719 / 10) ^ 119), (exp (1 / 10 * - (191))), (10 ^ 40).
  intros u w z t e g Z L Hu Hw Hz Ht.
  apply (Rmult_lt_compat_l (4 * u)) in Z; [|lra]. replace (4 * u * (g / (4 * u))) with g in Z by (field; lra).
  replace (4 * u * (t / (f * (z * w)))) with (4 * (u / w) * (t / (f * z))) in Z by (field; lra).
  assert (0 < t / (f * z)) by (apply Rdiv_lt_0_compat; [auto|now apply Rmult_lt_0_compat]).
  replace (e / (1 / 10) * / z * (t / f * (4 / 10))) with (4 * e * (t / (f * z))) by (field; lra).
  assert (u / w * (t / (f * z)) <= e * (t / (f * z))) by (apply Rmult_le_compat_r; lra). lra.
Qed.

(** Finding: the tail sum is cut after one hundred terms.  For v = 20, r = 1/10 its terms still grow there, and
    the "fraction" returned for k = 20 exceeds 10^40. *)
Theorem C67_gold_tail_refuted : exists v r k, 1 <= v /\ 0 < r < 1 /\ forall root inc,
  10 ^ 40 < gold_pdf eps root inc v r k.
Proof.
  exists 20, (1 / 10), 20%nat. split; [lra|]. split; [lra|]. intros root inc.
  assert (E : gold_p0 eps root 20 (1 / 10) = exp (- (191))).
  { unfold gold_p0, Rltb, gold_find_p0. destruct (Rlt_dec _ _) as [L|_].
    - pose proof ln_eps. assert (0 < eps) by (unfold eps; apply Rinv_0_lt_compat; lra). lra.
    - f_equal. field. }
  unfold gold_pdf. unfold Rltb at 1. destruct (Rlt_dec _ _) as [L|_]; [rewrite Rabs_left in L; lra|].
  unfold Rltb at 1. destruct (Rlt_dec _ _) as [L|_]; [lra|]. cbv zeta. rewrite E.
  set (y := 1719 / 10).
  assert (Ey : (1 - 1 / 10) * ln (exp (- (191))) = - y) by (rewrite ln_exp; unfold y; lra).
  assert (N20 : INR 20 = 20) by (rewrite INR_IZR_INZ; reflexivity).
  assert (N120 : INR 120 = 120) by (rewrite INR_IZR_INZ; reflexivity).
  assert (T20 : (- y) ^ 20 / INR (fact 20) = (-1) ^ 20 * tm y 20).
  { generalize 20%nat. intros n. unfold tm. replace (- y) with (-1 * y) by ring. rewrite Rpow_mult_distr. unfold Rdiv. ring. }
  assert (P20 : (-1) ^ 20 = 1) by ring. assert (P120 : (-1) ^ 120 = 1) by (apply (pow_1_even 60)).
  pose proof (tail_grow eps y 99 ltac:(unfold eps; lra) 20 ((- y) ^ 20 / INR (fact 20))) as G.
  change (20 + 100)%nat with 120%nat in G. change (20 + 99)%nat with 119%nat in G. rewrite N120, P120, Rmult_1_l, <- T20 in G.
  specialize (G ltac:(unfold y; lra) num20).
  rewrite T20, P20, !Rmult_1_l in G. specialize (G ltac:(pose proof num20; unfold y; lra)).
  unfold gold_lt1. unfold Rltb at 2. destruct (Rlt_dec (INR 20) 20) as [L|_]; [lra|]. rewrite andb_false_r.
  rewrite Ey. replace (exp (- - y)) with (exp (- ((1 - 1 / 10) * ln (exp (- (191)))))) by (rewrite Ey; reflexivity).
  rewrite P20, Rmult_1_r, amp_eq by (try lra; apply exp_pos).
  eapply Rlt_le_trans; [exact num_big|]. apply Rmult_le_compat_l.
  - apply Rmult_le_pos; [apply Rmult_le_pos; [left; apply exp_pos|lra]|]. apply pow_le. lra.
  - unfold gold_tail. rewrite T20, P20, Rmult_1_l. change (20 + 1)%nat with 21%nat. eapply Rle_trans; [|exact G].
    fold y. assert (0 < tm y 119) by (apply Rdiv_lt_0_compat; [apply pow_lt; unfold y; lra|apply INR_fact_lt_0]).
    apply Rmult_le_compat_l; [lra|]. unfold y. lra.
Qed.

(** Concrete cases: p(1) for p0 = e^-2, r = 1/2; the tail branch at the same point; a Poisson value. *)
Example C67_lt1_case : gold_pdf_lt1 (exp (- (2))) (1 / 2) 1 = 2 * exp (- (2)) * (exp 1 - 1).
Proof.
  rewrite lt1_rem; [|split; [apply exp_pos|rewrite <- exp_0; apply exp_increasing; lra]|lra|lia].
  rewrite amp_eq by (try lra; apply exp_pos). unfold Rpower. rewrite ln_exp.
  unfold rem, expn. cbn [pow sumn fact INR].
  replace (- - ((1 - 1 / 2) * - (2))) with (- (1)) by lra. replace (1 / 2 * - (2)) with (- (1)) by lra.
  replace (exp (- (2))) with (exp (- (1)) * exp (- (1))) by (rewrite <- exp_plus; f_equal; lra).
  assert (X : exp (- (1)) * exp 1 = 1) by (rewrite <- exp_plus, Rplus_opp_l; apply exp_0).
  change (INR (1 * 1)) with 1. transitivity (2 * exp (- (1)) * (1 - exp (- (1)))); [field|].
  transitivity (2 * exp (- (1)) * (exp (- (1)) * exp 1 - exp (- (1)))); [rewrite X; ring|ring].
Qed.
Example C67_tail_case : gold_tail 1 (-2) 1 = -2 + 2.
Proof.
  rewrite tail_stop.
  - unfold expn. cbn [pow sumn fact INR]. change (INR (2 * 1)) with 2. change (INR (1 * 1)) with 1. cbn. field.
  - cbn. unfold Rabs. destruct Rcase_abs; lra.
Qed.
Example C67_poisson_case : forall root inc, gold_pdf eps root inc 2 1 3 = exp (- (2)) * (8 / 6).
Proof.
  intros root inc. unfold gold_pdf, Rltb. destruct (Rlt_dec _ _) as [_|N].
  - rewrite poisson_term by lra. cbn. field.
  - exfalso. apply N. rewrite Rminus_eq_0, Rabs_R0. lra.
Qed.

Print Assumptions C67_gold_probability. Print Assumptions C67_gold_tail. Print Assumptions C67_gold_poisson.
Print Assumptions C67_gold_limit. Print Assumptions C67_gold_accuracy_refuted. Print Assumptions C67_gold_tail_refuted. Print Assumptions C67_gold_solution.
