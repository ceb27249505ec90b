(** C113: convergence of root_newton and root_secant. *)
From Coq Require Import Reals Lra Lia List Bool Arith.
From Verif Require Import Prelude RootsModel RootsProofs.
Import ListNotations.
Open Scope R_scope.

Lemma newton_conv fre fim tolx tolf r s n : 0 < tolx ->
  (forall x, r <= x <= s -> 0 <= fre x eps) -> (forall x, r <= x <= s -> eps < fim x eps / eps /\ fre x eps + fim x eps / eps * (r - x) <= 0) ->
  forall k x tr, r <= x <= s -> x - r < INR n * tolx ->
  exists tr' q, newton_loop fre fim tolx tolf n k x tr = (tr', Ok q) /\ rr_success q = true /\ r <= rr_x q <= x /\ rr_f q = fre (rr_x q) eps /\
    (fre (rr_x q) eps <= tolf \/ fre (rr_x q) eps / (fim (rr_x q) eps / eps) <= tolx).
Proof.
  intros Ht HF HD. assert (EP : 0 < eps) by (unfold eps; apply Rinv_0_lt_compat; apply pow_lt; lra). induction n as [|n IH]; intros k x tr Hx Hn.
  { cbn in Hn. lra. }
  cbn [newton_loop]. unfold derivative_complex. destruct (HD x Hx) as (D1 & D2). pose proof (HF x Hx) as F0.
  set (F := fre x eps) in *. set (D := fim x eps / eps) in *.
  assert (DP : 0 < D) by lra. assert (Q0 : 0 <= F / D) by (apply Rmult_le_pos; [exact F0|left; now apply Rinv_0_lt_compat]).
  assert (Q1 : F / D <= x - r) by (apply Rmult_le_reg_r with D; [exact DP|]; unfold Rdiv; rewrite Rmult_assoc, Rinv_l by lra; lra).
  destruct (Rleb (Rabs F) tolf) eqn:E1.
  { apply Rleb_true in E1. eexists _, _. split; [reflexivity|]. cbn. split; [reflexivity|]. split; [lra|]. split; [reflexivity|]. left. fold F. rewrite Rabs_pos_eq in E1 by exact F0. exact E1. }
  destruct (Rleb (Rabs D) eps) eqn:E2. { apply Rleb_true in E2. rewrite Rabs_pos_eq in E2 by lra. lra. }
  assert (A : Rabs (- F / D) = F / D). { replace (- F / D) with (- (F / D)) by (unfold Rdiv; ring). rewrite Rabs_Ropp. now apply Rabs_pos_eq. }
  rewrite A. destruct (Rleb (F / D) tolx) eqn:E3.
  { apply Rleb_true in E3. eexists _, _. split; [reflexivity|]. cbn. split; [reflexivity|]. split; [lra|]. split; [reflexivity|]. right. exact E3. }
  apply Rleb_false in E3. rewrite S_INR in Hn. destruct n as [|n]; [cbn in Hn; lra|].
  replace (x + - F / D) with (x - F / D) by (unfold Rdiv; ring).
  destruct (IH (k + 1)%nat (x - F / D) (tr ++ [x])) as (tr' & q & E & S1 & S2 & S3 & S4); [lra| |].
  { set (m := INR (S n)) in *. lra. }
  exists tr', q. split; [exact E|]. split; [exact S1|]. split; [lra|]. auto.
Qed.

(** Newton's method on a function whose tangents lie below the axis at the root [r] (for instance
    an increasing convex function): from any start it succeeds within a number of iterations which
    is bounded explicitly, the result is on the right of the root and no further than the first step
    reaches, and its distance from the root is bounded by the tolerances.  [F] and [D] are
    the value and the derivative that the complex step gives. *)
Theorem C113_newton fre fim r a x0 tolx tolf maxiter :
  let F := fun x => fre x eps in let D := fun x => fim x eps / eps in
  (forall x, r <= x -> 0 <= F x) -> (forall x, a <= x -> eps < D x /\ F x + D x * (r - x) <= 0) -> a <= r -> a <= x0 -> 0 < tolx ->
  let s := Rmax x0 (x0 - F x0 / D x0) in
  (s - r) / tolx + 1 < INR maxiter ->
  exists tr q, root_newton fre fim x0 tolx tolf maxiter = (tr, Ok q) /\ rr_success q = true /\ rr_f q = F (rr_x q) /\
    (r <= rr_x q <= s \/ (rr_x q = x0 /\ x0 < r /\ (Rabs (F x0) <= tolf \/ Rabs (F x0 / D x0) <= tolx))) /\
    (forall m M, 0 < m -> (forall x, r <= x <= s -> m * (x - r) <= F x /\ D x <= M) -> r <= rr_x q -> rr_x q - r <= Rmax (tolf / m) (tolx * M / m)).
Proof.
  intros F D HF HD Ha Hx0 Ht s Hm. assert (EP : 0 < eps) by (unfold eps; apply Rinv_0_lt_compat; apply pow_lt; lra).
  assert (SX : x0 <= s) by apply Rmax_l.
  assert (NM : s - r < (INR maxiter - 1) * tolx). { apply Rmult_lt_reg_r with (/ tolx); [now apply Rinv_0_lt_compat|]. rewrite (Rmult_assoc _ tolx), Rinv_r by lra. unfold Rdiv in Hm. lra. }
  assert (fin : forall tr q, rr_success q = true -> r <= rr_x q <= s -> rr_f q = F (rr_x q) -> (F (rr_x q) <= tolf \/ F (rr_x q) / D (rr_x q) <= tolx) ->
    root_newton fre fim x0 tolx tolf maxiter = (tr, Ok q) ->
    exists tr q, root_newton fre fim x0 tolx tolf maxiter = (tr, Ok q) /\ rr_success q = true /\ rr_f q = F (rr_x q) /\
    (r <= rr_x q <= s \/ (rr_x q = x0 /\ x0 < r /\ (Rabs (F x0) <= tolf \/ Rabs (F x0 / D x0) <= tolx))) /\
    (forall m M, 0 < m -> (forall x, r <= x <= s -> m * (x - r) <= F x /\ D x <= M) -> r <= rr_x q -> rr_x q - r <= Rmax (tolf / m) (tolx * M / m))).
  { intros tr q S1 S2 S3 S4 E. exists tr, q. split; [exact E|]. split; [exact S1|]. split; [exact S3|]. split; [now left|].
    intros m M Pm B _. destruct (B _ S2) as (B1 & B2). destruct (HD (rr_x q) ltac:(lra)) as (D1 & _). destruct S4 as [S4|S4].
    - eapply Rle_trans; [|apply Rmax_l]. apply Rmult_le_reg_l with m; [exact Pm|]. replace (m * (tolf / m)) with tolf by (field; lra). lra.
    - eapply Rle_trans; [|apply Rmax_r]. apply Rmult_le_reg_l with m; [exact Pm|]. replace (m * (tolx * M / m)) with (tolx * M) by (field; lra).
      assert (F (rr_x q) <= tolx * D (rr_x q)). { apply Rmult_le_reg_r with (/ D (rr_x q)); [apply Rinv_0_lt_compat; lra|]. rewrite (Rmult_assoc tolx), Rinv_r by lra. rewrite Rmult_1_r. exact S4. }
      pose proof (Rmult_le_compat_l tolx _ _ (Rlt_le _ _ Ht) B2). lra. }
  destruct (Rle_dec r x0) as [Hr|Hr].
  - destruct (newton_conv fre fim tolx tolf r s maxiter Ht) with (k := 0%nat) (x := x0) (tr := @nil R) as (tr & q & E & S1 & S2 & S3 & S4); [intros; now apply HF|intros; apply HD; lra|lra| |].
    { lra. }
    apply (fin tr q); auto; lra.
  - apply Rnot_le_lt in Hr. destruct maxiter as [|n]. { exfalso. cbn in NM. destruct (HD x0 Hx0) as (D1 & D2).
      assert (r <= s). { eapply Rle_trans; [|apply Rmax_r]. enough (F x0 / D x0 <= x0 - r) by lra. apply Rmult_le_reg_r with (D x0); [lra|]. unfold Rdiv. rewrite Rmult_assoc, Rinv_l by lra. lra. } lra. }
    destruct (HD x0 Hx0) as (D1 & D2).
    assert (Q1 : F x0 / D x0 <= x0 - r) by (apply Rmult_le_reg_r with (D x0); [lra|]; unfold Rdiv; rewrite Rmult_assoc, Rinv_l by lra; lra).
    assert (RS : r <= s) by (eapply Rle_trans; [|apply Rmax_r]; lra).
    assert (SE : s = x0 - F x0 / D x0) by (apply Rmax_right; lra).
    assert (ND : forall m M : R, 0 < m -> (forall x, r <= x <= s -> m * (x - r) <= F x /\ D x <= M) -> r <= x0 -> x0 - r <= Rmax (tolf / m) (tolx * M / m)) by (intros; lra).
    unfold root_newton in *. cbn [newton_loop] in *. unfold derivative_complex in *. change (fre x0 eps) with (F x0) in *. change (fim x0 eps / eps) with (D x0) in *.
    destruct (Rleb (Rabs (F x0)) tolf) eqn:E1. { apply Rleb_true in E1. eexists _, _. split; [reflexivity|]. cbn. split; [reflexivity|]. split; [reflexivity|]. split; [right; auto|exact ND]. }
    destruct (Rleb (Rabs (D x0)) eps) eqn:E2. { apply Rleb_true in E2. rewrite Rabs_pos_eq in E2 by lra. lra. }
    assert (A : Rabs (- F x0 / D x0) = Rabs (F x0 / D x0)) by (replace (- F x0 / D x0) with (- (F x0 / D x0)) by (unfold Rdiv; ring); apply Rabs_Ropp).
    rewrite A in *. destruct (Rleb (Rabs (F x0 / D x0)) tolx) eqn:E3. { apply Rleb_true in E3. eexists _, _. split; [reflexivity|]. cbn. split; [reflexivity|]. split; [reflexivity|]. split; [right; auto|exact ND]. }
    rewrite S_INR in NM. destruct n as [|n]; [cbn in NM; lra|]. replace (x0 + - F x0 / D x0) with s in * by (rewrite SE; unfold Rdiv; ring).
    destruct (newton_conv fre fim tolx tolf r s (S n) Ht) with (k := (0 + 1)%nat) (x := s) (tr := @nil R ++ [x0]) as (tr & q & E & S1 & S2 & S3 & S4); [intros; now apply HF|intros; apply HD; lra|lra| |].
    { set (z := INR (S n)) in *. lra. }
    apply (fin tr q); auto; lra.
Qed.

Lemma chain_pair fre fim l : forall pre x y post, newton_chain fre fim l -> l = pre ++ x :: y :: post -> y = x - fre x eps / (fim x eps / eps).
Proof.
  induction l as [|b l IH]; intros pre x y post H E; [destruct pre; discriminate|].
  destruct pre as [|c pre]; cbn in E; injection E as -> ->; [cbn in H; tauto|].
  apply (IH pre x y post); [|reflexivity]. destruct pre as [|d pre]; cbn in *; tauto.
Qed.

(** Quadratic convergence: wherever the function differs from its tangent at the root by at most
    K times the square of the distance, a step reduces the distance e to at most (K / m) e^2. *)
Theorem C113_newton_quadratic fre fim x0 tolx tolf maxiter tr q r m K : 0 < m -> (0 < maxiter)%nat -> root_newton fre fim x0 tolx tolf maxiter = (tr, Ok q) ->
  forall pre x y post, tr = pre ++ x :: y :: post -> m <= Rabs (fim x eps / eps) -> Rabs (fre x eps + fim x eps / eps * (r - x)) <= K * (x - r) ^ 2 ->
    Rabs (y - r) <= K / m * (x - r) ^ 2.
Proof.
  intros Pm Hm E pre x y post Etr HD HK. destruct (root_newton_spec fre fim x0 tolx tolf maxiter Hm) as (p & q' & E' & _ & CH & _).
  rewrite E in E'. injection E' as -> <-. rewrite (chain_pair _ _ _ _ _ _ _ CH Etr).
  set (F := fre x eps) in *. set (D := fim x eps / eps) in *. assert (D0 : D <> 0) by (intros Z; rewrite Z, Rabs_R0 in HD; lra).
  replace (x - F / D - r) with (- (F + D * (r - x)) / D) by (field; exact D0). unfold Rdiv at 1. rewrite Rabs_mult, Rabs_Ropp, Rabs_inv.
  assert (PD : 0 < Rabs D) by (now apply Rabs_pos_lt). apply Rmult_le_reg_r with (Rabs D); [exact PD|]. rewrite Rmult_assoc, Rinv_l, Rmult_1_r by lra.
  eapply Rle_trans; [exact HK|]. replace (K * (x - r) ^ 2) with (K / m * (x - r) ^ 2 * m) by (field; lra).
  apply Rmult_le_compat_l; [|exact HD]. replace (K / m * (x - r) ^ 2) with (K * (x - r) ^ 2 * / m) by (unfold Rdiv; ring).
  apply Rmult_le_pos; [|left; now apply Rinv_0_lt_compat]. eapply Rle_trans; [apply Rabs_pos|exact HK].
Qed.

(** * Secant *)
(** chords of an increasing convex function on [r, b] *)
Definition convex_on (f : R -> R) (r b : R) : Prop := forall x y z, r <= x -> x < y < z -> z <= b -> (f y - f x) / (y - x) <= (f z - f y) / (z - y).

Lemma secant_conv f r b m tolx tolf n : 0 < tolx -> 0 <= tolf -> f r = 0 -> 0 < m -> convex_on f r b -> (forall x, r < x <= b -> m * (x - r) <= f x) -> eps * Rmax (f b) 1 < m * tolx ->
  forall k x0 x1 x2 f2 tr, r <= x1 -> tolx < x0 - x1 -> x0 <= b -> tolf < f x1 -> x1 - r < INR n * tolx ->
  exists tr' q z, secant_loop f tolx tolf n k x0 (f x0) x1 (f x1) x2 f2 tr = (tr', Ok q) /\ rr_success q = true /\ rr_x q = Fin z /\ rr_f q = Fin (f z) /\ r <= z < x1 /\
    (f z <= tolf \/ exists y, r < y <= b /\ z < y <= z + tolx /\ forall M, (forall u v, r <= u < v -> v <= b -> f v - f u <= M * (v - u)) -> m * (z - r) <= tolx * M).
Proof.
  intros Ht Hf Er Pm CV HM HE. assert (EP : 0 < eps) by (unfold eps; apply Rinv_0_lt_compat; apply pow_lt; lra).
  assert (rise : forall x y, r <= x -> x < y -> y <= b -> m * (y - x) <= f y - f x).
  { intros x y H1 H2 H3. destruct (Req_dec x r) as [->|N]. { rewrite Er. pose proof (HM y ltac:(lra)). lra. }
    pose proof (CV r x y ltac:(lra) ltac:(lra) H3) as C. rewrite Er in C. pose proof (HM x ltac:(lra)) as C2.
    assert (m <= (f x - 0) / (x - r)). { apply Rmult_le_reg_r with (x - r); [lra|]. unfold Rdiv. rewrite Rmult_assoc, Rinv_l by lra. lra. }
    assert (C3 : m <= (f y - f x) / (y - x)) by lra. apply Rmult_le_compat_r with (r := y - x) in C3; [|lra]. unfold Rdiv in C3. rewrite Rmult_assoc, Rinv_l in C3 by lra. lra. }
  induction n as [|n IH]; intros k x0 x1 x2 f2 tr H1 H0 Hb F1 Hn. { cbn in Hn. lra. }
  assert (R1 : r < x1). { destruct (Req_dec x1 r) as [Z|Z]; [rewrite Z, Er in F1; lra|lra]. }
  assert (F10 : m * (x0 - x1) <= f x0 - f x1) by (apply rise; lra).
  assert (Fb : f x0 <= f b). { destruct (Req_dec x0 b) as [->|N]; [lra|]. pose proof (rise x0 b ltac:(lra) ltac:(lra) ltac:(lra)). nra. }
  assert (MT : m * tolx < m * (x0 - x1)) by (apply Rmult_lt_compat_l; lra).
  assert (MT0 : 0 < m * tolx) by (now apply Rmult_lt_0_compat).
  cbn [secant_loop]. destruct (Rleb (Rabs (f x1 - f x0)) _) eqn:E1.
  { exfalso. apply Rleb_true in E1. rewrite Rabs_left1 in E1 by lra. assert (Rmax (Rmax (Rabs (f x0)) (Rabs (f x1))) 1 <= Rmax (f b) 1).
    { apply Rmax_lub; [|apply Rmax_r]. eapply Rle_trans; [|apply Rmax_l]. rewrite !Rabs_pos_eq by lra. apply Rmax_lub; lra. }
    pose proof (Rmult_le_compat_l eps _ _ (Rlt_le _ _ EP) H). lra. }
  set (sl := (f x0 - f x1) / (x0 - x1)). assert (SL : m <= sl). { unfold sl. apply Rmult_le_reg_r with (x0 - x1); [lra|]. unfold Rdiv. rewrite Rmult_assoc, Rinv_l by lra. lra. }
  assert (NX : x1 - f x1 * (x1 - x0) / (f x1 - f x0) = x1 - f x1 / sl) by (unfold sl; field; lra). rewrite NX.
  assert (ST : 0 < f x1 / sl) by (apply Rdiv_lt_0_compat; lra).
  assert (SR : f x1 / sl <= x1 - r). { pose proof (CV r x1 x0 ltac:(lra) ltac:(lra) Hb) as C. fold sl in C. rewrite Er in C. apply Rmult_le_reg_r with sl; [lra|]. unfold Rdiv. rewrite Rmult_assoc, Rinv_l by lra.
    apply Rmult_le_compat_r with (r := x1 - r) in C; [|lra]. unfold Rdiv in C. rewrite Rmult_assoc, Rinv_l in C by lra. lra. }
  set (z := x1 - f x1 / sl) in *. assert (FZ : 0 <= f z). { destruct (Req_dec z r) as [->|N]; [lra|]. pose proof (HM z ltac:(unfold z in *; lra)). assert (0 < m * (z - r)) by (apply Rmult_lt_0_compat; unfold z in *; lra). lra. }
  replace (z - x1) with (- (f x1 / sl)) by (unfold z; ring). rewrite Rabs_Ropp, (Rabs_pos_eq (f x1 / sl)) by lra.
  destruct (Rleb (f x1 / sl) tolx) eqn:E2.
  { apply Rleb_true in E2. eexists _, _, z. split; [reflexivity|]. cbn. repeat (split; [reflexivity|]). split; [unfold z; lra|]. right. exists x1. split; [lra|]. split; [unfold z; lra|].
    intros M HL. assert (SM : sl <= M). { unfold sl. apply Rmult_le_reg_r with (x0 - x1); [lra|]. unfold Rdiv. rewrite Rmult_assoc, Rinv_l by lra. pose proof (HL x1 x0 ltac:(lra) Hb). lra. }
    assert (f x1 <= tolx * sl). { apply Rmult_le_reg_r with (/ sl); [apply Rinv_0_lt_compat; lra|]. rewrite (Rmult_assoc tolx), Rinv_r by lra. rewrite Rmult_1_r. exact E2. }
    pose proof (Rmult_le_compat_l tolx _ _ (Rlt_le _ _ Ht) SM). pose proof (HM x1 ltac:(lra)). assert (m * (z - r) <= m * (x1 - r)) by (apply Rmult_le_compat_l; unfold z; lra). lra. }
  apply Rleb_false in E2. rewrite Rabs_pos_eq by exact FZ. destruct (Rleb (f z) tolf) eqn:E3.
  { apply Rleb_true in E3. eexists _, _, z. split; [reflexivity|]. cbn. repeat (split; [reflexivity|]). split; [unfold z; lra|]. now left. }
  apply Rleb_false in E3. rewrite S_INR in Hn. destruct (IH (k + 1)%nat x1 z (Fin z) (Fin (f z)) (tr ++ [z])) as (tr' & q & w & E & S1 & S2 & S3 & S4 & S5); [unfold z; lra|unfold z; lra|lra|lra|unfold z; lra|].
  exists tr', q, w. repeat (split; [assumption|]). split; [unfold z in *; lra|exact S5].
Qed.

(** The secant method on an increasing convex function, from two points on the right of the root:
    it succeeds within an explicitly bounded number of iterations and the distance of the result
    from the root is bounded by the tolerances.  The condition on eps keeps the differences of the
    function above the threshold of a zero slope. *)
Theorem C113_secant f r x0 x1 m tolx tolf maxiter : f r = 0 -> 0 < m -> 0 < tolx -> 0 <= tolf -> r <= x1 -> tolx < x0 - x1 ->
  convex_on f r x0 -> (forall x, r < x <= x0 -> m * (x - r) <= f x) -> eps * Rmax (f x0) 1 < m * tolx -> (x1 - r) / tolx < INR maxiter ->
  exists tr q z, root_secant f x0 x1 tolx tolf maxiter = (tr, Ok q) /\ rr_success q = true /\ rr_x q = Fin z /\ rr_f q = Fin (f z) /\ r <= z <= x0 /\
    (forall M, (forall u v, r <= u < v -> v <= x0 -> f v - f u <= M * (v - u)) -> z - r <= Rmax (tolf / m) (tolx * M / m)).
Proof.
  intros Er Pm Ht Hf H1 H0 CV HM HE Hn.
  assert (NN : x1 - r < INR maxiter * tolx) by (apply Rmult_lt_reg_r with (/ tolx); [now apply Rinv_0_lt_compat|]; rewrite (Rmult_assoc _ tolx), Rinv_r by lra; unfold Rdiv in Hn; lra).
  assert (pos : forall x, r <= x <= x0 -> m * (x - r) <= f x). { intros x Hx. destruct (Req_dec x r) as [->|N]; [rewrite Er; lra|apply HM; lra]. }
  assert (P : forall x, r <= x <= x0 -> 0 <= f x). { intros x Hx. pose proof (pos x Hx). assert (0 <= m * (x - r)) by (apply Rmult_le_pos; lra). lra. }
  assert (tf : forall z, r <= z <= x0 -> f z <= tolf -> forall T, z - r <= Rmax (tolf / m) T).
  { intros z Hz Hfz T. eapply Rle_trans; [|apply Rmax_l]. apply Rmult_le_reg_l with m; [exact Pm|]. replace (m * (tolf / m)) with tolf by (field; lra). pose proof (pos z Hz). lra. }
  unfold root_secant. destruct (Rleb (Rabs (f x0)) tolf) eqn:E0.
  { apply Rleb_true in E0. rewrite Rabs_pos_eq in E0 by (apply P; lra). eexists _, _, x0. split; [reflexivity|]. cbn. repeat (split; [reflexivity|]). split; [lra|]. intros M _. apply tf; lra. }
  destruct (Rleb (Rabs (f x1)) tolf) eqn:E1.
  { apply Rleb_true in E1. rewrite Rabs_pos_eq in E1 by (apply P; lra). eexists _, _, x1. split; [reflexivity|]. cbn. repeat (split; [reflexivity|]). split; [lra|]. intros M _. apply tf; lra. }
  apply Rleb_false in E1. rewrite Rabs_pos_eq in E1 by (apply P; lra).
  destruct (secant_conv f r x0 m tolx tolf maxiter Ht Hf Er Pm CV HM HE 0%nat x0 x1 NaN NaN [x0; x1]) as (tr & q & z & E & S1 & S2 & S3 & S4 & S5); auto; try lra.
  exists tr, q, z. repeat (split; [assumption|]). split; [lra|]. intros M HL. destruct S5 as [S5|(y & _ & _ & S5)].
  - apply tf; lra.
  - eapply Rle_trans; [|apply Rmax_r]. apply Rmult_le_reg_l with m; [exact Pm|]. replace (m * (tolx * M / m)) with (tolx * M) by (field; lra). now apply S5.
Qed.

(** The square root of two, by both methods. *)
Example C113_case :
  (exists tr q, root_newton (fun x y => x ^ 2 - y ^ 2 - 2) (fun x y => 2 * x * y) 2 (1 / 10) 0 8 = (tr, Ok q) /\ rr_success q = true /\ sqrt (2 + eps ^ 2) <= rr_x q <= 2) /\
  (exists tr q z, root_secant (fun x => x ^ 2 - 2) 3 2 (1 / 10) 0 7 = (tr, Ok q) /\ rr_success q = true /\ rr_x q = Fin z /\ sqrt 2 <= z <= sqrt 2 + 3 / 10).
Proof.
  assert (EP : 0 < eps) by (unfold eps; apply Rinv_0_lt_compat; apply pow_lt; lra). assert (EU : eps < 1 / 100) by (pose proof eps_small; lra).
  assert (Q2 : sqrt 2 * sqrt 2 = 2) by (apply sqrt_sqrt; lra). assert (P2 : 0 <= sqrt 2) by apply sqrt_pos. assert (B2 : 7 / 5 <= sqrt 2 <= 3 / 2) by nra.
  split.
  - set (r := sqrt (2 + eps ^ 2)). assert (Qr : r * r = 2 + eps ^ 2) by (apply sqrt_sqrt; nra). assert (Pr : 0 <= r) by apply sqrt_pos. assert (Br : 7 / 5 <= r <= 8 / 5) by nra.
    destruct (C113_newton (fun x y => x ^ 2 - y ^ 2 - 2) (fun x y => 2 * x * y) r 1 2 (1 / 10) 0 8) as (tr & q & E & S & _ & B & _).
    + intros x Hx. nra.
    + intros x Hx. replace (2 * x * eps / eps) with (2 * x) by (field; lra). split; [lra|]. pose proof (pow2_ge_0 (x - r)). nra.
    + lra. + lra. + lra.
    + rewrite Rmax_left. { replace (INR 8) with 8 by (rewrite INR_IZR_INZ; reflexivity). lra. }
      replace (2 * 2 * eps / eps) with 4 by (field; lra). nra.
    + exists tr, q. split; [exact E|]. split; [exact S|]. rewrite Rmax_left in B by (replace (2 * 2 * eps / eps) with 4 by (field; lra); nra). destruct B as [B|(_ & B & _)]; lra.
  - destruct (C113_secant (fun x => x ^ 2 - 2) (sqrt 2) 3 2 (28 / 10) (1 / 10) 0 7) as (tr & q & z & E & S1 & S2 & _ & S3 & S4); try lra.
    + intros x y w H1 H2 H3. replace ((y ^ 2 - 2 - (x ^ 2 - 2)) / (y - x)) with (y + x) by (field; lra). replace ((w ^ 2 - 2 - (y ^ 2 - 2)) / (w - y)) with (w + y) by (field; lra). lra.
    + intros x Hx. nra.
    + rewrite Rmax_left by lra. lra.
    + replace (INR 7) with 7 by (rewrite INR_IZR_INZ; reflexivity). lra.
    + exists tr, q, z. split; [exact E|]. split; [exact S1|]. split; [exact S2|]. specialize (S4 6). destruct (Rle_dec z 2) as [Z|Z].
      * split; [lra|]. assert (L : z - sqrt 2 <= Rmax (0 / (28 / 10)) (1 / 10 * 6 / (28 / 10))) by (apply S4; intros u v H1 H2; nra). rewrite Rmax_right in L by lra. lra.
      * split; [lra|]. assert (L : z - sqrt 2 <= Rmax (0 / (28 / 10)) (1 / 10 * 6 / (28 / 10))) by (apply S4; intros u v H1 H2; nra). rewrite Rmax_right in L by lra. lra.
Qed.

Print Assumptions C113_newton.
Print Assumptions C113_newton_quadratic.
Print Assumptions C113_secant.
