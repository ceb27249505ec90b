(** Properties C03-C06: scalar root solvers.  Statements only; proofs are in
    RootsProofs.v.  Trace = list of points at which the user function is called. *)
From Coq Require Import Reals Lra Lia List Bool Arith.
From Verif Require Import Prelude RootsModel RootsProofs.
Import ListNotations.
Open Scope R_scope.

(** C03.  Whatever path the iteration takes, a reported success means a small
    residual or a sign change within tolx + 4 eps |x|, and f is f(x). *)
Theorem C03_brent_success_is_enclosure :
  forall (f : R -> R) xa xb tolx tolf maxiter tr r,
  0 <= tolx -> 0 <= tolf ->
  root_brent f xa xb tolx tolf maxiter = (tr, Ok r) ->
  rr_f r = f (rr_x r) /\
  (rr_success r = true ->
   Rabs (f (rr_x r)) <= tolf \/
   exists c, Rmin xa xb <= c <= Rmax xa xb /\
     Rabs (c - rr_x r) <= tolx + 4 * eps * Rabs (rr_x r) /\ f (rr_x r) * f c <= 0).
Proof. exact brent_success_lemma. Qed.
Print Assumptions C03_brent_success_is_enclosure.

(** C03, continuous functions: there is a true root that close. *)
Theorem C03_brent_continuous_root :
  forall (f : R -> R) xa xb tolx tolf maxiter tr r,
  0 <= tolx -> 0 <= tolf -> continuity f ->
  root_brent f xa xb tolx tolf maxiter = (tr, Ok r) -> rr_success r = true ->
  Rabs (f (rr_x r)) <= tolf \/
  exists z, f z = 0 /\ Rmin xa xb <= z <= Rmax xa xb /\
    Rabs (z - rr_x r) <= tolx + 4 * eps * Rabs (rr_x r).
Proof. exact brent_continuous_root. Qed.
Print Assumptions C03_brent_continuous_root.

(** C03, and success is guaranteed: for an interval of length at most
    tolx * 2^J, (J+2)(2J+3) iterations always suffice, whatever the function. *)
Theorem C03_brent_converges :
  forall (f : R -> R) xa xb tolx tolf maxiter J,
  0 < tolx -> 0 <= tolf -> f xa * f xb <= 0 ->
  Rabs (xb - xa) <= tolx * 2 ^ J -> ((J + 2) * (2 * J + 3) <= maxiter)%nat ->
  exists tr r, root_brent f xa xb tolx tolf maxiter = (tr, Ok r) /\ rr_success r = true.
Proof. exact root_brent_converges. Qed.
Print Assumptions C03_brent_converges.

(** Non-vacuity: f(x) = x^3 - 2 on [0, 2] meets the hypotheses (J = 1). *)
Example C03_case : exists tr r,
  root_brent (fun x => x ^ 3 - 2) 0 2 1 0 15 = (tr, Ok r) /\ rr_success r = true.
Proof.
  apply (C03_brent_converges (fun x => x ^ 3 - 2) 0 2 1 0 15 1); try lra; try lia.
  rewrite Rabs_pos_eq; lra.
Qed.

(** C04.  f is only ever evaluated between xa and xb. *)
Theorem C04_brent_stays_in_bracket :
  forall (f : R -> R) xa xb tolx tolf maxiter,
  0 <= tolx -> 0 <= tolf ->
  forall x, In x (fst (root_brent f xa xb tolx tolf maxiter)) ->
  Rmin xa xb <= x <= Rmax xa xb.
Proof. exact brent_trace_lemma. Qed.
Print Assumptions C04_brent_stays_in_bracket.

(** C04.  ValueError exactly for an unbracketed root; otherwise a result, whose
    nfeval is the true number of evaluations, at most maxiter + 2. *)
Theorem C04_brent_total_and_counted :
  forall (f : R -> R) xa xb tolx tolf maxiter,
  0 <= tolx -> 0 <= tolf -> (1 <= maxiter)%nat ->
  (tolf < Rabs (f xa) /\ tolf < Rabs (f xb) /\ 0 < f xa * f xb /\
   snd (root_brent f xa xb tolx tolf maxiter) = Err ValueError)
  \/
  (~ (tolf < Rabs (f xa) /\ tolf < Rabs (f xb) /\ 0 < f xa * f xb) /\
   exists tr r, root_brent f xa xb tolx tolf maxiter = (tr, Ok r) /\
     rr_nfeval r = length tr /\ (length tr <= maxiter + 2)%nat /\
     In (rr_x r) tr /\ (rr_niter r <= maxiter)%nat).
Proof. exact brent_total_lemma. Qed.
Print Assumptions C04_brent_total_and_counted.

(** Both alternatives occur: x^2 + 1 is rejected on [-1, 1]; x is accepted on [-1, 2]. *)
Example C04_case_rejected : snd (root_brent (fun x => x ^ 2 + 1) (-1) 1 0 0 10) = Err ValueError.
Proof.
  destruct (C04_brent_total_and_counted (fun x => x ^ 2 + 1) (-1) 1 0 0 10)
    as [(_ & _ & _ & H)|(H & _)]; try lra; try lia; auto.
  exfalso; apply H. rewrite !Rabs_pos_eq by lra. lra.
Qed.
Example C04_case_accepted : exists tr r, root_brent (fun x => x) (-1) 2 0 0 10 = (tr, Ok r).
Proof.
  destruct (C04_brent_total_and_counted (fun x => x) (-1) 2 0 0 10)
    as [(_ & _ & H & _)|(_ & tr & r & E & _)]; try lra; try lia.
  exists tr, r; auto.
Qed.

(** Boundary of the claim: maxiter = 0 with a proper bracket does not return
    (the loop variable is unbound). *)
Theorem C04_brent_maxiter_zero :
  forall (f : R -> R) xa xb tolx tolf,
  tolf < Rabs (f xa) -> tolf < Rabs (f xb) -> f xa * f xb <= 0 ->
  snd (root_brent f xa xb tolx tolf 0) = Err UnboundLocalError.
Proof. exact brent_zero_iter. Qed.
Print Assumptions C04_brent_maxiter_zero.
Example C04_zero_case : snd (root_brent (fun x => x) (-1) 2 0 0 0) = Err UnboundLocalError.
Proof.
  apply C04_brent_maxiter_zero; [| |lra]; apply Rabs_pos_lt; lra.
Qed.

(** C05.  root_newton: the evaluated points are x0, x1, ... with
    x_{i+1} = x_i - f(x_i)/f'(x_i) (complex-step values), the last one is
    returned with its function value; the counters agree; success and failure
    mean what the messages say. *)
Theorem C05_newton :
  forall (fre fim : R -> R -> R) x0 tolx tolf maxiter, (0 < maxiter)%nat ->
  exists pre r, root_newton fre fim x0 tolx tolf maxiter = (pre ++ [rr_x r], Ok r) /\
    hd_error (pre ++ [rr_x r]) = Some x0 /\
    newton_chain fre fim (pre ++ [rr_x r]) /\
    rr_nfeval r = length (pre ++ [rr_x r]) /\ rr_niter r = rr_nfeval r /\
    (1 <= rr_niter r <= maxiter)%nat /\
    rr_f r = fre (rr_x r) eps /\
    (rr_success r = true ->
       Rabs (rr_f r) <= tolf \/
       (eps < Rabs (fim (rr_x r) eps / eps) /\
        Rabs (rr_f r / (fim (rr_x r) eps / eps)) <= tolx)) /\
    (rr_success r = false ->
       rr_niter r = maxiter \/ Rabs (fim (rr_x r) eps / eps) <= eps).
Proof. exact root_newton_spec. Qed.
Print Assumptions C05_newton.

(** C05.  maxiter = 0 never returns a result. *)
Theorem C05_newton_maxiter_zero :
  forall (fre fim : R -> R -> R) x0 tolx tolf,
  snd (root_newton fre fim x0 tolx tolf 0) = Err UnboundLocalError.
Proof. exact newton_zero_iter. Qed.
Print Assumptions C05_newton_maxiter_zero.

(** C05.  For every affine function the exact root is found in two iterations
    (unless the start already satisfied a tolerance). *)
Theorem C05_newton_affine :
  forall a b x0 tolx tolf maxiter,
  eps < Rabs a -> 0 <= tolf -> (2 <= maxiter)%nat ->
  exists tr r, root_newton (affine_re a b) (affine_im a b) x0 tolx tolf maxiter = (tr, Ok r) /\
    rr_success r = true /\
    (rr_x r = - b / a \/
     (rr_x r = x0 /\ (Rabs (a * x0 + b) <= tolf \/ Rabs (x0 - - b / a) <= tolx))).
Proof. exact newton_affine. Qed.
Print Assumptions C05_newton_affine.
Example C05_case : exists tr r,
  root_newton (affine_re 2 (-6)) (affine_im 2 (-6)) 0 0 0 2 = (tr, Ok r) /\ rr_x r = 3.
Proof.
  destruct (C05_newton_affine 2 (-6) 0 0 0 2) as (tr & r & E & _ & [H|[H [H2|H2]]]);
    try lra; try lia.
  - rewrite Rabs_pos_eq by lra. pose proof eps_small; lra.
  - exists tr, r; split; auto. rewrite H; lra.
  - exfalso. replace (2 * 0 + -6) with (- (6)) in H2 by lra. rewrite Rabs_Ropp, Rabs_pos_eq in H2; lra.
  - exfalso. replace (0 - - -6 / 2) with (- (3)) in H2 by lra. rewrite Rabs_Ropp, Rabs_pos_eq in H2; lra.
Qed.

(** C06, full statement (false, see below): every returned result is a pair
    (x, f(x)) for the last evaluated x. *)
Definition C06_full : Prop :=
  forall (f : R -> R) x0 x1 tolx tolf maxiter tr r,
  root_secant f x0 x1 tolx tolf maxiter = (tr, Ok r) ->
  exists pre x, tr = pre ++ [x] /\ rr_x r = Fin x /\ rr_f r = Fin (f x).

(** C06: finding.  A zero slope between the two guesses makes root_secant return
    x = f = NaN instead of a point it evaluated (here f = 1, guesses 0 and 1). *)
Theorem C06_secant_consistency_refuted :
  exists (f : R -> R) x0 x1 tolx tolf maxiter r,
  snd (root_secant f x0 x1 tolx tolf maxiter) = Ok r /\
  rr_success r = false /\ rr_nfeval r = 2%nat /\ rr_x r = NaN /\ rr_f r = NaN.
Proof.
  exists (fun _ => 1), 0, 1, 0, 0, 50%nat, (mkRR false MsgZeroSlope 2 1 NaN NaN).
  split; [exact (secant_flat_const 49)|auto].
Qed.
Print Assumptions C06_secant_consistency_refuted.

(** C06: the part that holds.  Except for that zero-slope start, the result is
    (x, f(x)) for the last evaluated point; success always has its meaning.
    Missing: the zero-slope start (refuted above). *)
Theorem C06_secant_partial :
  forall (f : R -> R) x0 x1 tolx tolf maxiter, (0 < maxiter)%nat ->
  exists tr r, root_secant f x0 x1 tolx tolf maxiter = (tr, Ok r) /\
    rr_nfeval r = length tr /\ (length tr <= maxiter + 2)%nat /\ (rr_niter r <= maxiter)%nat /\
    ((exists pre x, tr = pre ++ [x] /\ rr_x r = Fin x /\ rr_f r = Fin (f x)) \/
     (rr_success r = false /\ rr_x r = NaN /\ rr_f r = NaN /\
      Rabs (f x1 - f x0) <= eps * Rmax (Rmax (Rabs (f x0)) (Rabs (f x1))) 1)) /\
    (rr_success r = true -> exists z, rr_x r = Fin z /\ rr_f r = Fin (f z) /\
       (Rabs (f z) <= tolf \/ exists q y, tr = q ++ [y; z] /\ Rabs (z - y) <= tolx)).
Proof. exact root_secant_spec. Qed.
Print Assumptions C06_secant_partial.

(** C06.  Affine functions are solved in one step. *)
Theorem C06_secant_affine :
  forall a b x0 x1 tolx tolf maxiter,
  let f := fun x => a * x + b in
  0 <= tolf -> (0 < maxiter)%nat -> a <> 0 ->
  ~ (Rabs (f x1 - f x0) <= eps * Rmax (Rmax (Rabs (f x0)) (Rabs (f x1))) 1) ->
  exists tr r, root_secant f x0 x1 tolx tolf maxiter = (tr, Ok r) /\ rr_success r = true /\
    (length tr <= 3)%nat /\
    (rr_x r = Fin (- b / a) \/
     (rr_x r = Fin x0 /\ Rabs (f x0) <= tolf) \/ (rr_x r = Fin x1 /\ Rabs (f x1) <= tolf)).
Proof. exact secant_affine. Qed.
Print Assumptions C06_secant_affine.
Example C06_case : ~ (Rabs ((2 * 1 + -6) - (2 * 0 + -6)) <=
    eps * Rmax (Rmax (Rabs (2 * 0 + -6)) (Rabs (2 * 1 + -6))) 1).
Proof.
  replace (2 * 1 + -6 - (2 * 0 + -6)) with 2 by lra.
  replace (2 * 0 + -6) with (- (6)) by lra. replace (2 * 1 + -6) with (- (4)) by lra.
  rewrite !Rabs_Ropp, !Rabs_pos_eq by lra. rewrite (Rmax_left 6 4), (Rmax_left 6 1) by lra.
  pose proof eps_small; lra.
Qed.

(* ================================================================== *)
(** C61.  A step of root_brent is either bisection (d = e = m) or exactly
    the secant point / the inverse quadratic interpolation point, with all
    ordinates distinct (so no division by zero). *)
Theorem C61_brent_interpolation :
  forall s m tol1 d e d' e',
  m = / 2 * (b_xc s - b_xb s) ->
  brent_step s m tol1 d e = Ok (d', e') ->
  let xa := b_xa s in let xb := b_xb s in let xc := b_xc s in
  let fa := b_fa s in let fb := b_fb s in let fc := b_fc s in
  (d' = m /\ e' = m) \/
  (e' = d /\ fa <> fb /\
   ((xa = xc /\ xb + d' = xb - fb * (xb - xa) / (fb - fa)) \/
    (xa <> xc /\ fa <> fc /\ fb <> fc /\
     xb + d' = xa * (fb * fc) / ((fa - fb) * (fa - fc)) +
               xb * (fa * fc) / ((fb - fa) * (fb - fc)) +
               xc * (fa * fb) / ((fc - fa) * (fc - fb))))).
Proof. exact brent_step_interpolates. Qed.
Print Assumptions C61_brent_interpolation.
(** An accepted secant step: points (0,-1), (1,... ) of f x = 4 x - 1. *)
Example C61_case :
  brent_step (mkB 1 3 0 (-1) 1 3 (Some (1, 1))) (/ 2) (/ 100) 1 1 = Ok (/ 4, 1).
Proof.
  unfold brent_step, brent_pq; cbn [b_xa b_fa b_xb b_fb b_xc b_fc].
  assert (A1 : Rabs 1 = 1) by (apply Rabs_pos_eq; lra).
  assert (A2 : Rabs (-1) = 1) by (rewrite Rabs_left; lra).
  assert (A3 : Rabs 3 = 3) by (apply Rabs_pos_eq; lra).
  rewrite A1, A2, A3.
  replace (Rleb (/ 100) 1) with true by (symmetry; apply Rleb_true; lra).
  replace (Rltb 1 3) with true by (symmetry; apply Rltb_true; lra). cbn [andb].
  rewrite pydiv_ok by lra. cbn [bind].
  destruct (Req_EM_T 1 1) as [_|n]; [|exfalso; lra]. cbn [bind].
  replace (Rltb 0 (2 * / 2 * (-1 / 3))) with false by (symmetry; apply Rltb_false; lra).
  replace (Rabs (2 * / 2 * (-1 / 3))) with (/ 3) by (rewrite Rabs_left; lra).
  replace (Rabs (/ 100 * (1 - -1 / 3))) with (/ 75) by (rewrite Rabs_pos_eq; lra).
  replace (Rabs (1 * (1 - -1 / 3))) with (4 / 3) by (rewrite Rabs_pos_eq; lra).
  replace (Rltb (2 * / 3) (Rmin (3 * / 2 * (1 - -1 / 3) - / 75) (4 / 3))) with true.
  2:{ symmetry. apply Rltb_true. unfold Rmin. destruct (Rle_dec _ _); lra. }
  rewrite pydiv_ok by lra. cbn [bind]. do 2 f_equal. lra.
Qed.
