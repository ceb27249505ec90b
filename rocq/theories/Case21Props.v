(** Concrete cases meeting the hypotheses of theorems of several areas. *)
From Coq Require Import Reals Lra Lia List Bool Arith Psatz String.
From Coquelicot Require Import Coquelicot.
From Verif Require Import Prelude.
Import ListNotations.
Close Scope string_scope.
Open Scope R_scope.

Section SchulzCases.
From Verif Require Import RootsModel DistModel DistFamProps OracleProps.
Open Scope R_scope.
Example C66_SchulzZimm_case : exists gamma (cdfR : R -> nat -> R), let d := mkI (sz_pdf0 gamma (sz_k 100 (7 / 5)) (sz_theta 100 (7 / 5))) cdfR (sz_moment (sz_k 100 (7 / 5)) (sz_theta 100 (7 / 5))) 1 in
  is_derive (fun y => ind_cdf d y 1 false) 50 (ind_pdf d 50 1 false).
Proof.
  destruct (C66_gamma_exists (sz_k 100 (7 / 5))) as (gamma & inc & incc & G); [unfold sz_k; lra|].
  exists gamma, (fun y o => match sz_cdf inc incc (sz_k 100 (7 / 5)) (sz_theta 100 (7 / 5)) y o with Ok v => v | Err _ => 0 end).
  apply (C66_SchulzZimm gamma inc incc 100 (7 / 5) 1 _ 50 1 G); try lra; try lia. intros y. reflexivity.
Qed.
End SchulzCases.

Section RayCases.
From Verif Require Import RootsModel JcrModel JcrProps JcrEllProps.
Open Scope R_scope.
(** a sum of squares growing with the logarithm of the distance *)
Definition sse_log (p : R * R) : R := if Req_EM_T (fst p) 0 then 1 else 1 + ln (fst p).
Example C99_ray_general_case : exists x, find_radius sse_log (0, 0) 1 (1 / 100) 0 1 = (true, Fin x) /\ Rabs (x - ln 1) <= Rmax (1 / 10 ^ 4 / 1) ((1 / 1 - 1) * (1 / 100 * (1 / 1))).
Proof.
  assert (P : forall r, 0 < r -> sse_log (point (0, 0) 0 r) = 1 + ln r).
  { intros r Hr. unfold sse_log, point. cbn [fst snd]. rewrite cos_0. replace (0 + r * 1) with r by ring. destruct (Req_EM_T r 0); [lra|reflexivity]. }
  assert (C : sse_log (0, 0) = 1) by (unfold sse_log; cbn [fst]; destruct (Req_EM_T 0 0); [reflexivity|tauto]).
  assert (E1 : exp 1 >= 2) by (pose proof (exp_ineq1_le 1); lra).
  apply (C99_ray_general sse_log (0, 0) 1 (1 / 100) 0 1 1 1 1 1); try lra.
  - rewrite C, Rabs_R1. unfold eps. rewrite <- Rinv_1. apply Rinv_le_contravar; [lra|apply pow_R1_Rle; lra].
  - rewrite P, C, ln_1 by lra. lra.
  - intros r1 r2 H1 H2 H3. pose proof (exp_pos (- (1))). rewrite !P, C by lra. rewrite ln_div by lra. lra.
  - apply Rle_trans with (exp 0); [rewrite Rmult_1_l; left; apply exp_increasing; lra|rewrite exp_0; lra].
Qed.
End RayCases.
