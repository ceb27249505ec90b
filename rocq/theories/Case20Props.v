(** Concrete cases meeting the hypotheses of theorems of several areas. *)
From Coq Require Import Reals Lra Lia List Bool Arith Psatz String.
From Coquelicot Require Import Coquelicot.
From Verif Require Import Prelude.
Import ListNotations.
Close Scope string_scope.
Open Scope R_scope.

Section DriftCases.
From Verif Require Import RootsModel CopoModel FitModel DriftProps.
Open Scope R_scope.
(** with equal reactivities the composition does not drift: an integrator that keeps the value has no error *)
Example C104_error_case : exists v, monomer_drift_binary (ivp_out 0) [1 / 2] [0; 1 / 2] 1 1 (1 / 10 ^ 4) (1 / 10 ^ 4) = FOk (Row v) /\
  forall j, (j < 2)%nat -> nth j v 0 = 1 / 2.
Proof.
  destruct C104_example as (v & E & _). exists v. split; [exact E|]. intros j Hj.
  destruct (C104_error (ivp_out 0) (1 / 2) [0; 1 / 2] 1 1 (1 / 10 ^ 4) (1 / 10 ^ 4) v (fun _ => 1 / 2) 0 (ivp_out_spec 0) E) with (j := j) as (A & B & _).
  - intros t _. lra.
  - intros ys H t _. unfold ivp_out in H. injection H as <-. cbn [map nth]. apply Rabs_le; lra.
  - exact Hj.
  - apply Rabs_le_between in B. lra.
Qed.
End DriftCases.

Section DataCases.
From Verif Require Import RootsModel DistModel DataModel DataProps.
Open Scope R_scope.
Example C100_kinds_case : exists d, data_init interp [1; 2; 3; 4] [1; 2; 2; 1] false DataModel.Mass false 100 = Ok d /\ nth 1 (dd_y d) 0 = dd_moment d 1 * ind_pdf (dd_dist d) (nth 1 (dd_x d) 0) 1 false.
Proof.
  destruct (C100_example 100 ltac:(lra)) as (d & E & _ & M & _). exists d. split; [exact E|].
  assert (L : dd_x d = [1; 2; 3; 4]).
  { revert E. unfold data_init. cbn [andb List.length Nat.eqb negb combine filter fst snd map].
    repeat match goal with |- context [Rltb ?a ?b] => rewrite (proj2 (Rltb_true a b)) by lra end.
    repeat match goal with |- context [Rleb ?a ?b] => rewrite (proj2 (Rleb_true a b)) by lra end.
    cbn [andb map fst snd]. intros E. repeat match type of E with context [if ?b then _ else _] => destruct b; try discriminate E end; injection E as <-; reflexivity. }
  apply (C100_kinds interp [1; 2; 3; 4] [1; 2; 2; 1] false DataModel.Mass false 100 d 1 interp_ok ltac:(lra) E); [rewrite L; cbn; lia|lra].
Qed.
Example C102_bounds_case : admissible false 1 [1 / 2; 1].
Proof.
  apply (C102_bounds false (mkDD [1; 10; 100; 1000] [1; 1; 1; 1] 1 (fun _ => 0) 1)). intros [|[|j]] H; cbn in H |- *; try lia; [lra|].
  split; [apply Rle_trans with (log10 10); [apply log10_le; lra|]|apply Rle_trans with (log10 10); [|apply log10_le; unfold final; cbn; lra]]; unfold log10; right; field; apply Rgt_not_eq; rewrite <- ln_1; apply ln_increasing; lra.
Qed.
End DataCases.
