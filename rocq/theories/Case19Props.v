(** Concrete cases meeting the hypotheses of theorems of several areas. *)
From Coq Require Import Reals Lra Lia List Bool Arith Psatz String.
From Coquelicot Require Import Coquelicot.
From Verif Require Import Prelude.
Import ListNotations.
Close Scope string_scope.
Open Scope R_scope.

Section ReliefCases.
From Verif Require Import RootsModel FlowModel PrvLiqProps.
Open Scope R_scope.
(** 1 L/min, 1 bar, a thousandth of a centipoise *)
Example C94_accuracy_case : exists r A, area_relief_liquid 1 2 1 (1 / 1000) 1 1 1 1 = Ok r /\ sized 1 2 1 (1 / 1000) 1 1 1 1 A /\ Rabs (r - A) <= 4 / 10 ^ 5 * A.
Proof.
  destruct C94_liquid_low_ex as (r & E & _). destruct (C94_liquid_root 1 2 1 (1 / 1000) 1 1 1 1) as (A & H & _); try lra.
  exists r, A. split; [exact E|]. split; [exact H|]. apply (C94_liquid_accuracy 1 2 1 (1 / 1000) 1 1 1 1 A r); try lra; assumption.
Qed.
Example C94_success_case : exists r, area_relief_liquid 1 2 1 1 1 1 1 1 = Ok r.
Proof.
  apply C94_liquid_success; try lra. rewrite liq_A0_ex. unfold liq_Kv. cbv zeta. pose proof sqrt_1178 as S. set (s := sqrt (1178 / 1000)) in *.
  assert (B : 1 <= 18800 * 1 * 1 / (1 * s)). { apply (Rmult_le_reg_r s); [lra|]. replace (18800 * 1 * 1 / (1 * s) * s) with 18800 by (field; lra). lra. }
  set (q := 18800 * 1 * 1 / (1 * s)) in *.
  assert (P : forall e, 0 <= e -> 1 <= Rpower q e). { intros e He. rewrite <- (Rpower_O q) by lra. apply Rle_Rpower; lra. }
  assert (I : forall c e, 0 <= c -> 0 <= e -> 0 <= c / Rpower q e <= c). { intros c e Hc He. specialize (P e He). split; [apply Rmult_le_pos; [lra|left; apply Rinv_0_lt_compat; lra]|]. apply (Rmult_le_reg_r (Rpower q e)); [lra|]. unfold Rdiv. rewrite Rmult_assoc, Rinv_l by lra. nra. }
  pose proof (I (2878 / 1000) (1 / 2) ltac:(lra) ltac:(lra)). pose proof (I (34275 / 100) (3 / 2) ltac:(lra) ltac:(lra)).
  match goal with |- _ <= 1 / ?d => replace (1 / d) with (/ d) by (unfold Rdiv; ring) end.
  apply Rle_trans with (/ 10 ^ 4); [lra|]. apply Rinv_le_contravar; lra.
Qed.
End ReliefCases.

Section DispersionCases.
From Verif Require Import RootsModel RtdModel RtdProps RtdDispProps.
Open Scope R_scope.
Example C56_dispersion_low_case : exists F, rtd_pair 0 (fun t => E_dispersion_model t 10 1) F /\
  forall t, 0 <= t -> Rabs (F_dispersion_model (fun f a b => RInt f a b) t 10 1 - F t) <= 0.
Proof.
  apply (C56_dispersion_low (fun f a b => RInt f a b) 10 1 0); try lra. intros t _. rewrite Rminus_diag_eq by reflexivity. rewrite Rabs_R0. lra.
Qed.
End DispersionCases.

Section SaturationCases.
From Verif Require Import RootsModel FixModel EosModel CubicProps.
Open Scope R_scope.
(** the reported pressure of a run that starts at the solution: the residual is within the tolerance *)
Example C84_residual_case : exists x, cu_Psat 1 (fun P => 100000 / P) 300 500 5000000 (1 / 10) (Some 100000) (fun _ => 0) = Ok x /\ Rabs (x * (100000 / x) - x) <= / 10 ^ 6 * 100000.
Proof.
  assert (E : cu_Psat 1 (fun P => 100000 / P) 300 500 5000000 (1 / 10) (Some 100000) (fun _ => 0) = Ok 100000).
  { apply C84_start; [lra|]. cbv beta. field. }
  exists 100000. split; [exact E|]. apply (C84_residual (fun P => 100000 / P) 300 500 5000000 (1 / 10) 100000 (fun _ => 0) 100000); [lra|exact E].
Qed.
End SaturationCases.

Section LucasCases.
From Verif Require Import RootsModel PropModel LucasProps.
Open Scope R_scope.
Example C117_pure_case : exists mu, MUV_Lucas 300 (10 ^ 6) (28 / 1000) 400 (4 * 10 ^ 6) (27 / 100) 0 = Flt mu /\ 0 < mu.
Proof.
  assert (E : exists mu, MUV_Lucas 300 (10 ^ 6) (28 / 1000) 400 (4 * 10 ^ 6) (27 / 100) 0 = Flt mu).
  { unfold MUV_Lucas, Lucas_FP0. unfold fpow. rewrite ?(proj2 (Rltb_true 0 (292 / 1000 - 27 / 100))) by lra. cbn [pmap].
    repeat match goal with |- context [if ?b then _ else _] => destruct b end; cbn [pmap]; eexists; reflexivity. }
  destruct E as (mu & E). exists mu. split; [exact E|]. apply (C117_positive_pure 300 (10 ^ 6) (28 / 1000) 400 (4 * 10 ^ 6) (27 / 100) 0 mu); try lra; [left; lra|exact E].
Qed.
End LucasCases.
