(** Concrete cases meeting the hypotheses of theorems of several areas. *)
From Coq Require Import Reals Lra Lia List Bool Arith Psatz String.
From Coquelicot Require Import Coquelicot.
From Verif Require Import Prelude.
Import ListNotations.
Close Scope string_scope.
Open Scope R_scope.

Section WeightCases.
From Verif Require Import RootsModel DiffModel CopoModel CopoDataModel CopoDataProps FitModel FitProps.
Open Scope R_scope.
(** the covariance does not change when a sum of squares is multiplied by 5 *)
Example C105_weight_case : exists C, fit_cov inv2 (fun q => fst q ^ 2 + snd q ^ 2) (1, 2) 3 10 = Ok (Some C) /\
  fit_cov inv2 (fun q => 5 * (fst q ^ 2 + snd q ^ 2)) (1, 2) (5 * 3) 10 = Ok (Some C).
Proof.
  apply C105_weight_scale; [exact inv2_spec|lra|lia|]. unfold hessian2_centered. cbn [fst snd].
  destruct (Req_EM_T (1 / 10 ^ 4) 0) as [E|_]; [exfalso; lra|]. rewrite Rabs_R1, (Rabs_pos_eq 2) by lra.
  intros E. revert E.
  match goal with |- ?l = 0 -> False => replace l with 4 by field end. lra.
Qed.
End WeightCases.

Section InitCases.
From Verif Require Import RootsModel CacheModel EosInitProps.
Open Scope R_scope.
Example C107_redlich_case : (exists o, fst (rk_init (ASeq [300; 400]) (AArray 0) None [mkNd [2%nat] [4; 5]]) = Ok o) /\
  ~ exists o, fst (rk_init (ASeq [300; 400]) (AScalar 4) None []) = Ok o.
Proof.
  split.
  - apply (C107_redlich (ASeq [300; 400]) (AArray 0) None [mkNd [2%nat] [4; 5]]); cbn; [exact I|lia|]. now exists 2%nat, [].
  - intros H. apply (proj1 (proj1 (C107_redlich (ASeq [300; 400]) (AScalar 4) None [] I I))) in H. destruct H as (n & s & A & B). cbn in A, B. congruence.
Qed.
End InitCases.

Section SampleCases.
From Verif Require Import RootsModel DistModel DistFamProps DataModel DataProps.
Open Scope R_scope.
Example C101_discrete_case : (1 <= flory_random (fun _ => 3%nat) (flory_a 10))%Z /\
  is_series (fun n => match flory_cdf (flory_a 10) n 0 with Ok p => 1 - p | Err _ => 0 end) 10.
Proof. destruct (C101_discrete 10 (fun _ => 3%nat) (fun _ => 3%nat) ltac:(lra) ltac:(intros p; cbv beta; lia)) as (A & _ & B). now split. Qed.
Example C102_one_case cdfR m pl : (m <= 1)%nat -> mix_cdf [(mkI (fun _ => 0) cdfR (flory_moment pl (flory_a 10)) 100, 3)] 5 m false = ind_cdf (mkI (fun _ => 0) cdfR (flory_moment pl (flory_a 10)) 100) 5 m false.
Proof.
  intros H. assert (Z0 : moment_mass (mkI (fun _ => 0) cdfR (flory_moment pl (flory_a 10)) 100) 0 0 <> 0) by (unfold moment_mass, flory_a; cbn; lra).
  assert (Z1 : moment_mass (mkI (fun _ => 0) cdfR (flory_moment pl (flory_a 10)) 100) 1 0 <> 0).
  { unfold moment_mass, flory_a. cbn. replace (1 - (1 - 1 / 10)) with (/ 10) by lra. change (Pos.to_nat 1) with 1%nat. rewrite pow_1. lra. }
  apply C102_one; [lra|exact Z0|exact Z1|]. destruct m as [|[|m]]; [exact Z0|exact Z1|exfalso; lia].
Qed.
End SampleCases.
