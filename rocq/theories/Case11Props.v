(** Concrete cases for the chain-length, data, fitting, plotting and text theorems (C66-C116):
    each shows inputs that meet the hypotheses of the theorem it is named after, and what the
    theorem then says. *)
From Coq Require Import Reals Lra Lia List Bool Arith Psatz String.
From Coquelicot Require Import Coquelicot.
From Verif Require Import Prelude.
Import ListNotations.
Close Scope string_scope.
Open Scope R_scope.

Section Gold.
From Verif Require Import RootsModel DistModel DistFamProps MomModel MomProps GoldProps.

(** The incomplete gamma function at integer orders. *)
Definition inc_ex (s a : R) : R := 1 - exp (- a) * sumn (Z.to_nat (up s - 1)) (fun j => a ^ j / INR (fact j)).
Lemma inc_ex_ok : gammainc_int inc_ex.
Proof.
  intros k a _ _. unfold inc_ex. replace (Z.to_nat (up (INR k) - 1)) with k; [reflexivity|].
  rewrite <- (tech_up (INR k) (Z.of_nat k + 1)).
  - replace (Z.of_nat k + 1 - 1)%Z with (Z.of_nat k) by lia. now rewrite Nat2Z.id.
  - rewrite plus_IZR, <- INR_IZR_INZ. lra.
  - rewrite plus_IZR, <- INR_IZR_INZ. lra.
Qed.
Example C67_gt1_case : is_series (gold_pdf_gt1 inc_ex (1 / 2) 3) 1 /\ 0 <= gold_pdf_gt1 inc_ex (1 / 2) 3 4 <= 1.
Proof.
  split; [apply (C67_gold_gt1 inc_ex (1 / 2) 3 1 inc_ex_ok); lra|].
  apply (C67_gold_probability inc_ex (1 / 2) 3 4 inc_ex_ok); lra.
Qed.
Example C66_LogNormal_case : exists cdfR : R -> nat -> R, let d := mkI (logn_pdf0 (logn_mu 100 2) (logn_sigma 100 2)) cdfR (logn_moment (logn_mu 100 2) (logn_sigma 100 2)) 1 in
  is_derive (fun y => ind_cdf d y 1 false) 50 (ind_pdf d 50 1 false).
Proof.
  destruct C66_erf_exists as (erf & erfc & H).
  exists (fun y o => match logn_cdf erf erfc (logn_mu 100 2) (logn_sigma 100 2) y o with Ok v => v | Err _ => 0 end).
  intros d. apply (C66_LogNormal erf erfc 100 2 1 _ 50 1 H); try lra; [lia|]. intros y. reflexivity.
Qed.
End Gold.

Section Fit.
From Verif Require Import DiffModel RootsModel CopoModel CopoProps CopoDataModel CopoDataProps JcrModel JcrProps FitModel FitProps FitRegionProps DriftProps.

(** An optimiser that stops at an admissible start. *)
Definition opt_ex : opt_t := fun g guess b =>
  if Rleb (fst (fst b)) (fst guess) && Rleb (fst guess) (snd (fst b)) && (Rleb (fst (snd b)) (snd guess) && Rleb (snd guess) (snd (snd b)))
  then match g guess with FOk v => FOk (true, guess, v) | FErr e => FErr e end else FOk (false, guess, 0).
Lemma opt_ex_ok : opt_spec opt_ex.
Proof.
  split.
  - intros g guess b r v. unfold opt_ex. destruct (_ && _) eqn:E; [|discriminate].
    destruct (g guess) as [w|e] eqn:G; [|discriminate]. intros H. injection H as <- <-.
    apply andb_true_iff in E. destruct E as (A & B). apply andb_true_iff in A, B. destruct A as (A1 & A2), B as (B1 & B2).
    apply (proj1 (Rleb_true _ _)) in A1, A2, B1, B2. auto.
  - intros g guess b e (A1 & A2) (B1 & B2) G. unfold opt_ex.
    rewrite (proj2 (Rleb_true _ _) A1), (proj2 (Rleb_true _ _) A2), (proj2 (Rleb_true _ _) B1), (proj2 (Rleb_true _ _) B2), G. reflexivity.
Qed.
Definition pts3 : list (R * R * R * R) := [(1 / 4, 5 / 17, 1, 1); (1 / 2, 3 / 5, 1, 1); (3 / 4, 4 / 5, 1, 1)].
Definition odr_ex (p : list (R * R * R * R)) (g : R * R) : odr_res := mkOdr true g (map (fun q => fst (fst (fst q))) p) (1, 0, 0, 1) 4.
Definition eigh_ex (M : nat -> nat -> R) : eigh2 := mkEig 0 0 (fun _ _ => 0).
Lemma box_ok : forall x, 1 / 10 ^ 3 <= x <= 10 ^ 2 -> Rleb (1 / 10 ^ 3) x = true /\ Rleb x (10 ^ 2) = true.
Proof. intros x (A & B). split; apply (proj2 (Rleb_true _ _)); auto. Qed.
(** Two data points: the fit succeeds and there is no covariance. *)
Example C105_two_case ivp odr Fq tq : exists f, fit_copo_data ivp opt_ex inv2 odr Fq tq eigh_ex [mkDFf (firstn 2 pts3) 1] [] [] (2, 1) NLLS (1 / 20) true true 100 (1 / 100) = FOk f /\
  ft_cov f = None /\ 1 / 1000 <= fst (ft_r f).
Proof.
  assert (E : exists f, fit_copo_data ivp opt_ex inv2 odr Fq tq eigh_ex [mkDFf (firstn 2 pts3) 1] [] [] (2, 1) NLLS (1 / 20) true true 100 (1 / 100) = FOk f).
  { unfold fit_copo_data. change (n_data [mkDFf (firstn 2 pts3) 1] [] []) with 2%nat. cbn [Nat.ltb Nat.leb].
    cbn [Nat.ltb Nat.leb].
    destruct (C105_two_success ivp opt_ex inv2 [mkDFf (firstn 2 pts3) 1] [] [] (2, 1) (2, 1)
      (sse_Ff (mkDFf (firstn 2 pts3) 1) (2, 1) + 0)) as (sse & S).
    - unfold opt_ex. cbn [fst snd]. destruct (box_ok 2) as (A1 & A2); [lra|]. destruct (box_ok 1) as (B1 & B2); [lra|].
      rewrite A1, A2, B1, B2. reflexivity.
    - rewrite S. cbn [fbind]. eexists. reflexivity. }
  destruct E as (f & E). exists f. split; [exact E|].
  destruct (C105_two _ _ _ _ _ _ _ _ _ _ _ _ _ _ _ _ _ f (eq_refl : n_data [mkDFf (firstn 2 pts3) 1] [] [] = 2%nat) E) as (C & _).
  destruct (C105_estimate _ _ _ _ _ _ _ _ _ _ _ _ _ _ _ _ f opt_ex_ok E) as (((D & _) & _) & _). auto.
Qed.
(** Three data points by orthogonal distance regression: standard errors of 2. *)
Example C105_odr_case ivp Fq tq : exists f, fit_copo_data ivp opt_ex inv2 odr_ex Fq tq eigh_ex [mkDFf pts3 1] [] [] (2, 1) ODR (1 / 20) false false 100 (1 / 100) = FOk f /\
  ft_r f = (2, 1) /\ ft_se f = (Fin (sqrt (4 * 1)), Fin (sqrt (4 * 1))).
Proof.
  assert (E : exists f, fit_copo_data ivp opt_ex inv2 odr_ex Fq tq eigh_ex [mkDFf pts3 1] [] [] (2, 1) ODR (1 / 20) false false 100 (1 / 100) = FOk f) by (eexists; reflexivity).
  destruct E as (f & E). exists f. split; [exact E|].
  assert (N : (3 <= n_data [mkDFf pts3 1] [] [])%nat) by (cbn; lia).
  destruct (C105_odr _ _ _ _ _ _ _ _ _ _ _ _ _ _ _ _ f N E) as (_ & _ & pts & _ & _ & R1 & C1 & _). split; [exact R1|].
  destruct (C105_intervals _ _ _ _ _ _ _ _ _ _ _ _ _ _ _ _ _ f N E) as (a & b & c & d & C2 & S & _).
  rewrite C1 in C2. cbn [odr_ex od_var od_cov mscale] in C2. injection C2 as <- <- <- <-. apply S; lra.
Qed.
Example C105_rejects_case ivp opt inv odr Fq tq eigh : fit_copo_data ivp opt inv odr Fq tq eigh [mkDFf [(1 / 4, 5 / 17, 1, 1)] 1] [] [] (1, 1) NLLS (1 / 20) true true 100 (1 / 100) = FErr FitError.
Proof. apply (proj1 (C105_rejects ivp opt inv odr Fq tq eigh [mkDFf [(1 / 4, 5 / 17, 1, 1)] 1] [] [] (1, 1) NLLS (1 / 20) true true 100 (1 / 100))). cbn. lia. Qed.
Example C105_swap_case : sse_Ff (swap_Ff (mkDFf pts3 1)) (1, 2) = sse_Ff (mkDFf pts3 1) (2, 1).
Proof. apply C105_swap; try lra. intros p [<-|[<-|[<-|[]]]]; cbn; lra. Qed.
(** The first two points lie on the curve of r1 = 2, r2 = 1. *)
Example C105_zero_case (ivp : ivp_t) : sse_Ff (mkDFf (firstn 2 pts3) 1) (2, 1) = 0.
Proof.
  destruct (C105_zero ivp 1 1 2 1) as (A & _). apply (A (mkDFf (firstn 2 pts3) 1)); cbn [dff_w dff_pts firstn pts3].
  - lra.
  - intros p [<-|[<-|[]]]; cbn; lra.
  - intros f F a b [H|[H|[]]]; injection H as <- <- <- <-; unfold F1r, inst_copolymer_binary; cbv zeta; rewrite np_div_ok by lra; field.
Qed.
Example C105_cumulative_case : Rabs (F1_cum (1 / 2) (1 / 2) (2 / 5) - 3 / 5) <= 1 / 10 ^ 10 / (1 / 2).
Proof. apply (proj2 (C105_cumulative (1 / 2) (1 / 2) (2 / 5) (3 / 5) ltac:(lra) ltac:(lra))); lra. Qed.
Example C104_rejects_case ivp f10 r1 r2 a t : monomer_drift_binary ivp f10 [1 / 2; 1 / 4] r1 r2 a t = FErr (Raised ValueError).
Proof.
  apply (proj1 (C104_rejects ivp f10 (1 / 2) [1 / 4] r1 r2 a t)).
  - cbn. unfold Rltb. destruct (Rlt_dec _ _); lra.
  - left. cbn. lra.
Qed.
Example C99_accepts_case Fq : exists pts, confidence_region Fq (fun p => 1 + fst p ^ 2 + snd p ^ 2) 2 (0, 0) 5 (1 / 20) (1 / 10) 40 (1 / 100) = Ok pts.
Proof.
  apply C99_accepts. split; [reflexivity|]. split; [split; [lra|]; split; [lia|]; split; [lia|lra]|]. cbn [fst snd].
  replace (1 + 0 ^ 2 + 0 ^ 2) with 1 by ring. rewrite Rabs_R1. unfold eps. rewrite <- Rinv_1. apply Rinv_le_contravar; [lra|]. apply pow_R1_Rle. lra.
Qed.
Example C99_angles_case : nth_error (angles 9) 2 = Some (2 * PI * INR 2 / INR 8).
Proof. apply (C99_angles 9); lia. Qed.
End Fit.

Section Data.
From Verif Require Import Erf DistModel DataModel DataProps.

Example C100_density_case : exists d, built interp d /\ is_RInt (fun x => ind_pdf (dd_dist d) x 1 false) (first (dd_x d)) (final (dd_x d)) 1 /\
  ind_cdf (dd_dist d) (final (dd_x d)) 1 false = 1.
Proof.
  destruct (C100_example 100) as (d & _ & B & M & _); [lra|]. exists d. split; [exact B|].
  assert (N : dd_moment d 1 <> 0) by lra. split.
  - apply (C100_density interp d interp_ok B). exact N.
  - destruct (C100_cdf interp d 1 interp_ok B N) as (_ & H & _). apply H. lra.
Qed.
Example C100_scale_case : exists d d', data_init interp [1; 2; 3; 4] [1; 2; 2; 1] false Mass false 100 = Ok d /\
  data_init interp [1; 2; 3; 4] (map (fun v => 3 * v) [1; 2; 2; 1]) false Mass false 100 = Ok d' /\ dd_moment d' 1 = 3 * dd_moment d 1.
Proof.
  destruct (C100_example 100) as (d & E & _); [lra|].
  destruct (C100_scale interp [1; 2; 3; 4] [1; 2; 2; 1] false Mass false 100 3 d interp_ok ltac:(lra) ltac:(lra) E) as (d' & E' & H & _).
  exists d, d'. split; [exact E|]. split; [exact E'|]. apply H.
Qed.
Example C100_mass_case : data_init interp (map (fun n => n * 100) [1; 2; 3; 4]) [1; 2; 2; 1] false Mass true 100 = data_init interp [1; 2; 3; 4] [1; 2; 2; 1] false Mass false 100.
Proof. apply C100_mass. lra. Qed.
Example C102_start_case : exists d, built interp d /\ first (dd_x d) < fit_DPn d 2 0 < final (dd_x d) /\ fit_DPn d 2 0 < fit_DPn d 2 1.
Proof.
  destruct (C100_example 100) as (d & _ & B & _); [lra|]. exists d. split; [exact B|].
  destruct (C102_start interp d 2 B) as (A1 & A2 & _); [lia|]. split; [apply A1; lia|apply A2; lia].
Qed.
Example C102_start_point_case : exists d, built interp d /\ dotl (fit_eq_row 2 (List.length (fit_x0 false d 2))) (fit_x0 false d 2) = 1.
Proof.
  destruct (C100_example 100) as (d & _ & B & _); [lra|]. exists d. split; [exact B|].
  apply (C102_start_point false interp d 2 B). lia.
Qed.
Example C102_returned_case d : exists c, fit false d 2 ([] ++ [[1 / 4; 3 / 4; 1; 2]]) true = Ok (Some c) /\ List.length c = 2%nat.
Proof.
  destruct (C102_returned false d 2 [] [1 / 4; 3 / 4; 1; 2]) as ((c & E & L & _) & _); [lia| |exists c; auto].
  intros y [<-|[]] j Hj. split; [|discriminate]. destruct j as [|[|j]]; cbn; try lra. lia.
Qed.
Example C102_raises_case d : fit true d 1 ([] ++ [1; 2; 1] :: []) true = Err RangeError.
Proof.
  apply (C102_raises true d 1 [] [1; 2; 1]); [lia|intros y []|]. exists 0%nat. split; [lia|]. right. split; [reflexivity|]. cbn. lra.
Qed.
End Data.

Section Plot.
From Verif Require Import UtilsModel TaitModel CacheModel CacheProps EosInitProps TaitProps CopoDataModel DistModel DistPlotModel DistPlotProps CopoPlotModel CopoPlotProps EqPlotProps.

Example C107_accepts_case : let h := [mkNd [2%nat] [4; 5]] in fst (eos_init [ASeq [300; 400]; AArray 0; AScalar 1] None h) = Err ShapeError.
Proof.
  intros h. destruct (C107_accepts [ASeq [300; 400]; AArray 0; AScalar 1] None h) as (_ & _ & H & _); [discriminate| |].
  - intros x [<-|[<-|[<-|[]]]]; cbn; auto.
  - apply H. exists (ASeq [300; 400]), (AScalar 1). split; [simpl; tauto|]. split; [simpl; tauto|]. discriminate.
Qed.
Example C107_reads_case : am_shape 3 2 3 = Ok tt /\ am_shape 3 1 3 = Err IndexError.
Proof.
  split; [apply (C107_k_reads 3 2 3); lia|]. apply (C107_k_reads 3 1 3). intros H. apply (C107_k_reads 3 1 3) in H. lia.
Qed.
Example C110_inputs_case : pdf_call (fun m b => (m, b)) (KStr "Mass") (KBool false) = Ok (1%nat, false) /\ logscale "auto" ["gpc"%string] = true.
Proof.
  split.
  - apply (proj1 (C110_pdf_inputs (fun (m : nat) (b : bool) => (m, b)) (KStr "Mass") (KBool false))). exists "Mass"%string, false, DataModel.Mass. repeat split.
  - apply C110_scale. right. split; [reflexivity|]. split; [discriminate|]. intros k [<-|[]]. reflexivity.
Qed.
Example C110_contains_case : mix_contains [3; 5]%nat 5 = true /\ mix_bool [] = false.
Proof. split; [apply (C110_contains [3; 5]%nat 5); simpl; tauto|now apply (C110_contains [] 0)]. Qed.
Example C112_kp_case F1 drift kpT kpd f0 : copo_plot "A" "B" F1 drift kpT kpd [] "kp" "model" 1 f0 true = Ok [Line grid (map kpT grid)].
Proof.
  apply (C112_kp "A" "B" F1 drift kpT kpd [] "model" f0).
  - split; [discriminate|split; discriminate].
  - constructor.
  - unfold is_show. simpl. tauto.
  - reflexivity.
Qed.
Example C108_units_case o : tait_vs o 300 1 "F" "bar" = Err ValueError.
Proof. apply C108_units. left. intros off [[H _]|[H _]]; discriminate. Qed.
End Plot.
