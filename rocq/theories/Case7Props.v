(** Concrete cases for the checking, root-finding, differentiation and distribution theorems
    (C01-C22): each shows inputs that meet the hypotheses of the
    theorem it is named after, and what the theorem then says. *)
From Coq Require Import Reals Lra Lia List Bool Arith Psatz String.
From Coquelicot Require Import Coquelicot.
From Verif Require Import Prelude.
Import ListNotations.
Close Scope string_scope.
Open Scope R_scope.


Section Num.
From Verif Require Import UtilsModel UtilsProps RootsModel RootsProofs RootsProps FixModel FixProps DiffModel DiffProps PolyModel PolyProps VecModel VecProps.

Example C01_rows_case : check_bounds (VArr2 [[Fin 1; Fin 2]; [Fin 3; Fin 40]]) (Fin 0) (Fin 10) = Err ValueError.
Proof.
  apply C01_two_dim_arrays with (n := 0%nat).
  - intros r [<-|[<-|[]]]; reflexivity.
  - exists (Fin 40). split; [simpl; tauto|]. intros [_ H]. inversion H. lra.
Qed.
Example C02_range_case : check_valid_range (RTuple [Some (Fin 1); Some (Fin 2)]) (Fin 0) PInf = Ok (RTuple [Some (Fin 1); Some (Fin 2)]) /\
  check_valid_range (RTuple [Some (Fin 2); Some (Fin 1)]) (Fin 0) PInf = Err RangeError.
Proof.
  split.
  - apply C02_valid_range. split; [reflexivity|]. exists (Fin 1), (Fin 2). split; [reflexivity|]. split; [apply lt_fin; lra|split; [apply le_fin; lra|apply le_pinf; discriminate]].
  - destruct (check_valid_range (RTuple [Some (Fin 2); Some (Fin 1)]) (Fin 0) PInf) as [r'|e] eqn:E.
    + apply C02_valid_range in E. destruct E as (_ & a & b & E & L & _). injection E; intros <- <-. inversion L. lra.
    + f_equal. exact (proj2 (C02_valid_range _ _ _) e E).
Qed.

(** x^3 - 2 on [0, 2] with tolerance 1: the success is an enclosure of the cube root *)
Example C03_enclosure_case : exists tr r, root_brent (fun x => x ^ 3 - 2) 0 2 1 0 15 = (tr, Ok r) /\
  (Rabs (rr_x r ^ 3 - 2) <= 0 \/ exists z, z ^ 3 - 2 = 0 /\ Rmin 0 2 <= z <= Rmax 0 2 /\ Rabs (z - rr_x r) <= 1 + 4 * eps * Rabs (rr_x r)) /\
  (forall x, In x tr -> 0 <= x <= 2).
Proof.
  destruct C03_case as [tr [r [E S]]]. exists tr, r. split; [exact E|]. split.
  - apply (C03_brent_continuous_root (fun x => x ^ 3 - 2) 0 2 1 0 15 tr r); auto; try lra. reg.
  - intros x Hx. pose proof (C04_brent_stays_in_bracket (fun x => x ^ 3 - 2) 0 2 1 0 15 ltac:(lra) ltac:(lra) x) as H.
    rewrite E in H. specialize (H Hx). rewrite Rmin_left, Rmax_right in H by lra. exact H.
Qed.
Example C05_newton_case : exists r tr, root_newton (affine_re 2 (-6)) (affine_im 2 (-6)) 0 0 0 5 = (tr, Ok r) /\ (1 <= rr_niter r <= 5)%nat.
Proof. destruct (C05_newton (affine_re 2 (-6)) (affine_im 2 (-6)) 0 0 0 5) as [pre [r (E & _ & _ & _ & _ & N & _)]]; [lia|]. exists r, (pre ++ [rr_x r]). auto. Qed.
Example C06_affine_case : exists tr r, root_secant (fun x => 2 * x + -6) 0 1 0 0 5 = (tr, Ok r) /\ rr_success r = true /\ rr_x r = Fin 3.
Proof.
  destruct (C06_secant_affine 2 (-6) 0 1 0 0 5) as [tr [r (E & S & _ & X)]]; try lra; try lia; [exact C06_case|].
  exists tr, r. repeat split; auto. destruct X as [X|[[X H]|[X H]]]; rewrite X.
  - f_equal. lra.
  - exfalso. replace (2 * 0 + -6) with (-6) in H by ring. unfold Rabs in H. destruct (Rcase_abs (-6)); lra.
  - exfalso. replace (2 * 1 + -6) with (-4) in H by ring. unfold Rabs in H. destruct (Rcase_abs (-4)); lra.
Qed.
Example C07_result_case : exists T r, fixpoint_wegstein 2 (fun x i => / 2 * x i + 1) (fun _ => 0) (Some (fun _ => 1)) (1 / 10) 1 (-5) 0 10 (fun _ => 0) = (T, Ok r) /\
  List.length T = v_niter r /\ (1 <= v_niter r <= 10)%nat /\ (v_success r = true -> forall i, (i < 2)%nat -> Rabs (1 * v_f r i) <= 1 / 10).
Proof.
  destruct (C07_wegstein_result 2 (fun x i => / 2 * x i + 1) (fun _ => 0) (fun _ => 1) (1 / 10) 1 (-5) 0 10 (fun _ => 0)) as [T [r (E & L & _ & N & _ & _ & _ & S & _)]]; try lia.
  exists T, r. repeat split; auto; try lia. intros H. apply S. exact H.
Qed.
(** the steps of the run of C07_case: the first is a plain substitution *)
Example C07_steps_case : exists T r, fixpoint_wegstein 1 (fun x i => / 2 * x i + 1) (fun _ => 0) (Some (fun _ => 1)) 0 1 (-5) 0 10 (fun _ => 0) = (T, Ok r) /\
  ((1 < List.length T)%nat -> nth 1 T (fun _ => 0) = (fun i => / 2 * nth 0 T (fun _ => 0) i + 1)).
Proof.
  destruct C07_case as [T [r [E _]]]. exists T, r. split; [exact E|]. intros H.
  destruct (fun H1 => C07_wegstein_steps _ _ _ _ _ _ _ _ _ _ _ _ H1 E 0%nat H) as [K _]; [lra|]. apply K. lia.
Qed.
Example C10_cubic_case : fst (derivative_centered (fun t => 1 + 2 * t + 3 * t ^ 2 + 4 * t ^ 3) 1 (1 / 10)) = 2 + 6 + 12 + 4 * (4 / 100).
Proof. rewrite C10_centered_cubic_error by lra. rewrite Rabs_pos_eq by lra. lra. Qed.
Example C10_columns_case : exists h, 0 < h /\ jacobian_forward 2 (fun v r => v 0%nat * v 1%nat) (fun _ => 3) None (fun _ => 1) None (fun _ _ => 99) 1%nat 1%nat = 3.
Proof.
  destruct (C10_jacobian_columns 2 (fun v r => v 0%nat * v 1%nat) (fun _ => 3) (fun _ => 1) None (fun _ _ => 99) 1%nat 1%nat) as [h (_ & H & E)]; [lia|intros; lra|].
  exists h. split; [exact H|]. rewrite E. destruct (Nat.eq_dec 0 1); [lia|]. destruct (Nat.eq_dec 1 1); [|lia]. field. lra.
Qed.
Example C13_cover_case : exists n hf, 0 <= hf < 3 / 4 /\ 0 + INR n * (3 / 4) + hf = 2 /\
  ode_rk (fun _ y => -1 * y) 0 2 1 (3 / 4) 1 = Ok ((1 + -1 * (3 / 4)) ^ n * (1 + -1 * hf) * 1).
Proof. destruct (C13_exponential_factor 0 2 1 (3 / 4) (-1)) as [n [hf (A & B & C & _)]]; [lra|lra|]. exists n, hf. auto. Qed.
Example C13_order_case : ode_rk (fun t y => t) 0 1 0 (1 / 2) 3 = Err ValueError.
Proof. apply C13_other_orders; discriminate. Qed.
Example C14_actual_case : exists hf, 0 <= hf < 3 / 4 /\ ode_rk (fun t y => t) 2 0 1 (3 / 4) 1 = Ok (1 + hf * 2).
Proof. apply (C14_backward_actual (fun t y => t) 2 0 1 (3 / 4)); lra. Qed.
Example C15_invalid_case : simplify_polyline 3 2 1 (fun i k => INR i) 1 = Err ValueError.
Proof. apply C15_invalid. right. lia. Qed.
End Num.

Section Dist.
From Verif Require Import DistModel DistFamProps DistMixProps OracleProps.

Example C18_cases pl : ordered_averages (moments_only (flory_moment pl (flory_a 100)) (1 / 10)) (100 = 1) /\
  ordered_averages (moments_only (logn_moment (logn_mu 100 2) (logn_sigma 100 2)) (1 / 10)) False /\
  ordered_averages (moments_only (sz_moment (sz_k 100 3) (sz_theta 100 3)) (1 / 10)) False.
Proof. split; [apply C18_Flory; lra|split; [apply C18_LogNormal; lra|apply C18_SchulzZimm; lra]]. Qed.
Example C19_moment_case pl : is_series (fun j => INR (S j) ^ 2 * flory_pdf0 (flory_a 100) (S j)) (flory_moment pl (flory_a 100) 2).
Proof. apply C19_flory_moments; [lra|lia]. Qed.
Example C19_cdf_case : flory_cdf (flory_a 100) 3 1 = Ok (sumn 3 (fun j => INR (S j) * flory_pdf0 (flory_a 100) (S j)) / 100).
Proof. apply C19_flory_cdf. lra. Qed.
Example C19_shape_case : exists F, (forall k, flory_cdf (flory_a 100) k 1 = Ok (F k)) /\ is_lim_seq F 1.
Proof. destruct (C19_flory_cdf_shape 100 1) as [F (E & _ & _ & _ & L)]; [lra|lia|]. exists F. auto. Qed.
Example C20_reports_case pl : reports (moments_only (flory_moment pl (flory_a 100)) (1 / 10)) 100 (2 - 1 / 100) /\
  reports (moments_only (poisson_moment (poisson_a 100)) (1 / 10)) 100 (1 + (100 - 1) / 100 ^ 2) /\
  reports (moments_only (logn_moment (logn_mu 100 2) (logn_sigma 100 2)) (1 / 10)) 100 2 /\
  reports (moments_only (sz_moment (sz_k 100 3) (sz_theta 100 3)) (1 / 10)) 100 3.
Proof. split; [apply C20_Flory_reports; lra|split; [apply C20_Poisson_reports; lra|split; [apply C20_LogNormal_reports; lra|apply C20_SchulzZimm_reports; lra]]]. Qed.
Example C20_poisson_case : exists g q, is_series (fun j => INR (S j) ^ 2 * poisson_pdf g (INR (S j)) (poisson_a 10) false) (poisson_moment (poisson_a 10) 2) /\
  poisson_cdf q g (poisson_a 10) (INR 3) 0 = Ok (sumn 3 (fun j => poisson_pdf g (INR (S j)) (poisson_a 10) false)).
Proof.
  destruct C20_gamma_exists as [g [q [G Q]]]. exists g, q. split.
  - apply C20_poisson_moments; [exact G|lra].
  - apply (C20_poisson_cdf g q 10 3 G Q); [lra|lia].
Qed.

(** two components with the moments of monodisperse chains of 10 and 30 units, masses 1 and 3 *)
Definition mono (n : R) : idist := mkI (fun x => x) (fun x _ => x) (fun k => n ^ k) 5.
Lemma mono_good n w : 0 < n -> 0 < w -> good (mono n, w).
Proof. intros. unfold good, mono. cbn [fst snd i_mom i_M0]. repeat split; try lra. intros k. now apply pow_lt. Qed.
Example C22_fractions_case : List.Forall (fun x => 0 < x) (molefrac [(mono 10, 1); (mono 30, 3)]) /\ lsum (molefrac [(mono 10, 1); (mono 30, 3)]) = 1.
Proof. apply C22_molefrac; [discriminate|]. constructor; [apply mono_good; lra|constructor; [apply mono_good; lra|constructor]]. Qed.
Example C22_order_case z : mix_pdf [(mono 10, 1); (mono 30, 3)] z 1 false = mix_pdf [(mono 30, 3); (mono 10, 1)] z 1 false.
Proof.
  apply C22_order_irrelevant; [|apply Permutation.perm_swap].
  constructor; [apply mono_good; lra|constructor; [apply mono_good; lra|constructor]].
Qed.
Example C22_pdf_case z : mix_pdf [(mono 10, 1); (mono 30, 3)] z 1 false = wsum (fun d => ind_pdf d z 1 false) [(mono 10, 1); (mono 30, 3)] / lsum (map snd [(mono 10, 1); (mono 30, 3)]).
Proof. apply C22_pdf_cdf; [discriminate|]. constructor; [apply mono_good; lra|constructor; [apply mono_good; lra|constructor]]. Qed.
Example C21_mixture_case : mix_pdf [(mono 10, 1); (mono 30, 3)] 50 1 true = mix_pdf [(mono 10, 1); (mono 30, 3)] (50 / 5) 1 false / 5.
Proof.
  apply (C21_mixture [(mono 10, 1); (mono 30, 3)] 5 50 1); [lra|].
  intros d w [E|[E|[]]]; injection E; intros <- <-; cbn; lra.
Qed.
Example C21_averages_case : exists n, av_DPn (moment_mass (mono 10)) = Ok n /\ av_Mn (moment_mass (mono 10)) = Ok (n * 5).
Proof.
  assert (E : exists n w z, av_DPn (moment_mass (mono 10)) = Ok n /\ av_DPw (moment_mass (mono 10)) = Ok w /\ av_DPz (moment_mass (mono 10)) = Ok z).
  { assert (P : forall o sh, moment_mass (mono 10) o sh <> 0).
    { intros o sh. unfold moment_mass, mono. cbn [i_mom i_M0]. apply Rmult_integral_contrapositive_currified; [apply pow_nonzero; lra|].
      unfold Rpowz. apply powerRZ_NOR. lra. }
    unfold av_DPn, av_DPw, av_DPz. rewrite !pydiv_ok by apply P.
    do 3 eexists. repeat split; reflexivity. }
  destruct E as [n [w [z (A & B & C)]]]. exists n. split; [exact A|].
  apply (C21_averages (mono 10) n w z); auto. cbn. lra.
Qed.
End Dist.
