(** Concrete cases for the emulsion, correlation, scaling, text and root-table theorems
    (C69-C123): each shows inputs that meet the hypotheses of the theorem it is named after, and
    what the theorem then says. *)
From Coq Require Import Reals Lra Lia List Bool Arith Psatz String.
From Coquelicot Require Import Coquelicot.
From Verif Require Import Prelude.
Import ListNotations.
Close Scope string_scope.
Open Scope R_scope.

Section Nbar.
From Verif Require Import RootsModel KinModel KinCldProps NbarProps NbarProps2.

(** The series Bessel functions are positive and obey the recurrence. *)
Lemma iv_ex_rec v x : 0 < v -> 0 < x -> iv_ex (v - 1) x - iv_ex (v + 1) x = 2 * v / x * iv_ex v x.
Proof.
  intros Hv Hx. destruct (bessel_h iv_ex C122_bessel_exists) as (G & GP & GR & E & _).
  rewrite !E by lra. replace (v - 1 + 1) with v by ring. rewrite GR by lra.
  pose proof (GR (v + 1) ltac:(lra)) as Q. replace (v + 1 - 1) with v in Q by ring. rewrite Q.
  pose proof (h_contig v ((x / 2) ^ 2) ltac:(lra)) as K. assert (K' : h v ((x / 2) ^ 2) = h (v + 1) ((x / 2) ^ 2) + (x / 2) ^ 2 / (v * (v + 1)) * h (v + 2) ((x / 2) ^ 2)) by lra. rewrite K'.
  assert (P : 0 < x / 2) by lra.
  replace (Rpower (x / 2) (v + 1)) with (Rpower (x / 2) v * (x / 2)) by (rewrite Rpower_plus, Rpower_1; auto).
  replace (Rpower (x / 2) (v - 1)) with (Rpower (x / 2) v * (2 / x)).
  2:{ unfold Rminus. rewrite Rpower_plus, Rpower_Ropp, Rpower_1 by auto. field. lra. }
  replace (v + 1 + 1) with (v + 2) by ring. field. lra.
Qed.
Example C69_recurrence_case : nbar_SO iv_ex 4 (1 / 2) * (1 / 2 + 2 * nbar_SO iv_ex 4 (1 / 2 + 1)) = 4 /\ 0 < nbar_SO iv_ex 4 (1 / 2) < 8.
Proof.
  destruct (C69_recurrence iv_ex 4 (1 / 2)) as (A & B); try lra.
  - intros v x Hx Hv. destruct (bessel_h iv_ex C122_bessel_exists) as (G & GP & _ & E & _).
    rewrite E by lra. apply Rmult_lt_0_compat; [apply Rmult_lt_0_compat; [apply GP; lra|apply exp_pos]|].
    apply h_pos; [lra|]. apply Rlt_le, pow_lt. lra.
  - intros v x Hx Hv. apply iv_ex_rec; lra.
Qed.
Example C122_Smith_Ewart_case : exists N : nat -> R, (forall n, 0 < N n) /\ is_lim_seq (fun K => sumn K N) 1.
Proof. destruct (C122_Smith_Ewart iv_ex 4 (1 / 2) C122_bessel_exists) as (N & A & _ & B & _); try lra. exists N. auto. Qed.
Example C122_monotone_case : nbar_SO iv_ex 1 (1 / 2) < nbar_SO iv_ex 4 (1 / 2).
Proof. apply (C122_monotone iv_ex 1 (1 / 2) C122_bessel_exists); lra. Qed.
End Nbar.

Section Vap.
From Verif Require Import KinModel HmtModel FlowModel AcmModel EosModel PropModel PropVapProps VapAnchorProps LucasProps CorrProps DimProps DimProps2.

Example C114_Ambrose_case : exists P, PL_Ambrose_Walton (7 / 10 * 425) 425 5150000 (1 / 5) = Flt P /\ 0 < P.
Proof. destruct (C114_Ambrose_Walton 425 5150000 (1 / 5)) as (P & A & B & _); try lra. exists P. auto. Qed.
Example C114_Lee_Kesler_case : PL_Lee_Kesler 300 300 425 5150000 = 101325.
Proof. apply (C114_Lee_Kesler 300 425 5150000); lra. Qed.
Example C115_scale_case : DHVL_Vetere (2 * 300) (2 * 425) 5150000 = 2 * DHVL_Vetere 300 425 5150000 /\ 0 < DHVL_Vetere 300 425 5150000 /\
  DHVL_Vetere 300 425 5150000 < DHVL_Vetere 300 425 6000000.
Proof.
  split; [apply C115_Vetere_scale; lra|]. split; [apply C115_Vetere_pos; lra|apply C115_Vetere_Pc; lra].
Qed.
Example C115_arguments_case : DHVL_Kistiakowsky_Vetere 300 None KvPolar = Err ValueError.
Proof. apply C115_arguments. split; [discriminate|left; reflexivity]. Qed.
Example C115_window_case M : exists h, DHVL_Kistiakowsky_Vetere 300 M KvAny = Ok (Flt h) /\ 22350 < h < 25560.
Proof. destruct (C115_any_window 300 M) as (h & A & B); [lra|]. exists h. split; [exact A|lra]. Qed.
Example C115_ester_case : DHVL_Kistiakowsky_Vetere 100 (Some (1 / 10)) KvEster = Ok (Flt (103 / 100 * (757951 / 100))).
Proof. apply C115_ester. exact C115_polar_case. Qed.
Example C85_KV_case : exists r, DHVL_Kistiakowsky_Vetere 1 (Some (1 / 263000)) KvHydrocarbon = Ok (Flt r).
Proof.
  apply C85_KV. replace (263 * (1 / 263000 * 1000)) with 1 by field. unfold Rpower. rewrite ln_1, Rmult_0_r, exp_0. lra.
Qed.
Example C117_positive_case M Tc Pc : 0 < Lucas_mu (9 / 10) (1 / 2) M Tc Pc (11 / 10) /\ Lucas_mu (9 / 10) (1 / 2) M Tc Pc 1 < Lucas_mu (9 / 10) (3 / 4) M Tc Pc 1 /\
  Lucas_mu (3 / 2) 2 M Tc Pc (11 / 10) < Lucas_mu (3 / 2) 3 M Tc Pc (11 / 10) /\ Lucas_mu (1 / 2) 2 M Tc Pc 1 < 0 /\ 0 < Lucas_Z1 (9 / 10) 1.
Proof.
  split; [apply C117_positive; [lra|left; lra|lra]|]. split; [apply C117_pressure_subcritical; lra|].
  split; [apply C117_pressure_supercritical; lra|]. split; [apply C117_negative; lra|apply C117_low_pressure_factor; lra].
Qed.
Example C118_cases Dp K : 0 < Dp -> vt_Stokes (4 * Dp) (8 / 4 ^ 3 * 2) (8 / 4 ^ 3 * 1) (8 / (4 * 2) * 3) = 4 / 2 * vt_Stokes Dp 2 1 3 /\
  mu_PowerLaw (10 / 2) (3 * Rpower 2 (1 / 2 - 1) * K) (1 / 2) = rscale 3 (mu_PowerLaw 10 K (1 / 2)).
Proof.
  intros H. split; [|apply C118_power_law; lra].
  pose proof (C118_Stokes Dp 2 1 3 8 2 ltac:(lra) ltac:(lra) ltac:(lra)) as E. cbv zeta in E. replace (2 ^ 2) with 4 in E by ring. exact E.
Qed.
Example C118_wall_case : U_cylindrical_wall (2 * 100) (2 * 50) (3 * 1) (3 * 2) (2 * 3 * 10) (0 / 2) (0 / 2) = 2 * U_cylindrical_wall 100 50 1 2 10 0 0.
Proof. apply C118_cylindrical_wall; lra. Qed.
Example C119_virial_case : let Tc i := match i with O => 500 | _ => 600 end in let Pc i := match i with O => 4000000 | _ => 3000000 end in
  Vir_Z 2 (B_mixture (2 * 400) (fun i => 2 * Tc i) (fun i => 3 * Pc i) (fun _ => 1 / 4) (fun _ => 1 / 5)) (2 * 400) (3 * 100000) (fun _ => 1 / 2) =
  Vir_Z 2 (B_mixture 400 Tc Pc (fun _ => 1 / 4) (fun _ => 1 / 5)) 400 100000 (fun _ => 1 / 2).
Proof.
  intros Tc Pc. pose proof (C119_virial 2 400 100000 Tc Pc (fun _ => 1 / 4) (fun _ => 1 / 5) (fun _ => 1 / 2) 2 3 0) as H. cbv zeta in H.
  apply H; try lra; intros [|i]; unfold Tc, Pc; lra.
Qed.
Example C119_Rackett_case : VL_Rackett (2 * 300) (2 * 500) (3 * 4000000) (Some (1 / 4)) None =
  match VL_Rackett 300 500 4000000 (Some (1 / 4)) None with Ok v => Ok (pmap (Rmult (2 / 3)) v) | Err e => Err e end.
Proof. apply C119_Rackett; lra. Qed.
Example C119_Jossi_case : MUVPC_Jossi 1 (2 ^ 2 * 30) (3 ^ 6 * 500) (2 ^ 3 * 40) = 2 * 2 ^ 2 / 3 * MUVPC_Jossi 1 30 500 40.
Proof. apply C119_Jossi; lra. Qed.
End Vap.

Section Trig.
From Verif Require Import RootsModel HmtModel HmtProps TrigRootsProps.
Example C91_newton_case : exists tr r, xtanx_newton 3 2 (1 / 10 ^ 6) 20 = (tr, Ok r) /\ INR 2 * PI < rr_x r < INR 2 * PI + PI / 2.
Proof. destruct (C91_xtanx_newton 3 2 (1 / 10 ^ 6) 20) as (tr & r & A & B & _); [lra|lia|]. exists tr, r. auto. Qed.
Example C91_cot_newton_case : exists tr r, xcotx_newton (3 / 2) 2 (1 / 10 ^ 6) 20 = (tr, Ok r) /\ INR 2 * PI < rr_x r < INR 2 * PI + PI.
Proof. destruct (C91_xcotx_newton (3 / 2) 2 (1 / 10 ^ 6) 20) as (tr & r & A & B & _); [lra|lra|lia|]. exists tr, r. auto. Qed.
Example C91_cot_interval_case : exists r, roots_xcotx (Some 7) 2 (1 / 10 ^ 6) = Ok r /\ INR 2 * PI < r <= INR 2 * PI + PI.
Proof. apply C91_xcotx_interval. lra. Qed.
End Trig.
