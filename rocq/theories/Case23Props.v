(** Concrete cases: small roots of x tan x = a, hydrocarbons a decade apart, inherited Poisson sums. *)
From Coq Require Import Reals Lra Lia List Bool Arith Psatz.
From Coquelicot Require Import Coquelicot.
From Verif Require Import Prelude.
Import ListNotations.
Open Scope R_scope.

Section Trig.
From Verif Require Import HmtModel TrigRootsProps.
Open Scope R_scope.
Example C91_xtanx_small_root_case : exists r, 0 < r < PI / 2 /\ r * tan r = 1 / 10 ^ 10 /\
  10000 * (PI / 2 * (1 / 10 ^ 10 / (1 / 10 ^ 10 + 1))) < r.
Proof.
  pose proof PI_RGT_0 as HP. pose proof PI2_3_2 as P2. pose proof PI_4 as P4.
  destruct (IVT_gen (fun x => x * sin x - 1 / 10 ^ 10 * cos x) 0 (PI / 4) 0) as [r [Hr E]].
  - intros x. reg.
  - rewrite sin_0, cos_0, sin_PI4, cos_PI4.
    assert (0 < 1 / sqrt 2) by (apply Rdiv_lt_0_compat; [lra|apply sqrt_lt_R0; lra]).
    assert (3 / 4 <= PI / 4) by (unfold PI2 in *; lra).
    rewrite Rmin_left, Rmax_right by nra. nra.
  - rewrite Rmin_left, Rmax_right in Hr by lra.
    assert (r <> 0). { intros ->. rewrite sin_0, cos_0 in E. lra. }
    assert (0 < cos r) by (apply cos_gt_0; lra).
    assert (r * tan r = 1 / 10 ^ 10).
    { unfold tan. apply (Rmult_eq_reg_r (cos r)); [|lra]. unfold Rdiv at 1. rewrite Rmult_assoc, Rmult_assoc, Rinv_l by lra. lra. }
    exists r. split; [lra|split; [assumption|]]. apply C91_xtanx_small_root; lra.
Qed.
End Trig.

Section Hydrocarbon.
From Verif Require Import KinModel PropModel PropVapProps VapAnchorProps.
Open Scope R_scope.
Example C115_hydrocarbon_decade_case :
  let T1 := Rpower (263000 * (1 / 20)) (581 / 1000) in let T2 := Rpower (2630000 * (1 / 20)) (581 / 1000) in
  exists h1 h2, DHVL_Kistiakowsky_Vetere T1 (Some (1 / 20)) KvHydrocarbon = Ok (Flt h1) /\
    DHVL_Kistiakowsky_Vetere T2 (Some (10 * (1 / 20))) KvHydrocarbon = Ok (Flt h2) /\ h2 / T2 - h1 / T1 = 137 / 10.
Proof.
  intros T1 T2.
  assert (X : forall M T, T = Rpower (263 * (M * 1000)) (581 / 1000) -> exists h, DHVL_Kistiakowsky_Vetere T (Some M) KvHydrocarbon = Ok (Flt h)).
  { intros M T ->. cbn -[log10 fpow Rpower]. rewrite Rminus_diag_eq, fpow0 by reflexivity. cbn -[log10 Rpower]. eexists. reflexivity. }
  destruct (X (1 / 20) T1) as [h1 E1]; [unfold T1; f_equal; lra|].
  destruct (X (10 * (1 / 20)) T2) as [h2 E2]; [unfold T2; f_equal; lra|].
  exists h1, h2. split; [exact E1|split; [exact E2|]].
  apply (C115_hydrocarbon_decade (1 / 20) h1 h2 T1 T2); try assumption; try reflexivity. lra.
Qed.
End Hydrocarbon.

Section Fallback.
From Verif Require Import DistModel DistFamProps OracleProps QuadModel QuadProps.
Open Scope R_scope.
Example C124_poisson_case : exists g q, gammaln_spec g /\ gammaincc_spec q /\
  let pdf k := poisson_pdf g (INR k) (poisson_a 3) false in
  fb_moment pdf 1 = 3 /\ fb_moment pdf 2 = 11 /\ exists F, poisson_cdf q g (poisson_a 3) (INR 5) 1 = Ok F /\ F = fb_cdf pdf (INR 5) 1.
Proof.
  destruct C20_gamma_exists as (g & q & Hg & Hq). exists g, q. split; [exact Hg|split; [exact Hq|]].
  destruct (C124_poisson g q 3 Hg Hq ltac:(lra)) as [A B]. cbv zeta in A, B |- *.
  rewrite !A. split; [unfold poisson_a; cbn; lra|split; [unfold poisson_a; cbn; lra|]].
  eexists. split; [apply B; lia|reflexivity].
Qed.
Example C124_dominance_case : is_series (fun j => INR (S j) ^ 0 * flory_pdf0 (flory_a 2) (S j)) 1 /\
  is_series (fun j => INR (S j) ^ 1 * flory_pdf0 (flory_a 2) (S j)) 2 /\
  fb_cdf (flory_pdf0 (flory_a 2)) (INR 2) 1 = 1 / 2 /\ fb_cdf (flory_pdf0 (flory_a 2)) (INR 2) 0 = 3 / 4.
Proof.
  pose proof (C19_flory_moments (fun _ _ => 0) 2 0 ltac:(lra) ltac:(lia)) as S0.
  split; [exact S0|]. destruct C124_cdf_case as (_ & S & _). split; [exact S|].
  destruct (C124_flory (fun _ _ => 0) 2 ltac:(lra)) as [F _].
  unfold fb_cdf. rewrite !quad_disc_0, !py_int_INR, (F 0%nat), (F 1%nat) by lia.
  unfold quad_term, flory_pdf0, flory_a; cbn. lra.
Qed.
Example C124_mass_below_number_case : exists g q, gammaln_spec g /\ gammaincc_spec q /\
  exists F0 F1, poisson_cdf q g (poisson_a 3) (INR 2) 0 = Ok F0 /\ poisson_cdf q g (poisson_a 3) (INR 2) 1 = Ok F1 /\ F1 <= F0.
Proof.
  destruct C20_gamma_exists as (g & q & Hg & Hq). exists g, q. split; [exact Hg|split; [exact Hq|]].
  apply (C124_mass_below_number g q 3 2 Hg Hq); [lra|lia].
Qed.
End Fallback.
