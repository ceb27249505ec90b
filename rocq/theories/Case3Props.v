(** Concrete cases for the activity coefficient models and the equations of state: each meets the hypotheses
    of the theorems it applies (C42-C46, C48, C53, C81, C109). *)
From Coq Require Import Reals Lra Lia List Bool Arith.
From Coquelicot Require Import Coquelicot.
From Verif Require Import Prelude Deriv KinModel RootsModel AcmModel AcmProps AcmMixProps AcmMoreProps EosModel EosProps CubicProps EosCritProps.
Import ListNotations.
Open Scope R_scope.

(** one and two moles *)
Definition n12 : nat -> R := fun i => match i with O => 1 | _ => 2 end.
Lemma moles_n12 : moles 2 n12.
Proof. split; [intros [|i] _; cbn; lra|cbn; lra]. Qed.
Lemma moles_f12 : moles 2 (frac 2 n12) /\ sumn 2 (frac 2 n12) = 1.
Proof. split; [split; [intros [|i] _; unfold frac; cbn; lra|]|]; unfold frac; cbn; lra. Qed.

(** C42: NRTL with tau = (0, 1; 1/2, 0), alpha = 0.3 *)
Example C42_binary_case : let tau := m2 1 (1 / 2) 0 in let al := fun _ _ : nat => 3 / 10 in
  NRTL_gE 2 300 n12 tau al = Rgas * 300 * sumn 2 (fun i => n12 i * ln (NRTL_gamma 2 n12 tau al i)) /\
  D (fun t => sumn 2 (upd n12 1 t) * (NRTL_gE 2 300 (frac 2 (upd n12 1 t)) tau al / (Rgas * 300))) 2 (ln (NRTL_gamma 2 (frac 2 n12) tau al 1)) /\
  (forall d, (forall j, (j < 2)%nat -> D (fun t => ln (NRTL_gamma 2 (frac 2 (upd n12 0 t)) tau al j)) 1 (d j)) -> 1 * d 0%nat + 2 * d 1%nat = 0) /\
  NRTL_gamma 2 (pure 0) tau al 0 = 1.
Proof.
  intros tau al. pose proof moles_n12 as M. split; [now apply C42_euler|]. split; [apply (C42_derivative 2 300 n12 tau al 1); auto; lra || lia|]. split.
  - intros d Hd. destruct (C42_gibbs_duhem 2 300 n12 tau al 0 ltac:(lia) M ltac:(cbn; lra) ltac:(lra)) as (_ & G). specialize (G d Hd). cbn in G. lra.
  - apply C42_pure; [lia|reflexivity].
Qed.
(** C43-C44: Wilson with Lambda = (1, 2; 1/2, 1) and UNIQUAC with the same tau, q = (1, 2), r = (2, 3) *)
Example C43_binary_case : let L := m2 2 (1 / 2) 1 in
  Wilson_gE 2 300 (frac 2 n12) L = Rgas * 300 * sumn 2 (fun i => frac 2 n12 i * ln (Wilson_gamma 2 (frac 2 n12) L i)) /\
  (forall d, (forall j, (j < 2)%nat -> D (fun t => ln (Wilson_gamma 2 (frac 2 (upd n12 0 t)) L j)) 1 (d j)) -> 1 * d 0%nat + 2 * d 1%nat = 0).
Proof.
  intros L. destruct moles_f12 as (MF & SF). assert (PL : pos_mat 2 L) by (intros [|[|i]] [|[|j]] Hi Hj; try lia; unfold L, m2; cbn; lra). split; [now apply C43_euler|].
  intros d Hd. destruct (C43_gibbs_duhem 2 300 n12 L 0 ltac:(lia) moles_n12 ltac:(cbn; lra) ltac:(lra) PL) as (_ & G). specialize (G d Hd). cbn in G. lra.
Qed.
Example C44_binary_case : let tau := m2 2 (1 / 2) 1 in let q := fun i : nat => match i with O => 1 | _ => 2 end in let r := fun i : nat => match i with O => 2 | _ => 3 end in
  D (fun t => sumn 2 (upd n12 1 t) * (UNIQUAC_gE 2 300 (frac 2 (upd n12 1 t)) q r tau / (Rgas * 300))) 2 (ln (UNIQUAC_gamma 2 (frac 2 n12) q r tau 1)) /\
  UNIQUAC_gE 2 300 (frac 2 n12) q r tau = Rgas * 300 * sumn 2 (fun i => frac 2 n12 i * ln (UNIQUAC_gamma 2 (frac 2 n12) q r tau i)).
Proof.
  intros tau q r. assert (PL : pos_mat 2 tau) by (intros [|[|i]] [|[|j]] Hi Hj; try lia; unfold tau, m2; cbn; lra).
  assert (Pq : forall i, (i < 2)%nat -> 0 < q i) by (intros [|i] _; cbn; lra). assert (Pr : forall i, (i < 2)%nat -> 0 < r i) by (intros [|i] _; cbn; lra). pose proof moles_n12.
  split; [apply (C44_derivative 2 300 n12 q r tau 1); auto; cbn; lra|apply C44_euler; auto; lra].
Qed.
(** C45: a solvent and a chain of 100 segments with chi = 0.4 *)
Example C45_polymer_case : let m := fun i : nat => match i with O => 1 | _ => 100 end in let chi := m2 (4 / 10) (4 / 10) 0 in
  sumn 2 (fun j => n12 j * m j) * FH_Dgmix 2 300 (vfrac 2 m n12) m chi = Rgas * 300 * sumn 2 (fun i => n12 i * ln (FH_activity 2 (vfrac 2 m n12) m chi i)) /\
  FH_activity 2 (fun i => if Nat.eqb i 0 then 1 / 3 else 1 - 1 / 3) (fun i => if Nat.eqb i 0 then 1 else 100) chi 0 = FH2_activity (1 / 3) 100 (4 / 10).
Proof.
  intros m chi. assert (Pm : forall i, (i < 2)%nat -> 0 < m i) by (intros [|i] _; cbn; lra).
  split; [apply C45_euler; auto; [intros [|[|i]] [|[|j]] Hi Hj; try lia; reflexivity|exact moles_n12|lra]|].
  apply C45_two; try reflexivity. intros [|[|i]]; reflexivity.
Qed.

(** C46: Peng-Robinson with a = 1, b = 1e-4 at 300 K: pressure and Helmholtz energy at v = 1e-3, and the root found there *)
Example C46_PR_case : let P := cu_P PR_consts 1 (1 / 10 ^ 4) 300 (1 / 10 ^ 3) in 0 < P /\
  pZ PR_consts (cu_A 1 300 P) (cu_B (1 / 10 ^ 4) 300 P) (P * (1 / 10 ^ 3) / (Rgas * 300)) = 0 /\
  D (fun V => cu_DA PR_consts 1 (1 / 10 ^ 4) 2 300 V 1) (2 / 10 ^ 3) (- cu_P PR_consts 1 (1 / 10 ^ 4) 300 (2 / 10 ^ 3 / 2)).
Proof.
  intros P. assert (K : known PR_consts) by now right. assert (HP : 0 < P).
  { unfold P, cu_P. cbn [cu_u cu_w PR_consts]. unfold Rgas.
    match goal with |- 0 < ?x => assert (1000000 < x) end; [|lra]. unfold Rdiv. field_simplify; try lra. }
  split; [exact HP|]. split.
  - apply (C46_converse PR_consts 1 (1 / 10 ^ 4) 300 (1 / 10 ^ 3)); auto; lra.
  - apply C46_helmholtz; auto; lra.
Qed.
(** C48: a binary with B = (-1e-3, -5e-4; -5e-4, -2e-3) m3/mol at 300 K and 1 bar *)
Example C48_binary_case : let B := fun i j : nat => match i, j with O, O => - (1 / 1000) | 1%nat, 1%nat => - (2 / 1000) | _, _ => - (1 / 2000) end in
  Vir_P 2 B 300 (eos_v (Vir_Z 2 B 300 100000 (frac 2 n12)) 300 100000) (frac 2 n12) = 100000 /\
  sumn 2 (fun i => frac 2 n12 i * ln (Vir_phi 2 B 300 100000 (frac 2 n12) i)) = Vir_Z 2 B 300 100000 (frac 2 n12) - 1 /\
  D (fun t => sumn 2 (upd n12 1 t) * (Vir_Z 2 B 300 100000 (frac 2 (upd n12 1 t)) - 1)) 2 (ln (Vir_phi 2 B 300 100000 (frac 2 n12) 1)).
Proof.
  intros B. assert (SB : forall i j, (i < 2)%nat -> (j < 2)%nat -> B i j = B j i) by (intros [|[|i]] [|[|j]] Hi Hj; try lia; reflexivity).
  split; [apply C48_pressure; lra|]. split; [apply C48_sum_lnphi; auto; apply moles_f12|].
  apply (C48_gibbs_derivative 2 B 300 100000 n12 1); auto. exact moles_n12.
Qed.
(** C53: interaction parameter 1/10 between components with Q = 4 and 9 *)
Example C53_binary_case : let Q := fun i : nat => match i with O => 4 | _ => 9 end in
  geometric_interaction_mixing 2 (frac 2 n12) Q (Some (m2 (1 / 10) (1 / 10) 0)) = sumn 2 (fun i => sumn 2 (fun j => frac 2 n12 i * frac 2 n12 j * sqrt (Q i * Q j) * (1 - m2 (1 / 10) (1 / 10) 0 i j))) /\
  geometric_interaction_mixing 2 (pure 1) Q (Some (m2 (1 / 10) (1 / 10) 0)) = 9 /\
  geometric_interaction_mixing 2 (frac 2 n12) Q (Some (m2 (1 / 10) (1 / 10) 0)) = geometric_interaction_mixing 2 (frac 2 n12) Q (Some (m2 (1 / 10) 7 5)).
Proof.
  intros Q. assert (PQ : forall i, (i < 2)%nat -> 0 <= Q i) by (intros [|i] _; cbn; lra). split; [|split].
  - apply C53_double_sum; auto; [intros [|[|i]] [|[|j]] Hi Hj; try lia; reflexivity|intros [|[|i]] Hi; try lia; reflexivity].
  - now apply (C53_pure 2 Q (Some (m2 (1 / 10) (1 / 10) 0)) 1); [lia|].
  - apply C53_upper_only. intros [|[|i]] [|[|j]] Hi; try lia; reflexivity.
Qed.
(** C81: excess entropies at 300 K *)
Example C81_binary_case : let a := m2 1 (1 / 2) 0 in let b := m2 100 (-50) 0 in
  sE_consistent (NRTL_gEc 2 (frac 2 n12) a b zmat zmat zmat zmat) (fun t => NRTL_gE 2 t (frac 2 n12) (NRTL_tau a b zmat zmat t) (NRTL_alpha zmat zmat t)) 300 /\
  sE_consistent (Wilson_gEc 2 (frac 2 n12) a b zmat zmat) (fun t => Wilson_gE 2 t (frac 2 n12) (exp_par a b zmat zmat t)) 300 /\
  mx_hE (mixing 2 300 (frac 2 n12) (Wilson_gE 2 300 (frac 2 n12) (exp_par a zmat zmat zmat 300)) (Wilson_sE 2 300 (frac 2 n12) a zmat zmat zmat)) = 0.
Proof.
  intros a b. destruct moles_f12 as (MF & _). split; [apply C81_NRTL_entropy; auto; lra|]. split; [apply C81_Wilson_entropy; auto; lra|].
  now apply (C81_Wilson_athermal 2 (frac 2 n12) a 300); [|lra].
Qed.
(** C109: Boyle temperature and second virial coefficient of methane (190.6 K, 4.6 MPa, w = 0.011) *)
Example C109_methane_case : (exists TB, 1906 / 10 < TB < 4 * (1906 / 10) /\ B_pure TB (1906 / 10) 4600000 (11 / 1000) = 0) /\
  B_pure 300 (1906 / 10) 4600000 (11 / 1000) < B_pure 400 (1906 / 10) 4600000 (11 / 1000) /\
  cu_B (cu_b RK_consts (fun _ => 1906 / 10) (fun _ => 4600000) 0%nat) (1906 / 10) 4600000 = cu_Ob RK_consts /\
  sumn 2 (fun i => eos_f IG_phi (frac 2 n12) 100000 i) = 100000.
Proof.
  split; [|split; [|split]].
  - destruct (C109_Boyle (1906 / 10) 4600000 (11 / 1000)) as (TB & R & H); try lra. exists TB. split; [exact R|]. now apply (H TB); [lra|].
  - apply C109_B_increasing; lra.
  - apply (C109_AB RK_consts (fun _ _ _ => 1) (fun _ => 1906 / 10) (fun _ => 4600000) (fun _ => 0) 0%nat); lra.
  - apply C109_ideal_fugacity. apply moles_f12.
Qed.
(** a reachable instance of the critical isotherm *)
Example C109_isotherm_case : exists A B z, triple PR_consts A B z /\ 0 < B < z /\
  cu_P PR_consts (A * (Rgas * 500) ^ 2 / 4000000) (B * Rgas * 500 / 4000000) 500 (z * Rgas * 500 / 4000000) = 4000000.
Proof.
  destruct (C109_critical PR_consts ltac:(now right)) as (A & B & z & T & R & _). exists A, B, z. split; [exact T|]. split; [exact R|].
  assert (b : B * Rgas * 500 / 4000000 < z * Rgas * 500 / 4000000) by (pose proof Rgas_pos; nra).
  now apply (C109_isotherm PR_consts A B z 500 4000000 (z * Rgas * 500 / 4000000)); try lra; auto; now right.
Qed.
