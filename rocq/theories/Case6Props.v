(** Concrete cases for the activity-coefficient, equation-of-state and property theorems
    (C43-C55, C83-C89): each shows inputs that meet the hypotheses of the
    theorem it is named after, and what the theorem then says. *)
From Coq Require Import Reals Lra Lia List Bool Arith Psatz String.
From Coquelicot Require Import Coquelicot.
From Verif Require Import Prelude.
Import ListNotations.
Close Scope string_scope.
Open Scope R_scope.


(* ================================================================== *)
(** * Activity coefficients, equations of state, correlations           *)
(* ================================================================== *)
Section Thermo.
From Verif Require Import Deriv KinModel RootsModel AcmModel AcmProps EosModel EosProps CubicProps PropModel PropMixProps PropVapProps TransportProps.

Example C43_pure_case : Wilson_gamma 3 (pure 1) (fun i j => if Nat.eqb i j then 1 else 1 / 2) 1 = 1.
Proof. apply C43_pure; [lia|reflexivity]. Qed.
Example C44_pure_case : UNIQUAC_gamma 3 (pure 1) (fun _ => 3) (fun i => INR (S i)) (fun i j => if Nat.eqb i j then 1 else 1 / 2) 1 = 1.
Proof. apply C44_pure; [lia|lra|simpl; lra|reflexivity]. Qed.
Example C44_gibbs_duhem_case d : (forall j, (j < 2)%nat -> D (fun t => ln (UNIQUAC_gamma 2 (frac 2 (upd (fun i => INR (S i)) 0 t)) (fun _ => 3) (fun i => INR (S i)) (fun i j => if Nat.eqb i j then 1 else 1 / 2) j)) (INR 1) (d j)) ->
  sumn 2 (fun j => INR (S j) * d j) = 0.
Proof.
  apply (C44_gibbs_duhem 2 300 (fun i => INR (S i)) (fun _ => 3) (fun i => INR (S i)) (fun i j => if Nat.eqb i j then 1 else 1 / 2) 0%nat).
  - intros; lra.
  - intros i _. apply lt_0_INR. lia.
  - intros i j _ _. destruct (Nat.eqb i j); lra.
  - lia.
  - split; [intros; apply pos_INR|simpl; lra].
  - simpl. lra.
  - lra.
Qed.
Example C45_pure_case : FH_activity 3 (pure 1) (fun i => INR (S i)) (fun i j => if Nat.eqb i j then 0 else 1 / 2) 1 = 1.
Proof. apply C45_pure; [lia|simpl; lra|reflexivity]. Qed.
Example C45_derivative_case : D (fun t => sumn 2 (fun j => upd (fun _ => 1) 0 t j * INR (S j)) * (FH_Dgmix 2 300 (vfrac 2 (fun i => INR (S i)) (upd (fun _ => 1) 0 t)) (fun i => INR (S i)) (fun i j => if Nat.eqb i j then 0 else 1 / 2) / (Rgas * 300))) 1
    (ln (FH_activity 2 (vfrac 2 (fun i => INR (S i)) (fun _ => 1)) (fun i => INR (S i)) (fun i j => if Nat.eqb i j then 0 else 1 / 2) 0)).
Proof.
  apply (C45_derivative 2 300 (fun i => INR (S i)) (fun i j => if Nat.eqb i j then 0 else 1 / 2) (fun _ => 1) 0); try lia; try lra.
  - intros i _. apply lt_0_INR. lia.
  - intros i j _ _. now rewrite Nat.eqb_sym.
  - split; [intros; lra|simpl; lra].
Qed.

Example C46_pressure_case : let B := cu_B (Rgas * 30) 300 1 in B = 1 / 10 /\
  cu_P RK_consts (Rgas * 30) (Rgas * 30) 300 (eos_v 2 300 1) = 1 * (1 - pZ RK_consts (cu_A (Rgas * 30) 300 1) B 2 / ((2 - B) * (2 ^ 2 + cu_u RK_consts * B * 2 + cu_w RK_consts * B ^ 2))).
Proof.
  pose proof Rgas_pos. assert (E : cu_B (Rgas * 30) 300 1 = 1 / 10) by (unfold cu_B; field; lra).
  cbv zeta. split; [exact E|]. apply C46_pressure; try lra; try now left. 
Qed.
(** Redlich-Kwong at A = 1, B = 1/2 *)
Example C46_complete_case orc : roots_spec orc -> exists l, Z_cubic_roots orc (cu_u RK_consts) (cu_w RK_consts) 1 (1 / 2) = Ok l /\ (List.length l = 1 \/ List.length l = 2)%nat /\
  forall Z, In Z l -> 1 / 2 < Z.
Proof.
  intros HO. destruct (C46_complete orc RK_consts 1 (1 / 2) HO) as [l (E & L & _ & _)]; [now left|lra|].
  exists l. repeat split; auto. intros Z HZ. apply (C46_sound orc RK_consts 1 (1 / 2) l Z HO E HZ).
Qed.
(** at A = 2, B = 1/2 there is one root *)
Example C46_single_case orc l : roots_spec orc -> Z_cubic_roots orc (cu_u RK_consts) (cu_w RK_consts) 2 (1 / 2) = Ok l -> hd 0 l = last l 0 /\ 1 / 2 < hd 0 l.
Proof.
  intros HO E. destruct (C46_single orc RK_consts 2 (1 / 2) l HO) as (A & B & _); auto; try lra; try now left.
  unfold RK_consts. cbn [cu_u cu_w]. assert (eps ^ 2 < 1 / 10); [|lra].
  assert (0 < eps <= / 1024). { unfold eps. split; [apply Rinv_0_lt_compat, pow_lt; lra|]. apply Rinv_le_contravar; [lra|]. replace 1024 with (2 ^ 10) by ring. apply Rle_pow; [lra|lia]. }
  nra.
Qed.
Example C47_am_case orc : cu_Z orc RK_consts (cu_am 2 (fun _ => 4) (Some (fun _ _ => 0)) (fun _ => 1 / 2)) (cu_bm 2 (fun _ => 1) (fun _ => 1 / 2)) 300 1 =
  cu_Z orc RK_consts (cu_am 2 (fun _ => 4) None (fun _ => 1 / 2)) (cu_bm 2 (fun _ => 1) (fun _ => 1 / 2)) 300 1.
Proof. apply C47_am_Z. intros; lra. Qed.
Example C47_phi_case orc : roots_spec orc -> exists p p', cu_phi orc PR_consts 1 (fun _ => 2) (fun _ => 1) None 300 100 (fun _ => 1) PhL = Ok p /\
  cu_phi orc PR_consts 1 (fun _ => 2) (fun _ => 1) (Some (fun _ _ => 0)) 300 100 (fun _ => 1) PhL = Ok p' /\ p 0%nat <> p' 0%nat.
Proof. intros HO. apply C47_phi_differs; auto; try lra; try now right. discriminate. Qed.

(** a binary vapour with second virial coefficients -R *)
Example C48_helmholtz_case : D (fun V => Vir_DA 2 (fun _ _ => - Rgas) 300 V (fun _ => 1) 1) 10 (- Vir_P 2 (fun _ _ => - Rgas) 300 (10 / sumn 2 (fun _ => 1)) (frac 2 (fun _ => 1))).
Proof.
  pose proof Rgas_pos. apply C48_helmholtz; [simpl; lra|lra|]. unfold Vir_Bm, quadratic_mixing, frac. cbn. lra.
Qed.
Example C48_derivative_case : let n := fun _ : nat => 1 in let B := fun _ _ : nat => - Rgas in let V := sumn 2 n * eos_v (Vir_Z 2 B 300 100 (frac 2 n)) 300 100 in
  D (fun t => (Vir_DA 2 B 300 V (upd n 0%nat t) 1 - IG_DA 2 300 V (upd n 0%nat t) 1) / (Rgas * 300)) (n 0%nat)
    (ln (Vir_phi 2 B 300 100 (frac 2 n) 0%nat) + ln (Vir_Z 2 B 300 100 (frac 2 n))).
Proof.
  pose proof Rgas_pos. cbv zeta. apply (C48_helmholtz_derivative 2 (fun _ _ => - Rgas) 300 100 (fun _ => 1) 1 0); try lia; try lra; auto.
  - split; [intros; lra|simpl; lra].
  - unfold Vir_Z, Vir_Bm, quadratic_mixing, frac. cbn. 
    match goal with |- 0 < ?e => replace e with (2 / 3) by (field; lra) end. lra.
Qed.
Example C48_B_case : B_mixture 300 (fun _ => 400) (fun _ => 10 ^ 6) (fun _ => 1 / 4) (fun _ => 1 / 10) 0%nat 1%nat = B_pure 300 400 (10 ^ 6) (1 / 10).
Proof. apply (C48_B_identical 300 (fun _ => 400) (fun _ => 10 ^ 6) (fun _ => 1 / 4) (fun _ => 1 / 10) 0 1); try reflexivity; lra. Qed.
Example C48_ideal_case : Vir_Z 2 (fun _ _ => 0) 300 1 (fun _ => 1 / 2) = IG_Z /\ Vir_P 2 (fun _ _ => 0) 300 1 (fun _ => 1 / 2) = IG_P 300 1.
Proof. pose proof Rgas_pos. destruct (C48_ideal 2 300 1 1 1 (fun _ => 1) 1 (fun _ => 1 / 2) 0) as (A & B & _); [lra|]. auto. Qed.

Example C53_zero_case : geometric_interaction_mixing 2 (fun _ => 1 / 2) (fun i => if Nat.eqb i 0 then 4 else 9) (Some (fun _ _ => 0)) = geometric_interaction_mixing 2 (fun _ => 1 / 2) (fun i => if Nat.eqb i 0 then 4 else 9) None.
Proof. apply C53_zero_k. intros [|i] _; simpl; lra. Qed.
Example C53_identical_case : pseudocritical_properties 2 (fun _ => 1 / 2) (fun _ => 400) (fun _ => 10 ^ 6) (fun _ => 1 / 4) (Some (fun _ => 1 / 10)) = (400, 10 ^ 6, 1 / 4 * Rgas * 400 / 10 ^ 6, 1 / 4, 1 / 10).
Proof. apply C53_pseudocritical_identical; simpl; lra. Qed.
Example C53_mean_case : let '(T, _, _, _, _) := pseudocritical_properties 2 (fun _ => 1 / 2) (fun i => if Nat.eqb i 0 then 400 else 500) (fun _ => 10 ^ 6) (fun _ => 1 / 4) None in 400 <= T <= 500.
Proof. apply C53_pseudocritical_mean; [intros; lra|simpl; lra|intros [|i] _; simpl; lra]. Qed.
Example C83_quadratic_case : let r := eos_DX (fun T _ _ => 1 + 2 * T + 3 * T ^ 2) 1 300 1 1 in dx_S r = - (2 + 2 * 3 * 300).
Proof. apply (C83_quadratic 1 2 3 1 300 1 1). lra. Qed.

Example C52_pure_case : MULMX2_Perry 2 (pure 1) (fun i => INR (S i)) true = 2 /\ KLMX2_Li 2 (pure 1) (fun i => INR (S i)) (fun _ => 1000) = 2 /\ DVMX 2 (pure 1) (fun i => INR (S i)) = 2.
Proof.
  split; [|split].
  - rewrite C52_Perry_pure; simpl; lia || lra.
  - rewrite C52_Li_pure; try (simpl; lia || lra). intros; lra.
  - rewrite C52_DVMX_pure; simpl; lia || lra.
Qed.
Example C52_scale_case : KLMX2_Li 2 (fun i => 3 * (1 / 2)) (fun i => INR (S i)) (fun _ => 1000) = KLMX2_Li 2 (fun i => 1 / 2) (fun i => INR (S i)) (fun _ => 1000) /\
  DVMX 2 (fun i => 3 * (1 / 2)) (fun i => INR (S i)) = DVMX 2 (fun i => 1 / 2) (fun i => INR (S i)).
Proof. split; [apply (C52_Li_scale 2 (fun _ => 1 / 2)); lra|apply (C52_DVMX_scale 2 (fun _ => 1 / 2)); lra]. Qed.

(** Tait equation with parameters like those of the bundled table, at 400 K and 500 bar *)
Definition tait_ex : tait := mkTait (8 / 10 ^ 4) (5 / 10 ^ 7) (/ 10 ^ 9) (2 * 10 ^ 8) (4 / 10 ^ 3).
Lemma tait_ex_ok : tait_ok tait_ex.
Proof. unfold tait_ok, tait_ex. cbn [tA0 tA1 tA2 tB0 tB1]. repeat split; lra. Qed.
Lemma tait_ex_pos P : 0 <= P <= 5 * 10 ^ 7 -> 0 < tait_eval tait_ex 400 P.
Proof.
  intros HP. apply C54_positive; [apply tait_ex_ok|lra|]. split; [lra|]. unfold tait_B, tait_ex. cbn [tB0 tB1].
  assert (exp (-1) <= exp (- (4 / 10 ^ 3) * (400 - 27315 / 100))) by (destruct (Req_dec (-1) (- (4 / 10 ^ 3) * (400 - 27315 / 100))); [right; congruence|left; apply exp_increasing; lra]).
  assert (/ 4 <= exp (-1)). { replace (-1) with (- (1)) by ring. rewrite exp_Ropp. apply Rinv_le_contravar; [apply exp_pos|]. pose proof exp_le_3. lra. }
  nra.
Qed.
Example C54_case : tait_eval tait_ex 400 (5 * 10 ^ 7) < tait_eval tait_ex 400 (10 ^ 6) /\ 0 < tait_beta tait_ex 400 (5 * 10 ^ 7) /\
  D (fun P => tait_eval tait_ex 400 P) (10 ^ 6) (- tait_eval tait_ex 400 (10 ^ 6) * tait_beta tait_ex 400 (10 ^ 6)) /\
  D (fun T => tait_eval tait_ex T (10 ^ 6)) 400 (tait_eval tait_ex 400 (10 ^ 6) * tait_alpha tait_ex 400 (10 ^ 6)).
Proof.
  pose proof (tait_ex_pos 0 ltac:(lra)). pose proof (tait_ex_pos (10 ^ 6) ltac:(lra)). pose proof (tait_ex_pos (5 * 10 ^ 7) ltac:(lra)). pose proof tait_ex_ok.
  split; [|split; [|split]].
  - apply C54_decreasing; auto. lra.
  - apply C54_beta_positive; auto. lra.
  - apply C54_beta; auto; lra.
  - apply C54_alpha; auto; lra.
Qed.

Example C55_Watson_case h2 : DHVL_Watson 30000 350 400 500 = Flt h2 -> DHVL_Watson h2 400 450 500 = DHVL_Watson 30000 350 450 500.
Proof. apply C55_Watson_compose; lra. Qed.
Example C55_Rackett_case : exists v1 v2, VL_Rackett 300 500 (4 * 10 ^ 6) (Some (27 / 100)) None = Ok (Flt v1) /\ VL_Rackett 400 500 (4 * 10 ^ 6) (Some (27 / 100)) None = Ok (Flt v2) /\ 0 < v1 < v2.
Proof.
  destruct (proj2 (C85_Rackett 300 500 (4 * 10 ^ 6) (27 / 100) ltac:(lra) ltac:(lra))) as [v1 E1]; [lra|].
  destruct (proj2 (C85_Rackett 400 500 (4 * 10 ^ 6) (27 / 100) ltac:(lra) ltac:(lra))) as [v2 E2]; [lra|].
  exists v1, v2. split; [exact E1|]. split; [exact E2|]. apply (C55_Rackett_increasing 300 400 500 (4 * 10 ^ 6) (27 / 100)); auto; lra.
Qed.
Example C85_Lucas_case : (exists r, MUV_Lucas 300 (10 ^ 5) (44 / 1000) 370 (4 * 10 ^ 6) (28 / 100) 0 = Flt r) /\ ~ (exists r, MUV_Lucas 300 (10 ^ 5) (44 / 1000) 370 (4 * 10 ^ 6) (30 / 100) 0 = Flt r).
Proof. rewrite !C85_Lucas. lra. Qed.
Example C87_Watson_case q : DHVL_Watson 30000 350 400 500 = Flt q -> DIPPR106 400 (30000 / Rpower (1 - 350 / 500) (38 / 100)) (38 / 100) 0 0 0 500 = Flt q.
Proof. apply C87_Watson; lra. Qed.
Example C87_Rackett_case : exists v rho, VL_Rackett 300 500 (4 * 10 ^ 6) (Some (27 / 100)) None = Ok (Flt v) /\ DIPPR105 300 (4 * 10 ^ 6 * (27 / 100) / (Rgas * 500)) (27 / 100) 500 (2 / 7) = Flt rho /\ rho * v = 27 / 100.
Proof.
  pose proof (C87_Rackett 300 500 (4 * 10 ^ 6) (27 / 100) ltac:(lra) ltac:(lra) ltac:(lra)) as H.
  destruct (proj2 (C85_Rackett 300 500 (4 * 10 ^ 6) (27 / 100) ltac:(lra) ltac:(lra))) as [v E]; [lra|]. rewrite E in H.
  destruct (DIPPR105 300 (4 * 10 ^ 6 * (27 / 100) / (Rgas * 500)) (27 / 100) 500 (2 / 7)) as [rho|]; [|contradiction].
  exists v, rho. auto.
Qed.
Example C87_increasing_case : 0 < DIPPR102 300 1 (1 / 2) 100 0 < DIPPR102 400 1 (1 / 2) 100 0 /\ DIPPR104 300 1 (-100) 0 0 0 < DIPPR104 400 1 (-100) 0 0 0 < 1.
Proof. split; [apply C87_DIPPR102_increasing; lra|apply C87_DIPPR104_increasing; lra]. Qed.
End Thermo.
