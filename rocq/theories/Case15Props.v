(** Concrete cases meeting the hypotheses of theorems of several areas. *)
From Coq Require Import Reals Lra Lia List Bool Arith Psatz String.
From Coquelicot Require Import Coquelicot.
From Verif Require Import Prelude.
Import ListNotations.
Close Scope string_scope.
Open Scope R_scope.

Section MultiCases.
From Verif Require Import RootsModel CopoModel CopoMultiModel CopoMultiProps LinAlg.
Open Scope R_scope.
Example C32_ternary_case : exists F, inst_copolymer_multi gauss 3 (Some (v3 (1 / 2) (1 / 4) (1 - (1 / 2 + 1 / 4)))) (Some (r3mat (1 / 5) 3 (1 / 4) 2 1 (1 / 2))) None = Ok F /\
  inst_copolymer_ternary (1 / 2) (1 / 4) (1 / 5) 3 (1 / 4) 2 1 (1 / 2) = Some (F 0%nat, F 1%nat, F 2%nat).
Proof. apply C32_ternary; try lra. apply solve_spec_gauss. Qed.
Example C32_radicals_ternary_case : exists p, radical_fractions_multi gauss 3 (v3 (1 / 2) (1 / 4) (1 - (1 / 2 + 1 / 4))) (k3mat 100 200 300 150 80 90) = Ok p /\
  radical_fractions_ternary (1 / 2) (1 / 4) 100 200 300 150 80 90 = (Fin (p 0%nat), Fin (p 1%nat), Fin (p 2%nat)).
Proof. apply C32_radicals_ternary; try lra. apply solve_spec_gauss. Qed.
End MultiCases.

Section FitNames.
From Verif Require Import KinModel RootsModel PropModel PropVapProps PropMixProps TransportProps.
Open Scope R_scope.
Example C86_names_case : In 2%nat (fit_names [(1%nat, true); (2%nat, true); (3%nat, false)] (Some [2%nat])) /\
  ~ In 1%nat (fit_names [(1%nat, true); (2%nat, true); (3%nat, false)] (Some [2%nat])).
Proof.
  split.
  - apply C86_names. split; [right; now left|]. intros l E _. injection E as <-. now left.
  - intros H. apply C86_names in H. destruct H as (_ & H). destruct (H [2%nat] eq_refl ltac:(discriminate)) as [E|[]]. discriminate E.
Qed.
(** ethane-like constants at a reduced density of one *)
Example C88_ST_positive_case : let vc := 28 / 100 * Rgas * 305 / 4900000 in
  exists k1 k2, KVPC_Stiel_Thodos vc (3 / 100) 305 4900000 (28 / 100) = Ok k1 /\ KVPC_Stiel_Thodos (4 * vc) (3 / 100) 305 4900000 (28 / 100) = Ok k2 /\ 0 < k2 < k1.
Proof.
  intros vc. assert (RG : 0 < Rgas) by (unfold Rgas; lra). assert (V : 0 < vc) by (unfold vc; nra).
  assert (E1 : exists k, KVPC_Stiel_Thodos vc (3 / 100) 305 4900000 (28 / 100) = Ok k).
  { unfold KVPC_Stiel_Thodos. fold vc. replace (vc / vc) with 1 by (field; lra). unfold ST_a.
    destruct (Rltb 1 (1 / 2)) eqn:A; [apply Rltb_true in A; lra|]. destruct (Rltb 1 2) eqn:B; [eexists; reflexivity|].
    apply Rltb_false in B. lra. }
  assert (E2 : exists k, KVPC_Stiel_Thodos (4 * vc) (3 / 100) 305 4900000 (28 / 100) = Ok k).
  { unfold KVPC_Stiel_Thodos. fold vc. replace (vc / (4 * vc)) with (1 / 4) by (field; lra). unfold ST_a.
    destruct (Rltb (1 / 4) (1 / 2)) eqn:A; [eexists; reflexivity|]. apply Rltb_false in A. lra. }
  destruct E1 as (k1 & E1), E2 as (k2 & E2). exists k1, k2. split; [exact E1|]. split; [exact E2|]. split.
  - apply (C88_ST_positive (4 * vc) (3 / 100) 305 4900000 (28 / 100) k2); try lra. exact E2.
  - apply (C88_ST_volume vc (4 * vc) (3 / 100) 305 4900000 (28 / 100) k1 k2); try lra; assumption.
Qed.
End FitNames.

Section AcceptCases.
From Verif Require Import KinModel RootsModel AcmModel AcmHeapProps AcmMoreProps.
Open Scope R_scope.
Example C51_Wilson_accepts_case : exists refs h', Wilson_init 2 [None; None; None; None] (mkHeap (fun _ => mkArr (2, 2)%nat (fun _ _ => 0)) 0) = Ok (refs, h').
Proof.
  apply C51_Wilson_accepts; [reflexivity | intros p [H|[H|[H|[H|[]]]]]; discriminate H |].
  split; [intros p [H|[H|[H|[H|[]]]]]; discriminate H|]. intros i j _ _. cbn. rewrite Rabs_R0. lra.
Qed.
Example C51_FH_accepts_case : exists refs h', FH_init 2 [Some 0%nat; None; None; None; None] (mkHeap (fun _ => mkArr (2, 2)%nat (fun _ _ => 1 / 2)) 1) = Ok (refs, h').
Proof.
  apply C51_FH_accepts; [reflexivity | intros p [H|[H|[H|[H|[H|[]]]]]]; try discriminate H; injection H as <-; cbn; lia |].
  split; [intros p [H|[H|[H|[H|[H|[]]]]]]; try discriminate H; injection H as <-; reflexivity|].
  intros i j _ _. split; [cbn; rewrite Rabs_pos_eq; lra|].
  intros k Hk. destruct k as [|[|[|[|[|k]]]]]; try lia; cbn; rewrite Rabs_R0; lra.
Qed.
End AcceptCases.

Section DistCases.
From Verif Require Import UtilsModel DistModel DistMixProps DistObjProps.
Open Scope R_scope.
Example C23_individuals_pure_case : exists h' l, op_add [[(7%nat, 1)]] (OInd 3%nat) (OInd 4%nat) = Some (h', OMix l) /\ hget h' 0%nat = [(7%nat, 1)].
Proof.
  destruct (C23_individuals_pure [[(7%nat, 1)]] 3%nat 4%nat) as (h' & l & E & H). exists h', l. split; [exact E|].
  apply (H 0%nat). cbn. lia.
Qed.
Example C17_rejected_case (F : family) (w : world F) i : (i < List.length (w_objs w))%nat -> step w (SetDPn i (Fin 0)) = (w, Err RangeError).
Proof.
  intros Hi. apply (proj1 (C17_rejected_assignment F w i (Fin 0) Hi)). intros (A & _). inversion A; lra.
Qed.
End DistCases.

Section CubicCases.
From Verif Require Import Deriv KinModel RootsModel DiffModel FixModel AcmModel EosModel CorrProps DimProps2.
Open Scope R_scope.
Example C119_cubic_case orc : cu_Z orc PR_consts (cu_am 1 (cu_a PR_consts PR_alpha (fun _ => 2 * 300) (fun _ => 3 * 4000000) (fun _ => 1 / 10) (2 * 250)) None (fun _ => 1))
    (cu_bm 1 (cu_b PR_consts (fun _ => 2 * 300) (fun _ => 3 * 4000000)) (fun _ => 1)) (2 * 250) (3 * 1000000) =
  cu_Z orc PR_consts (cu_am 1 (cu_a PR_consts PR_alpha (fun _ => 300) (fun _ => 4000000) (fun _ => 1 / 10) 250) None (fun _ => 1))
    (cu_bm 1 (cu_b PR_consts (fun _ => 300) (fun _ => 4000000)) (fun _ => 1)) 250 1000000.
Proof.
  pose proof (C119_cubic orc PR_consts PR_alpha 1 None (fun _ => 1) 250 1000000 (fun _ => 300) (fun _ => 4000000) (fun _ => 1 / 10) 2 3) as H.
  refine (proj1 (proj2 (proj2 (H _ _ _ _ _ _ _)))); try (intros; lra); [constructor | cbn; lra].
Qed.
Example C119_cubic_phi_case orc ph : cu_phi orc RK_consts 1 (cu_a RK_consts RK_alpha (fun _ => 2 * 300) (fun _ => 3 * 4000000) (fun _ => 0) (2 * 250)) (cu_b RK_consts (fun _ => 2 * 300) (fun _ => 3 * 4000000)) None (2 * 250) (3 * 1000000) (fun _ => 1) ph =
  cu_phi orc RK_consts 1 (cu_a RK_consts RK_alpha (fun _ => 300) (fun _ => 4000000) (fun _ => 0) 250) (cu_b RK_consts (fun _ => 300) (fun _ => 4000000)) None 250 1000000 (fun _ => 1) ph.
Proof. apply C119_cubic_phi; try (intros; lra); [constructor | cbn; lra]. Qed.
End CubicCases.

Section NewtonCases.
From Verif Require Import RootsModel VecModel QnLinModel QnLinProps LinAlg OracleProps QrProps.
Open Scope R_scope.
Definition J2' (i j : nat) : R := match i, j with O, O => 2 | 1%nat, 1%nat => 4 | _, _ => 0 end.
(** the Newton step of a diagonal system *)
Example C96_newton_step_case : exists gc p, qn_lin 2 (triN 2) (choN 2) (chosolveN 2) (Fin 2) delta J2' (fun _ => 1) (fun _ => 1) (fun _ => 8) = LinStep gc p J2' /\
  2 * p 0%nat = -8 /\ 4 * p 1%nat = -8.
Proof.
  assert (W : well_conditioned (Fin 2) = true).
  { unfold well_conditioned. apply Rltb_true. assert (P : 0 < eps) by (unfold eps; apply Rinv_0_lt_compat, pow_lt; lra).
    assert (E : sqrt eps < 1 / 2).
    { rewrite <- (sqrt_pow2 (1 / 2)) by lra. apply sqrt_lt_1_alt. split; [lra|]. unfold eps. replace ((1 / 2) ^ 2) with (/ 4) by field.
      apply Rinv_lt_contravar; [apply Rmult_lt_0_compat; [lra|apply pow_lt; lra]|]. replace 4 with (2 ^ 2) by ring. apply Rlt_pow; [lra|lia]. }
    assert (S : 0 < sqrt eps) by (apply sqrt_lt_R0; exact P). apply Rmult_lt_reg_r with (sqrt eps); [exact S|]. replace (1 / sqrt eps * sqrt eps) with 1 by (field; lra). lra. }
  assert (E : exists gc p, qn_lin 2 (triN 2) (choN 2) (chosolveN 2) (Fin 2) delta J2' (fun _ => 1) (fun _ => 1) (fun _ => 8) = LinStep gc p J2')
    by (unfold qn_lin; rewrite W; eauto).
  destruct E as (gc & p & E).
  destruct (C96_newton_step 2 (triN 2) (choN 2) (chosolveN 2) (Fin 2) delta J2' J2' (fun _ => 1) (fun _ => 1) (fun _ => 8) gc p J2') as (_ & H & _).
  - apply C96_tri_exists.
  - intros _ i Hi. destruct i as [|[|i]]; cbn; try lra; lia.
  - intros; lra.
  - split; [|split].
    + apply orth_id.
    + intros i j Hi Hj. destruct i as [|[|i]], j as [|[|j]]; try lia; reflexivity.
    + intros i j Hi Hj. destruct i as [|[|i]], j as [|[|j]]; try lia; cbn; unfold delta; cbn; lra.
  - exact W.
  - exact E.
  - pose proof (H 0%nat ltac:(lia)) as H0. pose proof (H 1%nat ltac:(lia)) as H1. cbn in H0, H1. exists gc, p. split; [exact E|]. split; lra.
Qed.
End NewtonCases.
