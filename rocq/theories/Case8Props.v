(** Concrete cases for the moment, rate-coefficient and copolymer-data theorems (C24-C36): each
    shows inputs that meet the hypotheses of the theorem it is named after, and what the theorem
    then says. *)
From Coq Require Import Reals Lra Lia List Bool Arith Psatz String.
From Coquelicot Require Import Coquelicot.
From Verif Require Import Prelude.
Import ListNotations.
Close Scope string_scope.
Open Scope R_scope.

Section Mom.
From Verif Require Import DistModel DistFamProps MomModel MomProps.

Example C24_mismatch_case : convolve_moments [1; 2] [1] = Err ValueError.
Proof. apply C24_length_mismatch. cbn. lia. Qed.
Example C24_comm_case : convolve_moments [1; 2; 6] [1; 3; 10] = convolve_moments [1; 3; 10] [1; 2; 6].
Proof. apply C24_comm. reflexivity. Qed.
Example C25_roundtrip_case : convert_polymer_standards (convert_polymer_standards 10000 2 5 (7 / 10) (3 / 5)) 5 2 (3 / 5) (7 / 10) = 10000.
Proof. apply C25_roundtrip; lra. Qed.
Example C25_via_case : convert_polymer_standards (convert_polymer_standards 10000 2 5 (7 / 10) (3 / 5)) 5 3 (3 / 5) (4 / 5) =
  convert_polymer_standards 10000 2 3 (7 / 10) (4 / 5).
Proof. apply C25_via; lra. Qed.
End Mom.

Section Kin.
From Verif Require Import UtilsModel KinModel KinProps KinCldProps.

(** Two coefficients on overlapping ranges, and one that does not overlap the first. *)
Lemma kc_T0a : a_T0 ex_a <> Fin 0. Proof. intros E; injection E; lra. Qed.
Lemma kc_T0b : a_T0 ex_b <> Fin 0. Proof. intros E; injection E; lra. Qed.
Lemma kc_eps : eps64 < 1.
Proof.
  unfold eps64. rewrite <- Rinv_1. apply Rinv_lt_contravar; [rewrite Rmult_1_l; apply pow_lt; lra|].
  apply Rlt_pow_R1; [lra|lia].
Qed.
Lemma kc_overlap : overlap ex_a ex_b.
Proof.
  pose proof kc_eps as H. unfold eps64 in H. exists 310, 390.
  unfold covers; cbn -[Rleb eps64]. repeat split; try (apply (proj2 (Rleb_true _ _))); lra.
Qed.
Definition ex_c : arrh := mkArrh None (fun _ => 1) (fun _ => 500) (Fin 300) (Fin 500) (Fin 600).
Lemma kc_c : constructed ex_c.
Proof.
  pose proof kc_eps. exists None, (fun _ => 1), (fun _ => 500), (Fin 300), (Fin 500), (Fin 600).
  unfold Arrhenius, check_bounds_n, check_Trange. cbn [check_bounds]. unfold between. cbn -[Rleb eps64].
  repeat match goal with |- context [Rleb ?a ?b] =>
    assert (Rleb a b = true) as -> by (apply (proj2 (Rleb_true _ _)); lra) end. reflexivity.
Qed.
Example C26_product_errors_case : arrh_mul ex_a ex_c = Err RangeError.
Proof.
  refine (proj2 (C26_product_errors ex_a ex_c (proj1 ex_constructed) kc_c kc_T0a _) eq_refl _).
  - intros E; injection E; lra.
  - intros (t & s & _ & A & _ & B & _). unfold covers in A, B; cbn -[Rleb] in A, B.
    destruct A as (_ & A), B as (B & _). apply (proj1 (Rleb_true _ _)) in A, B. lra.
Qed.
Example C26_quotient_case : exists c, arrh_div ex_a ex_b = Ok c /\ covers c 350.
Proof.
  destruct (C26_quotient ex_a ex_b (proj1 ex_constructed) (proj2 ex_constructed) kc_T0a kc_T0b eq_refl kc_overlap) as (c & E & _ & H & _).
  - intros i _. cbn. lra.
  - exists c. split; [exact E|]. apply H. unfold covers; cbn -[Rleb]. repeat split; apply (proj2 (Rleb_true _ _)); lra.
Qed.
Example C26_scalar_case : exists d, arrh_smul ex_a 3 = Ok d.
Proof. destruct (C26_scalar ex_a 3 (proj1 ex_constructed) kc_T0a) as ((d & E & _) & _); [lra|]. exists d. exact E. Qed.
Example C26_negative_scalar_case : arrh_smul ex_a (-2) = Err RangeError.
Proof. apply (C26_negative_scalar ex_a (-2) 0 (proj1 ex_constructed)); [lra|cbn; lia|cbn; lra]. Qed.
Example C26_power_case : exists d, arrh_pow ex_a (1 / 2) = Ok d.
Proof.
  destruct (C26_power ex_a (1 / 2) (proj1 ex_constructed) kc_T0a) as (d & E & _); [intros i _; cbn; lra|]. exists d. exact E.
Qed.
Example C26_zero_errors_case : arrh_rdiv 1 (mkArrh None (fun _ => 0) (fun _ => 500) (Fin 300) (Fin 0) PInf) = Err ZeroDivisionError.
Proof. apply C26_zero_errors; reflexivity. Qed.
Example C26_reference_case : exists w k, arrh_call ex_c (Fin 300) "K" = Ok (k, w) /\ k 0%nat = 1.
Proof.
  destruct (C26_reference ex_c 300 eq_refl) as (w & k & E & H); [lra|]. exists w, k. split; [exact E|]. rewrite H. reflexivity.
Qed.
Example C26_monotone_case : exists k1 w1 k2 w2, arrh_call ex_c (Fin 510) "K" = Ok (k1, w1) /\ arrh_call ex_c (Fin 550) "K" = Ok (k2, w2) /\ k1 0%nat < k2 0%nat.
Proof.
  destruct (C26_monotone ex_c 0 510 550) as (k1 & w1 & k2 & w2 & A & B & C & _); [intros E; injection E; lra|cbn; lra|lra|].
  exists k1, w1, k2, w2. split; [exact A|]. split; [exact B|]. apply C. cbn. lra.
Qed.

(** At its reference temperature the coefficient ex_c is 1. *)
Lemma kc_call : exists w, coef_call (CArrh ex_c) 300 "K" = Ok (1, w).
Proof.
  destruct C26_reference_case as (w & k & E & H). exists w. unfold coef_call. rewrite E. cbn. now rewrite H.
Qed.
Ltac lebs := repeat match goal with |- context [Rleb ?a ?b] =>
    assert (Rleb a b = true) as -> by (apply (proj2 (Rleb_true _ _)); lra) end.
Example C27_half_call_case : exists p, PropagationHalfLength (CArrh ex_c) 10 1 = Ok p /\
  half_call p 300 1 "K" = Ok 10.
Proof.
  destruct kc_call as (w & E).
  assert (P : PropagationHalfLength (CArrh ex_c) 10 1 = Ok (mkHalf (CArrh ex_c) 10 1)).
  { unfold PropagationHalfLength. cbn [check_bounds]. unfold between. cbn -[Rleb]. lebs. reflexivity. }
  eexists. split; [exact P|].
  destruct (C27_half_call _ _ _ _ 300 1 1 w P) as (A & _); [lra|exact E|]. rewrite A. f_equal.
  replace ((1 - 1) / 1) with 0 by field. rewrite Rpower_O by lra. ring.
Qed.
Example C27_half_equation_case : half_equation 1 100 11 2 = 1100 /\ half_equation 5 100 11 2 < half_equation 3 100 11 2.
Proof.
  destruct (C27_half_equation 100 11 2) as (A & _ & B & _); try lra. split; [rewrite A; ring|apply B; lra].
Qed.
Example C27_termination_call_case : exists p v, TerminationCompositeModel (CArrh ex_c) 50 (1 / 2) (1 / 5) = Ok p /\
  comp_call p 300 3 70 "K" = Ok v /\ comp_call p 300 70 3 "K" = Ok v /\ 0 < v <= 1.
Proof.
  destruct kc_call as (w & E).
  assert (P : TerminationCompositeModel (CArrh ex_c) 50 (1 / 2) (1 / 5) = Ok (mkComp (CArrh ex_c) 50 (1 / 2) (1 / 5))).
  { unfold TerminationCompositeModel. cbn [check_bounds]. unfold between. cbn -[Rleb]. lebs. reflexivity. }
  destruct (C27_termination_call _ _ _ _ _ 300 3 70 1 w P) as (v & A & B & _ & _ & C); [lra|lra|exact E|].
  eexists; exists v. split; [exact P|]. split; [exact A|]. split; [exact B|]. apply C; lra.
Qed.
End Kin.

Section Copo.
From Verif Require Import UtilsModel RootsModel RootsProps DiffModel DiffProps CopoModel CopoProps CopoStatProps CopoDataModel CopoDataProps CopoAzeoProps.

Lemma cc_adm : admissible (1 / 4) (1 / 2) (3 / 10). Proof. repeat split; lra. Qed.
Example C28_range_case : exists F, inst_copolymer_binary (1 / 4) (1 / 2) (3 / 10) = Fin F /\ 0 < F < 1.
Proof. destruct (C28_range _ _ _ cc_adm) as (F & E & _ & _ & _ & _ & H). exists F. split; [exact E|]. apply H. lra. Qed.
Example C28_relabel_case : exists F G, inst_copolymer_binary (1 / 4) (1 / 2) (3 / 10) = Fin F /\ inst_copolymer_binary (1 - 1 / 4) (3 / 10) (1 / 2) = Fin G /\ F + G = 1.
Proof. exact (C28_relabel _ _ _ cc_adm). Qed.
Example C28_monotone_case : exists F G, inst_copolymer_binary (1 / 4) (1 / 2) (3 / 10) = Fin F /\ inst_copolymer_binary (1 / 2) (1 / 2) (3 / 10) = Fin G /\ F < G.
Proof.
  destruct (C28_monotone (1 / 4) (1 / 2) (1 / 2) (3 / 10) cc_adm) as (F & G & A & B & _ & C); [repeat split; lra|lra|].
  exists F, G. split; [exact A|]. split; [exact B|]. apply C; lra.
Qed.
Example C28_stationary_case : exists F P, inst_copolymer_binary (1 / 4) (1 / 2) (3 / 10) = Fin F /\ transitions (1 / 2) (3 / 10) (1 / 4) = Ok P /\
  F * P11 P + (1 - F) * P21 P = F.
Proof. destruct (C28_stationary _ _ _ cc_adm) as (F & P & A & B & C & _). exists F, P. auto. Qed.
Example C29_found_case k1 k2 : exists a, azeotrope (Terminal (1 / 2) (3 / 10) k1 k2) = Ok (Some a) /\ inst_copolymer_binary a (1 / 2) (3 / 10) = Fin a.
Proof. destruct (C29_found (1 / 2) (3 / 10) k1 k2) as (a & A & _ & B & _); try lra. exists a. auto. Qed.
Example C29_none_case k1 k2 : azeotrope (Terminal (1 / 2) 3 k1 k2) = Ok None.
Proof. apply C29_none; lra. Qed.
Example C30_triads_case : exists t, triads (1 / 2) (3 / 10) (1 / 4) = Ok t /\ A111 t + A112 t + A212 t + A222 t + A221 t + A121 t = 1.
Proof. exact (C30_triads_eps _ _ _ cc_adm). Qed.
Example C35_identical_case : fit_Finemann_Ross 3 (fun _ => 1 / 2) (fun _ => 3 / 5) = Err ValueError.
Proof. apply C35_identical; [lia|auto]. Qed.
Example C36_getvar_case : let d := mkDS 0 Mayo "A" "B" [1 / 4; 1 / 2] [1 / 3; 2 / 3] in
  getvar d "F" "A" = Ok [1 / 3; 2 / 3] /\ getvar d "F" "B" = Ok [1 - 1 / 3; 1 - 2 / 3] /\ getvar d "F" "C" = Err ValueError.
Proof.
  intros d. pose proof (C36_getvar d "F" false eq_refl eq_refl) as H. cbv beta zeta iota in H. destruct H as (A & _ & B & C & _).
  split; [exact A|]. split; [exact B|]. apply C; discriminate.
Qed.
Example C36_accepts_case : snd (add_data "A" "B" [] [mkDS 0 Mayo "A" "B" [] []; mkDS 1 Mayo "A" "C" [] []]) = Err ValueError.
Proof.
  destruct (C36_accepts "A" "B" [] [mkDS 0 Mayo "A" "B" [] []; mkDS 1 Mayo "A" "C" [] []]) as (A & B & _); [discriminate|].
  apply B. intros H. apply A with (d := mkDS 1 Mayo "A" "C" [] []) in H; [|simpl; tauto].
  destruct H as [[_ H]|[H _]]; discriminate.
Qed.
(** Equal reactivity ratios of one make every feed an azeotrope, so four distinct ones exist. *)
Example C29_penultimate_case k1 k2 : forall x, 0 < x < 1 -> 0 < x < 1 /\ model_F1 (Penultimate 1 1 1 1 1 1 k1 k2) x = Ok (Fin x).
Proof.
  intros x Hx.
  assert (A : forall x, 0 < x < 1 -> 0 < x < 1 /\ model_F1 (Penultimate 1 1 1 1 1 1 k1 k2) x = Ok (Fin x)).
  { intros y Hy. split; [exact Hy|]. unfold model_F1, check_f1. unfold between; cbn -[Rleb inst_copolymer_binary pydiv].
    repeat match goal with |- context [Rleb ?a ?b] => assert (Rleb a b = true) as -> by (apply (proj2 (Rleb_true _ _)); lra) end.
    cbn -[inst_copolymer_binary pydiv]. rewrite !pydiv_ok by lra. cbn [bind fst snd].
    replace (1 * (y * 1 + (1 - y)) / (y * 1 + (1 - y))) with 1 by (field; lra). replace (1 * ((1 - y) * 1 + y) / ((1 - y) * 1 + y)) with 1 by (field; lra).
    rewrite inst_val by (repeat split; lra). do 2 f_equal. unfold F1val. field. match goal with |- ?a <> 0 => replace a with 1 by ring end. lra. }
  pose proof (C29_penultimate_count 1 1 1 1 1 1 k1 k2) as H. cbv beta zeta in H. apply H; try lra.
  exists (1 / 5), (2 / 5), (3 / 5), (4 / 5). repeat split; try lra; apply A; lra.
Qed.
End Copo.
