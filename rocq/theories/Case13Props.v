(** Concrete cases for solvers, moments, copolymerisation, reaction networks, plots and texts
    (C11-C116): each shows inputs that meet the hypotheses of the theorem it is named after, and what
    the theorem then says. *)
From Coq Require Import Reals Lra Lia List Bool Arith Psatz String.
From Coquelicot Require Import Coquelicot.
From Verif Require Import Prelude.
Import ListNotations.
Close Scope string_scope.
Open Scope R_scope.

Section Newton.
From Verif Require Import RootsModel DiffModel DiffProps FixModel PolyModel VecModel Deriv QnLinModel QnLinProps OracleProps QrProps.

(** The Jacobian ((2, 1), (1, 3)) with unit scaling. *)
Definition J2 (i j : nat) : R := match i, j with O, O => 2 | S _, S _ => 3 | _, _ => 1 end.
Lemma J2_qr : is_qr 2 (fst (qr 2 J2)) (snd (qr 2 J2)) (fun i j => 1 * J2 i j).
Proof.
  destruct (C96_qr_exists 2 J2) as (A & B & E). split; [exact A|]. split; [exact B|]. intros i j Hi Hj. rewrite E by auto. ring.
Qed.
Definition lin2 (x : nat -> R) (i : nat) : R := sumn 2 (fun j => J2 i j * x j).
Example C96_gradient_case x : Deriv.D (fun t => / 2 * sumn 2 (fun i => (1 * lin2 (upd x 0 t) i) ^ 2)) (x 0%nat) (qn_grad 2 (fst (qr 2 J2)) (snd (qr 2 J2)) (fun _ => 1) (fun i => lin2 x i) 0%nat).
Proof.
  apply (C96_gradient 2 lin2 J2 (fst (qr 2 J2)) (snd (qr 2 J2)) (fun _ => 1) x 0); [lia| |exact J2_qr].
  intros i Hi. unfold lin2. set (a := J2 i 0%nat). set (b := J2 i 1%nat * x 1%nat).
  apply (is_derive_ext (fun t : R => a * t + b)).
  - intros t. cbn [sumn]. unfold upd, b, a. cbn. ring.
  - auto_derive; [exact I|ring].
Qed.
Example C96_zero_case : qn_lin 2 (triN 2) (choN 2) (chosolveN 2) NaN delta (fun _ _ => 0) (fun _ => 1) (fun _ => 1) (fun _ => 1) = LinRaise.
Proof. apply C96_zero_jacobian; [lia|apply C96_cho_exists|reflexivity|auto]. Qed.
(** A singular upper factor, ((1, 1), (0, 0)): the perturbed model still gives a step. *)
Definition R2 (i j : nat) : R := match i with O => 1 | _ => 0 end.
Example C96_regularised_case : exists gc p C, qn_lin 2 (triN 2) (choN 2) (chosolveN 2) NaN delta R2 (fun _ => 1) (fun _ => 1) (fun _ => 1) = LinStep gc p C /\ is_cho 2 C (qn_H 2 R2 (fun _ => 1)).
Proof.
  destruct (C96_regularised_step 2 (triN 2) (choN 2) (chosolveN 2) NaN delta R2 (fun _ => 1) (fun _ => 1) (fun _ => 1)) as (gc & p & C & A & B & _).
  - apply C96_cho_exists.
  - reflexivity.
  - intros; lra.
  - exists 0%nat, 0%nat. split; [lia|]. split; [lia|]. cbn. lra.
  - exists gc, p, C. auto.
Qed.
(** The factor left behind by that step no longer belongs to the Jacobian. *)
Example C96_stale_case : exists gc p C, qn_lin 2 (triN 2) (choN 2) (chosolveN 2) NaN delta R2 (fun _ => 1) (fun _ => 1) (fun _ => 1) = LinStep gc p C /\
  ~ (forall i j, (i < 2)%nat -> (j < 2)%nat -> mmul 2 delta C i j = R2 i j).
Proof.
  destruct C96_regularised_case as (gc & p & C & A & B). exists gc, p, C. split; [exact A|].
  apply (C96_stale_factor 2 delta R2 R2 (fun _ => 1) C).
  - split; [apply orth_id|]. split.
    + intros i j H1 H2. destruct i; [lia|reflexivity].
    + intros i j Hi Hj. unfold mmul. now apply (sumn_delta_l 2 i (fun k => R2 k j)).
  - intros; lra.
  - exists 0%nat, 0%nat. split; [lia|]. split; [lia|]. cbn. lra.
  - exact B.
Qed.
Example C96_returned_case : forall i j, (i < 2)%nat -> (j < 2)%nat -> broyden_J 2 (fst (qr 2 J2)) (snd (qr 2 J2)) (fun _ => 1) i j = J2 i j.
Proof. apply (C96_returned_jacobian 2 _ _ J2 (fun _ => 1) J2_qr). intros; lra. Qed.
Example C96_secant_case : let (Q', R') := update_broyden_qr 2 (quN 2) (fun _ => 1) (fun _ => 2) (fun _ => 1) (fun _ => 4) (fst (qr 2 J2)) (snd (qr 2 J2)) (fun _ => 1) (fun _ => 1) in
  Rabs (matvec 2 (mmul 2 Q' R') (fun j => 2 - 1) 0%nat - 1 * (4 - 1)) <= eps * 1 * (Rabs 4 + Rabs 1).
Proof.
  destruct (update_broyden_qr _ _ _ _ _ _ _ _ _ _) as (Q', R') eqn:E.
  apply (C96_secant 2 (quN 2) (fun _ => 1) (fun _ => 2) (fun _ => 1) (fun _ => 4) (fst (qr 2 J2)) (snd (qr 2 J2)) Q' R' (fun _ => 1) (fun _ => 1)); try exact E; try (intros; lra); [apply C96_update_exists| |lia].
  exists 0%nat. split; [lia|lra].
Qed.
Example C11_case f x nd h_ fh_ H0 : hessian_forward 2 f x None (fun _ => 1) nd h_ fh_ H0 0%nat 1%nat = hessian_forward 2 f x None (fun _ => 1) nd h_ fh_ H0 1%nat 0%nat.
Proof. apply C11_forward_symmetric; lia. Qed.
Example C13_case : exists (n : nat) hf, 0 <= hf < 3 / 10 /\ 0 + INR n * (3 / 10) + hf = 1.
Proof.
  destruct (C13_covers_interval (fun t y => - y) 0 1 1 (3 / 10) 1%Z (fun t y h => y + h * - y)) as (n & hf & y & A & B & _); [left; auto|lra|lra|]. exists n, hf. auto.
Qed.
End Newton.

Section Moments.
From Verif Require Import RootsModel DistModel MomModel MomProps CopoModel CopoProps CopoStatProps CopoPenProps CopoMultiModel CopoMultiProps CopoDataModel CopoDataProps.

Example C24_case : convolve_moments [1; 0; 0] [2; 3; 5] = Ok [2; 3; 5] /\ (do p <- convolve_moments [1; 2; 5] [1; 3; 10]; convolve_moments p [2; 3; 5]) = (do p <- convolve_moments [1; 3; 10] [2; 3; 5]; convolve_moments [1; 2; 5] p).
Proof. split; [apply (C24_unit [2; 3; 5] 2); reflexivity|apply C24_assoc; reflexivity]. Qed.
Example C25_case : convert_polymer_standards 10000 2 5 (7 / 10) (3 / 5) < convert_polymer_standards 20000 2 5 (7 / 10) (3 / 5) /\ convert_polymer_standards 10000 2 2 (7 / 10) (7 / 10) = 10000.
Proof. split; [apply C25_increasing; lra|apply C25_identity; lra]. Qed.
Example C28_range_case : exists F, inst_copolymer_binary (1 / 4) 2 (1 / 2) = Fin F /\ 0 < F < 1.
Proof.
  destruct (C28_range (1 / 4) 2 (1 / 2)) as (F & E & _ & _ & _ & _ & H); [repeat split; try lra; intros (A & B); lra|]. exists F. split; [exact E|apply H; lra].
Qed.
Example C30_sequence_multi_case : is_series (fun k => sequence_multi (1 / 3) (S k)) 1.
Proof. apply (C30_sequence_multi (1 / 3)). lra. Qed.
Example C30_transitions_multi_case : sumn 3 (fun j => transitions_multi 3 (fun _ => 1 / 3) (fun i k => if Nat.eqb i k then 1 else 2) 0%nat j) = 1.
Proof.
  apply (C30_transitions_multi 3 (fun _ => 1 / 3) (fun i k => if Nat.eqb i k then 1 else 2)); [|  |lia].
  - split; [intros; lra|]. cbn [sumn]. lra.
  - intros i j _ _. cbn. destruct (Nat.eqb i j); lra.
Qed.
Example C31_case : psequence_dist 2 (1 / 2) 2 (1 / 2) (1 / 4) 3 = sequence_dist 2 (1 / 2) (1 / 4) 3.
Proof. apply (C31_sequences 2 (1 / 2) (1 / 4) 3); [repeat split; lra|lia]. Qed.
Example C30_penultimate_case : exists t, ptriads 2 (1 / 2) 3 (1 / 3) (1 / 4) = Ok t /\ A111 t + A112 t + A212 t = 1.
Proof. destruct (C30_penultimate 2 (1 / 2) 3 (1 / 3) (1 / 4)) as (P & m & t & _ & _ & A & B & _); [repeat split; lra|]. exists t. auto. Qed.
End Moments.

Section Net.
From Verif Require Import ReactModel ReactProps Case5Props.

Lemma fits_ex : fits 300 5 rx_ex. Proof. exists 0%nat, 1%nat, None, 5. repeat split; lia. Qed.
Lemma fits_ex2 : fits 300 5 rx_ex2. Proof. exists 0%nat, 1%nat, (Some 4%nat), 5. repeat split; lia. Qed.
Example C103_additive_case : exists y y' z, rates_loop (as_reactions [(0%nat, rx_ex)]) 300 [2; 7; 11; 19; 0] (repeat 0 5) = Ok y /\ rates_loop (as_reactions [(1%nat, rx_ex2)]) 300 [2; 7; 11; 19; 0] (repeat 0 5) = Ok y' /\
  rates_loop (as_reactions [(0%nat, rx_ex); (1%nat, rx_ex2)]) 300 [2; 7; 11; 19; 0] (repeat 0 5) = Ok z /\ forall j, nth j z 0 = nth j y 0 + nth j y' 0.
Proof. apply (C103_additive 300 [2; 7; 11; 19; 0] [(0%nat, rx_ex)] [(1%nat, rx_ex2)]). constructor; [apply fits_ex|constructor; [apply fits_ex2|constructor]]. Qed.
Example C103_rates_case : exists y, rates (mkSystem (as_reactions [(0%nat, rx_ex); (1%nat, rx_ex2)]) 5 [] []) [2; 7; 11; 19; 0] 300 = Ok y /\ List.length y = 5%nat.
Proof.
  destruct (C103_rates (mkSystem (as_reactions [(0%nat, rx_ex); (1%nat, rx_ex2)]) 5 [] []) 300 [2; 7; 11; 19; 0] [(0%nat, rx_ex); (1%nat, rx_ex2)]) as (y & cs & A & B & _).
  - reflexivity.
  - reflexivity.
  - constructor; [apply fits_ex|constructor; [apply fits_ex2|constructor]].
  - exists y. auto.
Qed.
Example C103_kinds_case f : (exists s, new_system [mkReaction 0 f (Ok [mkSpecies 0 SScalar None])] = Ok s) /\ ~ (exists s, new_system [mkReaction 0 f (Ok [mkSpecies 0 SOther None])] = Ok s).
Proof.
  split.
  - apply (C103_kinds [mkReaction 0 f (Ok [mkSpecies 0 SScalar None])]).
    + intros r [<-|[]]. eexists. reflexivity.
    + split; [cbn; constructor; [intros []|constructor]|]. intros r ss s [<-|[]] E. cbn in E. injection E as <-. intros [<-|[]]. discriminate.
  - intros H. apply (C103_kinds [mkReaction 0 f (Ok [mkSpecies 0 SOther None])]) in H.
    + destruct H as (_ & H). apply (H (mkReaction 0 f (Ok [mkSpecies 0 SOther None])) [mkSpecies 0 SOther None] (mkSpecies 0 SOther None)); simpl; auto.
    + intros r [<-|[]]. eexists. reflexivity.
Qed.
Example C103_system_raises_case x T : exists s e, buildable s /\ rates s x T = Err e.
Proof.
  destruct C103_build_example as (s & B & L). destruct (C103_system_raises s x T B) as (e & E); [intros H; rewrite H in L; discriminate|]. exists s, e. auto.
Qed.
End Net.

Section Fit.
From Verif Require Import DiffModel RootsModel CopoModel CopoDataModel CopoDataProps JcrModel FitModel FitProps DriftProps Case11Props.

Example C105_scale_case : sse_Ff (mkDFf [(1 / 4, 1 / 3, 1, 2 * 1)] (2 ^ 2 * 1)) (2, 1) = sse_Ff (mkDFf [(1 / 4, 1 / 3, 1, 1)] 1) (2, 1).
Proof. apply (proj1 (C105_scale (fun _ _ _ _ _ => None) 1 1 2 (2, 1) ltac:(lra)) (mkDFf [(1 / 4, 1 / 3, 1, 1)] 1)). Qed.
Example C105_odr_objective_case : sse_odr (firstn 2 pts3) [1 / 4; 1 / 2] (2, 1) = 0.
Proof.
  apply (C105_odr_objective (firstn 2 pts3) [1 / 4; 1 / 2] 2 1).
  - reflexivity.
  - intros p [<-|[<-|[]]]; cbn; lra.
  - intros f F a b u [H|[H|[]]]; injection H as <- <- <- <- <-; (split; [reflexivity|]); unfold F1r, inst_copolymer_binary; cbv zeta; rewrite CopoProps.np_div_ok by lra; field.
Qed.
Example C105_noise_case (sse : R * R -> R) : exists sse', (forall q, Rabs (sse' q - sse q) <= 1 / 10 ^ 8) /\
  fst (fst (fst (hessian2_centered sse' (1, 1) (1 / 10 ^ 4)))) = fst (fst (fst (hessian2_centered sse (1, 1) (1 / 10 ^ 4)))) + 1 / 10 ^ 8 / (1 / 10 ^ 4 * (1 + Rabs 1)) ^ 2.
Proof. apply (C105_noise sse 1 1 (1 / 10 ^ 8)). lra. Qed.
End Fit.

Section Objects.
From Verif Require Import UtilsModel UtilsProps KinModel HmtModel TaitModel TaitProps RootsModel CopoDataModel EosInitProps CacheModel CacheProps DataModel DistModel DistPlotModel DistPlotProps CopoPlotModel CopoPlotProps EqPlotModel EqPlotProps PropModel PropVapProps.

Example C106_growth_case : exists outs s, crun (List.concat (repeat (map (OSheet 1) [1; 2]) 3)) cinit = (outs, s) /\ List.length (cs_heap s) = 2%nat.
Proof.
  apply (C106_growth 1 [1; 2] 2); [lra| |].
  - constructor; [intros [H|[]]; lra|constructor; [intros []|constructor]].
  - intros B [<-|[<-|[]]]; lra.
Qed.
Example C106_pure_case : Forall2 (fun o v => match o with OSheet Fo Bi => v = VNum (uptake_convection_sheet Fo Bi) | _ => False end) [OSheet 1 2; OSheet 3 2] (fst (crun [OSheet 1 2; OSheet 3 2] cinit)).
Proof.
  destruct (crun [OSheet 1 2; OSheet 3 2] cinit) as (outs, s) eqn:E. cbn [fst].
  assert (H : Forall2 (fun o v => match o with
    | OCall k => right_answer k v | OSheet Fo Bi => v = VNum (uptake_convection_sheet Fo Bi)
    | OSphere Fo Bi => v = VNum (uptake_convection_sphere Fo Bi) | OWrite _ _ _ => False end) [OSheet 1 2; OSheet 3 2] outs).
  { apply (C106_pure _ outs s); [|exact E]. intros l H. unfold written in H. destruct H as (? & ? & [H|[H|[]]]); discriminate. }
  inversion H as [|? ? ? ? A H2]; subst. inversion H2 as [|? ? ? ? B H3]; subst. inversion H3; subst. repeat constructor; assumption.
Qed.
Example C108_monotone_case : forall r, In r tait_table -> tr_Tmin r < tr_Tmax r -> tr_Pmin r <= tr_Pmax r -> tait_eval (tr_p r) (tr_Tmin r) (tr_Pmin r) < tait_eval (tr_p r) (tr_Tmax r) (tr_Pmin r).
Proof. intros r I L P. apply (C108_monotone r I); lra. Qed.
Example C108_history_case : drun [DGet; DFrom "BR"] None = [OTable tait_table; OTait (from_table tait_table "BR")].
Proof. apply (C108_history [DGet; DFrom "BR"]). intros f [H|[H|[]]]; discriminate. Qed.
Example C107_copied_case : exists o h', eos_init [ASeq [300; 400]] None [mkNd [2%nat] [4; 5]] = (Ok o, h') /\ eo_elem o 0 1 (writes [((0%nat, 1%nat), 9)] h') = 400.
Proof.
  destruct (eos_init [ASeq [300; 400]] None [mkNd [2%nat] [4; 5]]) as (r, h') eqn:E. assert (K : forall x, In x [ASeq [300; 400]] -> EosInitProps.known [mkNd [2%nat] [4; 5]] x) by (intros x [<-|[]]; exact I).
  pose proof E as E0. cbn in E0. destruct r as [o|e]; [|discriminate]. exists o, h'. split; [reflexivity|].
  rewrite (C107_copied [ASeq [300; 400]] None [mkNd [2%nat] [4; 5]] o h' [((0%nat, 1%nat), 9)] 0 1); [reflexivity|discriminate|exact K|exact E|cbn; lia|intros []|].
  intros w [<-|[]]. cbn. lia.
Qed.
Example C110_reset_case h : range_of (update_parameters h 3 (1, 500)) 3 = (1, 500).
Proof. apply C110_reset. Qed.
Example C110_growth_case pdf cdf : let h := fun _ : nat => mkO true (1 / 10) (1, 5000) None in
  range_of (plots pdf cdf 2 h (Ind 0) (KStr "mass") (KBool false) "log" 0) 0 = (1, 5000 * 10 ^ 2).
Proof.
  intros h. apply (C110_growth pdf cdf 2 h 0 (KStr "mass") "log" 0 (inl "mass"%string)); try reflexivity; try lia.
  - intros i. unfold range_of. cbn. lra.
  - simpl. tauto.
  - unfold wide, range_of. cbn. lra.
Qed.
Example C110_repeatable_case pdf cdf : let h := fun _ : nat => mkO true (1 / 10) (1, 500) None in
  snd (plot pdf cdf (fst (plot pdf cdf h (Ind 0) (KStr "mass") (KBool false) "log" None 0)) (Ind 0) (KStr "mass") (KBool false) "log" None 0) = snd (plot pdf cdf h (Ind 0) (KStr "mass") (KBool false) "log" None 0).
Proof.
  intros h. apply C110_repeatable.
  - intros i. unfold range_of. cbn. lra.
  - intros (i & k & _ & _ & _ & _ & _ & _ & W). unfold wide, range_of in W. cbn in W. lra.
Qed.
Example C111_points_case eqn : List.length (curve_of eqn ArrheniusK "C" 300 400) = 100%nat.
Proof. apply (C111_points eqn ArrheniusK "C" 300 400); [simpl; tauto|lra]. Qed.
Example C112_empty_case F1 drift kpT kpd : copo_plot "A" "B" F1 drift kpT kpd [mkDS 0 Drift "A" "B" [] []] "drift" "all" 1 None false = Err IndexError.
Proof.
  apply C112_empty; try reflexivity; [split; [discriminate|split; discriminate]|now left|unfold is_show; simpl; tauto].
Qed.
End Objects.
