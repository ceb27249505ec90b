(** Concrete cases meeting the hypotheses of theorems of several areas. *)
From Coq Require Import Reals Lra Lia List Bool Arith Psatz String Ascii.
From Coquelicot Require Import Coquelicot.
From Verif Require Import Prelude.
Import ListNotations.
Close Scope char_scope.
Close Scope string_scope.
Open Scope R_scope.

Section TextCases.
From Verif Require Import TextModel TextProps.
Open Scope nat_scope.
Open Scope string_scope.

Example C116_lines_case : split (custom_repr [("name", "kp"); ("k0", "5")] 3) = flat_map (alines 7) [("name", "kp"); ("k0", "5")].
Proof. apply (C116_lines [("name", "kp"); ("k0", "5")] 3); [discriminate|]. repeat constructor. Qed.
Example C116_aligned_case : exists pre, item 7 ("k0", "5") = pre ++ "5" /\ length pre = 8.
Proof.
  destruct (C116_aligned [("name", "kp"); ("k0", "5")] 3 "k0" "5") as (pre & A & B & _); [right; now left|reflexivity|].
  exists pre. split; [exact A|exact B].
Qed.
Example C116_table_rows_case : exists rows,
  components_table (fun i => if Nat.eqb i 1 then "1" else "2")
    [mkRow "0.300" "Flory" "1.00e+02" "1.99e+02" "1.99"; mkRow "0.700" "SchulzZimm" "1.00e+02" "3.00e+02" "3.00"] = join nl rows /\
  List.length rows = 4 /\ List.Forall (fun r => length r = 55) rows.
Proof.
  apply (C116_table (fun i => if Nat.eqb i 1 then "1" else "2")
    [mkRow "0.300" "Flory" "1.00e+02" "1.99e+02" "1.99"; mkRow "0.700" "SchulzZimm" "1.00e+02" "3.00e+02" "3.00"]).
  - discriminate.
  - intros i _. cbn. destruct (Nat.eqb (i + 1) 1); cbn; lia.
  - repeat constructor; cbn; lia.
Qed.
Example C116_matrix_lines_case : exists ls,
  split ("cov: " ++ pprint_matrix [["1"; "2"]; ["3"; "4"]] 5) = (ls ++ [""])%list /\ List.length ls = 2.
Proof.
  destruct (C116_matrix "cov: " [["1"; "2"]; ["3"; "4"]] 5) as (ls & A & B & _);
    [repeat constructor | reflexivity | reflexivity | discriminate |].
  exists ls. split; [exact A|exact B].
Qed.
Example C116_results_aligned_case : List.length (split (result_repr [("x", "1.5"); ("f", "0.0")])) = 2 /\
  List.Forall (fun r => get 7 r = Some ":"%char) (split (result_repr [("x", "1.5"); ("f", "0.0")])).
Proof.
  apply (C116_results_aligned ["x"; "f"] ["1.5"; "0.0"]); [discriminate | repeat constructor; cbn; lia | reflexivity | repeat constructor].
Qed.
(** Different attribute values print differently. *)
Example C116_faithful_case : custom_repr [("C", "10"); ("ihalf", "1.5")] 3 <> custom_repr [("C", "10"); ("ihalf", "1.6")] 3.
Proof.
  intros E. pose proof (C116_faithful ["C"; "ihalf"] ["10"; "1.5"] ["10"; "1.6"] 3) as F.
  assert (X : ["10"; "1.5"] = ["10"; "1.6"]).
  { apply F; [|lia|reflexivity|reflexivity|exact E].
    repeat constructor; cbn; try discriminate; try reflexivity. }
  discriminate X.
Qed.
Example C116_distinct_case :
  repr_half_length "k" "10" "1.5" "kp1" <> repr_half_length "k" "10" "1.5" "kp2" /\
  repr_composite "k" "30" "0.5" "0.2" "kt" <> repr_composite "k" "31" "0.5" "0.2" "kt" /\
  repr_terminal "" "A" "B" "None" "None" "0.5" "0.5" <> repr_terminal "" "A" "B" "None" "None" "0.5" "0.6" /\
  repr_root "Newton" true "" "9" "4" "1.5" "0.0" <> repr_root "Newton" false "" "9" "4" "1.5" "0.0".
Proof.
  split; [|split; [|split]]; intros E.
  - apply C116_half_length in E. discriminate E.
  - apply C116_composite in E. discriminate E.
  - apply C116_terminal in E. discriminate E.
  - apply C116_root in E; [discriminate E|]. repeat constructor.
Qed.
End TextCases.

Section UtilCases.
From Verif Require Import UtilsModel UtilsProps.
Open Scope string_scope.
Example C65_check_in_set_case : check_in_set (inl "K") ["C"; "K"] = Ok (inl "K") /\ forall w, check_in_set (inr ["K"; "F"]) ["C"; "K"] <> Ok w.
Proof.
  split.
  - apply (proj1 (C65_check_in_set (inl "K") ["C"; "K"])). split; [reflexivity|]. intros s H. cbn in *. tauto.
  - intros w E. apply (proj1 (C65_check_in_set (inr ["K"; "F"]) ["C"; "K"])) in E. destruct E as (_ & E).
    specialize (E "F" ltac:(cbn; tauto)). cbn in E. destruct E as [E|[E|[]]]; discriminate E.
Qed.
End UtilCases.

Section KinCases.
From Verif Require Import UtilsModel KinModel KinProps KinCldProps.
Open Scope R_scope.
Example C71_gibbs_case : exists e w, Eyring 20 50000 (1 / 2) (Fin 0) PInf = Ok e /\
  coef_call (CEyr e) 300 "K" =
    Ok (1 / 2 * (1380649 / 10 ^ 29 * 300 / (662607015 / 10 ^ 42)) * exp (- (50000 - 300 * 20) / (831446261815324 / 10 ^ 14 * 300)), w).
Proof.
  assert (E : Eyring 20 50000 (1 / 2) (Fin 0) PInf = Ok (mkEyr 20 50000 (1 / 2) (Fin 0) PInf)).
  { unfold Eyring, check_Trange. cbn [check_bounds]. unfold between. cbn -[Rleb eps64].
    repeat match goal with |- context [Rleb ?a ?b] =>
      assert (Rleb a b = true) as -> by (apply (proj2 (Rleb_true _ _)); lra) end. reflexivity. }
  destruct (C71_gibbs 20 50000 (1 / 2) (Fin 0) PInf _ 300 E ltac:(lra)) as (w & H). eexists. exists w. split; [exact E|exact H].
Qed.
End KinCases.

Section AcmCases.
From Verif Require Import Deriv KinModel RootsModel AcmModel AcmProps AcmHeapProps AcmMixProps AcmMoreProps.
Open Scope R_scope.
Example C81_ideal_entropy_case : 0 <= Dsmix_ideal 2 (fun _ => 1 / 2) <= Rgas * ln 2.
Proof.
  replace 2 with (INR 2) at 3 by (simpl; lra). apply C81_ideal_entropy; [intros; lra|]. cbn. lra.
Qed.
Example C81_NRTL_entropy_bound_case :
  exists l, Deriv.D (fun t => NRTL_gE 2 t (fun _ => 1 / 2) (NRTL_tau zmat (fun _ _ => 300) zmat zmat t) (NRTL_alpha zmat zmat t)) 350 l /\
    Rabs (NRTL_sE 2 350 (fun _ => 1 / 2) zmat (fun _ _ => 300) zmat zmat zmat zmat - - l) <= 0.
Proof.
  destruct (C81_NRTL_entropy_bound 2 (fun _ => 1 / 2) zmat (fun _ _ => 300) zmat zmat 350) as (l & A & B); [intros; lra | cbn; lra | lra |].
  exists l. split; [exact A|]. eapply Rle_trans; [exact B|]. right. cbn. unfold zmat. rewrite Rabs_R0. unfold Rdiv. ring.
Qed.
Example C81_FH_bounds_case : let phi := fun i : nat => match i with O => 1 / 4 | _ => 3 / 4 end in
  let m := fun i : nat => match i with O => 1 | _ => 100 end in let chi := fun _ _ : nat => 1 / 2 in
  exists l, Deriv.D (fun t => FH_Dgmix 2 t phi m (FH_chi chi zmat zmat zmat zmat t)) 300 l /\
    FH_Dsmix 2 300 phi m chi zmat zmat zmat zmat = - l.
Proof.
  intros phi m chi. destruct (C81_FH_entropy_bound 2 phi m chi zmat zmat zmat zmat 300 ltac:(lra)) as (l & A & B).
  exists l. split; [exact A|].
  assert (Z : Rabs (FH_Dsmix 2 300 phi m chi zmat zmat zmat zmat - - l) <= 0).
  { eapply Rle_trans; [exact B|]. right. cbn. unfold zmat. rewrite Rabs_R0. unfold Rdiv. ring. }
  pose proof (Rabs_pos (FH_Dsmix 2 300 phi m chi zmat zmat zmat zmat - - l)) as P.
  destruct (Req_dec (FH_Dsmix 2 300 phi m chi zmat zmat zmat zmat - - l) 0) as [E|E]; [lra|]. apply Rabs_no_R0 in E. lra.
Qed.
Example C81_FH_enthalpy_bound_case : exists l, Deriv.D (fun t => FH_Dgmix 1 t (fun _ => 1) (fun _ => 1) (FH_chi zmat (fun _ _ => 100) zmat zmat zmat t)) 300 l /\
    Rabs (FH_Dhmix 1 300 (fun _ => 1) (fun _ => 1) zmat (fun _ _ => 100) zmat zmat zmat
          - (FH_Dgmix 1 300 (fun _ => 1) (fun _ => 1) (FH_chi zmat (fun _ _ => 100) zmat zmat zmat 300) - 300 * l)) <= 0.
Proof.
  destruct (C81_FH_enthalpy_bound 1 (fun _ => 1) (fun _ => 1) zmat (fun _ _ => 100) zmat zmat zmat 300 ltac:(lra)) as (l & A & B).
  exists l. split; [exact A|]. eapply Rle_trans; [exact B|]. right. cbn. unfold zmat. rewrite Rabs_R0. unfold Rdiv. ring.
Qed.
Example C81_UNIQUAC_athermal_case :
  mx_hE (mixing 2 300 (fun _ => 1 / 2) (UNIQUAC_gE 2 300 (fun _ => 1 / 2) (fun _ => 1) (fun _ => 2) (exp_par (fun _ _ => 1) zmat zmat zmat 300))
        (UNIQUAC_sE 2 300 (fun _ => 1 / 2) (fun _ => 1) (fun _ => 2) (fun _ _ => 1) zmat zmat zmat)) = 0.
Proof.
  refine (proj1 (proj2 (C81_UNIQUAC_athermal 2 (fun _ => 1 / 2) (fun _ => 1) (fun _ => 2) (fun _ _ => 1) 300 _ _ _))).
  - split; [intros; lra|]. cbn. lra.
  - intros; lra.
  - lra.
Qed.
Example C82_gE_shapes_case : PolyNRTL_gE_shapes 0 2 2 = Ok tt /\ PolyNRTL_gE_shapes 1 2 2 <> Ok tt.
Proof.
  split; [apply C82_gE_shapes; [lia|auto]|]. intros E. apply C82_gE_shapes in E; [|lia]. destruct E; discriminate.
Qed.
End AcmCases.

Section PropCases.
From Verif Require Import KinModel RootsModel PropModel PropVapProps PropMixProps.
Open Scope R_scope.
Example C89_call_case p s : (exists d, vd_call p (1 / 2) 350 s = Ok d) /\ ~ (exists d, vd_call p (3 / 2) 350 s = Ok d).
Proof. split; [apply C89_call; lra|]. intros E. apply C89_call in E. lra. Qed.
End PropCases.

Section DiffCases.
From Verif Require Import RootsModel DiffModel DiffProps.
Open Scope R_scope.
Example C10_complex_exact_case :
  fst (derivative_complex (fun u v => u * u - v * v) (fun u v => u * v + v * u) 3) = 6.
Proof.
  pose proof (proj1 (proj2 (C10_complex_exact 0 0 1 0 3)) eq_refl) as H.
  replace 6 with (0 + 2 * 1 * 3) by ring. rewrite <- H. unfold derivative_complex. cbn. f_equal; ring.
Qed.
End DiffCases.

Section CopoDataCases.
From Verif Require Import UtilsModel RootsModel CopoModel CopoDataModel CopoDataProps.
Open Scope string_scope.
Example C36_history_case : let d := mkDS 0 Mayo "A" "B" [] [] in let e := mkDS 1 Kp "B" "A" [] [] in
  let s := add_history "A" "B" [] [[d; e]; [d]; [mkDS 2 Drift "A" "C" [] []]] in
  s = [d; e] /\ NoDup (map ds_id s).
Proof.
  intros d e s. split; [reflexivity|]. exact (proj1 (C36_history "A" "B" [[d; e]; [d]; [mkDS 2 Drift "A" "C" [] []]] eq_refl)).
Qed.
End CopoDataCases.
