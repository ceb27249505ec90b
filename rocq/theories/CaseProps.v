(** Concrete cases for theorems stated in other files: each meets the hypotheses of the
    theorem it is named after and applies it (C09, C23, C47, C49, C77, C79, C80, C82, C83, C84, C90). *)
From Coq Require Import Reals Lra Lia List Bool Arith.
From Coquelicot Require Import Coquelicot.
From Verif Require Import Prelude RootsModel DiffModel FixModel FixProofs PolyModel VecModel VecProps.
Import ListNotations.
Open Scope R_scope.

(** C09: two equations 3 - x0 = 0 and x0 - x1 = 0 from the origin, one Newton step (3, 3) *)
Definition f09 : vec -> vec := fun x i => match i with O => 3 - x O | _ => x O - x 1%nat end.
Example C09_case : exists r,
  rootvec_qnewton 1 2 GNone f09 (fun _ => LinStep (fun _ => -3) (fun _ => 3) (fun _ _ => 1))
    (fun _ => 0) (/ 1000) (/ 1000) (fun _ => 1) (fun _ => 1) 50 1000 None = Some (Ok r) /\
  q_success r = true /\ q_niter r = 1%nat /\ q_x r O = 3 /\ q_x r 1%nat = 3 /\ q_f r = f09 (q_x r).
Proof.
  unfold rootvec_qnewton.
  assert (Rleb (norm_inf 2 (fun i => 1 * f09 (fun _ => 0) i)) (/ 100 * / 1000) = false) as ->.
  { apply Rleb_false. unfold norm_inf, f09. simpl.
    rewrite (Rabs_pos_eq (1 * (3 - 0))) by lra. apply Rlt_le_trans with 3; [lra|]. 
    eapply Rle_trans; [|apply Rmax_l]. eapply Rle_trans; [|apply Rmax_r]. lra. }
  change 50%nat with (S 49). generalize 49%nat. intros m. cbn [qn_loop global_step]. cbn [negb andb].
  match goal with |- context [if Rleb ?a ?b then _ else _] => assert (Rleb a b = true) as -> end.
  { apply Rleb_true. unfold norm_inf, f09. simpl. 
    repeat match goal with |- context [Rabs ?x] => lazymatch x with 0 => fail | _ => replace x with 0 by ring end end.
    rewrite !Rabs_R0, !Rmax_left by (rewrite ?Rmax_left; lra). lra. }
  eexists. split; [reflexivity|]. cbn [q_success q_niter q_x q_f]. repeat split; ring.
Qed.

From Verif Require Import UtilsModel DistModel DistMixProps.
(** C23: blending two individual distributions leaves an existing mixture as it was, while
    adding an individual to that mixture changes it *)
Example C23_case : exists h' l h2,
  op_add [[(1%nat, / 2); (3%nat, / 4)]] (OInd 1%nat) (OInd 2%nat) = Some (h', OMix l) /\
  hget h' 0%nat = [(1%nat, / 2); (3%nat, / 4)] /\ l = 1%nat /\
  op_add [[(1%nat, / 2); (3%nat, / 4)]] (OMix 0%nat) (OInd 1%nat) = Some (h2, OMix 0%nat) /\
  dget (hget h2 0%nat) 1%nat = Some (/ 2 + 1).
Proof.
  destruct (C23_always_changes [[(1%nat, / 2); (3%nat, / 4)]] 0%nat 1%nat) as (h2 & E2 & G2); [cbn; lia|].
  exists (fst (match op_add [[(1%nat, / 2); (3%nat, / 4)]] (OInd 1%nat) (OInd 2%nat) with Some p => p | None => ([], OInd 0%nat) end)), 1%nat, h2.
  split; [reflexivity|]. split; [reflexivity|]. split; [reflexivity|]. split; [exact E2|]. exact G2.
Qed.

From Verif Require Import Deriv KinModel FixProps AcmModel AcmProps EosModel EosProps CubicProps.
(** C47: an equimolar binary with B = 1, A = 15/4, whose Redlich-Kwong cubic has the root Z = 3/2 *)
Example C47_case : let n := fun _ : nat => 1 in let b := fun _ : nat => Rgas * 300 / 100000 in
  let a := fun _ : nat => 15 / 4 * (Rgas * 300) ^ 2 / 100000 in let y := frac 2 n in
  let am := cu_am 2 a None y in let bm := cu_bm 2 b y in
  D (fun t => let n' := upd n 1 t in
      (cu_DA RK_consts (cu_am 2 a None (frac 2 n')) (cu_bm 2 b (frac 2 n')) (sumn 2 n') 300 (sumn 2 n * eos_v (3 / 2) 300 100000) 1
       - IG_DA 2 300 (sumn 2 n * eos_v (3 / 2) 300 100000) n' 1) / (Rgas * 300)) (n 1%nat)
    (cu_lnphi RK_consts (b 1%nat) am bm (cu_A am 300 100000) (cu_B bm 300 100000) (3 / 2) (cu_delta 2 a am None y 1) + ln (3 / 2)).
Proof.
  intros n b a y am bm. pose proof Rgas_pos as HR.
  assert (Pa : 0 < 15 / 4 * (Rgas * 300) ^ 2 / 100000) by (assert (0 < (Rgas * 300) ^ 2) by (apply pow_lt; lra); lra).
  assert (Eb : cu_B bm 300 100000 = 1) by (unfold bm, cu_B, cu_bm, y, frac, n, b; cbn [sumn]; field; lra).
  assert (Ea : cu_A am 300 100000 = 15 / 4).
  { unfold am, cu_A, cu_am, geometric_interaction_mixing, y, frac, n, a. cbn [sumn].
    set (s := sqrt _). assert (S2 : s * s = 15 / 4 * (Rgas * 300) ^ 2 / 100000) by (apply sqrt_sqrt; lra).
    replace ((0 + 1 / (0 + 1 + 1) * s + 1 / (0 + 1 + 1) * s) ^ 2) with (s * s) by field. rewrite S2. field. lra. }
  apply (C47_lnphi_derivative RK_consts 2 a b n 1 300 100000 (3 / 2) 1); try lra; try lia.
  - now left.
  - split; [intros; unfold n; lra|cbn; unfold n; lra].
  - intros. exact Pa.
  - intros. unfold b. lra.
  - fold y am bm. rewrite Eb. lra.
  - fold y am bm. rewrite Ea, Eb. unfold pZ. cbn [cu_u cu_w RK_consts]. field.
Qed.
(** C49: attributes set first, then queries (one of them repeated): every answer is fresh *)
Example C49_case : List.Forall (fresh (cubic_aT RK_consts RK_alpha) (cubic_b0 RK_consts))
  (erun (cubic_aT RK_consts RK_alpha) (cubic_b0 RK_consts)
     [ESet (fun _ => 500, fun _ => 4000000, fun _ => 0); EQuery0; EQueryT 300; EQueryT 300; EQuery0] (mkE (fun _ => 1, fun _ => 1, fun _ => 0) [] None)) /\
  length (erun (cubic_aT RK_consts RK_alpha) (cubic_b0 RK_consts)
     [ESet (fun _ => 500, fun _ => 4000000, fun _ => 0); EQuery0; EQueryT 300; EQueryT 300; EQuery0] (mkE (fun _ => 1, fun _ => 1, fun _ => 0) [] None)) = 4%nat.
Proof.
  split; [apply C49_fresh_partial; cbn; repeat constructor|].
  cbn [erun e_cache0 e_attrs e_cacheT elookup]. rewrite (proj2 (Reqb_true 300 300) eq_refl). reflexivity.
Qed.
(** C83: an ideal gas at 300 K compressed from 1 to 10 bar *)
Example C83_case : let r := eos_DX (fun T V v0 => IG_DA 2 T V (fun _ => 1 / 2) v0) IG_Z 300 1000000 100000 in
  dx_A r = Rgas * 300 * ln 10 /\ dx_S r = - Rgas * ln 10 /\ dx_H r = 0.
Proof.
  intros r. destruct (C83_ideal 2 (fun _ => 1 / 2) 300 1000000 100000) as (A & _ & S & _ & H); try (cbn; lra).
  fold r in A, S, H. replace (1000000 / 100000) with 10 in A, S by field. auto.
Qed.
(** C84: a K-value model K(P) = 20000/P: Psat started at the solution returns it; started above Tc it is rejected *)
Example C84_case nan : cu_Psat 1 (fun P => 20000 / P) 300 500 4000000 (1 / 4) (Some 20000) nan = Ok 20000 /\
  cu_Psat 1 (fun P => 20000 / P) 500 500 4000000 (1 / 4) None nan = Err ValueError /\
  cu_Psat 2 (fun P => 20000 / P) 300 500 4000000 (1 / 4) None nan = Err ValueError.
Proof.
  split; [apply C84_start; [lra|field]|]. split; apply C84_guard; [right; lra|left; lia].
Qed.

From Verif Require Import CopoModel CopoDataModel CopoDataProps.
(** C77: one point F(1/2) = 0.6 measured as 0.55 with standard deviation 0.05: both objectives are 1 at unit weight *)
Example C77_case : sse_NLLS [mkFf [(1 / 2, 55 / 100, 5 / 100)] 1] (fun f => f + 1 / 10) = 1 /\
  sse_ODR [mkFf [(1 / 2, 55 / 100, 5 / 100)] 1] (fun f => f + 1 / 10) = (1 + 1 / 10 ^ 10) ^ 2.
Proof.
  assert (E : sse_NLLS [mkFf [(1 / 2, 55 / 100, 5 / 100)] 1] (fun f => f + 1 / 10) = 1) by (unfold sse_NLLS; cbn [map rsum_list ff_pts ff_weight]; field).
  split; [exact E|]. rewrite C77_unit_weight, E. ring.
Qed.

From Verif Require Import FlashModel FlashRRProps FlashProps.
(** C79: constant K-values (1/2, 0): the flash succeeds and reports them *)
Example C79_case F P T rtol : 0 <= rtol -> exists r,
  flash2_PT (fun _ _ _ _ i => match i with O => 1 / 2 | _ => 0 end) 2 F half2 P T None None None 50 0 rtol 1 = Ok r /\ fr_success r = true /\
  fr_K r 0%nat = Fin (1 / 2) /\ fr_K r 1%nat = Fin 0.
Proof.
  intros Hr. set (Kc := fun (_ _ : R) (_ _ : nat -> R) (i : nat) => match i with O => 1 / 2 | _ => 0 end).
  assert (X : exists r, flash2_PT Kc 2 F half2 P T None None None 50 0 rtol 1 = Ok r /\ fr_success r = true).
  { unfold flash2_PT. cbv zeta. cbn [guess]. set (z := normalise 2 half2). assert (Z : forall i, (i < 2)%nat -> z i = 1 / 2) by exact norm_half.
    assert (HF : feed 2 z). { split; [intros i Hi; rewrite Z by auto; lra|cbn; rewrite !Z by lia; lra]. }
    assert (EM : forall x y, min_pos 2 (Kc T P x y) = Ok (1 / 2)).
    { intros. unfold min_pos. cbn [min_pos_opt Kc]. rewrite (proj2 (Rltb_false 0 0)) by lra. rewrite (proj2 (Rltb_true 0 (1 / 2))) by lra. reflexivity. }
    change 50%nat with (S 49). generalize 49%nat. intros m.
    rewrite (pt_first_sub Kc 2 z T P (S m) 0 rtol 1 m _ (Kc T P z z) z z _ (1 / 2) HF ltac:(reflexivity)); [| |apply EM].
    2:{ cbn [sumn Kc]. rewrite !Z by lia. lra. }
    match goal with |- context [allclose ?a ?b ?c ?d] => assert (allclose a b c d = true) as -> end.
    { apply allclose_spec. intros i Hi. cbn [kfin]. replace (Kc T P _ _ i - Kc T P z z i) with 0 by (unfold Kc; ring).
      rewrite Rabs_R0. pose proof (Rabs_pos (Kc T P z z i)). lra. }
    eexists. split; [reflexivity|]. reflexivity. }
  destruct X as (r & E & S). exists r. split; [exact E|]. split; [exact S|].
  assert (H := C79_nonvolatile Kc 2 1 F half2 P T None None None 50 0 rtol r ltac:(intros [|[|i]] Hi; cbn; lra) ltac:(cbn; lra) ltac:(lia) ltac:(reflexivity) E S).
  rewrite !H. split; reflexivity.
Qed.
(** C80: ln K = 1 - 3000 (1/T - 1/300) boils at 3000/11 K, found from 350 K; ln K = -1 - 3000 (1/T - 1/300)
    boils at 333 K and is rejected *)
Example C80_case F P : (exists r, flash2_PV (Kcc 1 (-3000)) 1 F (fun _ => 2) P 0 None None 350 50 0 0 = Ok r /\ fr_success r = true /\
    Kcc 1 (-3000) (fr_T r) P (fr_x r) (fr_y r) 0%nat = 1) /\
  flash2_PV (Kcc (-1) (-3000)) 1 F (fun _ => 2) P 0 None None 350 50 0 0 = Err ValueError.
Proof.
  split; [apply C80_pure_component|apply C80_pure_component_above_300]; try lra; try lia.
Qed.

From Verif Require Import AcmHeapProps.
(** C82: a solvent and a polymer of 100 units, half of the units each *)
Example C82_case : xs_to_x 2 (fun _ => 1 / 2) (fun i => match i with O => 1 | _ => 100 end) 1%nat = 1 / 101 /\
  sumn 2 (xs_to_x 2 (fun _ => 1 / 2) (fun i => match i with O => 1 | _ => 100 end)) = 1 /\
  xs_to_X 1 1 2 (fun _ => 1 / 2) (fun _ a => match a with O => 3 / 4 | _ => 1 / 4 end) 1%nat = 3 / 8 /\
  sumn 3 (xs_to_X 1 1 2 (fun _ => 1 / 2) (fun _ a => match a with O => 3 / 4 | _ => 1 / 4 end)) = 1.
Proof.
  split; [unfold xs_to_x; cbn [sumn]; field|]. split.
  - apply C82_convert; [intros [|[|i]] Hi; split; lra || lia|cbn; lra].
  - split; [unfold xs_to_X; cbn; field|]. apply (C82_convert_units 1 1 2); [intros; lra|cbn; lra|].
    intros k Hk. split; [intros [|a]; lra|cbn; field].
Qed.

From Verif Require Import NumBounds Erf HmtModel HmtProps WallProps.
(** C90: a sphere at Re = 100 and 400, combined convection 3 and 4, laminar entry flow, the third row of a bank *)
Example C90_case : Nu_sphere 100 1 1 < Nu_sphere 400 1 1 /\ Nu_drop 400 1 = 14 /\
  4 < Nu_combined 3 4 true < 7 /\ Nu_combined 3 4 false < 0 /\
  366 / 100 <= Nu_tube 100 5 (1 / 50) 0 < Nu_tube 200 5 (1 / 50) 0 /\
  Nu_plate_free Vertical 1000 None = Err ValueError /\ bank_C2 true 3 = 86 / 100 /\
  Nu_tank SHelical IRibbon 100 1 1 1 1 1 1 1 1 = Err ValueError.
Proof.
  assert (R1 : Rpower 1 (1 / 3) = 1) by (unfold Rpower; rewrite ln_1, Rmult_0_r; apply exp_0).
  split; [|split; [|split; [|split; [|split; [|split; [|split]]]]]].
  - apply (C90_sphere 1 1). lra.
  - unfold Nu_drop. rewrite R1. rewrite pow0_pos by lra. replace (1 / 2) with (/ 2) by field. rewrite Rpower_sqrt by lra.
    replace 400 with (20 * 20) by ring. rewrite sqrt_square by lra. field.
  - destruct (C90_combined_assisted 3 4) as (_ & A & B); try lra.
  - apply cube_lt. unfold Nu_combined. rewrite rcbrt_cube. lra.
  - apply (C90_tube_laminar 5 0 10 20); lra.
  - now apply C90_plate_free_errors; right; split; [|left].
  - unfold bank_C2. cbn [Nat.ltb Nat.leb]. replace (INR 3) with 3 by (cbn; ring). unfold bank_tab; cbn [interp].
    repeat ((rewrite HmtProps.Rltb_t by lra) || (rewrite HmtProps.Rltb_f by lra)). field.
  - now apply C90_tank.
Qed.
Print Assumptions C47_case. Print Assumptions C79_case. Print Assumptions C90_case.
