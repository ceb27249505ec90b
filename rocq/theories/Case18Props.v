(** Concrete cases meeting the hypotheses of theorems of several areas. *)
From Coq Require Import Reals Lra Lia List Bool Arith Psatz String.
From Coquelicot Require Import Coquelicot.
From Verif Require Import Prelude.
Import ListNotations.
Close Scope string_scope.
Open Scope R_scope.

Section ScalarCases.
From Verif Require Import RootsModel RootsProofs RootsProps RootsConvProps.
Open Scope R_scope.
(** x^2 - 2 between 1 and 3: the step is the secant step to 5/4 *)
Example C61_interpolation_case : brent_step (mkB 3 7 1 (-1) 3 7 None) 1 (1 / 100) 2 2 = Ok (1 / 4, 2).
Proof.
  assert (E : exists d' e', brent_step (mkB 3 7 1 (-1) 3 7 None) 1 (1 / 100) 2 2 = Ok (d', e') /\ e' = 2).
  { unfold brent_step, brent_pq. cbn [b_xa b_fa b_xb b_fb b_xc b_fc].
    repeat match goal with |- context [Rleb ?a ?b] => replace (Rleb a b) with true by (symmetry; apply Rleb_true; rewrite ?Rabs_pos_eq by lra; lra) end.
    replace (Rabs (-1)) with 1 by (rewrite Rabs_left by lra; lra). rewrite (Rabs_pos_eq 7) by lra. rewrite (proj2 (Rltb_true 1 7)) by lra. cbn [andb].
    rewrite !pydiv_ok by lra. cbn [bind].
    unfold Reqb. destruct (Req_EM_T 3 3) as [_|F]; [|now destruct F]. cbn [bind].
    rewrite (proj2 (Rltb_false 0 (2 * 1 * (-1 / 7)))) by lra.
    replace (Rabs (2 * 1 * (-1 / 7))) with (2 / 7) by (rewrite Rabs_left by lra; lra).
    rewrite (Rabs_pos_eq (1 / 100 * (1 - -1 / 7))) by lra. rewrite (Rabs_pos_eq (2 * (1 - -1 / 7))) by lra.
    rewrite (proj2 (Rltb_true _ _)) by (apply Rmin_glb_lt; lra). rewrite pydiv_ok by lra. cbn [bind]. do 2 eexists. split; reflexivity. }
  destruct E as (d' & e' & E & E2). rewrite E. subst e'.
  destruct (C61_brent_interpolation (mkB 3 7 1 (-1) 3 7 None) 1 (1 / 100) 2 2 d' 2) as [(_ & B)|(_ & _ & [(_ & B)|(B & _)])]; cbn [b_xa b_fa b_xb b_fb b_xc b_fc] in *; try lra; try exact E.
  f_equal. f_equal. lra.
Qed.
Example C113_quadratic_case tr q y post : root_newton (fun x y => x ^ 2 - y ^ 2 - 2) (fun x y => 2 * x * y) 2 (1 / 10) 0 8 = (tr, Ok q) -> tr = 2 :: y :: post ->
  Rabs (y - sqrt 2) <= 2 / 4 * (2 - sqrt 2) ^ 2.
Proof.
  intros E T. assert (EP : 0 < eps) by (unfold eps; apply Rinv_0_lt_compat; apply pow_lt; lra). assert (EU : eps < 1 / 100) by (pose proof eps_small; lra).
  assert (Q2 : sqrt 2 * sqrt 2 = 2) by (apply sqrt_sqrt; lra). assert (P2 : 0 <= sqrt 2) by apply sqrt_pos. assert (B2 : 7 / 5 <= sqrt 2 <= 3 / 2) by nra.
  apply (C113_newton_quadratic _ _ 2 (1 / 10) 0 8 tr q (sqrt 2) 4 2 ltac:(lra) ltac:(lia) E [] 2 y post T).
  - replace (2 * 2 * eps / eps) with 4 by (field; lra). rewrite Rabs_pos_eq; lra.
  - replace (2 * 2 * eps / eps) with 4 by (field; lra). set (s := sqrt 2) in *. apply Rabs_le. nra.
Qed.
End ScalarCases.

Section VapourCases.
From Verif Require Import KinModel RootsModel PropModel PropVapProps.
Open Scope R_scope.
Example C55_Lee_Kesler_case : PL_Lee_Kesler 280 300 500 (10 ^ 7) < PL_Lee_Kesler 350 300 500 (10 ^ 7).
Proof.
  apply C55_Lee_Kesler_increasing; try lra.
  assert (L : ln (3 / 5) <= - (2 / 5)). { pose proof (exp_ineq1_le (ln (3 / 5))) as H. rewrite exp_ln in H by lra. lra. }
  assert (F : - fLK0 (300 / 500) <= 4). { unfold fLK0. replace (300 / 500) with (3 / 5) by lra. lra. }
  apply Rle_trans with (exp 4); [destruct F as [F|F]; [left; now apply exp_increasing|rewrite F; apply Rle_refl]|].
  replace 4 with (1 + 1 + 1 + 1) by ring. rewrite !exp_plus. pose proof exp_le_3. pose proof (exp_pos 1).
  assert (exp 1 * exp 1 <= 9) by nra. assert (0 < exp 1 * exp 1) by nra. set (s := exp 1 * exp 1) in *. replace (s * exp 1 * exp 1) with (s * s) by (unfold s; ring). nra.
Qed.
End VapourCases.

Section StockmayerCases.
From Verif Require Import RootsModel CopoModel StepModel DimProps2.
Open Scope R_scope.
(** masses in g/mol instead of kg/mol *)
Example C118_Stockmayer_case : Stockmayer 1 1 (fun _ => 2) (fun _ => 3) (fun _ => 3) (fun _ => 2) (fun _ => 1000 * (1 / 10)) (fun _ => 1000 * (2 / 10)) (1 / 2)
  = (flscale 1000 (fst (Stockmayer 1 1 (fun _ => 2) (fun _ => 3) (fun _ => 3) (fun _ => 2) (fun _ => 1 / 10) (fun _ => 2 / 10) (1 / 2))),
     flscale 1000 (snd (Stockmayer 1 1 (fun _ => 2) (fun _ => 3) (fun _ => 3) (fun _ => 2) (fun _ => 1 / 10) (fun _ => 2 / 10) (1 / 2)))).
Proof. apply (C118_Stockmayer_mass 1 1 (fun _ => 2) (fun _ => 3) (fun _ => 3) (fun _ => 2) (fun _ => 1 / 10) (fun _ => 2 / 10)). lra. Qed.
End StockmayerCases.

Section HydrocarbonCases.
From Verif Require Import KinModel RootsModel PropModel PropVapProps VapAnchorProps.
Open Scope R_scope.
(** 100 g/mol, boiling 1 K and 20 K above the temperature at which the last term of the correlation vanishes *)
Example C115_hydrocarbon_case : let T0 := Rpower (263 * (1 / 10 * 1000)) (581 / 1000) in exists h1 h2,
  DHVL_Kistiakowsky_Vetere (T0 + 1) (Some (1 / 10)) KvHydrocarbon = Ok (Flt h1) /\ DHVL_Kistiakowsky_Vetere (T0 + 20) (Some (1 / 10)) KvHydrocarbon = Ok (Flt h2) /\ h1 < h2.
Proof.
  intros T0.
  assert (E : forall d, 0 < d -> exists h, DHVL_Kistiakowsky_Vetere (T0 + d) (Some (1 / 10)) KvHydrocarbon = Ok (Flt h)).
  { intros d Hd. unfold DHVL_Kistiakowsky_Vetere. fold T0. replace (T0 + d - T0) with d by ring. unfold fpow. rewrite ?(proj2 (Rltb_true 0 d)) by lra. cbn [pmap]. eexists. reflexivity. }
  destruct (E 1 ltac:(lra)) as (h1 & E1). destruct (E 20 ltac:(lra)) as (h2 & E2). exists h1, h2. split; [exact E1|]. split; [exact E2|].
  apply (C115_hydrocarbon (T0 + 1) (T0 + 20) (1 / 10) h1 h2); try lra; assumption.
Qed.
End HydrocarbonCases.
