(** Concrete cases, with physical values, for the property correlations: each meets the hypotheses of
    the theorems it applies (C52, C54, C55, C87, C88). *)
From Coq Require Import Reals Lra Lia List Bool Arith.
From Coquelicot Require Import Coquelicot.
From Verif Require Import Prelude Deriv NumBounds KinModel RootsModel AcmModel AcmProps EosModel EosProps PropModel PropVapProps PropMixProps TransportProps VapAnchorProps.
Open Scope R_scope.

(** C52: a 1:3 mixture with viscosities 1 and 2, molar masses 2 and 32 *)
Example C52_mixture_case : let y := fun i : nat => match i with O => 1 / 4 | _ => 3 / 4 end in
  let mu := fun i : nat => match i with O => 1 | _ => 2 end in let M := fun i : nat => match i with O => 2 | _ => 32 end in
  1 <= MUVMX2_Herning_Zipperer 2 y mu M <= 2 /\ MUVMX2_Herning_Zipperer 2 (pure 1) mu M = 2 /\
  MUVMX2_Herning_Zipperer 2 (fun i => 100 * y i) mu M = MUVMX2_Herning_Zipperer 2 y mu M /\
  1 <= MULMX2_Perry 2 y mu true <= 2 /\ 1 <= KLMX2_Li 2 y mu M <= 2 /\ 1 <= DVMX 2 y mu <= 2.
Proof.
  intros y mu M. assert (HM : forall i, (i < 2)%nat -> 0 < M i) by (intros [|i] _; cbn; lra).
  assert (Hy : moles 2 y) by (split; [intros [|i] _; cbn; lra|cbn; lra]).
  assert (Hm : forall i, (i < 2)%nat -> 1 <= mu i <= 2) by (intros [|i] _; cbn; lra).
  split; [|split; [|split; [|split; [|split]]]].
  - now apply C52_HZ.
  - now apply (C52_HZ_pure 2 mu M 1); [lia|].
  - apply C52_HZ_scale. lra.
  - apply C52_Perry; auto; try lra. cbn. lra.
  - apply C52_Li; auto; lra.
  - apply C52_DVMX; auto; lra.
Qed.

(** C55: water-like constants (boiling at 373.15 K, critical point 647 K and 22 MPa) *)
Example C55_water_case : PL_Lee_Kesler (37315 / 100) (37315 / 100) 647 22000000 = 101325 /\
  PL_Wilson 300 647 22000000 (344 / 1000) < PL_Wilson 350 647 22000000 (344 / 1000) /\
  (forall a b c d, Wagner25 647 a b c d 22000000 647 = Flt 22000000) /\
  PL_Ambrose_Walton 647 647 22000000 (344 / 1000) = Flt 22000000 /\
  DHVL_Watson 40000 373 373 647 = Flt 40000 /\ DHVL_Pitzer 647 647 (344 / 1000) = Flt 0 /\
  (forall h2 h3, DHVL_Watson 40000 373 300 647 = Flt h2 -> DHVL_Watson 40000 373 350 647 = Flt h3 -> h3 < h2) /\
  VL_Rackett 300 647 22000000 (Some (1 / 4)) (Some (344 / 1000)) = Err ValueError.
Proof.
  split; [apply C55_Lee_Kesler; lra|]. split; [apply C55_Wilson_increasing; lra|]. split; [intros; apply C55_Wagner; lra|].
  split; [apply C55_AW; lra|]. split; [apply C55_Watson_same; lra|]. split; [apply C55_Pitzer_Tc; lra|].
  split; [intros h2 h3 E2 E3; apply (C55_Watson_decreasing 40000 373 300 350 647 h2 h3); auto; lra|].
  apply C55_Rackett_arguments. right. split; discriminate.
Qed.
(** the two latent heats of the previous case do exist *)
Example C55_water_heats : exists h2 h3, DHVL_Watson 40000 373 300 647 = Flt h2 /\ DHVL_Watson 40000 373 350 647 = Flt h3 /\ 0 < h3 < h2.
Proof.
  assert (P : forall T, 0 < T < 647 -> DHVL_Watson 40000 373 T 647 = Flt (40000 * Rpower ((1 - T / 647) / (1 - 373 / 647)) (38 / 100))).
  { intros T HT. unfold DHVL_Watson. assert (0 < (1 - T / 647) / (1 - 373 / 647)) by (apply Rdiv_lt_0_compat; lra).
    now rewrite fpow_pos. }
  do 2 eexists. split; [apply P; lra|]. split; [apply P; lra|]. split; [apply Rmult_lt_0_compat; [lra|apply exp_pos]|].
  apply (C55_Watson_decreasing 40000 373 300 350 647); try lra; apply P; lra.
Qed.
(** C87: Antoine's equation with B = 1500, C = -40 from 300 to 350 K, and its inverse *)
Example C87_Antoine_case : Antoine 300 10 1500 (-40) true < Antoine 350 10 1500 (-40) true /\
  300 = 1500 / (10 - ln (Antoine 300 10 1500 (-40) false)) - -40.
Proof. split; [apply C87_Antoine_increasing; lra|apply C87_Antoine_inverse; lra]. Qed.

(** C88: reduced densities 1/4 and 1 are in the range of Stiel and Thodos, 3 is not; the diffusivity of
    Wilke and Lee grows with temperature and is inverse to the pressure *)
Example C88_ST_case : (exists a1 a2, ST_a (1 / 4) = Ok a1 /\ ST_a 1 = Ok a2 /\ a1 < a2) /\ ~ exists a, ST_a 3 = Ok a.
Proof.
  split; [|intros H; apply C88_ST_domain in H; lra].
  destruct (proj2 (C88_ST_domain (1 / 4)) ltac:(lra)) as (a1 & E1). destruct (proj2 (C88_ST_domain 1) ltac:(lra)) as (a2 & E2).
  exists a1, a2. split; [auto|]. split; [auto|]. apply (C88_ST_increasing (1 / 4) 1); auto. lra.
Qed.
Example C88_WL_air_case : exists k1 k2, DV_Wilke_Lee 300 100000 (78 / 1000) (29 / 1000) 800 None 350 None = Ok k1 /\
  DV_Wilke_Lee 350 100000 (78 / 1000) (29 / 1000) 800 None 350 None = Ok k2 /\ 0 < k1 < k2 /\
  DV_Wilke_Lee 300 (2 * 100000) (78 / 1000) (29 / 1000) 800 None 350 None = Ok (k1 / 2).
Proof.
  do 2 eexists. split; [reflexivity|]. split; [reflexivity|]. split.
  - apply (C88_WL_temperature 300 350 100000 (78 / 1000) (29 / 1000) 800 None 350 None); try lra; try reflexivity. discriminate.
  - apply C88_WL_pressure; [lra|reflexivity].
Qed.
Example C88_liquid_case : 0 < DL_Wilke_Chang 300 (78 / 1000) (92 / 1000) 800 (1 / 1000) 1 /\
  DL_Stokes_Einstein 300 (1 / 10 ^ 9) (1 / 1000) * (6 * PI * (1 / 1000) * (1 / 10 ^ 9)) * (602214076 * 10 ^ 15) = Rgas * 300 /\
  0 < Dean_Stiel_pure (1 / 1000) (44 / 1000) 304 7400000 (94 / 10 ^ 6) /\
  Dean_Stiel_pure (1 / 1000) (44 / 1000) 304 7400000 (94 / 10 ^ 6) < Dean_Stiel_pure (1 / 10000) (44 / 1000) 304 7400000 (94 / 10 ^ 6) /\
  0 < MUVPC_Jossi (1 / 2) (44 / 1000) 304 7400000 < MUVPC_Jossi 2 (44 / 1000) 304 7400000 /\
  Lucas_FP0 (3 / 2) 304 7400000 (274 / 1000) 0 = Flt 1 /\ 0 < WL_omega 2 < WL_omega 1.
Proof.
  split; [apply C88_DL_positive; lra|]. split; [apply C88_Stokes_Einstein; lra|]. split; [apply C88_Dean_Stiel_positive; lra|].
  split; [apply C88_Dean_Stiel_increasing; lra|]. split; [apply C88_Jossi; lra|]. split; [apply C88_Lucas_nonpolar; lra|apply C88_WL_omega; lra].
Qed.
