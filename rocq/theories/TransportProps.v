(** C88: the mixture rule of Stiel-Thodos/Yorizane and the diameter of Wilke-Lee. *)
From Coq Require Import Reals Lra Lia Bool Arith Psatz.
From Verif Require Import Prelude KinModel RootsModel AcmModel AcmProps EosModel EosProps NumBounds PropModel PropMixProps.
Open Scope R_scope.

Lemma cbrt_cube x : 0 < x -> 1 / 8 * (Rpower x (1 / 3) + Rpower x (1 / 3)) ^ 3 = x.
Proof.
  intros H. assert (E : Rpower x (1 / 3) ^ 3 = x). { rewrite <- Rpower_pow by apply rp_pos. rewrite Rpower_mult. replace (1 / 3 * INR 3) with 1 by (cbn; field). now apply Rpower_1. }
  transitivity (Rpower x (1 / 3) ^ 3); [field|exact E].
Qed.
Lemma sumn2_const N (y : nat -> R) (c : nat -> nat -> R) k : sumn N y = 1 -> (forall i j, c i j = k) -> sumn N (fun i => sumn N (fun j => y i * y j * c i j)) = k.
Proof.
  intros S H. rewrite (sumn_ext N _ (fun i => y i * k)).
  - rewrite sumn_scal_r, S. ring.
  - intros i _. rewrite (sumn_ext N _ (fun j => y j * (y i * k))); [rewrite sumn_scal_r, S; ring|]. intros j _. rewrite H. ring.
Qed.
(** identical components: the mixture rule replaces Zc by 0.291 - 0.08 w and adapts Pc to it; vc and Tc are kept *)
Theorem C88_ST_identical N v y M Tc Pc Zc w : sumn N y = 1 -> 0 < Tc -> 0 < Pc -> 0 < Zc ->
  let Zm := 291 / 1000 - 8 / 100 * w in
  KVMXPC_Stiel_Thodos N v y (fun _ => M) (fun _ => Tc) (fun _ => Pc) (fun _ => Zc) (fun _ => w) = KVPC_Stiel_Thodos v M Tc (Pc * (Zm / Zc)) Zm.
Proof.
  intros S HT HP HZ Zm. pose proof Rgas_pos as HR. unfold KVMXPC_Stiel_Thodos. cbv zeta. set (vc := Zc * Rgas * Tc / Pc). assert (V0 : 0 < vc) by (unfold vc; apply Rdiv_lt_0_compat; [apply Rmult_lt_0_compat; [now apply Rmult_lt_0_compat|auto]|auto]).
  assert (EV : forall i j : nat, (if Nat.eqb i j then vc else 1 / 8 * (Rpower vc (1 / 3) + Rpower vc (1 / 3)) ^ 3) = vc) by (intros i j; destruct (Nat.eqb i j); [reflexivity|now apply cbrt_cube]).
  assert (ET : forall i j : nat, (if Nat.eqb i j then Tc else sqrt (Tc * Tc)) = Tc) by (intros i j; destruct (Nat.eqb i j); [reflexivity|apply sqrt_square; lra]).
  rewrite (sumn2_const N y (fun i j => if Nat.eqb i j then vc else 1 / 8 * (Rpower vc (1 / 3) + Rpower vc (1 / 3)) ^ 3) vc S EV).
  rewrite (sumn_ext N (fun i => sumn N (fun j => y i * y j * (if Nat.eqb i j then vc else 1 / 8 * (Rpower vc (1 / 3) + Rpower vc (1 / 3)) ^ 3) * (if Nat.eqb i j then Tc else sqrt (Tc * Tc)))) (fun i => sumn N (fun j => y i * y j * (vc * Tc)))) by (intros i _; apply sumn_ext; intros j _; rewrite EV, ET; ring).
  rewrite (sumn2_const N y (fun _ _ => vc * Tc) (vc * Tc) S) by reflexivity. rewrite !sumn_scal_r, S, !Rmult_1_l. fold Zm. replace (vc * Tc / vc) with Tc by (field; lra). f_equal. unfold vc. field. repeat split; lra.
Qed.
(** a one-component "mixture" therefore has the conductivity of the component only if Zc = 0.291 - 0.08 w *)
Theorem C88_ST_single v M Tc Pc Zc w k : 0 < v -> 0 < M -> 0 < Tc -> 0 < Pc -> 0 < Zc -> 0 < 291 / 1000 - 8 / 100 * w -> KVPC_Stiel_Thodos v M Tc Pc Zc = Ok k ->
  KVMXPC_Stiel_Thodos 1 v (fun _ => 1) (fun _ => M) (fun _ => Tc) (fun _ => Pc) (fun _ => Zc) (fun _ => w) = Ok k <-> Zc = 291 / 1000 - 8 / 100 * w.
Proof.
  intros Hv HM HT HP HZ HW H. rewrite C88_ST_identical by (cbn; lra). set (Zm := 291 / 1000 - 8 / 100 * w) in *. cbv zeta. pose proof Rgas_pos as HR. split; [|intros <-; replace (Pc * (Zc / Zc)) with Pc by (field; lra); exact H].
  pose proof (C88_ST_positive v M Tc Pc Zc k Hv HM HT HP HZ H) as K0. unfold KVPC_Stiel_Thodos in *. replace (Zm * Rgas * Tc / (Pc * (Zm / Zc)) / v) with (Zc * Rgas * Tc / Pc / v) by (field; repeat split; lra). destruct (ST_a (Zc * Rgas * Tc / Pc / v)) as [a|]; [|discriminate]. cbn [bind] in *. apply (f_equal (fun r => match r with Ok x => x | Err _ => 0 end)) in H. cbv beta iota in H. subst k. intros H. apply (f_equal (fun r => match r with Ok x => x | Err _ => 0 end)) in H. cbv beta iota in H.
  set (g := Tc * M ^ 3 * NA ^ 2 / (Rgas ^ 5 * Pc ^ 4)) in *. assert (N0 : 0 < NA) by (unfold NA; apply Rmult_lt_0_compat; [lra|apply pow_lt; lra]). assert (G0 : 0 < g). { unfold g. pose proof (pow_lt M 3 HM). pose proof (pow_lt NA 2 N0). pose proof (pow_lt Rgas 5 HR). pose proof (pow_lt Pc 4 HP). apply Rdiv_lt_0_compat; [apply Rmult_lt_0_compat; [apply Rmult_lt_0_compat|]|apply Rmult_lt_0_compat]; assumption. }
  assert (EG : Tc * M ^ 3 * NA ^ 2 / (Rgas ^ 5 * (Pc * (Zm / Zc)) ^ 4) = g * (Zc / Zm) ^ 4) by (unfold g; field; repeat split; lra). rewrite EG in H. set (r := Zc / Zm) in *. assert (R0 : 0 < r) by (now apply Rdiv_lt_0_compat).
  rewrite <- (Rpower_mult_distr g (r ^ 4) (1 / 6)) in H by (auto; now apply pow_lt). set (G := Rpower g (1 / 6)) in *. assert (GP : 0 < G) by apply rp_pos. set (s := Rpower (r ^ 4) (1 / 6)) in *. assert (SP : 0 < s) by apply rp_pos.
  assert (A0 : a <> 0). { intros Z. rewrite Z in K0. unfold Rdiv in K0. rewrite Rmult_0_l in K0. lra. }
  assert (E : G * Zc ^ 5 = G * s * Zm ^ 5). { assert (P1 : 0 < Zc ^ 5) by (now apply pow_lt). assert (P2 : 0 < Zm ^ 5) by (now apply pow_lt). assert (X0 : 0 < G * Zc ^ 5) by (now apply Rmult_lt_0_compat). assert (Y0 : 0 < G * s * Zm ^ 5) by (apply Rmult_lt_0_compat; [now apply Rmult_lt_0_compat|auto]). set (X := G * Zc ^ 5) in *. set (Y := G * s * Zm ^ 5) in *. apply (Rmult_eq_reg_l a); [|exact A0]. transitivity (a / Y * Y * X); [field; lra|]. rewrite H. field. lra. }
  assert (E2 : r ^ 5 = s). { apply (Rmult_eq_reg_r (G * Zm ^ 5)); [|apply Rgt_not_eq, Rmult_lt_0_compat; [auto|now apply pow_lt]]. replace (s * (G * Zm ^ 5)) with (G * s * Zm ^ 5) by ring. rewrite <- E. unfold r. field. lra. }
  assert (E3 : r ^ 26 = 1). { assert (S6 : s ^ 6 = r ^ 4). { unfold s. rewrite <- Rpower_pow by apply rp_pos. rewrite Rpower_mult. replace (1 / 6 * INR 6) with 1 by (rewrite INR_IZR_INZ; cbn; field). apply Rpower_1. now apply pow_lt. } rewrite <- E2 in S6. apply (Rmult_eq_reg_r (r ^ 4)); [|apply pow_nonzero; lra]. rewrite Rmult_1_l. rewrite <- S6 at 2. ring. }
  assert (R1 : r = 1). { destruct (Rtotal_order r 1) as [L|[L|L]]; auto; exfalso; [|pose proof (Rlt_pow_R1 r 26 L ltac:(lia)); lra]. assert (RI : 1 < / r) by (rewrite <- Rinv_1; apply Rinv_lt_contravar; lra). pose proof (Rlt_pow_R1 (/ r) 26 RI ltac:(lia)) as X. rewrite pow_inv, E3, Rinv_1 in X. lra. }
  unfold r in R1. replace Zc with (Zc / Zm * Zm) by (field; lra). rewrite R1. ring.
Qed.
(** Wilke-Lee: a molar volume of s^3 cm3/mol at the boiling point gives the diameter 1.18 s *)
Theorem C88_WL_diameter M rho s : 0 < rho -> 0 < s -> M / rho = s ^ 3 / 10 ^ 6 -> WL_sigma M rho = 118 / 100 * s.
Proof.
  intros Hr Hs H. unfold WL_sigma. replace (1000000 * M / rho) with (10 ^ 6 * (M / rho)) by (field; lra). rewrite H. replace (10 ^ 6 * (s ^ 3 / 10 ^ 6)) with (s ^ 3) by (field; apply pow_nonzero; lra). f_equal.
  rewrite <- Rpower_pow by auto. rewrite Rpower_mult. replace (INR 3 * (1 / 3)) with 1 by (cbn; field). now apply Rpower_1.
Qed.
(** ethylene at its critical density: the "mixture" of one component differs from the pure component *)
Theorem C88_ST_mixture_refuted : exists v M Tc Pc Zc w k, 0 < v /\ 0 < M /\ 0 < Tc /\ 0 < Pc /\ KVPC_Stiel_Thodos v M Tc Pc Zc = Ok k /\
  KVMXPC_Stiel_Thodos 1 v (fun _ => 1) (fun _ => M) (fun _ => Tc) (fun _ => Pc) (fun _ => Zc) (fun _ => w) <> Ok k.
Proof.
  pose proof Rgas_pos as HR. set (vc := 28 / 100 * Rgas * (2824 / 10) / 5040000). assert (V0 : 0 < vc) by (unfold vc; lra). destruct (proj2 (C88_ST_domain (vc / vc))) as (a & Ea); [unfold Rdiv; rewrite Rinv_r; lra|].
  assert (E : exists k, KVPC_Stiel_Thodos vc (2805 / 100000) (2824 / 10) 5040000 (28 / 100) = Ok k) by (unfold KVPC_Stiel_Thodos; fold vc; rewrite Ea; cbn [bind]; eauto). destruct E as (k & E).
  exists vc, (2805 / 100000), (2824 / 10), 5040000, (28 / 100), (89 / 1000), k. do 4 (split; [lra|]). split; [exact E|]. intros H. apply C88_ST_single in H; auto; lra.
Qed.
Example C88_WL_case : WL_sigma (27 / 1000) 1000 = 354 / 100.
Proof. rewrite (C88_WL_diameter (27 / 1000) 1000 3); lra. Qed.
Print Assumptions C88_ST_single.

(** ** Dense-gas viscosity *)
(** Jossi-Stiel-Thodos: the residual viscosity is positive and increases with the density at all densities, although the polynomial has a negative term *)
Theorem C88_Jossi r1 r2 M Tc Pc : 0 <= r1 -> r1 < r2 -> 0 < MUVPC_Jossi r1 M Tc Pc < MUVPC_Jossi r2 M Tc Pc.
Proof.
  intros H0 H. unfold MUVPC_Jossi. cbv zeta. set (xi := 6872969367 / 10 * Rpower (Tc / (M ^ 3 * Pc ^ 4)) (1 / 6)). assert (X : 0 < / xi) by (apply Rinv_0_lt_compat; unfold xi; pose proof (rp_pos (Tc / (M ^ 3 * Pc ^ 4)) (1 / 6)); lra).
  set (f := fun r => 10230 / 10000 + 23364 / 100000 * r + 58533 / 100000 * r ^ 2 - 40758 / 100000 * r ^ 3 + 93324 / 1000000 * r ^ 4). assert (L : forall r, 0 <= r -> 102 / 100 < f r). { intros r Hr. unfold f. assert (Q1 : 0 <= (r * (r - 203790 / 93324)) ^ 2) by apply pow2_ge_0. assert (Q2 : 0 <= r ^ 2) by apply pow2_ge_0. replace ((r * (r - 203790 / 93324)) ^ 2) with (r ^ 4 - 2 * (203790 / 93324) * r ^ 3 + (203790 / 93324) ^ 2 * r ^ 2) in Q1 by ring. lra. }
  assert (I : f r1 < f r2). { assert (E : f r2 - f r1 = (r2 - r1) * (23364 / 100000 + 58533 / 100000 * (r1 + r2) - 40758 / 100000 * (r1 ^ 2 + r1 * r2 + r2 ^ 2) + 93324 / 1000000 * (r1 + r2) * (r1 ^ 2 + r2 ^ 2))) by (unfold f; ring). cut (0 < f r2 - f r1); [lra|]. rewrite E. apply Rmult_lt_0_compat; [lra|].
    set (s := r1 + r2). set (d2 := (r2 - r1) ^ 2). assert (D2 : 0 <= d2 <= s ^ 2) by (unfold d2, s; split; nra). replace (r1 ^ 2 + r1 * r2 + r2 ^ 2) with (3 / 4 * s ^ 2 + d2 / 4) by (unfold s, d2; field). replace (r1 ^ 2 + r2 ^ 2) with ((s ^ 2 + d2) / 2) by (unfold s, d2; field). assert (S0 : 0 < s) by (unfold s; lra). clearbody s d2. clear - D2 S0.
    assert (Q1 : 0 <= (s - 305685 / 93324) ^ 2) by apply pow2_ge_0. assert (Q2 : 0 <= (s - 203790 / 93324) ^ 2) by apply pow2_ge_0. assert (A1 : 0 < s * (58533 / 100000 - 305685 / 1000000 * s + 46662 / 1000000 * s ^ 2)) by (apply Rmult_lt_0_compat; [auto|nra]). assert (A2 : 0 < s * (58533 / 100000 - 40758 / 100000 * s + 93324 / 1000000 * s ^ 2)) by (apply Rmult_lt_0_compat; [auto|nra]).
    destruct (Rle_lt_dec (101895 / 46662) s) as [C|C]; [assert (0 <= d2 * (46662 / 1000000 * s - 101895 / 1000000)) by (apply Rmult_le_pos; lra); nra|]. assert (0 <= (s ^ 2 - d2) * (101895 / 1000000 - 46662 / 1000000 * s)) by (apply Rmult_le_pos; lra). nra. }
  fold (f r1). fold (f r2). pose proof (L r1 H0). assert (P : f r1 ^ 4 < f r2 ^ 4). { assert (f r1 ^ 2 < f r2 ^ 2) by nra. assert (0 < f r1 ^ 2) by nra. nra. } assert (P1 : 1 < f r1 ^ 4). { assert (1 < f r1 ^ 2) by nra. nra. } unfold Rdiv. split; [apply Rmult_lt_0_compat; lra|apply Rmult_lt_compat_r; lra].
Qed.
(** at vanishing density the correction does not vanish: (1.023^4 - 1) / xi, about 0.095 / xi *)
Theorem C88_Jossi_zero M Tc Pc : MUVPC_Jossi 0 M Tc Pc = (1023 ^ 4 / 1000 ^ 4 - 1) / (6872969367 / 10 * Rpower (Tc / (M ^ 3 * Pc ^ 4)) (1 / 6)).
Proof. unfold MUVPC_Jossi. cbv zeta. f_equal. field. Qed.
Theorem C88_Dean_Stiel_increasing v1 v2 M Tc Pc vc : 0 < v1 < v2 -> 0 < M -> 0 < Pc -> 0 < vc -> Dean_Stiel_pure v2 M Tc Pc vc < Dean_Stiel_pure v1 M Tc Pc vc.
Proof.
  intros Hv HM HP Hc. unfold Dean_Stiel_pure. cbv zeta. assert (L : vc / v2 < vc / v1) by (unfold Rdiv; apply Rmult_lt_compat_l; auto; apply Rinv_lt_contravar; [apply Rmult_lt_0_compat; lra|lra]). assert (R2 : 0 < vc / v2) by (apply Rdiv_lt_0_compat; lra).
  assert (X : 0 < 68700 * Rpower Tc (1 / 6) / (sqrt M * Rpower Pc (2 / 3))). { apply Rdiv_lt_0_compat; [pose proof (rp_pos Tc (1 / 6)); lra|]. apply Rmult_lt_0_compat; [now apply sqrt_lt_R0|apply rp_pos]. } set (xi := 68700 * Rpower Tc (1 / 6) / (sqrt M * Rpower Pc (2 / 3))) in *.
  assert (DV : forall x y, x < y -> x / xi < y / xi) by (intros x y Q; unfold Rdiv; apply Rmult_lt_compat_r; [now apply Rinv_0_lt_compat|exact Q]). apply DV. apply Rmult_lt_compat_l; [lra|]. pose proof (rp_base (vc / v2) (vc / v1) (1858 / 1000) R2 L ltac:(lra)). assert (exp (1439 / 1000 * (vc / v2)) < exp (1439 / 1000 * (vc / v1))) by (apply exp_increasing; lra). assert (exp (- (1111 / 1000) * Rpower (vc / v1) (1858 / 1000)) < exp (- (1111 / 1000) * Rpower (vc / v2) (1858 / 1000))) by (apply exp_increasing; lra). lra.
Qed.
Theorem C88_Dean_Stiel_identical N v y M Tc Pc Zc : sumn N y = 1 -> 0 < Tc -> 0 < Pc -> 0 < Zc ->
  MUVMXPC_Dean_Stiel N v y (fun _ => M) (fun _ => Tc) (fun _ => Pc) (fun _ => Zc) = Dean_Stiel_pure v M Tc Pc (Zc * Rgas * Tc / Pc).
Proof.
  intros S HT HP HZ. pose proof Rgas_pos. unfold MUVMXPC_Dean_Stiel, pseudocritical_properties. cbv zeta. rewrite !sumn_scal_r, S, !Rmult_1_l. f_equal. field. repeat split; lra.
Qed.

(** ** Gas diffusion *)
Lemma omega_pos t : 0 < WL_omega t.
Proof. unfold WL_omega. pose proof (rp_pos t (15610 / 100000)). assert (forall a b, 0 < a -> 0 < b -> 0 < a / b) by (intros; now apply Rdiv_lt_0_compat). pose proof (H0 (106036 / 100000) _ ltac:(lra) H). pose proof (H0 (19300 / 100000) _ ltac:(lra) (exp_pos (47635 / 100000 * t))). pose proof (H0 (103587 / 100000) _ ltac:(lra) (exp_pos (152996 / 100000 * t))). pose proof (H0 (176474 / 100000) _ ltac:(lra) (exp_pos (389411 / 100000 * t))). lra. Qed.
(** the collision integral decreases with the reduced temperature *)
Theorem C88_WL_omega t1 t2 : 0 < t1 -> t1 < t2 -> 0 < WL_omega t2 < WL_omega t1.
Proof.
  intros H0 H. split; [apply omega_pos|]. unfold WL_omega. pose proof (rp_base t1 t2 (15610 / 100000) H0 H ltac:(lra)) as B. pose proof (rp_pos t1 (15610 / 100000)).
  assert (G : forall a x y, 0 < a -> 0 < x -> x < y -> a / y < a / x) by (intros a x y Ha Hx Hy; unfold Rdiv; apply Rmult_lt_compat_l; [auto|apply Rinv_lt_contravar; [apply Rmult_lt_0_compat; lra|lra]]).
  assert (E : forall c, 0 < c -> exp (c * t1) < exp (c * t2)) by (intros c Hc; apply exp_increasing; nra).
  pose proof (G (106036 / 100000) _ _ ltac:(lra) H1 B). pose proof (G (19300 / 100000) _ _ ltac:(lra) (exp_pos _) (E (47635 / 100000) ltac:(lra))). pose proof (G (103587 / 100000) _ _ ltac:(lra) (exp_pos _) (E (152996 / 100000) ltac:(lra))). pose proof (G (176474 / 100000) _ _ ltac:(lra) (exp_pos _) (E (389411 / 100000) ltac:(lra))). lra.
Qed.
(** the diffusivity is positive and increases with temperature (molar masses of at least 1 g/mol) *)
Theorem C88_WL_temperature T1 T2 P MA MB rA rB TA TB k1 k2 : 0 < T1 -> T1 < T2 -> 0 < P -> 1 / 1000 <= MA -> 1 / 1000 <= MB -> 0 < rA -> 0 < TA -> (forall t, TB = Some t -> 0 < t) ->
  DV_Wilke_Lee T1 P MA MB rA rB TA TB = Ok k1 -> DV_Wilke_Lee T2 P MA MB rA rB TA TB = Ok k2 -> 0 < k1 < k2.
Proof.
  intros HT1 HT HP HA HB HrA HTA HTB E1 E2. set (MAB := 1000 * 2 / (1 / MA + 1 / MB)).
  assert (M1 : 1 <= MAB). { unfold MAB. assert (IA : 1 / MA <= 1000) by (apply (Rmult_le_reg_r MA); [lra|]; unfold Rdiv; rewrite Rmult_assoc, Rinv_l; lra). assert (IB : 1 / MB <= 1000) by (apply (Rmult_le_reg_r MB); [lra|]; unfold Rdiv; rewrite Rmult_assoc, Rinv_l; lra). assert (0 < 1 / MA) by (apply Rdiv_lt_0_compat; lra). assert (0 < 1 / MB) by (apply Rdiv_lt_0_compat; lra). apply (Rmult_le_reg_r (1 / MA + 1 / MB)); [lra|]. unfold Rdiv at 3. rewrite Rmult_assoc, Rinv_l by lra. lra. }
  assert (S1 : 1 <= sqrt MAB) by (rewrite <- sqrt_1; apply sqrt_le_1_alt; lra). assert (C0 : 0 < 1 / 100 * (303 / 100 - 98 / 100 / sqrt MAB)). { assert (98 / 100 / sqrt MAB <= 98 / 100). { apply (Rmult_le_reg_r (sqrt MAB)); [lra|]. unfold Rdiv at 1. rewrite Rmult_assoc, Rinv_l by lra. lra. } lra. }
  assert (G : forall s e, 0 < s -> 0 < e -> 0 < 1 / 100 * (303 / 100 - 98 / 100 / sqrt MAB) * Rpower T1 (3 / 2) / (P * sqrt MAB * s ^ 2 * WL_omega (T1 / e)) < 1 / 100 * (303 / 100 - 98 / 100 / sqrt MAB) * Rpower T2 (3 / 2) / (P * sqrt MAB * s ^ 2 * WL_omega (T2 / e))).
  { intros s e Hs He. set (c := 1 / 100 * (303 / 100 - 98 / 100 / sqrt MAB)) in *. assert (Q : 0 < P * sqrt MAB * s ^ 2) by (apply Rmult_lt_0_compat; [apply Rmult_lt_0_compat; lra|now apply pow_lt]). set (q := P * sqrt MAB * s ^ 2) in *. pose proof (C88_WL_omega (T1 / e) (T2 / e) ltac:(now apply Rdiv_lt_0_compat) ltac:(unfold Rdiv; apply Rmult_lt_compat_r; [now apply Rinv_0_lt_compat|auto])) as O. pose proof (omega_pos (T1 / e)) as O1. pose proof (rp_base T1 T2 (3 / 2) HT1 HT ltac:(lra)) as B. pose proof (rp_pos T1 (3 / 2)) as B1.
    assert (Q1 : 0 < q * WL_omega (T1 / e)) by (now apply Rmult_lt_0_compat). assert (Q2 : 0 < q * WL_omega (T2 / e) < q * WL_omega (T1 / e)) by (split; [apply Rmult_lt_0_compat; lra|apply Rmult_lt_compat_l; lra]). split; [apply Rdiv_lt_0_compat; [now apply Rmult_lt_0_compat|auto]|]. unfold Rdiv. apply Rmult_gt_0_lt_compat; [apply Rinv_0_lt_compat; lra|apply Rmult_lt_0_compat; lra|apply Rmult_lt_compat_l; auto|]. apply Rinv_lt_contravar; [apply Rmult_lt_0_compat; lra|lra]. }
  assert (SA : 0 < WL_sigma MA rA) by (unfold WL_sigma; pose proof (rp_pos (1000000 * MA / rA) (1 / 3)); lra). unfold DV_Wilke_Lee in E1, E2. fold MAB in E1, E2. destruct rB as [r|], TB as [t|]; cbn [bind] in E1, E2; try discriminate; apply (f_equal (fun r => match r with Ok x => x | Err _ => 0 end)) in E1; apply (f_equal (fun r => match r with Ok x => x | Err _ => 0 end)) in E2; cbv beta iota in E1, E2; subst k1 k2.
  - apply G. + assert (0 < WL_sigma MB r) by (unfold WL_sigma; pose proof (rp_pos (1000000 * MB / r) (1 / 3)); lra). lra. + apply sqrt_lt_R0. pose proof (HTB t eq_refl). apply Rmult_lt_0_compat; lra.
  - apply G; [lra|]. apply sqrt_lt_R0. lra.
Qed.

(** ** DIPPR equations 102 (gas viscosity, conductivity) and 104 (second virial coefficient) *)
(** with B = 1/2 and D = 0 equation 102 is the law of Sutherland *)
Theorem C87_DIPPR102_Sutherland T A C : 0 < T -> 0 < T + C -> DIPPR102 T A (1 / 2) C 0 = A * sqrt T ^ 3 / (T + C).
Proof.
  intros HT HC. unfold DIPPR102. replace (1 / 2) with (/ 2) by field. rewrite Rpower_sqrt by auto. replace (sqrt T ^ 3) with (sqrt T * T) by (rewrite <- (sqrt_sqrt T) at 2 by lra; ring). field; repeat split; nra.
Qed.
Theorem C87_DIPPR102_increasing T1 T2 A B C D : 0 < T1 -> T1 < T2 -> 0 < A -> 0 < B -> 0 <= C -> 0 <= D -> 0 < DIPPR102 T1 A B C D < DIPPR102 T2 A B C D.
Proof.
  intros H1 H2 HA HB HC HD. unfold DIPPR102. pose proof (rp_base T1 T2 B H1 H2 HB) as P. pose proof (rp_pos T1 B) as P1. assert (I : / T2 < / T1) by (apply Rinv_lt_contravar; [apply Rmult_lt_0_compat; lra|lra]). assert (I2 : 0 < / T2) by (apply Rinv_0_lt_compat; lra).
  assert (E : forall T, 0 < T -> 1 + C / T + D / T ^ 2 = 1 + C * / T + D * (/ T) ^ 2) by (intros T HT; field; lra). rewrite !E by lra. set (i1 := / T1) in *. set (i2 := / T2) in *. assert (C * i2 <= C * i1) by (apply Rmult_le_compat_l; lra). assert (D * i2 ^ 2 <= D * i1 ^ 2) by (apply Rmult_le_compat_l; [auto|nra]). assert (0 <= C * i2) by (apply Rmult_le_pos; lra). assert (0 <= D * i2 ^ 2) by (apply Rmult_le_pos; [auto|apply pow2_ge_0]).
  split; [apply Rdiv_lt_0_compat; [now apply Rmult_lt_0_compat|lra]|]. unfold Rdiv. apply Rlt_le_trans with (A * Rpower T2 B * / (1 + C * i1 + D * i1 ^ 2)); [apply Rmult_lt_compat_r; [apply Rinv_0_lt_compat; lra|apply Rmult_lt_compat_l; auto]|]. apply Rmult_le_compat_l; [apply Rmult_le_pos; lra|]. apply Rinv_le_contravar; lra.
Qed.
(** second virial coefficients: with non-positive B..E, one of them negative, equation 104 rises towards A *)
Theorem C87_DIPPR104_increasing T1 T2 A B C D E : 0 < T1 -> T1 < T2 -> B < 0 -> C <= 0 -> D <= 0 -> E <= 0 -> DIPPR104 T1 A B C D E < DIPPR104 T2 A B C D E < A.
Proof.
  intros H1 H2 HB HC HD HE. unfold DIPPR104. assert (I : / T2 < / T1) by (apply Rinv_lt_contravar; [apply Rmult_lt_0_compat; lra|lra]). assert (I2 : 0 < / T2) by (apply Rinv_0_lt_compat; lra).
  assert (G : forall k n, k <= 0 -> k / T1 ^ n <= k / T2 ^ n <= 0). { intros k n Hk. unfold Rdiv. rewrite <- !pow_inv. assert ((/ T2) ^ n <= (/ T1) ^ n) by (apply pow_incr; lra). assert (0 <= (/ T2) ^ n) by (apply pow_le; lra). nra. }
  pose proof (G C 3%nat HC). pose proof (G D 8%nat HD). pose proof (G E 9%nat HE). unfold Rdiv in *. nra.
Qed.
(** non-vacuous cases *)
Example C87_DIPPR102_case : DIPPR102 4 3 (1 / 2) 4 0 = 3.
Proof. rewrite C87_DIPPR102_Sutherland by lra. replace (sqrt 4) with 2 by (replace 4 with (2 * 2) by lra; symmetry; apply sqrt_square; lra). field. Qed.
Example C87_DIPPR104_case : DIPPR104 1 10 (-1) (-2) 0 (-3) = 4 /\ 9 < DIPPR104 2 10 (-1) (-2) 0 (-3) < 10.
Proof. unfold DIPPR104. lra. Qed.
(** at the critical density (reduced density 1) the reduced residual viscosity of Jossi et al. is 1.52732^4 - 1 *)
Example C88_Jossi_case : forall Tc M Pc, 4 < MUVPC_Jossi 1 M Tc Pc * (6872969367 / 10 * Rpower (Tc / (M ^ 3 * Pc ^ 4)) (1 / 6)) < 45 / 10.
Proof. intros. unfold MUVPC_Jossi. cbv zeta. pose proof (rp_pos (Tc / (M ^ 3 * Pc ^ 4)) (1 / 6)). match goal with |- _ < ?a / ?b * ?c < _ => replace (a / b * c) with a by (field; lra) end. lra. Qed.
Print Assumptions C88_WL_temperature.
Print Assumptions C87_DIPPR102_increasing.
