(** C52 (mixing rules are means), C88 (transport correlations), C89 (Vrentas-Duda). *)
From Coq Require Import Reals Lra Lia List Bool Arith Psatz FunctionalExtensionality.
From Verif Require Import Prelude KinModel RootsModel AcmModel AcmProps EosModel EosProps Deriv NumBounds PropModel.
Import ListNotations.
Open Scope R_scope.

(* ------------------------------------------------------------------ *)
(** * C52                                                             *)
(* ------------------------------------------------------------------ *)

(** weighted means *)
Lemma wmean N a mu lo hi : (forall i, (i < N)%nat -> 0 <= a i) -> sumn N a = 1 -> (forall i, (i < N)%nat -> lo <= mu i <= hi) ->
  lo <= sumn N (fun i => a i * mu i) <= hi.
Proof.
  intros HA S B. split.
  - apply Rle_trans with (sumn N (fun i => a i * lo)); [rewrite sumn_scal_r, S; lra|]. apply sumn_le. intros i Hi. apply Rmult_le_compat_l; auto. now apply B.
  - apply Rle_trans with (sumn N (fun i => a i * hi)); [|rewrite sumn_scal_r, S; lra]. apply sumn_le. intros i Hi. apply Rmult_le_compat_l; auto. now apply B.
Qed.
Lemma norm_weights N a : moles N a -> (forall i, (i < N)%nat -> 0 <= a i / sumn N a) /\ sumn N (fun i => a i / sumn N a) = 1.
Proof. intros M. destruct (frac_moles N a M) as ((H & _) & S). split; auto. Qed.
Lemma moles_w N y c : moles N y -> (forall i, (i < N)%nat -> 0 < c i) -> moles N (fun i => y i * c i).
Proof. intros M C. split; [intros; apply Rmult_le_pos; [now apply M|left; auto]|now apply moles_wsum]. Qed.

(** MUVMX2_Herning_Zipperer and KVMX2_Wassilijewa: bounds, pure value, normalisation *)
Theorem C52_HZ N y mu M lo hi : moles N y -> (forall i, (i < N)%nat -> 0 < M i) -> (forall i, (i < N)%nat -> lo <= mu i <= hi) ->
  lo <= MUVMX2_Herning_Zipperer N y mu M <= hi /\ lo <= KVMX2_Wassilijewa N y mu M <= hi.
Proof.
  intros Y HM B. unfold MUVMX2_Herning_Zipperer, KVMX2_Wassilijewa, HZ_mean.
  destruct (norm_weights N _ (moles_w N y (fun i => sqrt (M i)) Y (fun i Hi => sqrt_lt_R0 _ (HM i Hi)))) as (H & S).
  split; apply wmean; auto.
Qed.
Theorem C52_HZ_pure N mu M i : (i < N)%nat -> (forall i, (i < N)%nat -> 0 < M i) -> MUVMX2_Herning_Zipperer N (pure i) mu M = mu i.
Proof.
  intros Hi HM. unfold MUVMX2_Herning_Zipperer, HZ_mean, pure. rewrite (sumn_delta_l N i (fun j => sqrt (M j)) Hi).
  pose proof (sqrt_lt_R0 _ (HM i Hi)) as P.
  rewrite (sumn_ext N _ (fun j => delta i j * (sqrt (M j) / sqrt (M i) * mu j))) by (intros; unfold Rdiv; ring).
  rewrite (sumn_delta_l N i (fun j => sqrt (M j) / sqrt (M i) * mu j) Hi). field. lra.
Qed.
Theorem C52_HZ_scale N y mu M c : c <> 0 -> MUVMX2_Herning_Zipperer N (fun i => c * y i) mu M = MUVMX2_Herning_Zipperer N y mu M.
Proof.
  intros Hc. unfold MUVMX2_Herning_Zipperer, HZ_mean. apply sumn_ext. intros i Hi. f_equal.
  rewrite (sumn_ext N (fun j => c * y j * sqrt (M j)) (fun j => c * (y j * sqrt (M j)))) by (intros; ring). rewrite sumn_scal.
  destruct (Req_dec (sumn N (fun j => y j * sqrt (M j))) 0) as [E|E]; [rewrite E, Rmult_0_r; unfold Rdiv; rewrite Rinv_0; ring|field; auto].
Qed.
(** MULMX2_Perry *)
Lemma cbrt_pos x : 0 < x -> cbrt x = Rpower x (1 / 3).
Proof. intros H. unfold cbrt. now rewrite (proj2 (Rltb_true _ _) H). Qed.
Lemma cbrt_cube x : 0 < x -> cbrt x ^ 3 = x.
Proof.
  intros H. rewrite cbrt_pos by auto. rewrite <- Rpower_pow by apply rp_pos. rewrite Rpower_mult. replace (1 / 3 * INR 3) with 1 by (cbn; field). now apply Rpower_1.
Qed.
Theorem C52_Perry N x mu h lo hi : moles N x -> sumn N x = 1 -> 0 < lo -> (forall i, (i < N)%nat -> lo <= mu i <= hi) -> lo <= MULMX2_Perry N x mu h <= hi.
Proof.
  intros X S Hlo B. assert (Hhi : 0 < hi). { destruct N; [cbn in S; lra|]. pose proof (B 0%nat ltac:(lia)). lra. }
  destruct h; unfold MULMX2_Perry.
  - assert (W : cbrt lo <= sumn N (fun i => x i * cbrt (mu i)) <= cbrt hi).
    { apply wmean; auto; [apply X|]. intros i Hi. destruct (B i Hi). rewrite !cbrt_pos by lra. split; apply rp_base_le; lra. }
    assert (0 < cbrt lo) by (rewrite cbrt_pos by auto; apply rp_pos).
    pose proof (cbrt_cube lo Hlo) as C1. pose proof (cbrt_cube hi Hhi) as C2.
    split; [apply Rle_trans with (cbrt lo ^ 3); [lra|]|apply Rle_trans with (cbrt hi ^ 3); [|lra]]; apply pow_incr; lra.
  - assert (W : ln lo <= sumn N (fun i => x i * ln (mu i)) <= ln hi).
    { apply wmean; auto; [apply X|]. intros i Hi. destruct (B i Hi) as (B1 & B2). split; apply Rcomplements.ln_le; lra. }
    rewrite <- (exp_ln lo), <- (exp_ln hi) by auto.
    assert (E : forall a b, a <= b -> exp a <= exp b) by (intros a b [L| ->]; [left; now apply exp_increasing|lra]). split; apply E; lra.
Qed.
Theorem C52_Perry_pure N mu h i : (i < N)%nat -> 0 < mu i -> MULMX2_Perry N (pure i) mu h = mu i.
Proof.
  intros Hi P. unfold MULMX2_Perry, pure. destruct h.
  - rewrite (sumn_delta_l N i (fun j => cbrt (mu j)) Hi). now apply cbrt_cube.
  - rewrite (sumn_delta_l N i (fun j => ln (mu j)) Hi). now apply exp_ln.
Qed.
(** KLMX2_Li *)
Theorem C52_Li N w k rho lo hi : moles N w -> (forall i, (i < N)%nat -> 0 < rho i) -> 0 < lo -> (forall i, (i < N)%nat -> lo <= k i <= hi) ->
  lo <= KLMX2_Li N w k rho <= hi.
Proof.
  intros W Hr Hlo B. unfold KLMX2_Li. cbv zeta.
  assert (M : moles N (fun i => w i / rho i)) by (apply (moles_w N w (fun i => / rho i) W); intros; apply Rinv_0_lt_compat; auto).
  destruct (norm_weights N _ M) as (H & S). set (phi := fun i => w i / rho i / sumn N (fun i0 => w i0 / rho i0)) in *.
  unfold quadratic_mixing. apply wmean; auto. intros i Hi. apply wmean; auto. intros j Hj. destruct (B i Hi), (B j Hj).
  replace (2 / (1 / k i + 1 / k j)) with (2 * (k i * k j) / (k i + k j)) by (field; repeat split; lra).
  split.
  - apply (Rmult_le_reg_r (k i + k j)); [lra|]. unfold Rdiv. rewrite Rmult_assoc, Rinv_l by lra. nra.
  - apply (Rmult_le_reg_r (k i + k j)); [lra|]. unfold Rdiv. rewrite Rmult_assoc, Rinv_l by lra. nra.
Qed.
Theorem C52_Li_pure N k rho i : (i < N)%nat -> (forall i, (i < N)%nat -> 0 < rho i) -> 0 < k i -> KLMX2_Li N (pure i) k rho = k i.
Proof.
  intros Hi Hr Hk. unfold KLMX2_Li, quadratic_mixing, pure. cbv zeta.
  assert (E : sumn N (fun j => delta i j / rho j) = / rho i).
  { rewrite (sumn_ext N _ (fun j => delta i j * / rho j)) by reflexivity. apply (sumn_delta_l N i (fun j => / rho j) Hi). }
  rewrite E. pose proof (Hr i Hi).
  rewrite (sumn_ext N _ (fun j => delta i j * (/ rho j / / rho i * sumn N (fun l => delta i l / rho l / / rho i * (2 / (1 / k j + 1 / k l)))))) by (intros; unfold Rdiv; ring).
  rewrite (sumn_delta_l N i (fun j => / rho j / / rho i * sumn N (fun l => delta i l / rho l / / rho i * (2 / (1 / k j + 1 / k l)))) Hi).
  rewrite (sumn_ext N _ (fun l => delta i l * (/ rho l / / rho i * (2 / (1 / k i + 1 / k l))))) by (intros; unfold Rdiv; ring).
  rewrite (sumn_delta_l N i (fun l => / rho l / / rho i * (2 / (1 / k i + 1 / k l))) Hi). field. repeat split; lra.
Qed.
Theorem C52_Li_scale N w k rho c : c <> 0 -> KLMX2_Li N (fun i => c * w i) k rho = KLMX2_Li N w k rho.
Proof.
  intros Hc. unfold KLMX2_Li. cbv zeta. f_equal. apply functional_extensionality. intros i.
  rewrite (sumn_ext N (fun j => c * w j / rho j) (fun j => c * (w j / rho j))) by (intros; unfold Rdiv; ring). rewrite sumn_scal.
  destruct (Req_dec (sumn N (fun j => w j / rho j)) 0) as [E|E]; [rewrite E, Rmult_0_r; unfold Rdiv; rewrite Rinv_0; ring|].
  unfold Rdiv. rewrite Rinv_mult. set (S := / sumn N _).
  transitivity (w i * / rho i * S * (c * / c)); [ring|]. rewrite Rinv_r by auto. ring.
Qed.
(** DVMX: harmonic mean *)
Theorem C52_DVMX N x Dv lo hi : moles N x -> 0 < lo -> (forall i, (i < N)%nat -> lo <= Dv i <= hi) -> lo <= DVMX N x Dv <= hi.
Proof.
  intros X Hlo B. unfold DVMX. pose proof (proj2 X) as S.
  assert (P : 0 < sumn N (fun i => x i / Dv i)) by (apply (moles_wsum N x (fun i => / Dv i) X); intros i Hi; apply Rinv_0_lt_compat; destruct (B i Hi); lra).
  split.
  - apply (Rmult_le_reg_r (sumn N (fun i => x i / Dv i))); auto. unfold Rdiv at 2. rewrite Rmult_assoc, Rinv_l, Rmult_1_r by lra.
    rewrite <- sumn_scal. apply sumn_le. intros i Hi. destruct (B i Hi) as (B1 & B2). pose proof (proj1 X i Hi).
    apply (Rmult_le_reg_r (Dv i)); [lra|]. replace (lo * (x i / Dv i) * Dv i) with (lo * x i) by (field; lra). nra.
  - apply (Rmult_le_reg_r (sumn N (fun i => x i / Dv i))); auto. unfold Rdiv at 1. rewrite Rmult_assoc, Rinv_l, Rmult_1_r by lra.
    rewrite <- sumn_scal. apply sumn_le. intros i Hi. destruct (B i Hi) as (B1 & B2). pose proof (proj1 X i Hi).
    apply (Rmult_le_reg_r (Dv i)); [lra|]. replace (hi * (x i / Dv i) * Dv i) with (hi * x i) by (field; lra). nra.
Qed.
Theorem C52_DVMX_pure N Dv i : (i < N)%nat -> Dv i <> 0 -> DVMX N (pure i) Dv = Dv i.
Proof.
  intros Hi H. unfold DVMX, pure. rewrite (sumn_ext N (fun j => delta i j) (fun j => delta i j * 1)) by (intros; ring).
  rewrite (sumn_delta_l N i (fun _ => 1) Hi). rewrite (sumn_ext N _ (fun j => delta i j * / Dv j)) by reflexivity.
  rewrite (sumn_delta_l N i (fun j => / Dv j) Hi). field. auto.
Qed.
Theorem C52_DVMX_scale N x Dv c : c <> 0 -> DVMX N (fun i => c * x i) Dv = DVMX N x Dv.
Proof.
  intros Hc. unfold DVMX. rewrite sumn_scal. rewrite (sumn_ext N (fun i => c * x i / Dv i) (fun i => c * (x i / Dv i))) by (intros; unfold Rdiv; ring). rewrite sumn_scal.
  destruct (Req_dec (sumn N (fun i => x i / Dv i)) 0) as [E|E]; [rewrite E, Rmult_0_r; unfold Rdiv; rewrite Rinv_0; ring|field; auto].
Qed.
(** MULMX2_Perry does depend on the normalisation of the composition *)
Theorem C52_Perry_scale_refuted : exists N x mu c, 0 < c /\ moles N x /\ MULMX2_Perry N (fun i => c * x i) mu true <> MULMX2_Perry N x mu true.
Proof.
  exists 1%nat, (fun _ => 1), (fun _ => 1), 2. split; [lra|]. split; [split; [intros; lra|cbn; lra]|].
  unfold MULMX2_Perry. cbn [sumn]. rewrite cbrt_pos, rp_one by lra. lra.
Qed.
Example C52_example : DVMX 2 (fun _ => 1 / 2) (fun i => if Nat.eqb i 0 then 1 else 3) = 3 / 2.
Proof. unfold DVMX. cbn. field. Qed.

(* ------------------------------------------------------------------ *)
(** * C88: transport correlations                                     *)
(* ------------------------------------------------------------------ *)

(** Lucas: a mixture of identical components has the viscosity of the component *)
Lemma psum_flt N f : psum N (fun i => Flt (f i)) = Flt (sumn N f).
Proof. induction N as [|N IH]; cbn [psum sumn]; [reflexivity|]. now rewrite IH. Qed.
Theorem C88_Lucas_identical N T P y M Tc Pc Zc dm : sumn N y = 1 -> 0 < Tc -> 0 < Pc -> 0 < Zc <= 292 / 1000 ->
  MUVMX_Lucas N T P y (fun _ => M) (fun _ => Tc) (fun _ => Pc) (fun _ => Zc) (fun _ => dm) = MUV_Lucas T P M Tc Pc Zc dm.
Proof.
  intros S HT HP HZ. pose proof Rgas_pos. unfold MUVMX_Lucas, MUV_Lucas, Lucas_FP0, Lucas_FP0_arr. rewrite !sumn_scal_r, S, !Rmult_1_l.
  replace (Rgas * Tc * Zc / (Rgas * Tc * Zc / Pc)) with Pc by (field; repeat split; lra).
  assert (E : exists q, fpow (292 / 1000 - Zc) (172 / 100) = Flt q).
  { unfold fpow. destruct (Rltb 0 (292 / 1000 - Zc)) eqn:E1; [eauto|]. destruct (Reqb (292 / 1000 - Zc) 0) eqn:E2; [eauto|]. exfalso.
    destruct (Rtotal_order 0 (292 / 1000 - Zc)) as [L|[L|L]]; [apply (proj2 (Rltb_true _ _)) in L; congruence| |lra].
    symmetry in L. apply (proj2 (Reqb_true _ _)) in L. congruence. }
  destruct E as (q & E). rewrite E. cbn [pmap]. rewrite psum_flt, sumn_scal_r, S, Rmult_1_l. reflexivity.
Qed.
(** Lucas: nonpolar component (dm = 0): FP0 = 1, and then FP = 1 *)
Theorem C88_Lucas_nonpolar Tr Tc Pc Zc : Zc <= 292 / 1000 -> Lucas_FP0 Tr Tc Pc Zc 0 = Flt 1.
Proof.
  intros HZ. unfold Lucas_FP0. assert (E : Lucas_dmr 0 Pc Tc = 0) by (unfold Lucas_dmr, Rdiv; ring).
  assert (V : forall q, Lucas_FP0_val Tr 0 q = 1).
  { intros q. unfold Lucas_FP0_val. rewrite (proj2 (Rleb_true 0 (22 / 1000))) by lra. cbv zeta.
    destruct (Rleb (75 / 1000) 0); ring. }
  unfold fpow. destruct (Rltb 0 (292 / 1000 - Zc)) eqn:E1; cbn [pmap]; [now rewrite E, V|]. destruct (Reqb (292 / 1000 - Zc) 0) eqn:E2; cbn [pmap]; [now rewrite E, V|]. exfalso.
  destruct (Rtotal_order 0 (292 / 1000 - Zc)) as [L|[L|L]]; [apply (proj2 (Rltb_true _ _)) in L; congruence| |lra].
  symmetry in L. apply (proj2 (Reqb_true _ _)) in L. congruence.
Qed.
(** Stiel-Thodos: defined for rhor < 2.8, increasing in the density over all three ranges *)
Lemma exp_lt a b : a < b -> exp a < exp b. Proof. apply exp_increasing. Qed.
Lemma ST_jump1 : 122 / 10000 * (exp (535 / 1000 * (1 / 2)) - 1) < 114 / 10000 * (exp (67 / 100 * (1 / 2)) - 1069 / 1000).
Proof.
  assert (exp (535 / 1000 * (1 / 2)) <= 13068 / 10000) by (apply exp_upper; unfold q5; lra).
  assert (13978 / 10000 <= exp (67 / 100 * (1 / 2))) by (apply exp_lower; unfold q6; lra). lra.
Qed.
Lemma ST_jump2 : 114 / 10000 * (exp (67 / 100 * 2) - 1069 / 1000) < 26 / 10000 * (exp (1155 / 1000 * 2) + 2016 / 1000).
Proof.
  assert (U : exp (335 / 1000) <= 139796 / 100000) by (apply exp_upper; unfold q5; lra).
  assert (L : 14696 / 10000 <= exp (385 / 1000)) by (apply exp_lower; unfold q6; lra).
  replace (67 / 100 * 2) with (INR 4 * (335 / 1000)) by (cbn; field). replace (1155 / 1000 * 2) with (INR 6 * (385 / 1000)) by (cbn; field).
  rewrite !exp_mult_pow. assert (exp (335 / 1000) ^ 4 <= (139796 / 100000) ^ 4) by (apply pow_incr; split; auto; left; apply exp_pos).
  assert ((14696 / 10000) ^ 6 <= exp (385 / 1000) ^ 6) by (apply pow_incr; lra). lra.
Qed.
Theorem C88_ST_domain rhor : (exists a, ST_a rhor = Ok a) <-> rhor < 28 / 10.
Proof.
  unfold ST_a. split.
  - intros (a & H). destruct (Rltb rhor (1 / 2)) eqn:E1; [apply Rltb_true in E1; lra|]. destruct (Rltb rhor 2) eqn:E2; [apply Rltb_true in E2; lra|].
    destruct (Rltb rhor (28 / 10)) eqn:E3; [now apply Rltb_true in E3|discriminate].
  - intros H. rewrite (proj2 (Rltb_true _ _) H). destruct (Rltb rhor (1 / 2)); [eauto|]. destruct (Rltb rhor 2); eauto.
Qed.
Theorem C88_ST_increasing r1 r2 a1 a2 : r1 < r2 -> ST_a r1 = Ok a1 -> ST_a r2 = Ok a2 -> a1 < a2.
Proof.
  intros H E1 E2. unfold ST_a in E1, E2. pose proof ST_jump1 as J1. pose proof ST_jump2 as J2.
  assert (M1 : forall a b, a <= b -> exp (535 / 1000 * a) <= exp (535 / 1000 * b)) by (intros a b [L| ->]; [left; apply exp_lt; lra|lra]).
  assert (M2 : forall a b, a <= b -> exp (67 / 100 * a) <= exp (67 / 100 * b)) by (intros a b [L| ->]; [left; apply exp_lt; lra|lra]).
  assert (M3 : forall a b, a <= b -> exp (1155 / 1000 * a) <= exp (1155 / 1000 * b)) by (intros a b [L| ->]; [left; apply exp_lt; lra|lra]).
  assert (F : forall x y, Rltb x y = false -> y <= x) by (intros x y Q; destruct (Rle_dec y x); auto; assert (x < y) by lra; apply (proj2 (Rltb_true _ _)) in H0; congruence).
  destruct (Rltb r1 (1 / 2)) eqn:A1; destruct (Rltb r2 (1 / 2)) eqn:A2; [| |apply Rltb_true in A2; apply F in A1; lra|].
  - injection E1 as <-. injection E2 as <-. pose proof (exp_lt (535 / 1000 * r1) (535 / 1000 * r2) ltac:(lra)). lra.
  - injection E1 as <-. apply Rltb_true in A1. apply F in A2. pose proof (M1 r1 (1 / 2) ltac:(lra)).
    destruct (Rltb r2 2) eqn:B2.
    + injection E2 as <-. pose proof (M2 (1 / 2) r2 A2). lra.
    + apply F in B2. destruct (Rltb r2 (28 / 10)); [|discriminate]. injection E2 as <-. pose proof (M2 (1 / 2) 2 ltac:(lra)). pose proof (M3 2 r2 B2). lra.
  - apply F in A1. apply F in A2. destruct (Rltb r1 2) eqn:B1; destruct (Rltb r2 2) eqn:B2; [| |apply Rltb_true in B2; apply F in B1; lra|].
    + injection E1 as <-. injection E2 as <-. pose proof (exp_lt (67 / 100 * r1) (67 / 100 * r2) ltac:(lra)). lra.
    + injection E1 as <-. apply Rltb_true in B1. apply F in B2. destruct (Rltb r2 (28 / 10)); [|discriminate]. injection E2 as <-. pose proof (M2 r1 2 ltac:(lra)). pose proof (M3 2 r2 B2). lra.
    + destruct (Rltb r1 (28 / 10)); [|discriminate]. destruct (Rltb r2 (28 / 10)); [|discriminate]. injection E1 as <-. injection E2 as <-.
      pose proof (exp_lt (1155 / 1000 * r1) (1155 / 1000 * r2) ltac:(lra)). lra.
Qed.
(** hence the residual conductivity is positive and decreases with the molar volume *)
Theorem C88_ST_positive v M Tc Pc Zc k : 0 < v -> 0 < M -> 0 < Tc -> 0 < Pc -> 0 < Zc -> KVPC_Stiel_Thodos v M Tc Pc Zc = Ok k -> 0 < k.
Proof.
  intros Hv HM HT HP HZ H. pose proof Rgas_pos. unfold KVPC_Stiel_Thodos in H.
  destruct (ST_a (Zc * Rgas * Tc / Pc / v)) eqn:E; [|discriminate]. cbn [bind] in H. injection H as <-.
  assert (R0 : ST_a 0 = Ok 0). { unfold ST_a. rewrite (proj2 (Rltb_true 0 (1 / 2))) by lra. rewrite Rmult_0_r, exp_0. f_equal. ring. }
  assert (0 < r).
  { apply (C88_ST_increasing 0 (Zc * Rgas * Tc / Pc / v) 0 r); auto. apply Rdiv_lt_0_compat; auto. apply Rdiv_lt_0_compat; auto. apply Rmult_lt_0_compat; auto. now apply Rmult_lt_0_compat. }
  apply Rdiv_lt_0_compat; auto. apply Rmult_lt_0_compat; [apply rp_pos|exact (pow_lt Zc 5 HZ)].
Qed.
Theorem C88_ST_volume v1 v2 M Tc Pc Zc k1 k2 : 0 < v1 < v2 -> 0 < M -> 0 < Tc -> 0 < Pc -> 0 < Zc ->
  KVPC_Stiel_Thodos v1 M Tc Pc Zc = Ok k1 -> KVPC_Stiel_Thodos v2 M Tc Pc Zc = Ok k2 -> k2 < k1.
Proof.
  intros Hv HM HT HP HZ H1 H2. pose proof Rgas_pos. unfold KVPC_Stiel_Thodos in H1, H2.
  set (vc := Zc * Rgas * Tc / Pc) in *. assert (0 < vc) by (unfold vc; apply Rdiv_lt_0_compat; auto; apply Rmult_lt_0_compat; auto; now apply Rmult_lt_0_compat).
  destruct (ST_a (vc / v1)) eqn:E1; [|discriminate]. destruct (ST_a (vc / v2)) eqn:E2; [|discriminate]. cbn [bind] in H1, H2. injection H1 as <-. injection H2 as <-.
  assert (r0 < r).
  { apply (C88_ST_increasing (vc / v2) (vc / v1)); auto. unfold Rdiv. apply Rmult_lt_compat_l; auto. apply Rinv_lt_contravar; [apply Rmult_lt_0_compat; lra|lra]. }
  unfold Rdiv. apply Rmult_lt_compat_r; auto. apply Rinv_0_lt_compat. apply Rmult_lt_0_compat; [apply rp_pos|exact (pow_lt Zc 5 HZ)].
Qed.
(** Dean-Stiel: the dense-gas correction is positive *)
Theorem C88_Dean_Stiel_positive v M Tc Pc vc : 0 < v -> 0 < M -> 0 < Tc -> 0 < Pc -> 0 < vc -> 0 < Dean_Stiel_pure v M Tc Pc vc.
Proof.
  intros Hv HM HT HP Hc. unfold Dean_Stiel_pure. cbv zeta. assert (R : 0 < vc / v) by now apply Rdiv_lt_0_compat.
  apply Rdiv_lt_0_compat.
  - apply Rmult_lt_0_compat; [lra|]. pose proof (exp_lt (- (1111 / 1000) * Rpower (vc / v) (1858 / 1000)) (1439 / 1000 * (vc / v))) as E.
    pose proof (rp_pos (vc / v) (1858 / 1000)). assert (exp (- (1111 / 1000) * Rpower (vc / v) (1858 / 1000)) < exp (1439 / 1000 * (vc / v))) by (apply E; nra). lra.
  - apply Rdiv_lt_0_compat; [apply Rmult_lt_0_compat; [lra|apply rp_pos]|apply Rmult_lt_0_compat; [now apply sqrt_lt_R0|apply rp_pos]].
Qed.
Lemma Rmult_div_c a b c : c <> 0 -> a / (c * b) = a / b / c.
Proof. intros H. unfold Rdiv. rewrite Rinv_mult. ring. Qed.
(** Wilke-Lee: symmetric in the two components, inversely proportional to pressure, both or none of rhoB, TB *)
Theorem C88_WL_symmetric T P MA MB rA rB TA TB : DV_Wilke_Lee T P MA MB rA (Some rB) TA (Some TB) = DV_Wilke_Lee T P MB MA rB (Some rA) TB (Some TA).
Proof.
  unfold DV_Wilke_Lee. cbn [bind]. rewrite (Rplus_comm (1 / MA)), (Rplus_comm (WL_sigma MA rA)), (Rmult_comm (115 / 100 * TA)). reflexivity.
Qed.
Theorem C88_WL_pressure T P c MA MB rA rB TA TB k : c <> 0 -> DV_Wilke_Lee T P MA MB rA rB TA TB = Ok k -> DV_Wilke_Lee T (c * P) MA MB rA rB TA TB = Ok (k / c).
Proof.
  intros Hc H. unfold DV_Wilke_Lee in *. destruct rB, TB; cbn [bind] in *; try discriminate; injection H as <-; f_equal; rewrite !(Rmult_assoc c); apply Rmult_div_c; auto.
Qed.
Theorem C88_WL_arguments T P MA MB rA rB TA TB : DV_Wilke_Lee T P MA MB rA rB TA TB = Err ValueError <-> (rB = None /\ TB <> None) \/ (rB <> None /\ TB = None).
Proof.
  unfold DV_Wilke_Lee. destruct rB, TB; cbn [bind]; split; intros H; try discriminate; try (now (left + right)); destruct H as [(? & ?)|(? & ?)]; congruence.
Qed.
(** liquid-phase diffusivities: positive, except for Hayduk-Minhas (aqueous) with large solutes *)
Theorem C88_DL_positive T MA MB rhoA visc phi : 0 < T -> 0 < MA -> 0 < MB -> 0 < rhoA -> 0 < visc -> 0 < phi ->
  0 < DL_Wilke_Chang T MA MB rhoA visc phi /\ exists k, DL_Hayduk_Minhas T HmParaffin MA rhoA visc = Ok k /\ 0 < k.
Proof.
  intros. split.
  - unfold DL_Wilke_Chang. apply Rdiv_lt_0_compat.
    + apply Rmult_lt_0_compat; auto. apply Rmult_lt_0_compat; [lra|]. apply sqrt_lt_R0. apply Rmult_lt_0_compat; [now apply Rmult_lt_0_compat|lra].
    + apply Rmult_lt_0_compat; [lra|apply rp_pos].
  - eexists. split; [reflexivity|]. apply Rdiv_lt_0_compat; [|apply rp_pos]. repeat apply Rmult_lt_0_compat; try apply rp_pos; lra.
Qed.
Theorem C88_Hayduk_aqueous_sign T MA rhoA visc k : 0 < T -> 0 < MA -> 0 < rhoA -> 0 < visc -> DL_Hayduk_Minhas T HmAqueous MA rhoA visc = Ok k ->
  (0 < k <-> 292 / 1000 < Rpower (1000000 * MA / rhoA) (- (19 / 100))).
Proof.
  intros HT HM Hr Hv H. assert (E : k = 125 / 10 ^ 14 * (Rpower (1000000 * MA / rhoA) (- (19 / 100)) - 292 / 1000) * Rpower T (152 / 100)
    * Rpower (visc * 1000) (958 / 100 / (1000000 * MA / rhoA) - 112 / 100)) by (unfold DL_Hayduk_Minhas in H; now injection H).
  rewrite E. set (q := Rpower (1000000 * MA / rhoA) _). set (a := Rpower T _). set (b := Rpower (visc * 1000) _). set (c := 125 / 10 ^ 14).
  assert (0 < c) by (unfold c; lra). assert (0 < a) by apply rp_pos. assert (0 < b) by apply rp_pos.
  assert (P : 0 < c * (a * b)) by (apply Rmult_lt_0_compat; auto; now apply Rmult_lt_0_compat).
  replace (c * (q - 292 / 1000) * a * b) with (c * (a * b) * (q - 292 / 1000)) by ring.
  split; intros L.
  - assert (0 < q - 292 / 1000); [|lra]. apply (Rmult_lt_reg_l (c * (a * b))); auto. now rewrite Rmult_0_r.
  - apply Rmult_lt_0_compat; lra.
Qed.
(** an oligomer of 1.024 kg/mol and 1000 kg/m3 in water *)
Theorem C88_Hayduk_positive_refuted : exists T MA rhoA visc k, 0 < T /\ 0 < MA /\ 0 < rhoA /\ 0 < visc /\ DL_Hayduk_Minhas T HmAqueous MA rhoA visc = Ok k /\ k < 0.
Proof.
  exists 298, (1024 / 1000), 1000, (1 / 1000). eexists. do 4 (split; [lra|]). split; [reflexivity|]. set (a := Rpower 298 _). set (b := Rpower (1 / 1000 * 1000) _).
  assert (Q : Rpower (1000000 * (1024 / 1000) / 1000) (- (19 / 100)) < 292 / 1000).
  { replace (1000000 * (1024 / 1000) / 1000) with 1024 by field. rewrite Rpower_Ropp.
    assert (1000 / 292 < Rpower 1024 (INR 19 / INR 100)).
    { apply rpow_gt; try lra; lia. }
    replace (INR 19 / INR 100) with (19 / 100) in H by (rewrite !INR_IZR_INZ; reflexivity).
    replace (292 / 1000) with (/ (1000 / 292)) by field. apply Rinv_lt_contravar; auto. apply Rmult_lt_0_compat; [lra|apply rp_pos]. }
  assert (0 < a * b) by (apply Rmult_lt_0_compat; apply rp_pos).
  match goal with |- 125 / ?d * ?x * a * b < 0 => replace (125 / d * x * a * b) with ((125 / d * (a * b)) * x) by ring; assert (0 < 125 / d) by lra end. nra.
Qed.
Example C88_example : DL_Stokes_Einstein 300 1 1 = kB * 50 / PI.
Proof. unfold DL_Stokes_Einstein. field. apply PI_neq0. Qed.

(* ------------------------------------------------------------------ *)
(** * C89: Vrentas-Duda                                               *)
(* ------------------------------------------------------------------ *)

(** the composition is checked; trace solvent: mutual = self diffusion; pure solvent: 0 *)
Theorem C89_call p w1 T s : (exists d, vd_call p w1 T s = Ok d) <-> 0 <= w1 <= 1.
Proof.
  unfold vd_call. split.
  - intros (d & H). destruct (Rleb 0 w1) eqn:A; [|discriminate]. destruct (Rleb w1 1) eqn:B; [|discriminate]. apply Rleb_true in A. apply Rleb_true in B. lra.
  - intros (A & B). rewrite (proj2 (Rleb_true _ _) A), (proj2 (Rleb_true _ _) B). cbn. eauto.
Qed.
Theorem C89_ends p T : vd_mutual p 0 T = vd_self p 0 T /\ vd_mutual p 1 T = 0.
Proof. unfold vd_mutual. split; ring. Qed.
Lemma exp_le1 x : x <= 0 -> exp x <= 1.
Proof. intros [L| ->]; [|rewrite exp_0; lra]. apply exp_increasing in L. rewrite exp_0 in L. lra. Qed.
(** above both reference temperatures the self-diffusivity lies between 0 and the Arrhenius prefactor *)
Theorem C89_self_bounds p w1 T : vd_ok p -> 0 < vD0 p -> 0 < vK11 p -> 0 < vK12 p -> 0 < T -> 0 <= w1 <= 1 ->
  0 < vK21 p - vTg1 p + T -> 0 < vK22 p - vTg2 p + T ->
  0 < vd_self p w1 T <= vD0 p /\ vd_self p w1 T <= vD0 p * exp (- vE p / (Rgas * T)).
Proof.
  intros (_ & HE & HV1 & HV2 & Hz & _ & _ & _ & _ & Hy & _) HD HK1 HK2 HT Hw H1 H2. pose proof Rgas_pos.
  assert (Hq : 0 < Rgas * T) by now apply Rmult_lt_0_compat.
  assert (F : 0 < vd_free p w1 T).
  { unfold vd_free. assert (A : 0 < vK11 p / vy p * (vK21 p - vTg1 p + T)) by (apply Rmult_lt_0_compat; auto; apply Rdiv_lt_0_compat; lra).
    assert (B : 0 < vK12 p / vy p * (vK22 p - vTg2 p + T)) by (apply Rmult_lt_0_compat; auto; apply Rdiv_lt_0_compat; lra).
    rewrite !Rmult_assoc. destruct (Req_dec w1 0) as [-> |N]; nra. }
  unfold vd_self. set (e1 := exp (- vE p / (Rgas * T))). set (e2 := exp _).
  assert (L1 : e1 <= 1). { apply exp_le1. unfold Rdiv. pose proof (Rinv_0_lt_compat _ Hq). nra. }
  assert (L2 : e2 <= 1).
  { apply exp_le1. unfold Rdiv. pose proof (Rinv_0_lt_compat _ F). assert (0 <= w1 * vV1 p) by (apply Rmult_le_pos; lra).
    assert (0 <= (1 - w1) * vz p * vV2 p) by (repeat apply Rmult_le_pos; lra). nra. }
  assert (P1 : 0 < e1) by apply exp_pos. assert (P2 : 0 < e2) by apply exp_pos.
  assert (0 < vD0 p * e1) by now apply Rmult_lt_0_compat. split; [split|]; nra.
Qed.
(** the mutual diffusivity is nonnegative for X <= 1/2 ... *)
Theorem C89_mutual_nonneg p w1 T : 0 < vd_self p w1 T -> vX p <= 1 / 2 -> 0 <= w1 <= 1 -> 0 <= vd_mutual p w1 T <= vd_self p w1 T * (1 - 2 * vX p * w1).
Proof.
  intros HS HX Hw. unfold vd_mutual. assert (A : 0 <= 1 - 2 * vX p * w1) by nra. assert (B : 0 <= (1 - w1) ^ 2 <= 1) by nra.
  set (s := vd_self p w1 T) in *. set (c := 1 - 2 * vX p * w1) in *. split; [apply Rmult_le_pos; auto; apply Rmult_le_pos; lra|].
  rewrite (Rmult_comm s), Rmult_assoc. assert (0 <= s * c) by (apply Rmult_le_pos; lra). nra.
Qed.
(** ... but negative for accepted interaction parameters above 1/2 (spinodal), e.g. X = 1 at w1 = 3/4 *)
Theorem C89_mutual_nonneg_refuted : exists p w1 T d, vd_ok p /\ 0 < T /\ vd_call p w1 T false = Ok d /\ d < 0.
Proof.
  exists (mkVD 1 0 0 0 0 1 1 0 0 0 0 1 1), (3 / 4), 300. eexists. split; [unfold vd_ok; cbn; repeat split; lra|]. split; [lra|]. split.
  - unfold vd_call. rewrite (proj2 (Rleb_true 0 (3 / 4))), (proj2 (Rleb_true (3 / 4) 1)) by lra. reflexivity.
  - cbv beta iota. unfold vd_mutual. set (p := mkVD _ _ _ _ _ _ _ _ _ _ _ _ _). assert (0 < vd_self p (3 / 4) 300).
    { unfold vd_self. repeat apply Rmult_lt_0_compat; try apply exp_pos. unfold p. cbn. lra. }
    replace (vX p) with 1 by reflexivity. nra.
Qed.
Example C89_example : vd_self (mkVD 1 0 0 0 0 1 1 0 0 0 0 1 (1 / 2)) (1 / 2) 300 = 1.
Proof. unfold vd_self, vd_free. cbn. replace (- 0 / (Rgas * 300)) with 0 by (unfold Rdiv; ring). rewrite exp_0. match goal with |- 1 * 1 * exp ?x = 1 => replace x with 0 by (unfold Rdiv; ring) end. rewrite exp_0. ring. Qed.

Print Assumptions C52_Li.
Print Assumptions C88_Hayduk_positive_refuted.
Print Assumptions C88_ST_volume.
Print Assumptions C89_self_bounds.
