(** C121: the profiles and uptakes for constant surface concentration solve the diffusion problem. *)
From Coq Require Import Reals Lra Lia List Bool Arith Psatz.
From Coquelicot Require Import Coquelicot.
From Verif Require Import Prelude RootsModel KinModel CopoModel Deriv NumBounds Erf HmtModel HmtProps RtdProps IvTac ErfcProps.
Open Scope R_scope.

(** Fick's second law at time F with diffusivity k: the derivative in time of u is k times its second
    derivative in the position, everywhere *)
Definition fick (k : R) (u : R -> R -> R) (F : R) : Prop := exists ux uxx,
  (forall y, D (u F) y (ux y)) /\ (forall y, D ux y (uxx y)) /\ (forall y, D (fun s => u s y) F (k * uxx y)).
Lemma fick_ext k u v F e : 0 < e -> (forall s y, Rabs (s - F) < e -> u s y = v s y) -> fick k u F -> fick k v F.
Proof.
  intros He H (a & b & A & B & C). exists a, b. split; [|split]; auto.
  - intros y. apply (D_ext (u F)); auto. intros t. apply H. rewrite Rminus_eq_0, Rabs_R0. auto.
  - intros y. apply (D_ext_loc (fun s => u s y) _ F _ e); auto.
Qed.
Lemma fick_plus k u v F : fick k u F -> fick k v F -> fick k (fun s y => u s y + v s y) F.
Proof.
  intros (a & b & A & B & C) (a' & b' & A' & B' & C'). exists (fun y => a y + a' y), (fun y => b y + b' y). split; [|split]; intros y.
  - apply (D_plus (u F) (v F)); auto.
  - apply D_plus; auto.
  - eapply D_eq; [apply (D_plus (fun s => u s y) (fun s => v s y)); [apply C|apply C']|ring].
Qed.
Lemma fick_scal k c u F : fick k u F -> fick k (fun s y => c * u s y) F.
Proof.
  intros (a & b & A & B & C). exists (fun y => c * a y), (fun y => c * b y). split; [|split]; intros y.
  - apply (D_scal c (u F)); auto.
  - apply D_scal; auto.
  - eapply D_eq; [apply (D_scal c (fun s => u s y)); apply C|ring].
Qed.
Lemma fick_const k c F : fick k (fun _ _ => c) F.
Proof. exists (fun _ => 0), (fun _ => 0). split; [|split]; intros y; try apply D_const. eapply D_eq; [apply D_const|ring]. Qed.
Lemma fick_sumn k n (u : nat -> R -> R -> R) F : (forall i, fick k (u i) F) -> fick k (fun s y => sumn n (fun i => u i s y)) F.
Proof. intros H. induction n as [|n IH]; cbn [sumn]; [apply fick_const|]. apply (fick_plus k (fun s y => sumn n (fun i => u i s y)) (u n)); auto. Qed.
(** the two families of terms *)
Lemma fick_erfc k c s F : 0 < k -> 0 < F -> s * s = 1 -> fick k (fun F y => erfc ((c + s * y) / (2 * sqrt (k * F)))) F.
Proof.
  intros Hk HF Hs. pose proof spi_pos as P. assert (KF : 0 < k * F) by (apply Rmult_lt_0_compat; auto). pose proof (sqrt_lt_R0 _ KF) as Q. set (q := sqrt (k * F)) in *. assert (Q2 : q * q = k * F) by (apply sqrt_sqrt; lra).
  set (z := fun y => (c + s * y) / (2 * q)).
  assert (Zx : forall y, D z y (s / (2 * q))) by (intros y; unfold z, D; auto_derive; [lra|field; lra]).
  exists (fun y => - (2 / sqrt PI * exp (- z y ^ 2)) * (s / (2 * q))), (fun y => (4 / sqrt PI * z y * exp (- z y ^ 2)) / (4 * q ^ 2)). split; [|split]; intros y.
  - apply (D_comp erfc z); [apply Zx|apply erfc_D].
  - eapply D_eq.
    + apply (D_ext (fun y => - (2 / sqrt PI) * (s / (2 * q)) * gauss_fun (z y))); [intros; unfold gauss_fun; ring|]. apply (D_scal (- (2 / sqrt PI) * (s / (2 * q))) (fun y => gauss_fun (z y))). apply (D_comp gauss_fun z); [apply Zx|apply gauss_D].
    + replace (- (2 / sqrt PI) * (s / (2 * q)) * (- 2 * z y * exp (- z y ^ 2) * (s / (2 * q)))) with ((s * s) * (4 / sqrt PI * z y * exp (- z y ^ 2) / (4 * q ^ 2))) by (field; lra). rewrite Hs. ring.
  - assert (Zt : D (fun F => (c + s * y) / (2 * sqrt (k * F))) F (- (z y / (2 * F)))).
    { unfold z, D. auto_derive; [split; auto; split; [unfold q in Q; lra|auto]|]. fold q. replace k with (q * q / F) by (rewrite Q2; field; lra). field. lra. }
    eapply D_eq; [apply (D_comp erfc (fun F => (c + s * y) / (2 * sqrt (k * F)))); [apply Zt|apply erfc_D]|]. change ((c + s * y) / (2 * sqrt (k * F))) with (z y).
    replace (k * (4 / sqrt PI * z y * exp (- z y ^ 2) / (4 * q ^ 2))) with (1 / F * ((k * F) / (q * q)) * (1 / sqrt PI * z y * exp (- z y ^ 2))) by (field; repeat split; lra).
    rewrite Q2. field. repeat split; lra.
Qed.
Lemma fick_cos a b F : fick 1 (fun F y => a * exp (- (b ^ 2) * F) * cos (b * y)) F.
Proof. exists (fun y => - (b * a) * exp (- (b ^ 2) * F) * sin (b * y)), (fun y => - (b ^ 2) * (a * exp (- (b ^ 2) * F) * cos (b * y))). assert (C : exists c, c = b ^ 2) by (eexists; reflexivity). destruct C as (c & C). rewrite <- C. split; [|split]; intros y; unfold D; auto_derive; auto; rewrite C; ring. Qed.
Lemma fick_sin a b F : fick 1 (fun F y => a * exp (- (b ^ 2) * F) * sin (b * y)) F.
Proof. exists (fun y => (b * a) * exp (- (b ^ 2) * F) * cos (b * y)), (fun y => - (b ^ 2) * (a * exp (- (b ^ 2) * F) * sin (b * y))). assert (C : exists c, c = b ^ 2) by (eexists; reflexivity). destruct C as (c & C). rewrite <- C. split; [|split]; intros y; unfold D; auto_derive; auto; rewrite C; ring. Qed.
Lemma sqrt1 F : sqrt (1 * F) = sqrt F. Proof. now rewrite Rmult_1_l. Qed.

Definition sheet_s (F x : R) : R := sumn 4 (fun n => sgn_n n * (erfc ((odd1 n - x) / (2 * sqrt F)) + erfc ((odd1 n + x) / (2 * sqrt F)))).
Definition sheet_l (F x : R) : R := 1 - 4 / PI * sumn 4 (fun n => sgn_n n / odd1 n * exp (- (PI ^ 2 / 4) * F * odd1 n ^ 2) * cos (PI / 2 * x * odd1 n)).
Lemma sheet_small F x : 0 < F < 1 / 4 -> profile_sheet F x = sheet_s F x.
Proof. intros H. unfold profile_sheet. rewrite Reqb_f, Rltb_t by lra. reflexivity. Qed.
Lemma sheet_large F x : 1 / 4 <= F -> profile_sheet F x = sheet_l F x.
Proof. intros H. unfold profile_sheet. rewrite Reqb_f, Rltb_f by lra. reflexivity. Qed.
Definition sphere_s (F r : R) : R := sumn 4 (fun n => erfc ((odd1 n - r) / (2 * sqrt F)) - erfc ((odd1 n + r) / (2 * sqrt F))).
Definition sphere_l (F r : R) : R := r + 2 / PI * sumn 3 (fun k => sgn_n (S k) / INR (S k) * exp (- PI ^ 2 * F * INR (S k) ^ 2) * sin (r * PI * INR (S k))).
Lemma eps_pos0 : 0 < eps. Proof. unfold eps. apply Rinv_0_lt_compat. apply pow_lt. lra. Qed.
Lemma sphere_small F r : 0 < F < 1 / 4 -> eps <= Rabs r -> r * profile_sphere F r = sphere_s F r.
Proof.
  intros H Hr. unfold profile_sphere. rewrite Rltb_f by auto. rewrite Reqb_f, Rltb_t by lra. cbv zeta. unfold sphere_s.
  assert (r <> 0) by (intros ->; rewrite Rabs_R0 in Hr; pose proof eps_pos0; lra). field. auto.
Qed.
Lemma sphere_large F r : 1 / 4 <= F -> eps <= Rabs r -> r * profile_sphere F r = sphere_l F r.
Proof.
  intros H Hr. unfold profile_sphere. rewrite Rltb_f by auto. rewrite Reqb_f, Rltb_f by lra. cbv zeta. unfold sphere_l.
  assert (r <> 0) by (intros ->; rewrite Rabs_R0 in Hr; pose proof eps_pos0; lra). pose proof PI_RGT_0. field. split; lra.
Qed.
Lemma fick_sheet_s F : 0 < F -> fick 1 sheet_s F.
Proof.
  intros HF. unfold sheet_s. apply (fick_sumn 1 4 (fun n s x => sgn_n n * (erfc ((odd1 n - x) / (2 * sqrt s)) + erfc ((odd1 n + x) / (2 * sqrt s))))). intros n.
  apply (fick_scal 1 (sgn_n n) (fun s x => erfc ((odd1 n - x) / (2 * sqrt s)) + erfc ((odd1 n + x) / (2 * sqrt s)))). apply (fick_plus 1 (fun s x => erfc ((odd1 n - x) / (2 * sqrt s))) (fun s x => erfc ((odd1 n + x) / (2 * sqrt s)))).
  - apply (fick_ext 1 (fun F y => erfc ((odd1 n + -1 * y) / (2 * sqrt (1 * F)))) _ F 1); [lra| |apply fick_erfc; lra]. intros s y _. rewrite sqrt1. f_equal. f_equal. ring.
  - apply (fick_ext 1 (fun F y => erfc ((odd1 n + 1 * y) / (2 * sqrt (1 * F)))) _ F 1); [lra| |apply fick_erfc; lra]. intros s y _. rewrite sqrt1. f_equal. f_equal. ring.
Qed.
Lemma fick_sheet_l F : fick 1 sheet_l F.
Proof.
  unfold sheet_l. apply (fick_ext 1 (fun s y => 1 + (- (4 / PI)) * sumn 4 (fun n => sgn_n n / odd1 n * exp (- ((PI / 2 * odd1 n) ^ 2) * s) * cos (PI / 2 * odd1 n * y))) _ F 1); [lra| |].
  - intros s y _. rewrite (sumn_ext 4 _ (fun n => sgn_n n / odd1 n * exp (- (PI ^ 2 / 4) * s * odd1 n ^ 2) * cos (PI / 2 * y * odd1 n))); [ring|]. intros i _. f_equal; [f_equal; f_equal; field|f_equal; ring].
  - apply (fick_plus 1 (fun _ _ => 1)); [apply fick_const|]. apply (fick_scal 1 (- (4 / PI)) (fun s y => sumn 4 (fun n => sgn_n n / odd1 n * exp (- ((PI / 2 * odd1 n) ^ 2) * s) * cos (PI / 2 * odd1 n * y)))).
    apply (fick_sumn 1 4 (fun n s y => sgn_n n / odd1 n * exp (- ((PI / 2 * odd1 n) ^ 2) * s) * cos (PI / 2 * odd1 n * y))). intros i. apply fick_cos.
Qed.
Lemma fick_sphere_s F : 0 < F -> fick 1 sphere_s F.
Proof.
  intros HF. unfold sphere_s. apply (fick_ext 1 (fun s x => sumn 4 (fun n => erfc ((odd1 n - x) / (2 * sqrt s)) + -1 * erfc ((odd1 n + x) / (2 * sqrt s)))) _ F 1); [lra|intros; apply sumn_ext; intros; ring|].
  apply (fick_sumn 1 4 (fun n s x => erfc ((odd1 n - x) / (2 * sqrt s)) + -1 * erfc ((odd1 n + x) / (2 * sqrt s)))). intros n.
  apply (fick_plus 1 (fun s x => erfc ((odd1 n - x) / (2 * sqrt s))) (fun s x => -1 * erfc ((odd1 n + x) / (2 * sqrt s)))).
  - apply (fick_ext 1 (fun F y => erfc ((odd1 n + -1 * y) / (2 * sqrt (1 * F)))) _ F 1); [lra| |apply fick_erfc; lra]. intros s y _. rewrite sqrt1. f_equal. f_equal. ring.
  - apply (fick_scal 1 (-1) (fun s x => erfc ((odd1 n + x) / (2 * sqrt s)))). apply (fick_ext 1 (fun F y => erfc ((odd1 n + 1 * y) / (2 * sqrt (1 * F)))) _ F 1); [lra| |apply fick_erfc; lra]. intros s y _. rewrite sqrt1. f_equal. f_equal. ring.
Qed.
Lemma fick_sphere_l F : fick 1 sphere_l F.
Proof.
  unfold sphere_l. apply (fick_ext 1 (fun s y => y + (2 / PI) * sumn 3 (fun k => sgn_n (S k) / INR (S k) * exp (- ((PI * INR (S k)) ^ 2) * s) * sin (PI * INR (S k) * y))) _ F 1); [lra| |].
  - intros s y _. f_equal. f_equal. apply sumn_ext. intros i _. f_equal; [f_equal; f_equal; ring|f_equal; ring].
  - apply (fick_plus 1 (fun _ y => y)).
    + exists (fun _ => 1), (fun _ => 0). split; [|split]; intros y; [apply D_id|apply D_const|eapply D_eq; [apply D_const|ring]].
    + apply (fick_scal 1 (2 / PI) (fun s y => sumn 3 (fun k => sgn_n (S k) / INR (S k) * exp (- ((PI * INR (S k)) ^ 2) * s) * sin (PI * INR (S k) * y)))).
      apply (fick_sumn 1 3 (fun k s y => sgn_n (S k) / INR (S k) * exp (- ((PI * INR (S k)) ^ 2) * s) * sin (PI * INR (S k) * y))). intros i. apply fick_sin.
Qed.

(** the sheet: Fick's second law with the dimensionless time Fo and position, for every position, at every
    time except the change of series at Fo = 1/4 *)
Theorem C121_Fick_sheet Fo : 0 < Fo -> Fo <> 1 / 4 -> fick 1 profile_sheet Fo.
Proof.
  intros H N. destruct (Rlt_dec Fo (1 / 4)) as [L|L].
  - apply (fick_ext 1 sheet_s _ Fo (Rmin Fo (1 / 4 - Fo))); [apply Rmin_glb_lt; lra| |now apply fick_sheet_s]. intros s y Hs. symmetry. apply sheet_small.
    pose proof (Rmin_l Fo (1 / 4 - Fo)). pose proof (Rmin_r Fo (1 / 4 - Fo)). apply Rabs_def2 in Hs. lra.
  - apply (fick_ext 1 sheet_l _ Fo (Fo - 1 / 4)); [lra| |now apply fick_sheet_l]. intros s y Hs. symmetry. apply sheet_large. apply Rabs_def2 in Hs. lra.
Qed.
(** the sphere: r times the profile obeys the law of the sheet, i.e. the profile obeys the spherical law,
    outside the centre *)
Theorem C121_Fick_sphere Fo : 0 < Fo -> Fo <> 1 / 4 -> exists w, fick 1 w Fo /\ exists e, 0 < e /\
  forall s r, Rabs (s - Fo) < e -> eps <= Rabs r -> w s r = r * profile_sphere s r.
Proof.
  intros H N. destruct (Rlt_dec Fo (1 / 4)) as [L|L].
  - exists sphere_s. split; [now apply fick_sphere_s|]. exists (Rmin Fo (1 / 4 - Fo)). split; [apply Rmin_glb_lt; lra|]. intros s r Hs Hr. symmetry. apply sphere_small; auto.
    pose proof (Rmin_l Fo (1 / 4 - Fo)). pose proof (Rmin_r Fo (1 / 4 - Fo)). apply Rabs_def2 in Hs. lra.
  - exists sphere_l. split; [now apply fick_sphere_l|]. exists (Fo - 1 / 4). split; [lra|]. intros s r Hs Hr. symmetry. apply sphere_large; auto. apply Rabs_def2 in Hs. lra.
Qed.
(** the semi-infinite medium, with dimensions *)
Theorem C121_Fick_semiinf k t : 0 < k -> 0 < t -> exists u, fick k u t /\ (forall s x, 0 < s -> profile_semiinf s x k = Fin (u s x)) /\
  (forall s, 0 < s -> u s 0 = 1).
Proof.
  intros Hk Ht. exists (fun s x => erfc (x / (2 * sqrt (k * s)))). split; [|split].
  - apply (fick_ext k (fun F y => erfc ((0 + 1 * y) / (2 * sqrt (k * F)))) _ t 1); [lra| |apply fick_erfc; lra]. intros s y _. f_equal. f_equal. ring.
  - intros s x Hs. unfold profile_semiinf, np_div. rewrite Reqb_f; [reflexivity|]. pose proof (sqrt_lt_R0 (k * s) ltac:(apply Rmult_lt_0_compat; auto)). lra.
  - intros s Hs. unfold Rdiv. rewrite Rmult_0_l. apply erfc_0.
Qed.

(** * Boundary values and symmetry *)
Lemma sq_small F : 0 < F < 1 / 4 -> 0 < sqrt F < 1 / 2.
Proof. intros H. split; [apply sqrt_lt_R0; lra|]. rewrite <- (sqrt_square (1 / 2)) by lra. apply sqrt_lt_1_alt. lra. Qed.
Lemma exp_m k : exp (- INR k) <= / 2 ^ k.
Proof.
  rewrite exp_Ropp. apply Rinv_le_contravar; [apply pow_lt; lra|]. replace (INR k) with (INR k * 1) by ring. rewrite exp_mult_pow. apply pow_incr. pose proof (exp_ineq1 1 ltac:(lra)). lra.
Qed.
Lemma far c F : 0 < F < 1 / 4 -> 4 <= c -> 8 < c / sqrt F.
Proof. intros H Hc. destruct (sq_small F H). apply Rmult_lt_reg_r with (sqrt F); auto. unfold Rdiv. rewrite Rmult_assoc, Rinv_l by lra. nra. Qed.
Lemma tail_64 x : 8 < x -> exp (- x ^ 2) <= / 2 ^ 64.
Proof. intros H. eapply Rle_trans; [|apply (exp_m 64)]. apply exp_le. rewrite INR_IZR_INZ. cbn. nra. Qed.

(** at the surface the profiles are 1 up to the neglected terms (below 2^-64, and exactly 1 for the long-time
    series); they are even, so the flux in the middle vanishes; inside they start from 0 *)
Theorem C121_boundary_sheet Fo : 0 < Fo -> 1 - / 2 ^ 64 <= profile_sheet Fo 1 <= 1 /\ (1 / 4 <= Fo -> profile_sheet Fo 1 = 1) /\
  (forall x, profile_sheet Fo (- x) = profile_sheet Fo x).
Proof.
  intros H. assert (S1 : 1 / 4 <= Fo -> profile_sheet Fo 1 = 1).
  { intros G. rewrite sheet_large by auto. unfold sheet_l. replace (sumn 4 _) with 0; [ring|]. destruct odd1_v as (O0 & O1 & O2 & O3). cbn [sumn]. rewrite O0, O1, O2, O3.
    replace (PI / 2 * 1 * 1) with (PI / 2) by ring. replace (PI / 2 * 1 * 3) with (3 * (PI / 2)) by ring. replace (PI / 2 * 1 * 5) with (PI / 2 + 2 * PI) by field. replace (PI / 2 * 1 * 7) with (3 * (PI / 2) + 2 * PI) by field.
    rewrite !cos_plus, sin_2PI, cos_2PI, cos_3PI2, cos_PI2. ring. }
  split; [|split; [exact S1|]].
  - destruct (Rlt_dec Fo (1 / 4)) as [L|L]; [|rewrite S1 by lra; assert (0 < / 2 ^ 64) by (apply Rinv_0_lt_compat; apply pow_lt; lra); lra].
    rewrite sheet_small by lra. unfold sheet_s. destruct odd1_v as (O0 & O1 & O2 & O3). destruct sgn_v as (S0' & S1' & S2' & S3'). cbn [sumn]. rewrite O0, O1, O2, O3, S0', S1', S2', S3'.
    replace (1 - 1) with 0 by ring. replace (0 / (2 * sqrt Fo)) with 0 by (unfold Rdiv; ring). replace (3 - 1) with (1 + 1) by ring. replace (5 - 1) with (3 + 1) by ring. replace (7 - 1) with (5 + 1) by ring. rewrite erfc_0.
    pose proof (erfc_bounds ((7 + 1) / (2 * sqrt Fo))) as E. assert (Q := sq_small Fo ltac:(lra)). replace ((7 + 1) / (2 * sqrt Fo)) with (4 / sqrt Fo) in * by (field; lra).
    pose proof (far 4 Fo ltac:(lra) ltac:(lra)) as FA. pose proof (erfc_upper (4 / sqrt Fo) ltac:(lra)). pose proof (tail_64 _ FA). lra.
  - intros x. destruct (Rlt_dec Fo (1 / 4)) as [L|L].
    + rewrite !sheet_small by lra. unfold sheet_s. apply sumn_ext. intros i _. replace (odd1 i - - x) with (odd1 i + x) by ring. replace (odd1 i + - x) with (odd1 i - x) by ring. ring.
    + rewrite !sheet_large by lra. unfold sheet_l. f_equal. f_equal. apply sumn_ext. intros i _. f_equal. replace (PI / 2 * - x * odd1 i) with (- (PI / 2 * x * odd1 i)) by ring. apply cos_neg.
Qed.
Theorem C121_boundary_sphere Fo : 0 < Fo -> 1 - / 2 ^ 64 <= profile_sphere Fo 1 <= 1 /\ (1 / 4 <= Fo -> profile_sphere Fo 1 = 1) /\
  (forall r, profile_sphere Fo (- r) = profile_sphere Fo r).
Proof.
  intros H. assert (E1 : eps <= Rabs 1) by (rewrite Rabs_R1; unfold eps; rewrite <- Rinv_1; apply Rinv_le_contravar; [lra|]; apply pow_R1_Rle; lra).
  assert (S1 : 1 / 4 <= Fo -> profile_sphere Fo 1 = 1).
  { intros G. pose proof (sphere_large Fo 1 G E1) as E. rewrite Rmult_1_l in E. rewrite E. unfold sphere_l. replace (sumn 3 _) with 0; [ring|]. cbn [sumn INR].
    replace (1 * PI * 1) with PI by ring. replace (1 * PI * (1 + 1)) with (2 * PI) by ring. replace (1 * PI * (1 + 1 + 1)) with (PI + 2 * PI) by ring. rewrite sin_plus, sin_2PI, cos_2PI, sin_PI. ring. }
  split; [|split; [exact S1|]].
  - destruct (Rlt_dec Fo (1 / 4)) as [L|L]; [|rewrite S1 by lra; assert (0 < / 2 ^ 64) by (apply Rinv_0_lt_compat; apply pow_lt; lra); lra].
    pose proof (sphere_small Fo 1 ltac:(lra) E1) as E. rewrite Rmult_1_l in E. rewrite E. unfold sphere_s. destruct odd1_v as (O0 & O1 & O2 & O3). cbn [sumn]. rewrite O0, O1, O2, O3.
    replace (1 - 1) with 0 by ring. replace (0 / (2 * sqrt Fo)) with 0 by (unfold Rdiv; ring). replace (3 - 1) with (1 + 1) by ring. replace (5 - 1) with (3 + 1) by ring. replace (7 - 1) with (5 + 1) by ring. rewrite erfc_0.
    pose proof (erfc_bounds ((7 + 1) / (2 * sqrt Fo))) as EB. assert (Q := sq_small Fo ltac:(lra)). replace ((7 + 1) / (2 * sqrt Fo)) with (4 / sqrt Fo) in * by (field; lra).
    pose proof (far 4 Fo ltac:(lra) ltac:(lra)) as FA. pose proof (erfc_upper (4 / sqrt Fo) ltac:(lra)). pose proof (tail_64 _ FA). lra.
  - intros r. unfold profile_sphere. rewrite Rabs_Ropp. destruct (Rltb (Rabs r) eps) eqn:Er; [reflexivity|]. apply Rltb_false in Er. destruct (Reqb Fo 0); [reflexivity|].
    assert (r <> 0) by (intros ->; rewrite Rabs_R0 in Er; pose proof eps_pos0; lra). pose proof PI_RGT_0. destruct (Rltb Fo (1 / 4)); cbv zeta.
    + rewrite <- (Rmult_1_l (sumn 4 _ / - r)). replace (1 * (sumn 4 (fun n => erfc ((odd1 n - - r) / (2 * sqrt Fo)) - erfc ((odd1 n + - r) / (2 * sqrt Fo))) / - r)) with (-1 * sumn 4 (fun n => erfc ((odd1 n - - r) / (2 * sqrt Fo)) - erfc ((odd1 n + - r) / (2 * sqrt Fo))) / r) by (field; auto).
      f_equal. rewrite <- sumn_scal. apply sumn_ext. intros i _. replace (odd1 i - - r) with (odd1 i + r) by ring. replace (odd1 i + - r) with (odd1 i - r) by ring. ring.
    + f_equal. replace (2 / (PI * - r)) with (2 / (PI * r) * -1) by (field; split; lra). rewrite Rmult_assoc. f_equal. rewrite <- sumn_scal. apply sumn_ext. intros i _. replace (- r * PI * INR (S i)) with (- (r * PI * INR (S i))) by ring. rewrite sin_neg. ring.
Qed.
(** the early profile at an inner point tends to 0, the late profile to 1 *)
Theorem C121_initial_sheet x e : Rabs x < 1 -> 0 < e -> exists d, 0 < d /\ forall Fo, 0 < Fo < d -> Rabs (profile_sheet Fo x) < e.
Proof.
  intros Hx He. apply Rabs_def2 in Hx. destruct (exp_neg_small (e / 9) ltac:(lra)) as (X & X0 & HX). set (m := Rmin (1 - x) (1 + x)). assert (M : 0 < m) by (unfold m; apply Rmin_glb_lt; lra).
  set (d := Rmin (1 / 4) ((m / (2 * X)) ^ 2)). exists d. assert (MX : 0 < m / (2 * X)) by (apply Rdiv_lt_0_compat; lra). split; [unfold d; apply Rmin_glb_lt; [lra|nra]|].
  intros F (F0 & F1). assert (F < 1 / 4 /\ F < (m / (2 * X)) ^ 2) as (Fa & Fb) by (unfold d in F1; pose proof (Rmin_l (1 / 4) ((m / (2 * X)) ^ 2)); pose proof (Rmin_r (1 / 4) ((m / (2 * X)) ^ 2)); lra).
  rewrite sheet_small by lra. assert (Q : 0 < sqrt F < m / (2 * X)).
  { split; [now apply sqrt_lt_R0|]. rewrite <- (sqrt_pow2 (m / (2 * X))) by lra. apply sqrt_lt_1_alt. lra. }
  assert (T : forall c, m <= c -> 0 < erfc (c / (2 * sqrt F)) < e / 9).
  { intros c Hc. split; [apply erfc_bounds|]. assert (X <= c / (2 * sqrt F)).
    { apply Rmult_le_reg_r with (2 * sqrt F); [lra|]. unfold Rdiv. rewrite Rmult_assoc, Rinv_l by lra. assert (X * (2 * sqrt F) < X * (2 * (m / (2 * X)))) by (apply Rmult_lt_compat_l; lra). replace (X * (2 * (m / (2 * X)))) with m in * by (field; lra). lra. }
    eapply Rle_lt_trans; [apply erfc_upper; lra|]. now apply HX. }
  assert (m <= 1 - x /\ m <= 1 + x) as (Ma & Mb) by (unfold m; split; [apply Rmin_l|apply Rmin_r]).
  unfold sheet_s. destruct odd1_v as (O0 & O1 & O2 & O3). destruct sgn_v as (S0' & S1' & S2' & S3'). cbn [sumn]. rewrite O0, O1, O2, O3, S0', S1', S2', S3'.
  pose proof (T (1 - x) ltac:(lra)). pose proof (T (1 + x) ltac:(lra)). pose proof (T (3 - x) ltac:(lra)). pose proof (T (3 + x) ltac:(lra)). pose proof (T (5 - x) ltac:(lra)). pose proof (T (5 + x) ltac:(lra)). pose proof (T (7 - x) ltac:(lra)). pose proof (T (7 + x) ltac:(lra)).
  apply Rabs_def1; lra.
Qed.

(** * Uptakes are the averages of the profiles *)
Lemma ierfc_gi y : gi y - exp (- 900) <= ierfc y <= gi y.
Proof.
  pose proof (exp_pos (- 900)). unfold ierfc. destruct (Rltb 30 y) eqn:E; [|fold (gi y); lra]. apply Rltb_true in E. pose proof (gi_pos y). pose proof (gi_up1 y ltac:(lra)). assert (exp (- y ^ 2) <= exp (- 900)) by (apply exp_le; nra). lra.
Qed.
Lemma e900 : 0 < exp (- 900) <= / 2 ^ 64.
Proof. split; [apply exp_pos|]. eapply Rle_trans; [|apply (exp_m 64)]. apply exp_le. rewrite INR_IZR_INZ. cbn. lra. Qed.
Lemma D_gi_m c A x : A <> 0 -> D (fun x => A * gi ((c - x) / A)) x (erfc ((c - x) / A)).
Proof.
  intros H. eapply D_eq; [apply (D_scal A (fun x => gi ((c - x) / A))); apply (D_comp gi (fun x => (c - x) / A) x (- erfc ((c - x) / A)) (- / A)); [|apply gi_D]|field; auto].
  unfold D. auto_derive; auto. field. auto.
Qed.
Lemma D_gi_p c A x : A <> 0 -> D (fun x => - A * gi ((c + x) / A)) x (erfc ((c + x) / A)).
Proof.
  intros H. eapply D_eq; [apply (D_scal (- A) (fun x => gi ((c + x) / A))); apply (D_comp gi (fun x => (c + x) / A) x (- erfc ((c + x) / A)) (/ A)); [|apply gi_D]|field; auto].
  unfold D. auto_derive; auto. field. auto.
Qed.
Lemma fick_cont k u F x : fick k u F -> continuous (u F) x.
Proof. intros (a & b & A & _). eapply D_cont. apply A. Qed.
Lemma sheet_s_int F : 0 < F -> is_RInt (sheet_s F) 0 1 (2 * sqrt F * (gi 0 - 2 * gi (1 / sqrt F) + 2 * gi (2 / sqrt F) - 2 * gi (3 / sqrt F) + gi (4 / sqrt F))).
Proof.
  intros HF. pose proof (sqrt_lt_R0 F HF) as Q. set (A := 2 * sqrt F). assert (HA : A <> 0) by (unfold A; lra).
  set (P := fun x => sumn 4 (fun n => sgn_n n * (A * gi ((odd1 n - x) / A) + - A * gi ((odd1 n + x) / A)))).
  replace (A * _) with (P 1 - P 0).
  - apply (RInt_D P (sheet_s F)); [lra| |].
    + intros t _. unfold P, sheet_s. apply (D_sumn 4 (fun n x => sgn_n n * (A * gi ((odd1 n - x) / A) + - A * gi ((odd1 n + x) / A)))). intros i _.
      apply (D_scal (sgn_n i) (fun x => A * gi ((odd1 i - x) / A) + - A * gi ((odd1 i + x) / A))). apply (D_plus (fun x => A * gi ((odd1 i - x) / A)) (fun x => - A * gi ((odd1 i + x) / A))); [now apply D_gi_m|now apply D_gi_p].
    + intros t _. apply (fick_cont 1). now apply fick_sheet_s.
  - unfold P. destruct odd1_v as (O0 & O1 & O2 & O3). destruct sgn_v as (S0' & S1' & S2' & S3'). cbn [sumn]. rewrite O0, O1, O2, O3, S0', S1', S2', S3'.
    rewrite !Rminus_0_r, !Rplus_0_r. replace ((1 - 1) / A) with 0 by (field; auto).
    replace ((1 + 1) / A) with (1 / sqrt F) by (unfold A; field; lra). replace ((3 - 1) / A) with (1 / sqrt F) by (unfold A; field; lra). replace ((3 + 1) / A) with (2 / sqrt F) by (unfold A; field; lra). replace ((5 - 1) / A) with (2 / sqrt F) by (unfold A; field; lra).
    replace ((5 + 1) / A) with (3 / sqrt F) by (unfold A; field; lra). replace ((7 - 1) / A) with (3 / sqrt F) by (unfold A; field; lra). replace ((7 + 1) / A) with (4 / sqrt F) by (unfold A; field; lra). ring.
Qed.
Lemma sheet_l_int F : is_RInt (sheet_l F) 0 1 (1 - 8 / PI ^ 2 * sumn 4 (fun n => 1 / odd1 n ^ 2 * exp (- (PI ^ 2 / 4) * F * odd1 n ^ 2))).
Proof.
  pose proof PI_RGT_0 as HP. destruct odd1_v as (O0 & O1 & O2 & O3). destruct sgn_v as (S0' & S1' & S2' & S3'). assert (OP : forall n, 0 < odd1 n) by (intros; unfold odd1; apply lt_0_INR; lia).
  set (P := fun x => x - 4 / PI * sumn 4 (fun n => sgn_n n / odd1 n * exp (- (PI ^ 2 / 4) * F * odd1 n ^ 2) / (PI / 2 * odd1 n) * sin (PI / 2 * x * odd1 n))).
  replace (1 - 8 / PI ^ 2 * _) with (P 1 - P 0).
  - apply (RInt_D P (sheet_l F)); [lra| |].
    + intros t _. unfold P, sheet_l. apply (D_minus (fun x => x) (fun x => 4 / PI * sumn 4 (fun n => sgn_n n / odd1 n * exp (- (PI ^ 2 / 4) * F * odd1 n ^ 2) / (PI / 2 * odd1 n) * sin (PI / 2 * x * odd1 n)))); [apply D_id|].
      apply (D_scal (4 / PI) (fun x => sumn 4 (fun n => sgn_n n / odd1 n * exp (- (PI ^ 2 / 4) * F * odd1 n ^ 2) / (PI / 2 * odd1 n) * sin (PI / 2 * x * odd1 n)))).
      apply (D_sumn 4 (fun n x => sgn_n n / odd1 n * exp (- (PI ^ 2 / 4) * F * odd1 n ^ 2) / (PI / 2 * odd1 n) * sin (PI / 2 * x * odd1 n))). intros i _. pose proof (OP i). set (E := exp _).
      eapply D_eq; [apply (D_scal (sgn_n i / odd1 i * E / (PI / 2 * odd1 i)) (fun x => sin (PI / 2 * x * odd1 i))); apply (D_sin (fun x => PI / 2 * x * odd1 i) t (PI / 2 * odd1 i)); unfold D; auto_derive; auto; ring|]. field. split; lra.
    + intros t _. apply (fick_cont 1). apply fick_sheet_l.
  - unfold P. cbn [sumn]. rewrite O0, O1, O2, O3, S0', S1', S2', S3'.
    replace (PI / 2 * 1 * 1) with (PI / 2) by ring. replace (PI / 2 * 1 * 3) with (3 * (PI / 2)) by ring. replace (PI / 2 * 1 * 5) with (PI / 2 + 2 * PI) by field. replace (PI / 2 * 1 * 7) with (3 * (PI / 2) + 2 * PI) by field.
    rewrite !sin_plus, sin_2PI, cos_2PI, sin_3PI2, sin_PI2, !Rmult_0_r, !Rmult_0_l, sin_0. field. lra.
Qed.
Lemma long_tail F : 1 / 4 <= F -> 0 <= 8 / PI ^ 2 * (1 / 7 ^ 2 * exp (- (PI ^ 2 / 4) * F * 7 ^ 2)) <= 1 / 10 ^ 13.
Proof.
  intros H. pose proof PI_tight as (A & B). assert (P2 : 98 / 10 <= PI ^ 2) by nra. assert (I : 0 < / PI ^ 2 <= / (98 / 10)) by (split; [apply Rinv_0_lt_compat; lra|apply Rinv_le_contravar; lra]).
  assert (E : 0 < exp (- (PI ^ 2 / 4) * F * 7 ^ 2) <= 1 / 10 ^ 13).
  { split; [apply exp_pos|]. apply Rle_trans with (exp (- 30)); [apply exp_le; nra|]. left. iv_num 90%Z 6%nat. }
  set (e := exp _) in *. unfold Rdiv in *. assert (0 <= 8 * / PI ^ 2 * (1 * / 7 ^ 2)) by nra. assert (8 * / PI ^ 2 * (1 * / 7 ^ 2) <= 1) by nra. nra.
Qed.
(** the uptake of the sheet is the average of the profile, within 1e-13 *)
Theorem C121_uptake_sheet Fo : 0 < Fo -> exists m, is_RInt (profile_sheet Fo) 0 1 m /\ Rabs (uptake_sheet Fo - m) <= 1 / 10 ^ 13 /\
  (Fo < 1 / 4 -> Rabs (uptake_sheet Fo - m) <= 1 / 10 ^ 18).
Proof.
  intros H. assert (W : 8 * / 2 ^ 64 <= 1 / 10 ^ 18) by lra. destruct (Rlt_dec Fo (1 / 4)) as [L|L].
  - eexists. split; [apply (is_RInt_ext (sheet_s Fo)); [intros; symmetry; apply sheet_small; lra|now apply sheet_s_int]|].
    cut (Rabs (uptake_sheet Fo - 2 * sqrt Fo * (gi 0 - 2 * gi (1 / sqrt Fo) + 2 * gi (2 / sqrt Fo) - 2 * gi (3 / sqrt Fo) + gi (4 / sqrt Fo))) <= 1 / 10 ^ 18); [intros G; split; [lra|auto]|].
    unfold uptake_sheet. rewrite Reqb_f, Rltb_t by lra. cbv zeta. destruct (sq_small Fo ltac:(lra)) as (Q1 & Q2). set (q := sqrt Fo) in *.
    replace (gi 0) with (1 / sqrt PI) by (unfold gi; replace (- 0 ^ 2) with 0 by ring; rewrite exp_0; ring). cbn [sumn INR]. replace (sgn_n 1) with (-1) by reflexivity. replace (sgn_n 2) with 1 by reflexivity. replace (sgn_n 3) with (-1) by reflexivity.
    replace (1 + 1 + 1) with 3 by ring. replace (1 + 1) with 2 by ring. pose proof (ierfc_gi (1 / q)). pose proof (ierfc_gi (2 / q)). pose proof (ierfc_gi (3 / q)). pose proof e900. pose proof (far 4 Fo ltac:(lra) ltac:(lra)) as FA. fold q in FA.
    pose proof (gi_pos (4 / q)). pose proof (gi_up1 (4 / q) ltac:(lra)). pose proof (tail_64 _ FA).
    set (s := 1 / sqrt PI). replace (_ - _) with (2 * q * (2 * (gi (1 / q) - ierfc (1 / q)) - 2 * (gi (2 / q) - ierfc (2 / q)) + 2 * (gi (3 / q) - ierfc (3 / q)) - gi (4 / q))) by ring.
    set (d := 2 * (gi (1 / q) - ierfc (1 / q)) - 2 * (gi (2 / q) - ierfc (2 / q)) + 2 * (gi (3 / q) - ierfc (3 / q)) - gi (4 / q)). assert (- (8 * / 2 ^ 64) <= d <= 8 * / 2 ^ 64) by (unfold d; lra). apply Rabs_le. nra.
  - eexists. split; [apply (is_RInt_ext (sheet_l Fo)); [intros; symmetry; apply sheet_large; lra|apply sheet_l_int]|]. split; [|lra].
    unfold uptake_sheet. rewrite Reqb_f, Rltb_f by lra. cbv zeta. change (sumn 4 ?f) with (sumn 3 f + f 3%nat). cbv beta. destruct odd1_v as (_ & _ & _ & O3). rewrite O3.
    rewrite (sumn_ext 3 _ (fun n => 1 / odd1 n ^ 2 * exp (- (PI ^ 2 / 4) * Fo * odd1 n ^ 2))) by (intros i _; f_equal; f_equal; field). pose proof (long_tail Fo ltac:(lra)). set (s := sumn 3 _). set (e := 1 / 7 ^ 2 * _) in *.
    replace (_ - _) with (8 / PI ^ 2 * e) by ring. rewrite Rabs_right by lra. lra.
Qed.

Lemma D_rgi_m c A r : A <> 0 -> D (fun r => r * (A * gi ((c - r) / A)) - A ^ 2 * gi2 ((c - r) / A)) r (r * erfc ((c - r) / A)).
Proof.
  intros H. assert (L : D (fun r => (c - r) / A) r (- / A)) by (unfold D; auto_derive; auto; field; auto).
  eapply D_eq; [apply (D_minus (fun r => r * (A * gi ((c - r) / A))) (fun r => A ^ 2 * gi2 ((c - r) / A))); [apply (D_mult (fun r => r)); [apply D_id|now apply D_gi_m]|]|].
  - apply (D_scal (A ^ 2) (fun r => gi2 ((c - r) / A))). apply (D_comp gi2 (fun r => (c - r) / A)); [apply L|apply gi2_D].
  - cbv beta. field. auto.
Qed.
Lemma D_rgi_p c A r : A <> 0 -> D (fun r => r * (- A * gi ((c + r) / A)) - A ^ 2 * gi2 ((c + r) / A)) r (r * erfc ((c + r) / A)).
Proof.
  intros H. assert (L : D (fun r => (c + r) / A) r (/ A)) by (unfold D; auto_derive; auto; field; auto).
  eapply D_eq; [apply (D_minus (fun r => r * (- A * gi ((c + r) / A))) (fun r => A ^ 2 * gi2 ((c + r) / A))); [apply (D_mult (fun r => r)); [apply D_id|now apply D_gi_p]|]|].
  - apply (D_scal (A ^ 2) (fun r => gi2 ((c + r) / A))). apply (D_comp gi2 (fun r => (c + r) / A)); [apply L|apply gi2_D].
  - cbv beta. field. auto.
Qed.
Lemma cont_rw k u F x : fick k u F -> continuous (fun r => r * u F r) x.
Proof. intros (a & b & A & _). eapply D_cont. apply (D_mult (fun r => r) (u F)); [apply D_id|apply A]. Qed.
Lemma sphere_s_int F : 0 < F -> is_RInt (fun r => r * sphere_s F r) 0 1
  (2 * sqrt F * (gi 0 + 2 * gi (1 / sqrt F) + 2 * gi (2 / sqrt F) + 2 * gi (3 / sqrt F) + gi (4 / sqrt F)) - 4 * F * (1 / 4 - gi2 (4 / sqrt F))).
Proof.
  intros HF. pose proof (sqrt_lt_R0 F HF) as Q. set (A := 2 * sqrt F). assert (HA : A <> 0) by (unfold A; lra). assert (A2 : A ^ 2 = 4 * F) by (unfold A; replace ((2 * sqrt F) ^ 2) with (4 * (sqrt F * sqrt F)) by ring; rewrite sqrt_sqrt by lra; reflexivity).
  set (P := fun r => sumn 4 (fun n => (r * (A * gi ((odd1 n - r) / A)) - A ^ 2 * gi2 ((odd1 n - r) / A)) - (r * (- A * gi ((odd1 n + r) / A)) - A ^ 2 * gi2 ((odd1 n + r) / A)))).
  replace (A * _ - _) with (P 1 - P 0).
  - apply (RInt_D P (fun r => r * sphere_s F r)); [lra| |].
    + intros t _. unfold P, sphere_s. rewrite <- sumn_scal. apply (D_sumn 4 (fun n r => (r * (A * gi ((odd1 n - r) / A)) - A ^ 2 * gi2 ((odd1 n - r) / A)) - (r * (- A * gi ((odd1 n + r) / A)) - A ^ 2 * gi2 ((odd1 n + r) / A)))). intros i _. fold A.
      eapply D_eq; [apply (D_minus (fun r => r * (A * gi ((odd1 i - r) / A)) - A ^ 2 * gi2 ((odd1 i - r) / A)) (fun r => r * (- A * gi ((odd1 i + r) / A)) - A ^ 2 * gi2 ((odd1 i + r) / A))); [now apply D_rgi_m|now apply D_rgi_p]|ring].
    + intros t _. apply (cont_rw 1). now apply fick_sphere_s.
  - unfold P. destruct odd1_v as (O0 & O1 & O2 & O3). cbn [sumn]. rewrite O0, O1, O2, O3.
    rewrite !Rminus_0_r, !Rplus_0_r. replace ((1 - 1) / A) with 0 by (field; auto). replace (gi2 0) with (1 / 4) by (unfold gi2; rewrite erfc_0; field).
    replace ((1 + 1) / A) with (1 / sqrt F) by (unfold A; field; lra). replace ((3 - 1) / A) with (1 / sqrt F) by (unfold A; field; lra). replace ((3 + 1) / A) with (2 / sqrt F) by (unfold A; field; lra). replace ((5 - 1) / A) with (2 / sqrt F) by (unfold A; field; lra).
    replace ((5 + 1) / A) with (3 / sqrt F) by (unfold A; field; lra). replace ((7 - 1) / A) with (3 / sqrt F) by (unfold A; field; lra). replace ((7 + 1) / A) with (4 / sqrt F) by (unfold A; field; lra). rewrite A2. ring.
Qed.
Lemma sphere_l_int F : is_RInt (fun r => r * sphere_l F r) 0 1 (1 / 3 - 2 / PI ^ 2 * sumn 3 (fun k => 1 / INR (S k) ^ 2 * exp (- PI ^ 2 * F * INR (S k) ^ 2))).
Proof.
  pose proof PI_RGT_0 as HP. assert (OP : forall n, 0 < INR (S n)) by (intros; apply lt_0_INR; lia).
  set (P := fun r => r ^ 3 / 3 + 2 / PI * sumn 3 (fun k => sgn_n (S k) / INR (S k) * exp (- PI ^ 2 * F * INR (S k) ^ 2) * (- r * cos (r * PI * INR (S k)) / (PI * INR (S k)) + sin (r * PI * INR (S k)) / (PI * INR (S k)) ^ 2))).
  replace (1 / 3 - _) with (P 1 - P 0).
  - apply (RInt_D P (fun r => r * sphere_l F r)); [lra| |].
    + intros t _. unfold P, sphere_l. eapply D_eq.
      * apply (D_plus (fun r => r ^ 3 / 3) (fun r => 2 / PI * sumn 3 (fun k => sgn_n (S k) / INR (S k) * exp (- PI ^ 2 * F * INR (S k) ^ 2) * (- r * cos (r * PI * INR (S k)) / (PI * INR (S k)) + sin (r * PI * INR (S k)) / (PI * INR (S k)) ^ 2))) t (t ^ 2) (2 / PI * sumn 3 (fun k => sgn_n (S k) / INR (S k) * exp (- PI ^ 2 * F * INR (S k) ^ 2) * (t * sin (t * PI * INR (S k)))))); [unfold D; auto_derive; auto; field|].
        apply (D_scal (2 / PI) (fun r => sumn 3 (fun k => sgn_n (S k) / INR (S k) * exp (- PI ^ 2 * F * INR (S k) ^ 2) * (- r * cos (r * PI * INR (S k)) / (PI * INR (S k)) + sin (r * PI * INR (S k)) / (PI * INR (S k)) ^ 2)))).
        apply (D_sumn 3 (fun k r => sgn_n (S k) / INR (S k) * exp (- PI ^ 2 * F * INR (S k) ^ 2) * (- r * cos (r * PI * INR (S k)) / (PI * INR (S k)) + sin (r * PI * INR (S k)) / (PI * INR (S k)) ^ 2))). intros i _. pose proof (OP i) as Oi. set (E := exp _). generalize (INR (S i)) Oi. intros n Hn.
        apply (D_scal (sgn_n (S i) / n * E) (fun r => - r * cos (r * PI * n) / (PI * n) + sin (r * PI * n) / (PI * n) ^ 2)). assert (PI * n <> 0) by (apply Rmult_integral_contrapositive_currified; lra).
        unfold D. auto_derive; [auto|]. field. split; lra.
      * rewrite Rmult_plus_distr_l. f_equal; [ring|]. rewrite (sumn_ext 3 _ (fun k => t * (sgn_n (S k) / INR (S k) * exp (- PI ^ 2 * F * INR (S k) ^ 2) * sin (t * PI * INR (S k))))) by (intros; ring). rewrite sumn_scal. ring.
    + intros t _. apply (cont_rw 1). apply fick_sphere_l.
  - unfold P. cbn [sumn INR]. replace (sgn_n 1) with (-1) by reflexivity. replace (sgn_n 2) with 1 by reflexivity. replace (sgn_n 3) with (-1) by reflexivity.
    replace (1 * PI * 1) with PI by ring. replace (1 * PI * (1 + 1)) with (2 * PI) by ring. replace (1 * PI * (1 + 1 + 1)) with (PI + 2 * PI) by ring.
    rewrite sin_plus, cos_plus, sin_2PI, cos_2PI, sin_PI, cos_PI, !Rmult_0_l, sin_0. field. lra.
Qed.
Lemma near0_int (w : R -> R) (M I : R) : (forall r, Rabs (w r) <= M) -> is_RInt (fun r => r * w r) 0 1 I -> exists J, is_RInt (fun r => r * w r) eps 1 J /\ Rabs (J - I) <= eps * eps * M.
Proof.
  intros Hw HI. assert (E1 : 0 < eps < 1) by (split; [apply eps_pos0|unfold eps; rewrite <- Rinv_1; apply Rinv_lt_contravar; [lra|]; lra]).
  assert (X : ex_RInt (fun r => r * w r) 0 eps) by (apply (ex_RInt_Chasles_1 (fun r => r * w r) 0 eps 1); [lra|eexists; apply HI]).
  assert (Y : ex_RInt (fun r => r * w r) eps 1) by (apply (ex_RInt_Chasles_2 (fun r => r * w r) 0 eps 1); [lra|eexists; apply HI]).
  exists (RInt (fun r => r * w r) eps 1). split; [now apply (RInt_correct (V := R_CompleteNormedModule))|]. rewrite <- (is_RInt_unique _ _ _ _ HI). rewrite <- (RInt_Chasles (fun r => r * w r) 0 eps 1) by auto. unfold plus; cbn.
  set (a := RInt (fun r => r * w r) 0 eps). set (b := RInt (fun r => r * w r) eps 1). match goal with |- Rabs ?x <= _ => replace x with (- a) by (cbn; ring) end. rewrite Rabs_Ropp. unfold a.
  replace (eps * eps * M) with ((eps - 0) * (eps * M)) by ring. apply (abs_RInt_le_const (fun r => r * w r)); auto; [lra|]. intros t Ht. rewrite Rabs_mult, (Rabs_right t) by lra. apply Rmult_le_compat; try apply Rabs_pos; auto; lra.
Qed.
Lemma sphere_s_abs F r : Rabs (sphere_s F r) <= 16.
Proof.
  unfold sphere_s. cbn [sumn]. repeat match goal with |- context [erfc ?x] => let e := fresh "e" in pose proof (erfc_bounds x); set (e := erfc x) in * end. apply Rabs_le. lra.
Qed.
Lemma sphere_l_abs F r : 0 <= F -> Rabs r <= 1 -> Rabs (sphere_l F r) <= 16.
Proof.
  intros HF Hr. unfold sphere_l. pose proof PI_tight as (A & B). assert (T : forall k, Rabs (sgn_n (S k) / INR (S k) * exp (- PI ^ 2 * F * INR (S k) ^ 2) * sin (r * PI * INR (S k))) <= 1).
  { intros k. assert (1 <= INR (S k)) by (rewrite S_INR; pose proof (pos_INR k); lra). rewrite !Rabs_mult. assert (Rabs (sgn_n (S k) / INR (S k)) <= 1).
    { unfold Rdiv. rewrite Rabs_mult, Rabs_inv, (Rabs_right (INR (S k))) by lra. assert (/ INR (S k) <= 1) by (rewrite <- Rinv_1; apply Rinv_le_contravar; lra). assert (Rabs (sgn_n (S k)) = 1) as -> by (unfold sgn_n; destruct (Nat.odd (S k)); [rewrite Rabs_left; lra|rewrite Rabs_right; lra]). lra. }
    assert (Rabs (exp (- PI ^ 2 * F * INR (S k) ^ 2)) <= 1). { rewrite Rabs_right by (left; apply exp_pos). rewrite <- exp_0. apply exp_le. assert (0 <= PI ^ 2 * F * INR (S k) ^ 2) by (apply Rmult_le_pos; [apply Rmult_le_pos; [apply pow2_ge_0|auto]|apply pow2_ge_0]). lra. }
    assert (Rabs (sin (r * PI * INR (S k))) <= 1) by (apply Rabs_le; apply SIN_bound).
    replace 1 with (1 * 1 * 1) by ring. repeat apply Rmult_le_compat; auto; try apply Rabs_pos. apply Rmult_le_pos; apply Rabs_pos. }
  cbn [sumn]. pose proof (T 0%nat). pose proof (T 1%nat). pose proof (T 2%nat). set (a := sgn_n 1 / _ * _ * _) in *. set (b := sgn_n 2 / _ * _ * _) in *. set (c := sgn_n 3 / _ * _ * _) in *.
  assert (0 < / PI <= 1 / 3). { split; [apply Rinv_0_lt_compat; lra|]. replace (1 / 3) with (/ 3) by field. apply Rinv_le_contravar; lra. }
  unfold Rdiv. apply Rabs_le_between in H, H0, H1, Hr. apply Rabs_le. split; nra.
Qed.
(** the uptake of the sphere is the volume average of the profile, within 1e-18 (the exact centre is left out:
    there the profile is evaluated by another formula) *)
Theorem C121_uptake_sphere Fo : 0 < Fo -> exists m, is_RInt (fun r => 3 * r ^ 2 * profile_sphere Fo r) eps 1 m /\ Rabs (uptake_sphere Fo - m) <= 1 / 10 ^ 17.
Proof.
  intros H. assert (E1 : 0 < eps < 1) by (split; [apply eps_pos0|unfold eps; rewrite <- Rinv_1; apply Rinv_lt_contravar; [lra|]; lra]).
  assert (EE : 3 * (eps * eps * 16) <= 1 / 10 ^ 18) by (unfold eps; lra).
  assert (W : 24 * / 2 ^ 64 <= 2 / 10 ^ 18) by lra. destruct (Rlt_dec Fo (1 / 4)) as [L|L].
  - destruct (near0_int (sphere_s Fo) 16 _ (sphere_s_abs Fo) (sphere_s_int Fo H)) as (J & HJ & BJ). exists (3 * J). split.
    + apply (is_RInt_ext (fun r => 3 * (r * sphere_s Fo r))); [|apply (is_RInt_scal (fun r => r * sphere_s Fo r) eps 1 3 J HJ)]. intros r Hr. rewrite Rmin_left, Rmax_right in Hr by lra. rewrite <- sphere_small; [match goal with |- ?a = ?b => change (@eq R a b) end; ring|lra|rewrite Rabs_right; lra].
    + set (I := _ - 4 * Fo * _) in BJ. assert (BI : Rabs (uptake_sphere Fo - 3 * I) <= 9 / 10 ^ 18).
      { unfold I. unfold uptake_sphere. rewrite Reqb_f, Rltb_t by lra. cbv zeta. destruct (sq_small Fo ltac:(lra)) as (Q1 & Q2). set (q := sqrt Fo) in *.
        replace (gi 0) with (1 / sqrt PI) by (unfold gi; replace (- 0 ^ 2) with 0 by ring; rewrite exp_0; ring). cbn [sumn INR].
        replace (1 + 1 + 1) with 3 by ring. replace (1 + 1) with 2 by ring. pose proof (ierfc_gi (1 / q)). pose proof (ierfc_gi (2 / q)). pose proof (ierfc_gi (3 / q)). pose proof e900. pose proof (far 4 Fo ltac:(lra) ltac:(lra)) as FA. fold q in FA.
        pose proof (gi_pos (4 / q)). pose proof (gi_up1 (4 / q) ltac:(lra)). pose proof (gi2_pos (4 / q)). pose proof (gi2_up1 (4 / q) ltac:(lra)). pose proof (tail_64 _ FA).
        set (s := 1 / sqrt PI). replace (_ - _) with (- (6 * q * (2 * (gi (1 / q) - ierfc (1 / q)) + 2 * (gi (2 / q) - ierfc (2 / q)) + 2 * (gi (3 / q) - ierfc (3 / q)) + gi (4 / q))) - 12 * Fo * gi2 (4 / q)) by field.
        set (d := 2 * (gi (1 / q) - ierfc (1 / q)) + 2 * (gi (2 / q) - ierfc (2 / q)) + 2 * (gi (3 / q) - ierfc (3 / q)) + gi (4 / q)). assert (0 <= d <= 7 * / 2 ^ 64) by (unfold d; lra).
        set (g := gi2 (4 / q)) in *. assert (0 <= g <= / 2 ^ 64) by lra. clearbody d g. apply Rabs_le. assert (0 <= 6 * q * d <= 21 * / 2 ^ 64) by nra. assert (0 <= 12 * Fo * g <= 3 * / 2 ^ 64) by nra. lra. }
      replace (uptake_sphere Fo - 3 * J) with ((uptake_sphere Fo - 3 * I) + - (3 * (J - I))) by ring. eapply Rle_trans; [apply Rabs_triang|]. rewrite Rabs_Ropp, Rabs_mult, (Rabs_right 3) by lra. lra.
  - assert (HB : forall r, Rabs (if Rleb (Rabs r) 1 then sphere_l Fo r else 0) <= 16).
    { intros r. destruct (Rleb (Rabs r) 1) eqn:E; [apply Rleb_true in E; apply sphere_l_abs; lra|rewrite Rabs_R0; lra]. }
    assert (HI : is_RInt (fun r => r * (if Rleb (Rabs r) 1 then sphere_l Fo r else 0)) 0 1 (1 / 3 - 2 / PI ^ 2 * sumn 3 (fun k => 1 / INR (S k) ^ 2 * exp (- PI ^ 2 * Fo * INR (S k) ^ 2)))).
    { apply (is_RInt_ext (fun r => r * sphere_l Fo r)); [|apply sphere_l_int]. intros r Hr. rewrite Rmin_left, Rmax_right in Hr by lra. destruct (Rleb (Rabs r) 1) eqn:E; [reflexivity|]. apply Rleb_false in E. rewrite Rabs_right in E; lra. }
    destruct (near0_int _ 16 _ HB HI) as (J & HJ & BJ). exists (3 * J). split.
    + apply (is_RInt_ext (fun r => 3 * (r * (if Rleb (Rabs r) 1 then sphere_l Fo r else 0)))); [|apply (is_RInt_scal (fun r => r * (if Rleb (Rabs r) 1 then sphere_l Fo r else 0)) eps 1 3 J HJ)].
      intros r Hr. rewrite Rmin_left, Rmax_right in Hr by lra. destruct (Rleb (Rabs r) 1) eqn:E; [|apply Rleb_false in E; rewrite Rabs_right in E; lra]. rewrite <- sphere_large; [match goal with |- ?a = ?b => change (@eq R a b) end; ring|lra|rewrite Rabs_right; lra].
    + set (I := 1 / 3 - _) in *. assert (EI : uptake_sphere Fo = 3 * I).
      { unfold I, uptake_sphere. rewrite Reqb_f, Rltb_f by lra. cbv zeta. rewrite (sumn_ext 3 (fun k => 1 / INR (S k) ^ 2 * exp (- PI ^ 2 * Fo * INR (S k) ^ 2)) (fun k => 1 / INR (S k) ^ 2 * exp (- Fo * PI ^ 2 * INR (S k) ^ 2))) by (intros i _; f_equal; f_equal; ring). pose proof PI_RGT_0. field. lra. }
      rewrite EI. replace (3 * I - 3 * J) with (- (3 * (J - I))) by ring. rewrite Rabs_Ropp, Rabs_mult, (Rabs_right 3) by lra. lra.
Qed.
