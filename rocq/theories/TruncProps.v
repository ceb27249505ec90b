(** C123: four or three terms of the diffusion series are enough. *)
From Coq Require Import Reals Lra Lia List Bool Arith Psatz.
From Coquelicot Require Import Coquelicot.
From Verif Require Import Prelude RootsModel KinModel CopoModel Deriv NumBounds Erf HmtModel HmtProps RtdProps IvTac ErfcProps FickProps.
Open Scope R_scope.

Lemma sumn_add (a : nat -> R) N K : sumn (N + K) a = sumn N a + sumn K (fun k => a (N + k)%nat).
Proof. induction K as [|K IH]; [rewrite Nat.add_0_r; cbn; ring|]. rewrite Nat.add_succ_r. cbn [sumn]. rewrite IH. ring. Qed.
(** a series whose terms from N on are below B / 2^k *)
Lemma trunc (a : nat -> R) N (B : R) : (forall k, Rabs (a (N + k)%nat) <= B * (1 / 2) ^ k) ->
  exists L : R, is_lim_seq (fun K => sumn K a) L /\ Rabs (sumn N a - L) <= 2 * B.
Proof.
  intros H. set (b := fun k => a (N + k)%nat).
  assert (G : ex_series (fun k => B * (1 / 2) ^ k)) by (apply (ex_series_scal B (fun k => (1 / 2) ^ k)); apply ex_series_geom; rewrite Rabs_right; lra).
  assert (GV : Series (fun k => B * (1 / 2) ^ k) = 2 * B) by (rewrite Series_scal_l, Series_geom by (rewrite Rabs_right; lra); field).
  assert (E : ex_series (fun k => Rabs (b k))) by (apply (@ex_series_le R_AbsRing R_CompleteNormedModule _ (fun k => B * (1 / 2) ^ k)); [intros n; cbn; rewrite Rabs_Rabsolu; apply H|exact G]).
  assert (E1 : ex_series b) by now apply ex_series_Rabs.
  assert (BD : Rabs (Series b) <= 2 * B) by (eapply Rle_trans; [now apply Series_Rabs|]; rewrite <- GV; apply Series_le; [intros n; split; [apply Rabs_pos|apply H]|exact G]).
  exists (sumn N a + Series b). split; [|replace (sumn N a - (sumn N a + Series b)) with (- Series b) by ring; now rewrite Rabs_Ropp].
  apply (is_lim_seq_incr_n _ (S N)). apply (is_lim_seq_ext (fun n => sumn N a + sum_n b n)).
  - intros n. replace (n + S N)%nat with (N + S n)%nat by lia. rewrite sumn_add. f_equal. clear. induction n as [|n IH]; [rewrite sum_O; unfold b; cbn [sumn]; match goal with |- ?x = ?y => change (@eq R x y) end; ring|]. rewrite sum_Sn, IH. reflexivity.
  - apply is_lim_seq_plus'; [apply is_lim_seq_const|]. apply Series_correct in E1. exact E1.
Qed.
Lemma exp_m37 k : exp (- INR k) <= (37 / 100) ^ k.
Proof.
  assert (E : exp (-1) <= 37 / 100) by (left; assert (T : 36 / 100 < exp (-1) < 37 / 100) by iv_num 60%Z 30%nat; lra).
  induction k as [|k IH]; [change (INR 0) with 0; rewrite Ropp_0, exp_0; cbn; lra|]. rewrite S_INR. replace (- (INR k + 1)) with (-1 + - INR k) by ring. rewrite exp_plus. cbn [pow]. apply Rmult_le_compat; auto; left; apply exp_pos.
Qed.
Lemma half_exp k : exp (- INR k) <= (1 / 2) ^ k.
Proof. pose proof (exp_m k). replace ((1 / 2) ^ k) with (/ 2 ^ k); auto. rewrite <- pow_inv. f_equal. lra. Qed.
Lemma exp_split c k y : INR c + INR k <= y -> exp (- y) <= (37 / 100) ^ c * (1 / 2) ^ k.
Proof.
  intros H. eapply Rle_trans; [apply (exp_le _ (- INR c + - INR k)); lra|]. rewrite exp_plus. apply Rmult_le_compat; [left; apply exp_pos|left; apply exp_pos|apply exp_m37|apply half_exp].
Qed.
Lemma pi2 : 98 / 10 < PI ^ 2. Proof. assert (98 / 10 < PI ^ 2 < 99 / 10) by iv_num 40%Z 20%nat. lra. Qed.

Lemma sgn_pow n : sgn_n n = (-1) ^ n.
Proof. unfold sgn_n. induction n as [|n IH]; [reflexivity|]. rewrite Nat.odd_succ, <- Nat.negb_odd. cbn [pow]. rewrite <- IH. destruct (Nat.odd n); cbn; ring. Qed.
Lemma odd1_v' n : odd1 n = 2 * INR n + 1.
Proof. unfold odd1. rewrite plus_INR, mult_INR. cbn. ring. Qed.
Lemma sgn_abs n : Rabs ((-1) ^ n) = 1.
Proof. rewrite <- RPow_abs. replace (Rabs (-1)) with 1 by (rewrite Rabs_left; lra). apply pow1. Qed.
Lemma ninv n : 0 < / (2 * INR n + 1) <= 1.
Proof. pose proof (pos_INR n). split; [apply Rinv_0_lt_compat; lra|]. rewrite <- Rinv_1 at 2. apply Rinv_le_contravar; lra. Qed.
Lemma long_exp F n c j : 1 / 4 <= F -> INR c + INR j <= 98 / 160 * n ^ 2 -> exp (- (PI ^ 2 / 4) * F * n ^ 2) <= (37 / 100) ^ c * (1 / 2) ^ j.
Proof.
  intros HF H. replace (- (PI ^ 2 / 4) * F * n ^ 2) with (- (PI ^ 2 / 4 * F * n ^ 2)) by ring. apply exp_split. eapply Rle_trans; [exact H|]. apply Rmult_le_compat_r; [apply pow2_ge_0|]. pose proof pi2. nra.
Qed.

(** ** The sheet *)
Theorem C123_sheet Fo x : 0 < Fo -> -1 <= x <= 1 ->
  (Fo < 1 / 4 -> exists L : R, is_lim_seq (fun K => sumn K (fun n => (-1) ^ n * (erfc ((2 * INR n + 1 - x) / (2 * sqrt Fo)) + erfc ((2 * INR n + 1 + x) / (2 * sqrt Fo))))) L /\
                              Rabs (profile_sheet Fo x - L) <= 1 / 10 ^ 16) /\
  (1 / 4 <= Fo -> exists L : R, is_lim_seq (fun K => 1 - 4 / PI * sumn K (fun n => (-1) ^ n / (2 * INR n + 1) * exp (- (PI ^ 2 / 4) * Fo * (2 * INR n + 1) ^ 2) * cos (PI / 2 * x * (2 * INR n + 1)))) L /\
                              Rabs (profile_sheet Fo x - L) <= 1 / 10 ^ 16).
Proof.
  intros HF Hx. split; intros HS.
  - set (a := fun n => (-1) ^ n * (erfc ((2 * INR n + 1 - x) / (2 * sqrt Fo)) + erfc ((2 * INR n + 1 + x) / (2 * sqrt Fo)))).
    destruct (sq_small Fo ltac:(lra)) as (Q1 & Q2).
    destruct (trunc a 4 (2 * (37 / 100) ^ 64)) as (L & HL & HB).
    { intros k. unfold a. rewrite Rabs_mult, sgn_abs, Rmult_1_l. rewrite plus_INR. replace (INR 4) with 4 by (cbn; ring). pose proof (pos_INR k) as Pk.
      assert (G : forall y, -1 <= y -> erfc ((2 * (4 + INR k) + 1 + y) / (2 * sqrt Fo)) <= (37 / 100) ^ 64 * (1 / 2) ^ k).
      { intros y Hy. assert (LB : 8 + INR k <= (2 * (4 + INR k) + 1 + y) / (2 * sqrt Fo)) by (apply (Rmult_le_reg_r (2 * sqrt Fo)); [lra|]; unfold Rdiv; rewrite Rmult_assoc, Rinv_l by lra; nra).
        eapply Rle_trans; [apply erfc_upper; lra|]. apply exp_split. replace (INR 64) with 64 by (rewrite INR_IZR_INZ; reflexivity). nra. }
      pose proof (G (- x) ltac:(lra)) as G1. pose proof (G x ltac:(lra)) as G2. replace (2 * (4 + INR k) + 1 + - x) with (2 * (4 + INR k) + 1 - x) in G1 by ring.
      pose proof (erfc_bounds ((2 * (4 + INR k) + 1 - x) / (2 * sqrt Fo))). pose proof (erfc_bounds ((2 * (4 + INR k) + 1 + x) / (2 * sqrt Fo))). rewrite Rabs_right by lra. lra. }
    exists L. split; [exact HL|]. replace (profile_sheet Fo x) with (sumn 4 a); [eapply Rle_trans; [exact HB|]; lra|].
    rewrite sheet_small by lra. unfold sheet_s, a. apply sumn_ext. intros n _. now rewrite sgn_pow, odd1_v'.
  - set (a := fun n => (-1) ^ n / (2 * INR n + 1) * exp (- (PI ^ 2 / 4) * Fo * (2 * INR n + 1) ^ 2) * cos (PI / 2 * x * (2 * INR n + 1))).
    pose proof PI_RGT_0 as HP. pose proof PI2_3_2 as HP2.
    destruct (trunc a 4 ((37 / 100) ^ 49)) as (L & HL & HB).
    { intros k. unfold a, Rdiv at 1. rewrite !Rabs_mult, sgn_abs, Rmult_1_l. pose proof (ninv (4 + k)) as NI. rewrite (Rabs_right (/ _)) by lra. rewrite (Rabs_right (exp _)) by (left; apply exp_pos).
      assert (E : exp (- (PI ^ 2 / 4) * Fo * (2 * INR (4 + k) + 1) ^ 2) <= (37 / 100) ^ 49 * (1 / 2) ^ k).
      { apply long_exp; auto. rewrite plus_INR. replace (INR 4) with 4 by (cbn; ring). replace (INR 49) with 49 by (rewrite INR_IZR_INZ; reflexivity). pose proof (pos_INR k). nra. }
      assert (Rabs (cos (PI / 2 * x * (2 * INR (4 + k) + 1))) <= 1) by (apply Rabs_le; apply COS_bound).
      pose proof (exp_pos (- (PI ^ 2 / 4) * Fo * (2 * INR (4 + k) + 1) ^ 2)). set (e := exp _) in *. set (i := / _) in *. pose proof (Rabs_pos (cos (PI / 2 * x * (2 * INR (4 + k) + 1)))). set (c := Rabs _) in *.
      apply (Rle_trans _ (1 * e * 1)); [|lra]. apply Rmult_le_compat; try lra; [apply Rmult_le_pos; lra|apply Rmult_le_compat_r; lra]. }
    exists (1 - 4 / PI * L). split.
    + apply is_lim_seq_minus'; [apply is_lim_seq_const|]. apply (is_lim_seq_scal_l _ (4 / PI) L). exact HL.
    + replace (profile_sheet Fo x) with (1 - 4 / PI * sumn 4 a).
      * replace (1 - 4 / PI * sumn 4 a - (1 - 4 / PI * L)) with (- (4 / PI * (sumn 4 a - L))) by ring. rewrite Rabs_Ropp, Rabs_mult. assert (P4 : 0 < 4 / PI <= 4) by (split; [apply Rdiv_lt_0_compat; lra|]; apply (Rmult_le_reg_r PI); [lra|]; replace (4 / PI * PI) with 4 by (field; lra); lra).
        rewrite (Rabs_right (4 / PI)) by lra. apply (Rle_trans _ (4 * (2 * (37 / 100) ^ 49))); [apply Rmult_le_compat; try lra; apply Rabs_pos|lra].
      * rewrite sheet_large by auto. unfold sheet_l, a. do 2 f_equal. apply sumn_ext. intros n _. now rewrite sgn_pow, odd1_v'.
Qed.

(** ** The sphere *)
Lemma sin_abs y : 0 <= y -> Rabs (sin y) <= y.
Proof.
  intros [H|<-]; [|rewrite sin_0, Rabs_R0; lra]. destruct (Rle_or_lt 1 y); [eapply Rle_trans; [apply Rabs_le; apply SIN_bound|auto]|].
  pose proof PI2_3_2. rewrite Rabs_right; [left; now apply sin_lt_x|]. left. apply sin_gt_0; lra.
Qed.
Lemma erfc_diff A B : 0 <= A <= B -> 0 <= erfc A - erfc B <= 2 * (B - A) * exp (- A ^ 2).
Proof.
  intros (HA & HB). split; [pose proof (erfc_decr_le A B HB); lra|]. destruct HB as [HB|<-]; [|lra].
  destruct (MVT_cor2 erfc (fun x => - (2 / sqrt PI * exp (- x ^ 2))) A B HB) as (c & Ec & Hc); [intros; apply is_derive_Reals; apply erfc_D|].
  assert (SP : 1 < sqrt PI) by (rewrite <- sqrt_1 at 1; apply sqrt_lt_1_alt; pose proof PI2_3_2; lra).
  assert (S2 : 0 < 2 / sqrt PI <= 2) by (split; [apply Rdiv_lt_0_compat; lra|]; apply (Rmult_le_reg_r (sqrt PI)); [lra|]; replace (2 / sqrt PI * sqrt PI) with 2 by (field; lra); lra).
  assert (exp (- c ^ 2) <= exp (- A ^ 2)) by (apply exp_le; assert (A ^ 2 <= c ^ 2) by (apply pow_incr; lra); lra). pose proof (exp_pos (- c ^ 2)).
  assert (2 / sqrt PI * exp (- c ^ 2) <= 2 * exp (- A ^ 2)) by (apply Rmult_le_compat; lra).
  replace (erfc A - erfc B) with (2 / sqrt PI * exp (- c ^ 2) * (B - A)) by lra. replace (2 * (B - A) * exp (- A ^ 2)) with (2 * exp (- A ^ 2) * (B - A)) by ring. apply Rmult_le_compat_r; lra.
Qed.
Lemma exp4 F k : - PI ^ 2 * F * k ^ 2 = - (PI ^ 2 / 4) * F * (2 * k) ^ 2. Proof. field. Qed.
Theorem C123_sphere Fo r : 0 < Fo ->
  (Fo < 1 / 4 -> eps <= r <= 1 -> exists L : R, is_lim_seq (fun K => sumn K (fun n => erfc ((2 * INR n + 1 - r) / (2 * sqrt Fo)) - erfc ((2 * INR n + 1 + r) / (2 * sqrt Fo))) / r) L /\
                              Rabs (profile_sphere Fo r - L) <= 1 / 10 ^ 16) /\
  (1 / 4 <= Fo -> eps <= r <= 1 -> exists L : R, is_lim_seq (fun K => 1 + 2 / (PI * r) * sumn K (fun k => (-1) ^ (k + 1) / (INR k + 1) * exp (- PI ^ 2 * Fo * (INR k + 1) ^ 2) * sin (r * PI * (INR k + 1)))) L /\
                              Rabs (profile_sphere Fo r - L) <= 1 / 10 ^ 16) /\
  (1 / 4 <= Fo -> exists L : R, is_lim_seq (fun K => 1 + 2 * sumn K (fun k => (-1) ^ (k + 1) * exp (- PI ^ 2 * Fo * (INR k + 1) ^ 2))) L /\
                              Rabs (profile_sphere Fo 0 - L) <= 1 / 10 ^ 16).
Proof.
  intros HF. pose proof eps_pos0 as HE. pose proof PI_RGT_0 as HP.
  assert (LE : 1 / 4 <= Fo -> forall k, exp (- PI ^ 2 * Fo * (INR (3 + k) + 1) ^ 2) <= (37 / 100) ^ 39 * (1 / 2) ^ k).
  { intros HL k. rewrite exp4. apply long_exp; auto. rewrite plus_INR. replace (INR 3) with 3 by (cbn; ring). replace (INR 39) with 39 by (rewrite INR_IZR_INZ; reflexivity). pose proof (pos_INR k). nra. }
  split; [|split].
  - intros HS Hr. set (a := fun n => erfc ((2 * INR n + 1 - r) / (2 * sqrt Fo)) - erfc ((2 * INR n + 1 + r) / (2 * sqrt Fo))).
    destruct (sq_small Fo ltac:(lra)) as (Q1 & Q2). set (q := sqrt Fo) in *.
    destruct (trunc a 4 (2 * r * (37 / 100) ^ 62)) as (L & HL & HB).
    { intros k. unfold a. rewrite plus_INR. replace (INR 4) with 4 by (cbn; ring). pose proof (pos_INR k) as Pk. set (A := (2 * (4 + INR k) + 1 - r) / (2 * q)). set (B := (2 * (4 + INR k) + 1 + r) / (2 * q)).
      assert (EB : B = A + r * / q) by (unfold A, B; field; lra). assert (T : 2 < / q) by (apply (Rmult_lt_reg_r q); [lra|]; rewrite Rinv_l; lra). set (t := / q) in *.
      assert (LA : (4 + INR k) * t <= A) by (replace A with ((2 * (4 + INR k) + 1 - r) / 2 * t) by (unfold A, t; field; lra); apply Rmult_le_compat_r; lra).
      assert (0 <= (4 + INR k) * t) by (apply Rmult_le_pos; lra). assert (0 <= r * t) by (apply Rmult_le_pos; lra).
      destruct (erfc_diff A B ltac:(lra)) as (D1 & D2). rewrite Rabs_right by lra. eapply Rle_trans; [exact D2|]. replace (B - A) with (r * t) by lra.
      replace (2 * (r * t) * exp (- A ^ 2)) with (2 * r * (t * exp (- A ^ 2))) by ring. rewrite (Rmult_assoc (2 * r) ((37 / 100) ^ 62)). apply Rmult_le_compat_l; [lra|].
      apply (Rle_trans _ (exp t * exp (- A ^ 2))); [apply Rmult_le_compat_r; [left; apply exp_pos|pose proof (exp_ineq1_le t); lra]|]. rewrite <- exp_plus. replace (t + - A ^ 2) with (- (A ^ 2 - t)) by ring. apply exp_split. replace (INR 62) with 62 by (rewrite INR_IZR_INZ; reflexivity).
      assert (((4 + INR k) * t) ^ 2 <= A ^ 2) by (apply pow_incr; lra). assert (((4 + INR k) * t) ^ 2 >= (16 + 8 * INR k) * (t * t)) by nra. nra. }
    exists (L / r). split; [apply (is_lim_seq_scal_r _ (/ r) L); exact HL|].
    replace (profile_sphere Fo r) with (sumn 4 a / r).
    + replace (sumn 4 a / r - L / r) with ((sumn 4 a - L) * / r) by (field; lra). rewrite Rabs_mult. rewrite (Rabs_right (/ r)) by (left; apply Rinv_0_lt_compat; lra). apply (Rmult_le_reg_r r); [lra|]. rewrite Rmult_assoc, Rinv_l, Rmult_1_r by lra.
      eapply Rle_trans; [exact HB|]. replace (2 * (2 * r * (37 / 100) ^ 62)) with (4 * (37 / 100) ^ 62 * r) by ring. apply Rmult_le_compat_r; lra.
    + assert (RA : eps <= Rabs r) by (rewrite Rabs_right; lra). apply (Rmult_eq_reg_l r); [|lra]. rewrite sphere_small by (auto; lra). unfold sphere_s, a. fold q. field_simplify; [|lra]. apply sumn_ext. intros n _. now rewrite odd1_v'.
  - intros HS Hr. set (a := fun k => (-1) ^ (k + 1) / (INR k + 1) * exp (- PI ^ 2 * Fo * (INR k + 1) ^ 2) * sin (r * PI * (INR k + 1))).
    destruct (trunc a 3 (PI * r * (37 / 100) ^ 39)) as (L & HL & HB).
    { intros k. unfold a, Rdiv. rewrite !Rabs_mult, sgn_abs, Rmult_1_l. pose proof (LE HS k) as E. pose proof (pos_INR (3 + k)) as Pk. set (e := exp _) in *. assert (0 < e) by apply exp_pos. set (n := INR (3 + k)) in *.
      rewrite (Rabs_right (/ _)) by (left; apply Rinv_0_lt_compat; lra). rewrite (Rabs_right e) by lra.
      assert (0 < r * PI) by (apply Rmult_lt_0_compat; lra). assert (SA : Rabs (sin (r * PI * (n + 1))) <= r * PI * (n + 1)) by (apply sin_abs; apply Rmult_le_pos; lra).
      apply (Rle_trans _ (/ (n + 1) * e * (r * PI * (n + 1)))); [apply Rmult_le_compat_l; [|exact SA]; apply Rmult_le_pos; [left; apply Rinv_0_lt_compat|]; lra|].
      replace (/ (n + 1) * e * (r * PI * (n + 1))) with (PI * r * e) by (field; lra). rewrite (Rmult_assoc (PI * r) (_ ^ 39)). apply Rmult_le_compat_l; lra. }
    exists (1 + 2 / (PI * r) * L). assert (PR : 0 < PI * r) by (apply Rmult_lt_0_compat; lra). split.
    + apply is_lim_seq_plus'; [apply is_lim_seq_const|]. apply (is_lim_seq_scal_l _ (2 / (PI * r)) L). exact HL.
    + replace (profile_sphere Fo r) with (1 + 2 / (PI * r) * sumn 3 a).
      * replace (1 + 2 / (PI * r) * sumn 3 a - (1 + 2 / (PI * r) * L)) with (2 / (PI * r) * (sumn 3 a - L)) by ring. rewrite Rabs_mult, (Rabs_right (2 / (PI * r))) by (left; apply Rdiv_lt_0_compat; lra).
        apply (Rle_trans _ (2 / (PI * r) * (2 * (PI * r * (37 / 100) ^ 39)))); [apply Rmult_le_compat_l; [left; apply Rdiv_lt_0_compat; lra|auto]|]. replace (2 / (PI * r) * (2 * (PI * r * (37 / 100) ^ 39))) with (4 * (37 / 100) ^ 39) by (field; split; lra). lra.
      * unfold profile_sphere. rewrite (Rabs_right r), Rltb_f, Reqb_f, Rltb_f by lra. cbv zeta. do 2 f_equal. apply sumn_ext. intros k _. unfold a. rewrite sgn_pow, S_INR. now replace (k + 1)%nat with (S k) by lia.
  - intros HS. set (a := fun k => (-1) ^ (k + 1) * exp (- PI ^ 2 * Fo * (INR k + 1) ^ 2)).
    destruct (trunc a 3 ((37 / 100) ^ 39)) as (L & HL & HB).
    { intros k. unfold a. rewrite Rabs_mult, sgn_abs, Rmult_1_l, Rabs_right by (left; apply exp_pos). now apply LE. }
    exists (1 + 2 * L). split; [apply is_lim_seq_plus'; [apply is_lim_seq_const|]; apply (is_lim_seq_scal_l _ 2 L); exact HL|].
    replace (profile_sphere Fo 0) with (1 + 2 * sumn 3 a).
    + replace (1 + 2 * sumn 3 a - (1 + 2 * L)) with (2 * (sumn 3 a - L)) by ring. rewrite Rabs_mult, (Rabs_right 2) by lra. lra.
    + unfold profile_sphere. rewrite Rabs_R0, Rltb_t by lra. cbv zeta. do 2 f_equal. apply sumn_ext. intros k _. unfold a. rewrite sgn_pow, S_INR. now replace (k + 1)%nat with (S k) by lia.
Qed.

(** ** The uptakes *)
Theorem C123_uptake_sheet Fo : 0 < Fo ->
  (Fo < 1 / 4 -> exists L : R, is_lim_seq (fun K => 2 * sqrt Fo * (1 / sqrt PI + 2 * sumn K (fun k => let y := (INR k + 1) / sqrt Fo in (-1) ^ (k + 1) * (exp (- y ^ 2) / sqrt PI - y * erfc y)))) L /\
                              Rabs (uptake_sheet Fo - L) <= 1 / 10 ^ 14) /\
  (1 / 4 <= Fo -> exists L : R, is_lim_seq (fun K => 1 - 8 / PI ^ 2 * sumn K (fun n => 1 / (2 * INR n + 1) ^ 2 * exp (- (PI ^ 2 / 4) * Fo * (2 * INR n + 1) ^ 2))) L /\
                              Rabs (uptake_sheet Fo - L) <= 1 / 10 ^ 14).
Proof.
  intros HF. pose proof PI_RGT_0 as HP. split; intros HS.
  - destruct (sq_small Fo ltac:(lra)) as (Q1 & Q2). set (q := sqrt Fo) in *.
    set (a := fun k => let y := (INR k + 1) / q in (-1) ^ (k + 1) * (exp (- y ^ 2) / sqrt PI - y * erfc y)).
    assert (EA : forall k, a k = (-1) ^ (k + 1) * gi ((INR k + 1) / q)) by reflexivity.
    destruct (trunc a 3 ((37 / 100) ^ 64)) as (L & HL & HB).
    { intros k. rewrite EA, Rabs_mult, sgn_abs, Rmult_1_l. pose proof (gi_pos ((INR (3 + k) + 1) / q)). rewrite Rabs_right by lra. rewrite plus_INR. replace (INR 3) with 3 by (cbn; ring). pose proof (pos_INR k) as Pk. set (y := (3 + INR k + 1) / q).
      assert (LB : 8 + INR k <= y) by (unfold y; apply (Rmult_le_reg_r q); [lra|]; unfold Rdiv; rewrite Rmult_assoc, Rinv_l by lra; nra).
      eapply Rle_trans; [apply gi_up1; lra|]. apply exp_split. replace (INR 64) with 64 by (rewrite INR_IZR_INZ; reflexivity). nra. }
    exists (2 * q * (1 / sqrt PI + 2 * L)). split.
    + apply (is_lim_seq_scal_l _ (2 * q) (1 / sqrt PI + 2 * L)). apply is_lim_seq_plus'; [apply is_lim_seq_const|]. apply (is_lim_seq_scal_l _ 2 L). exact HL.
    + assert (U : uptake_sheet Fo = 2 * q * (1 / sqrt PI + 2 * sumn 3 (fun k => sgn_n (S k) * ierfc (INR (S k) / q)))) by (unfold uptake_sheet; rewrite Reqb_f, Rltb_t by lra; reflexivity).
      assert (DF : Rabs (sumn 3 (fun k => sgn_n (S k) * ierfc (INR (S k) / q)) - sumn 3 a) <= 3 * exp (- 900)).
      { assert (T : forall k, Rabs (sgn_n (S k) * ierfc (INR (S k) / q) - a k) <= exp (- 900)).
        { intros k. rewrite EA, sgn_pow, S_INR. replace (k + 1)%nat with (S k) by lia. replace ((-1) ^ S k * ierfc ((INR k + 1) / q) - (-1) ^ S k * gi ((INR k + 1) / q)) with ((-1) ^ S k * (ierfc ((INR k + 1) / q) - gi ((INR k + 1) / q))) by ring. rewrite Rabs_mult, sgn_abs, Rmult_1_l. pose proof (ierfc_gi ((INR k + 1) / q)). apply Rabs_le. pose proof (exp_pos (- 900)). lra. }
        rewrite <- sumn_minus. cbn [sumn]. pose proof (T 0%nat) as T0. pose proof (T 1%nat) as T1. pose proof (T 2%nat) as T2. apply Rabs_le_between in T0, T1, T2. apply Rabs_le. lra. }
      rewrite U. set (S3 := sumn 3 (fun k => sgn_n (S k) * ierfc (INR (S k) / q))) in *. replace (2 * q * (1 / sqrt PI + 2 * S3) - 2 * q * (1 / sqrt PI + 2 * L)) with (4 * q * (S3 - L)) by ring. rewrite Rabs_mult, (Rabs_right (4 * q)) by lra.
      assert (SL : Rabs (S3 - L) <= 3 * exp (- 900) + 2 * (37 / 100) ^ 64) by (replace (S3 - L) with ((S3 - sumn 3 a) + (sumn 3 a - L)) by ring; eapply Rle_trans; [apply Rabs_triang|]; lra).
      pose proof e900 as E9. apply (Rle_trans _ (2 * (3 * exp (- 900) + 2 * (37 / 100) ^ 64))); [apply Rmult_le_compat; try lra; apply Rabs_pos|]. lra.
  - set (a := fun n => 1 / (2 * INR n + 1) ^ 2 * exp (- (PI ^ 2 / 4) * Fo * (2 * INR n + 1) ^ 2)).
    destruct (trunc a 3 (1 / 49 * (37 / 100) ^ 30)) as (L & HL & HB).
    { intros k. unfold a. assert (E : exp (- (PI ^ 2 / 4) * Fo * (2 * INR (3 + k) + 1) ^ 2) <= (37 / 100) ^ 30 * (1 / 2) ^ k).
      { apply long_exp; auto. rewrite plus_INR. replace (INR 3) with 3 by (cbn; ring). replace (INR 30) with 30 by (rewrite INR_IZR_INZ; reflexivity). pose proof (pos_INR k). nra. }
      assert (N7 : 49 <= (2 * INR (3 + k) + 1) ^ 2) by (rewrite plus_INR; replace (INR 3) with 3 by (cbn; ring); pose proof (pos_INR k); nra).
      assert (0 < 1 / (2 * INR (3 + k) + 1) ^ 2 <= 1 / 49) by (split; [apply Rdiv_lt_0_compat; lra|]; unfold Rdiv; rewrite !Rmult_1_l; apply Rinv_le_contravar; lra).
      pose proof (exp_pos (- (PI ^ 2 / 4) * Fo * (2 * INR (3 + k) + 1) ^ 2)). set (e := exp _) in *. set (i := 1 / (2 * INR (3 + k) + 1) ^ 2) in *. rewrite Rabs_right by (apply Rle_ge; apply Rmult_le_pos; lra). rewrite Rmult_assoc. apply Rmult_le_compat; lra. }
    exists (1 - 8 / PI ^ 2 * L). pose proof pi2 as P2. split.
    + apply is_lim_seq_minus'; [apply is_lim_seq_const|]. apply (is_lim_seq_scal_l _ (8 / PI ^ 2) L). exact HL.
    + replace (uptake_sheet Fo) with (1 - 8 / PI ^ 2 * sumn 3 a).
      * replace (1 - 8 / PI ^ 2 * sumn 3 a - (1 - 8 / PI ^ 2 * L)) with (- (8 / PI ^ 2 * (sumn 3 a - L))) by ring. rewrite Rabs_Ropp, Rabs_mult. assert (P8 : 0 < 8 / PI ^ 2 <= 1) by (split; [apply Rdiv_lt_0_compat; lra|]; apply (Rmult_le_reg_r (PI ^ 2)); [lra|]; replace (8 / PI ^ 2 * PI ^ 2) with 8 by (field; lra); lra).
        rewrite (Rabs_right (8 / PI ^ 2)) by lra. apply (Rle_trans _ (1 * (2 * (1 / 49 * (37 / 100) ^ 30)))); [apply Rmult_le_compat; try lra; apply Rabs_pos|lra].
      * unfold uptake_sheet. rewrite Reqb_f, Rltb_f by lra. cbv zeta. do 2 f_equal. apply sumn_ext. intros n _. unfold a. rewrite odd1_v'. do 2 f_equal. field.
Qed.
Theorem C123_uptake_sphere Fo : 0 < Fo ->
  (Fo < 1 / 4 -> exists L : R, is_lim_seq (fun K => 6 * sqrt Fo * (1 / sqrt PI + 2 * sumn K (fun k => let y := (INR k + 1) / sqrt Fo in exp (- y ^ 2) / sqrt PI - y * erfc y)) - 3 * Fo) L /\
                              Rabs (uptake_sphere Fo - L) <= 1 / 10 ^ 16) /\
  (1 / 4 <= Fo -> exists L : R, is_lim_seq (fun K => 1 - 6 / PI ^ 2 * sumn K (fun k => 1 / (INR k + 1) ^ 2 * exp (- PI ^ 2 * Fo * (INR k + 1) ^ 2))) L /\
                              Rabs (uptake_sphere Fo - L) <= 1 / 10 ^ 16).
Proof.
  intros HF. pose proof PI_RGT_0 as HP. split; intros HS.
  - destruct (sq_small Fo ltac:(lra)) as (Q1 & Q2). set (q := sqrt Fo) in *.
    set (a := fun k => let y := (INR k + 1) / q in exp (- y ^ 2) / sqrt PI - y * erfc y).
    assert (EA : forall k, a k = gi ((INR k + 1) / q)) by reflexivity.
    destruct (trunc a 3 ((37 / 100) ^ 64)) as (L & HL & HB).
    { intros k. rewrite EA. pose proof (gi_pos ((INR (3 + k) + 1) / q)). rewrite Rabs_right by lra. rewrite plus_INR. replace (INR 3) with 3 by (cbn; ring). pose proof (pos_INR k) as Pk. set (y := (3 + INR k + 1) / q).
      assert (LB : 8 + INR k <= y) by (unfold y; apply (Rmult_le_reg_r q); [lra|]; unfold Rdiv; rewrite Rmult_assoc, Rinv_l by lra; nra).
      eapply Rle_trans; [apply gi_up1; lra|]. apply exp_split. replace (INR 64) with 64 by (rewrite INR_IZR_INZ; reflexivity). nra. }
    exists (6 * q * (1 / sqrt PI + 2 * L) - 3 * Fo). split.
    + apply is_lim_seq_minus'; [|apply is_lim_seq_const]. apply (is_lim_seq_scal_l _ (6 * q) (1 / sqrt PI + 2 * L)). apply is_lim_seq_plus'; [apply is_lim_seq_const|]. apply (is_lim_seq_scal_l _ 2 L). exact HL.
    + assert (U : uptake_sphere Fo = 6 * q * (1 / sqrt PI + 2 * sumn 3 (fun k => ierfc (INR (S k) / q))) - 3 * Fo) by (unfold uptake_sphere; rewrite Reqb_f, Rltb_t by lra; reflexivity).
      assert (DF : Rabs (sumn 3 (fun k => ierfc (INR (S k) / q)) - sumn 3 a) <= 3 * exp (- 900)).
      { assert (T : forall k, Rabs (ierfc (INR (S k) / q) - a k) <= exp (- 900)) by (intros k; rewrite EA, S_INR; pose proof (ierfc_gi ((INR k + 1) / q)); apply Rabs_le; pose proof (exp_pos (- 900)); lra).
        rewrite <- sumn_minus. cbn [sumn]. pose proof (T 0%nat) as T0. pose proof (T 1%nat) as T1. pose proof (T 2%nat) as T2. apply Rabs_le_between in T0, T1, T2. apply Rabs_le. lra. }
      rewrite U. set (S3 := sumn 3 (fun k => ierfc (INR (S k) / q))) in *. replace (6 * q * (1 / sqrt PI + 2 * S3) - 3 * Fo - (6 * q * (1 / sqrt PI + 2 * L) - 3 * Fo)) with (12 * q * (S3 - L)) by ring. rewrite Rabs_mult, (Rabs_right (12 * q)) by lra.
      assert (SL : Rabs (S3 - L) <= 3 * exp (- 900) + 2 * (37 / 100) ^ 64) by (replace (S3 - L) with ((S3 - sumn 3 a) + (sumn 3 a - L)) by ring; eapply Rle_trans; [apply Rabs_triang|]; lra).
      pose proof e900 as E9. apply (Rle_trans _ (6 * (3 * exp (- 900) + 2 * (37 / 100) ^ 64))); [apply Rmult_le_compat; try lra; apply Rabs_pos|]. lra.
  - set (a := fun k => 1 / (INR k + 1) ^ 2 * exp (- PI ^ 2 * Fo * (INR k + 1) ^ 2)).
    destruct (trunc a 3 ((37 / 100) ^ 39)) as (L & HL & HB).
    { intros k. unfold a. assert (E : exp (- PI ^ 2 * Fo * (INR (3 + k) + 1) ^ 2) <= (37 / 100) ^ 39 * (1 / 2) ^ k).
      { rewrite exp4. apply long_exp; auto. rewrite plus_INR. replace (INR 3) with 3 by (cbn; ring). replace (INR 39) with 39 by (rewrite INR_IZR_INZ; reflexivity). pose proof (pos_INR k). nra. }
      assert (N7 : 1 <= (INR (3 + k) + 1) ^ 2) by (pose proof (pos_INR (3 + k)); nra).
      assert (0 < 1 / (INR (3 + k) + 1) ^ 2 <= 1) by (split; [apply Rdiv_lt_0_compat; lra|]; apply (Rmult_le_reg_r ((INR (3 + k) + 1) ^ 2)); [lra|]; replace (1 / (INR (3 + k) + 1) ^ 2 * (INR (3 + k) + 1) ^ 2) with 1 by (field; pose proof (pos_INR (3 + k)); lra); lra).
      pose proof (exp_pos (- PI ^ 2 * Fo * (INR (3 + k) + 1) ^ 2)). set (e := exp _) in *. set (i := 1 / (INR (3 + k) + 1) ^ 2) in *. rewrite Rabs_right by (apply Rle_ge; apply Rmult_le_pos; lra). apply (Rle_trans _ (1 * e)); [apply Rmult_le_compat_r; lra|lra]. }
    exists (1 - 6 / PI ^ 2 * L). pose proof pi2 as P2. split.
    + apply is_lim_seq_minus'; [apply is_lim_seq_const|]. apply (is_lim_seq_scal_l _ (6 / PI ^ 2) L). exact HL.
    + replace (uptake_sphere Fo) with (1 - 6 / PI ^ 2 * sumn 3 a).
      * replace (1 - 6 / PI ^ 2 * sumn 3 a - (1 - 6 / PI ^ 2 * L)) with (- (6 / PI ^ 2 * (sumn 3 a - L))) by ring. rewrite Rabs_Ropp, Rabs_mult. assert (P8 : 0 < 6 / PI ^ 2 <= 1) by (split; [apply Rdiv_lt_0_compat; lra|]; apply (Rmult_le_reg_r (PI ^ 2)); [lra|]; replace (6 / PI ^ 2 * PI ^ 2) with 6 by (field; lra); lra).
        rewrite (Rabs_right (6 / PI ^ 2)) by lra. apply (Rle_trans _ (1 * (2 * (37 / 100) ^ 39))); [apply Rmult_le_compat; try lra; apply Rabs_pos|lra].
      * unfold uptake_sphere. rewrite Reqb_f, Rltb_f by lra. cbv zeta. do 2 f_equal. apply sumn_ext. intros n _. unfold a. rewrite S_INR. do 2 f_equal. ring.
Qed.

(** the long-time series at Fo = 1/4 in the middle of the sheet: 1 - 4/pi (exp(-pi^2/16) - exp(-9 pi^2/16)/3 + ...) *)
Example C123_case : exists L : R, Rabs (profile_sheet (1 / 4) 0 - L) <= 1 / 10 ^ 16 /\ Rabs (profile_sheet (1 / 4) 0 - 3145 / 10000) < 1 / 100 /\ 30 / 100 < L < 33 / 100.
Proof.
  destruct (C123_sheet (1 / 4) 0 ltac:(lra) ltac:(lra)) as (_ & H). destruct (H ltac:(lra)) as (L & _ & HB). exists L. split; [exact HB|].
  assert (V : 312 / 1000 < profile_sheet (1 / 4) 0 < 318 / 1000).
  { rewrite sheet_large by lra. unfold sheet_l. destruct odd1_v as (O0 & O1 & O2 & O3). cbn [sumn]. rewrite O0, O1, O2, O3, !Rmult_0_r, !Rmult_0_l, !cos_0. unfold sgn_n. cbn -[pow].
    iv_num 24%Z 14%nat. }
  split; [apply Rabs_def1; lra|]. apply Rabs_le_between in HB. lra.
Qed.
Print Assumptions C123_sheet.
Print Assumptions C123_sphere.
Print Assumptions C123_uptake_sheet.
Print Assumptions C123_uptake_sphere.
