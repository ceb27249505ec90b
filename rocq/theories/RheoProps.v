(** C57 (Mueller-Bonn sign), C60: rheology models; C93: packed beds and settling of spheres. *)
From Coq Require Import Reals Lra Lia List Bool Arith Psatz.
From Verif Require Import Prelude RootsModel RootsProps KinModel CopoModel Deriv NumBounds HmtModel HmtProps WallProps FlowModel FlowProps.
Import ListNotations.
Open Scope R_scope.

(* ------------------------------------------------------------------ *)
(** * Mueller-Bonn: sign                                              *)
(* ------------------------------------------------------------------ *)

(** positive when the gas alone would have the larger drop *)
Theorem C57_MB_positive mdotL mdotG D L rhoL rhoG muL muG : 0 <= mdotL -> 0 <= mdotG -> 0 < mdotL + mdotG -> 0 < D -> 0 < L -> 0 < rhoL -> 0 < rhoG -> 0 < muL -> 0 < muG ->
  forall fL fG, f_MB (Re_m (mdotL + mdotG) D muL) = Ok fL -> f_MB (Re_m (mdotL + mdotG) D muG) = Ok fG ->
  single (mdotL + mdotG) D L rhoL muL fL <= single (mdotL + mdotG) D L rhoG muG fG ->
  exists p, DP_GL_Mueller_Bonn mdotL mdotG D L rhoL rhoG muL muG = Ok p /\ 0 < p.
Proof.
  intros H1 H2 Hs HD HL R1 R2 M1 M2 fL fG EL EG LE. pose proof PI_RGT_0. set (m := mdotL + mdotG) in *. unfold DP_GL_Mueller_Bonn. fold m. rewrite pydiv_ok by lra. cbn [bind]. fold (Re_m m D muL) (Re_m m D muG). rewrite EL, EG. cbn [bind]. eexists. split; [reflexivity|].
  unfold single in LE. set (v := m / (PI / 4 * D ^ 2)) in *. destruct (f_MB_pos _ (Re_m_pos m D muL Hs HD M1)) as (fL' & EL' & PL). destruct (f_MB_pos _ (Re_m_pos m D muG Hs HD M2)) as (fG' & EG' & PG). assert (fL' = fL) by congruence. assert (fG' = fG) by congruence. subst fL' fG'.
  assert (V : 0 < v). { apply Rdiv_lt_0_compat; auto. apply Rmult_lt_0_compat; [lra|apply pow_lt; lra]. }
  assert (PL0 : 0 < fL * v ^ 2 / (2 * rhoL * D)). { apply Rdiv_lt_0_compat; [apply Rmult_lt_0_compat; [auto|apply pow_lt; auto]|]. apply Rmult_lt_0_compat; lra. }
  assert (PG0 : 0 < fG * v ^ 2 / (2 * rhoG * D)). { apply Rdiv_lt_0_compat; [apply Rmult_lt_0_compat; [auto|apply pow_lt; auto]|]. apply Rmult_lt_0_compat; lra. }
  set (a := fL * v ^ 2 / (2 * rhoL * D)) in *. set (b := fG * v ^ 2 / (2 * rhoG * D)) in *. assert (LE' : a <= b) by (apply (Rmult_le_reg_r L); auto).
  assert (X : 0 <= mdotG / m <= 1). { split; [apply Rmult_le_pos; [auto|left; now apply Rinv_0_lt_compat]|]. apply (Rmult_le_reg_r m); auto. unfold Rdiv. rewrite Rmult_assoc, Rinv_l by lra. unfold m. lra. }
  set (x := mdotG / m) in *. apply Rmult_lt_0_compat; auto. pose proof (pow0_nonneg (1 - x) (1 / 3)) as P0. assert (Q : 0 < a + 2 * (b - a) * x) by (assert (0 <= 2 * (b - a) * x) by (apply Rmult_le_pos; lra); lra).
  assert (X3 : 0 <= x ^ 3) by (apply pow_le; lra). destruct (Req_dec x 1) as [E|N].
  - rewrite E. replace (1 - 1) with 0 by ring. rewrite pow0_0. lra.
  - rewrite pow0_pos by lra. pose proof (rp_pos (1 - x) (1 / 3)). assert (0 < (a + 2 * (b - a) * x) * Rpower (1 - x) (1 / 3)) by now apply Rmult_lt_0_compat. assert (0 <= b * x ^ 3) by (apply Rmult_le_pos; lra). lra.
Qed.
(** finding: with a viscous liquid (kinematic viscosity at least ten times that of the gas) and 90 % gas in
    laminar flow the pressure drop is negative, i.e. below both single-phase drops *)
Theorem C57_MB_negative_refuted m D L rhoL rhoG muL muG : 0 < m -> 0 < D -> 0 < L -> 0 < rhoL -> 0 < rhoG -> 0 < muL -> 0 < muG ->
  Re_m m D muL <= 1187 -> Re_m m D muG <= 1187 -> 10 * (muG / rhoG) <= muL / rhoL ->
  exists p, DP_GL_Mueller_Bonn (m / 10) (9 * (m / 10)) D L rhoL rhoG muL muG = Ok p /\ p < 0.
Proof.
  intros Hm HD HL R1 R2 M1 M2 L1 L2 K. pose proof PI_RGT_0. unfold DP_GL_Mueller_Bonn. replace (m / 10 + 9 * (m / 10)) with m by field. rewrite pydiv_ok by lra. cbn [bind]. fold (Re_m m D muL) (Re_m m D muG).
  pose proof (Re_m_pos m D muL Hm HD M1). pose proof (Re_m_pos m D muG Hm HD M2). unfold f_MB. rewrite !Rleb_t by auto. rewrite !pydiv_ok by lra. cbn [bind]. eexists. split; [reflexivity|].
  replace (9 * (m / 10) / m) with (9 / 10) by (field; lra). replace (1 - 9 / 10) with (1 / 10) by field. rewrite pow0_pos by lra.
  assert (P : 4 / 10 < Rpower (1 / 10) (1 / 3)). { replace (1 / 3) with (INR 1 / INR 3) by (cbn [INR]; field). apply rpow_gt; [lra|lra|lia|simpl; lra]. } set (p := Rpower (1 / 10) (1 / 3)) in *.
  set (v := m / (PI / 4 * D ^ 2)). assert (V : 0 < v). { apply Rdiv_lt_0_compat; auto. apply Rmult_lt_0_compat; [lra|apply pow_lt; lra]. }
  assert (E : forall mu rho, 0 < mu -> 0 < rho -> 64 / Re_m m D mu * v ^ 2 / (2 * rho * D) = 32 * v / D ^ 2 * (mu / rho)). { intros mu rho Hmu Hrho. unfold Re_m. fold v. field. lra. }
  rewrite !E by auto. set (nL := muL / rhoL) in *. set (nG := muG / rhoG) in *. assert (0 < nG) by (apply Rdiv_lt_0_compat; auto). assert (C : 0 < 32 * v / D ^ 2) by (apply Rdiv_lt_0_compat; [lra|apply pow_lt; lra]). set (c := 32 * v / D ^ 2) in *.
  replace ((c * nL + 2 * (c * nG - c * nL) * (9 / 10)) * p + c * nG * (9 / 10) ^ 3) with (- (c * ((8 / 10 * nL - 18 / 10 * nG) * p - 729 / 1000 * nG))) by field.
  assert (0 < (8 / 10 * nL - 18 / 10 * nG) * p - 729 / 1000 * nG) by nra. assert (0 < c * ((8 / 10 * nL - 18 / 10 * nG) * p - 729 / 1000 * nG)) by now apply Rmult_lt_0_compat. nra.
Qed.
Print Assumptions C57_MB_negative_refuted.

(* ------------------------------------------------------------------ *)
(** * Rheology                                                        *)
(* ------------------------------------------------------------------ *)

Lemma py_pow_pos x y : 0 < x -> py_pow x y = Ok (Rpower x y).
Proof. intros H. unfold py_pow. now rewrite Reqb_f by lra. Qed.
Lemma py_pow_0 y : 0 < y -> py_pow 0 y = Ok 0.
Proof. intros H. unfold py_pow. rewrite Reqb_refl, Rltb_f, Reqb_f by lra. reflexivity. Qed.
Lemma py_pow_pow0 x y : 0 <= x -> 0 < y -> py_pow x y = Ok (pow0 x y).
Proof. intros H Hy. destruct (Req_dec x 0) as [-> |N]; [now rewrite py_pow_0, pow0_0|]. now rewrite py_pow_pos, pow0_pos by lra. Qed.

(** Cross: mu0 at rest, then strictly decreasing, positive *)
Theorem C60_cross mu0 lm n : 0 < mu0 -> 0 < lm -> n < 1 ->
  mu_Cross 0 mu0 lm n = Ok mu0 /\
  forall g1 g2, 0 <= g1 < g2 -> exists m1 m2, mu_Cross g1 mu0 lm n = Ok m1 /\ mu_Cross g2 mu0 lm n = Ok m2 /\ 0 < m2 < m1 /\ m1 <= mu0.
Proof.
  intros Hm Hl Hn. unfold mu_Cross. split. { rewrite Rmult_0_r, py_pow_0 by lra. cbn [bind]. f_equal. field. }
  intros g1 g2 Hg. assert (0 <= lm * g1 < lm * g2) by (split; [apply Rmult_le_pos; lra|apply Rmult_lt_compat_l; lra]). rewrite !py_pow_pow0 by lra. cbn [bind]. do 2 eexists. split; [reflexivity|]. split; [reflexivity|].
  pose proof (pow0_nonneg (lm * g1) (1 - n)). pose proof (pow0_lt (lm * g1) (lm * g2) (1 - n) ltac:(lra) ltac:(lra)). set (p := pow0 (lm * g1) (1 - n)) in *. set (q := pow0 (lm * g2) (1 - n)) in *. repeat split.
  - apply Rdiv_lt_0_compat; lra.
  - unfold Rdiv. apply Rmult_lt_compat_l; auto. apply Rinv_lt_contravar; [apply Rmult_lt_0_compat|]; lra.
  - apply (Rmult_le_reg_r (1 + p)); [lra|]. unfold Rdiv. rewrite Rmult_assoc, Rinv_l by lra. nra.
Qed.
(** no lower bound but 0 *)
Theorem C60_cross_limit mu0 lm n e : 0 < mu0 -> 0 < lm -> n < 1 -> 0 < e -> exists g0, 0 < g0 /\ forall g, g0 <= g -> exists m, mu_Cross g mu0 lm n = Ok m /\ 0 < m < e.
Proof.
  intros Hm Hl Hn He. set (g0 := Rpower (mu0 / e) (/ (1 - n)) / lm). assert (G0 : 0 < g0) by (apply Rdiv_lt_0_compat; [apply rp_pos|auto]). exists g0. split; auto. intros g Hg. unfold mu_Cross. assert (LG : lm * g0 <= lm * g) by (apply Rmult_le_compat_l; lra). assert (0 < lm * g0) by now apply Rmult_lt_0_compat. rewrite py_pow_pos by lra. cbn [bind]. eexists. split; [reflexivity|].
  assert (P : mu0 / e <= Rpower (lm * g) (1 - n)). { eapply Rle_trans; [|apply (rp_base_le (lm * g0)); lra]. unfold g0. replace (lm * (Rpower (mu0 / e) (/ (1 - n)) / lm)) with (Rpower (mu0 / e) (/ (1 - n))) by (field; lra). rewrite Rpower_mult, Rinv_l by lra. rewrite Rpower_1 by (apply Rdiv_lt_0_compat; lra). lra. }
  set (p := Rpower (lm * g) (1 - n)) in *. assert (0 < mu0 / e) by (apply Rdiv_lt_0_compat; lra). split; [apply Rdiv_lt_0_compat; lra|]. apply (Rmult_lt_reg_r (1 + p)); [lra|]. unfold Rdiv. rewrite Rmult_assoc, Rinv_l by lra. apply (Rmult_le_compat_r e) in P; [|lra]. unfold Rdiv in P. rewrite Rmult_assoc, Rinv_l in P by lra. lra.
Qed.
(** the modified form is the Cross model with lambda = C mu0 *)
Theorem C60_cross_modified mu0 C n : 0 < mu0 -> 0 < C -> n < 1 ->
  mu_Cross_modified 0 mu0 C n = Ok mu0 /\
  forall g1 g2, 0 <= g1 < g2 -> exists m1 m2, mu_Cross_modified g1 mu0 C n = Ok m1 /\ mu_Cross_modified g2 mu0 C n = Ok m2 /\ 0 < m2 < m1 /\ m1 <= mu0.
Proof. intros H1 H2 H3. apply (C60_cross mu0 (C * mu0) n); auto. now apply Rmult_lt_0_compat. Qed.
(** n = 1 is not the Newtonian fluid of viscosity mu0, but of mu0 / 2, also at rest *)
Theorem C60_cross_newtonian_refuted g mu0 lm : 0 <= g -> 0 < lm -> mu_Cross g mu0 lm 1 = Ok (mu0 / 2).
Proof.
  intros Hg Hl. unfold mu_Cross. replace (1 - 1) with 0 by ring. assert (0 <= lm * g) by (apply Rmult_le_pos; lra). assert (E : py_pow (lm * g) 0 = Ok 1).
  { destruct (Req_dec (lm * g) 0) as [-> |N]; [unfold py_pow; rewrite !Reqb_refl, Rltb_f by lra; reflexivity|]. rewrite py_pow_pos, Rpower_O by lra. reflexivity. }
  rewrite E. cbn [bind]. replace (1 + 1) with 2 by ring. reflexivity.
Qed.
(** Carreau-Yasuda: between muinf and mu0, mu0 at rest, strictly decreasing *)
Theorem C60_carreau mu0 muinf lm n a : 0 < lm -> n < 1 -> 0 < a -> muinf < mu0 ->
  mu_Carreau_Yasuda 0 mu0 muinf lm n a = Ok mu0 /\
  forall g1 g2, 0 <= g1 < g2 -> exists m1 m2, mu_Carreau_Yasuda g1 mu0 muinf lm n a = Ok m1 /\ mu_Carreau_Yasuda g2 mu0 muinf lm n a = Ok m2 /\ muinf < m2 < m1 /\ m1 <= mu0.
Proof.
  intros Hl Hn Ha Hm. assert (V : forall g, 0 <= g -> mu_Carreau_Yasuda g mu0 muinf lm n a = Ok (muinf + (mu0 - muinf) * Rpower (1 + pow0 (lm * g) a) ((n - 1) / a))).
  { intros g Hg. unfold mu_Carreau_Yasuda. rewrite py_pow_pow0 by (try apply Rmult_le_pos; lra). cbn [bind]. rewrite pydiv_ok by lra. cbn [bind]. pose proof (pow0_nonneg (lm * g) a). rewrite py_pow_pos by lra. reflexivity. }
  split. { rewrite V, Rmult_0_r, pow0_0, Rplus_0_r, rp_one by lra. f_equal. ring. }
  intros g1 g2 Hg. rewrite !V by lra. do 2 eexists. split; [reflexivity|]. split; [reflexivity|].
  assert (0 <= lm * g1 < lm * g2) by (split; [apply Rmult_le_pos; lra|apply Rmult_lt_compat_l; lra]). pose proof (pow0_nonneg (lm * g1) a). pose proof (pow0_lt (lm * g1) (lm * g2) a ltac:(lra) Ha). set (p := 1 + pow0 (lm * g1) a) in *. set (q := 1 + pow0 (lm * g2) a) in *.
  assert (E : (n - 1) / a = - ((1 - n) / a)) by (field; lra). assert (0 < (1 - n) / a) by (apply Rdiv_lt_0_compat; lra). rewrite E, !Rpower_Ropp. set (k := (1 - n) / a) in *.
  pose proof (rp_pos q k). pose proof (rp_pos p k). pose proof (rp_base p q k ltac:(unfold p; lra) ltac:(unfold p, q; lra) ltac:(lra)).
  assert (1 <= Rpower p k) by (rewrite <- (rp_one k); apply rp_base_le; unfold p; lra). assert (0 < / Rpower q k) by now apply Rinv_0_lt_compat. assert (/ Rpower q k < / Rpower p k) by (apply Rinv_lt_contravar; [now apply Rmult_lt_0_compat|auto]). assert (/ Rpower p k <= 1) by (rewrite <- Rinv_1; apply Rinv_le_contravar; lra).
  repeat split; nra.
Qed.
(** power law: shear thinning, and undefined at rest for n < 1 *)
Theorem C60_power_law K n : 0 < K -> n < 1 ->
  mu_PowerLaw 0 K n = Err ZeroDivisionError /\ forall g1 g2, 0 < g1 < g2 -> exists m1 m2, mu_PowerLaw g1 K n = Ok m1 /\ mu_PowerLaw g2 K n = Ok m2 /\ 0 < m2 < m1.
Proof.
  intros HK Hn. unfold mu_PowerLaw. split. { unfold py_pow. rewrite Reqb_refl, Rltb_t by lra. reflexivity. }
  intros g1 g2 Hg. rewrite !py_pow_pos by lra. cbn [bind]. do 2 eexists. split; [reflexivity|]. split; [reflexivity|]. replace (n - 1) with (- (1 - n)) by ring. rewrite !Rpower_Ropp. pose proof (rp_pos g1 (1 - n)). pose proof (rp_pos g2 (1 - n)). pose proof (rp_base g1 g2 (1 - n) ltac:(lra) ltac:(lra) ltac:(lra)).
  split; [apply Rmult_lt_0_compat; auto; now apply Rinv_0_lt_compat|]. apply Rmult_lt_compat_l; auto. apply Rinv_lt_contravar; [now apply Rmult_lt_0_compat|auto].
Qed.
(** at high shear the Cross model is a power law within mu0 (lambda g)^(n-1) *)
Theorem C60_cross_power g mu0 lm n : 0 < mu0 -> 0 < lm -> 0 < g -> exists m p, mu_Cross g mu0 lm n = Ok m /\ mu_PowerLaw (lm * g) mu0 n = Ok p /\ m < p.
Proof.
  intros Hm Hl Hg. assert (0 < lm * g) by now apply Rmult_lt_0_compat. unfold mu_Cross, mu_PowerLaw. rewrite !py_pow_pos by auto. cbn [bind]. do 2 eexists. split; [reflexivity|]. split; [reflexivity|].
  replace (n - 1) with (- (1 - n)) by ring. rewrite Rpower_Ropp. pose proof (rp_pos (lm * g) (1 - n)). unfold Rdiv. apply Rmult_lt_compat_l; auto. apply Rinv_lt_contravar; [apply Rmult_lt_0_compat|]; lra.
Qed.
(** WLF: 1 at T0, strictly decreasing above the pole T0 - C2; both or none of C1, C2 *)
Theorem C60_WLF T0 c1 c2 : 0 < c1 -> 0 < c2 ->
  aT_WLF T0 T0 (Some c1) (Some c2) = Ok 1 /\
  (forall T1 T2, T0 - c2 < T1 < T2 -> exists a1 a2, aT_WLF T1 T0 (Some c1) (Some c2) = Ok a1 /\ aT_WLF T2 T0 (Some c1) (Some c2) = Ok a2 /\ 0 < a2 < a1) /\
  (forall T, aT_WLF T T0 None None = aT_WLF T T0 (Some (1744 / 100)) (Some (5160 / 100))) /\
  (forall T, aT_WLF T T0 None (Some c2) = Err ValueError /\ aT_WLF T T0 (Some c1) None = Err ValueError).
Proof.
  intros H1 H2. unfold aT_WLF. cbn [bind]. split; [|split; [|split]].
  - rewrite pydiv_ok by lra. cbn [bind]. f_equal. replace (- c1 * (T0 - T0) / (c2 + T0 - T0)) with 0 by (field; lra). apply Rpower_O. lra.
  - intros T1 T2 H. rewrite !pydiv_ok by lra. cbn [bind]. do 2 eexists. split; [reflexivity|]. split; [reflexivity|]. split; [apply rp_pos|]. apply Rpower_lt; [lra|].
    apply (Rmult_lt_reg_r ((c2 + T1 - T0) * (c2 + T2 - T0))); [apply Rmult_lt_0_compat; lra|]. replace (- c1 * (T2 - T0) / (c2 + T2 - T0) * ((c2 + T1 - T0) * (c2 + T2 - T0))) with (- c1 * (T2 - T0) * (c2 + T1 - T0)) by (field; lra). replace (- c1 * (T1 - T0) / (c2 + T1 - T0) * ((c2 + T1 - T0) * (c2 + T2 - T0))) with (- c1 * (T1 - T0) * (c2 + T2 - T0)) by (field; lra).
    assert (0 < c1 * (c2 * (T2 - T1))) by (apply Rmult_lt_0_compat; auto; apply Rmult_lt_0_compat; lra). lra.
  - reflexivity.
  - intros T. split; reflexivity.
Qed.
(** finding: below the pole the shift factor is less than 1, so an even colder polymer flows more easily; at
    the pole the call fails *)
Theorem C60_WLF_below_refuted T T0 c1 c2 : 0 < c1 -> 0 < c2 ->
  aT_WLF (T0 - c2) T0 (Some c1) (Some c2) = Err ZeroDivisionError /\ (T < T0 - c2 -> exists a, aT_WLF T T0 (Some c1) (Some c2) = Ok a /\ 0 < a < Rpower 10 (- c1)).
Proof.
  intros H1 H2. unfold aT_WLF. cbn [bind]. split; [rewrite pydiv_zero by ring; reflexivity|]. intros H. rewrite pydiv_ok by lra. cbn [bind]. eexists. split; [reflexivity|]. split; [apply rp_pos|]. apply Rpower_lt; [lra|].
  replace (- c1 * (T - T0) / (c2 + T - T0)) with (- (c1 * (T0 - T)) / (T0 - T - c2)) by (field; lra). apply (Rmult_lt_reg_r (T0 - T - c2)); [lra|]. unfold Rdiv. rewrite Rmult_assoc, Rinv_l by lra. nra.
Qed.
Example C60_example : mu_Cross 1 4 1 0 = Ok 2 /\ mu_Carreau_Yasuda 1 5 1 1 (-1) 2 = Ok 3.
Proof.
  split. - unfold mu_Cross. rewrite py_pow_pos by lra. cbn [bind]. rewrite Rmult_1_r, rp_one. f_equal. field.
  - unfold mu_Carreau_Yasuda. rewrite py_pow_pos by lra. cbn [bind]. rewrite Rmult_1_r, rp_one, pydiv_ok by lra. cbn [bind]. rewrite py_pow_pos by lra. cbn [bind]. replace ((-1 - 1) / 2) with (- (1)) by field. rewrite Rpower_Ropp, Rpower_1 by lra. f_equal. field.
Qed.
Print Assumptions C60_carreau.

(* ------------------------------------------------------------------ *)
(** * Packed bed                                                      *)
(* ------------------------------------------------------------------ *)

(** positive, proportional to the length, increasing with the mass flux; no flow raises *)
Theorem C93_packed_bed L Dp eps rho mu : 0 < L -> 0 < Dp -> 0 < eps < 1 -> 0 < rho -> 0 < mu ->
  DP_packed_bed 0 L Dp eps rho mu = Err ZeroDivisionError /\
  forall G1 G2, 0 < G1 < G2 -> exists p1 p2, DP_packed_bed G1 L Dp eps rho mu = Ok p1 /\ DP_packed_bed G2 L Dp eps rho mu = Ok p2 /\ 0 < p1 < p2.
Proof.
  intros HL HD He Hr Hm. assert (M : 0 < mu * (1 - eps)) by (apply Rmult_lt_0_compat; lra). split.
  { unfold DP_packed_bed. rewrite Rmult_0_r. unfold Rdiv at 1. rewrite Rmult_0_l. now rewrite pydiv_zero. }
  set (k := Dp / (mu * (1 - eps))). assert (K : 0 < k) by (apply Rdiv_lt_0_compat; auto). set (C := (1 - eps) * L / (rho * Dp * eps ^ 3)). assert (HC : 0 < C). { apply Rdiv_lt_0_compat; [apply Rmult_lt_0_compat; lra|]. apply Rmult_lt_0_compat; [apply Rmult_lt_0_compat; lra|apply pow_lt; lra]. }
  assert (E6 : 0 < rho * Dp * eps ^ 3) by (apply Rmult_lt_0_compat; [apply Rmult_lt_0_compat; lra|apply pow_lt; lra]).
  assert (V : forall G, 0 < G -> DP_packed_bed G L Dp eps rho mu = Ok (C * (150 / k * G + 42 / 10 * Rpower k (- (1 / 6)) * Rpower G (11 / 6)))).
  { intros G HG. unfold DP_packed_bed. replace (Dp * G / (mu * (1 - eps))) with (k * G) by (unfold k; field; lra). assert (0 < k * G) by now apply Rmult_lt_0_compat. rewrite pow0_pos by auto. pose proof (rp_pos (k * G) (1 / 6)). rewrite !pydiv_ok by lra. cbn [bind]. f_equal.
    rewrite Rpower_Ropp. rewrite <- Rpower_mult_distr in * by auto. pose proof (rp_pos k (1 / 6)). pose proof (rp_pos G (1 / 6)). replace (Rpower G (11 / 6)) with (G ^ 2 / Rpower G (1 / 6)).
    - unfold C. field. repeat split; try lra.
    - replace (11 / 6) with (INR 2 + - (1 / 6)) by (cbn [INR]; field). rewrite Rpower_plus, Rpower_pow, Rpower_Ropp by auto. reflexivity. }
  intros G1 G2 HG. rewrite !V by lra. do 2 eexists. split; [reflexivity|]. split; [reflexivity|].
  assert (0 < 150 / k) by (apply Rdiv_lt_0_compat; lra). assert (0 < 42 / 10 * Rpower k (- (1 / 6))) by (apply Rmult_lt_0_compat; [lra|apply rp_pos]). set (A := 150 / k) in *. set (B := 42 / 10 * Rpower k (- (1 / 6))) in *. pose proof (rp_pos G1 (11 / 6)). pose proof (rp_base G1 G2 (11 / 6) ltac:(lra) ltac:(lra) ltac:(lra)).
  assert (0 < A * G1) by (apply Rmult_lt_0_compat; lra). assert (0 < B * Rpower G1 (11 / 6)) by (apply Rmult_lt_0_compat; lra). assert (A * G1 < A * G2) by (apply Rmult_lt_compat_l; lra). assert (B * Rpower G1 (11 / 6) < B * Rpower G2 (11 / 6)) by (apply Rmult_lt_compat_l; lra). split; [apply Rmult_lt_0_compat|apply Rmult_lt_compat_l]; lra.
Qed.
Print Assumptions C93_packed_bed.
