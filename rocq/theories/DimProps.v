(** The results do not depend on the system of units: scaling all arguments by their dimensions scales the
    result by its dimension (flow, rheology, relief areas). *)
From Coq Require Import Reals Lra Lia List Bool Arith.
From Verif Require Import Prelude KinModel HmtModel FlowModel HmtProps FlowProps.
Import ListNotations.
Open Scope R_scope.

(** A result multiplied by a factor; exceptions are kept. *)
Definition rscale (c : R) (r : res R) : res R := match r with Ok x => Ok (c * x) | Err e => Err e end.

(** ** Pressure drops: m, l, s are the factors of mass, length and time *)
Lemma D_Darcy v D L rho f a d k r : 0 < D -> 0 < d -> DP_Darcy_Weisbach (a * v) (d * D) (k * L) (r * rho) f = r * a ^ 2 * k / d * DP_Darcy_Weisbach v D L rho f.
Proof. intros HD Hd. unfold DP_Darcy_Weisbach. field. lra. Qed.

Theorem C118_tube Q D L rho mu er m l s : 0 < m -> 0 < l -> 0 < s -> 0 < D -> 0 < mu ->
  DP_tube (l ^ 3 / s * Q) (l * D) (l * L) (m / l ^ 3 * rho) (m / (l * s) * mu) er = rscale (m / (l * s ^ 2)) (DP_tube Q D L rho mu er).
Proof.
  intros Hm Hl Hs HD Hmu. pose proof PI_RGT_0. unfold DP_tube. cbv zeta.
  replace (4 * (l ^ 3 / s * Q) / (PI * (l * D) ^ 2)) with (l / s * (4 * Q / (PI * D ^ 2))) by (field; repeat split; lra).
  set (v := 4 * Q / (PI * D ^ 2)).
  replace (m / l ^ 3 * rho * (l / s * v) * (l * D) / (m / (l * s) * mu)) with (rho * v * D / mu) by (field; repeat split; lra).
  destruct (fD_switch (rho * v * D / mu) er) as [f|e]; cbn [bind rscale]; [|reflexivity].
  f_equal. rewrite D_Darcy by auto. field. repeat split; lra.
Qed.
Theorem C118_Hagen_Poiseuille Q D L mu m l s : 0 < m -> 0 < l -> 0 < s -> 0 < D ->
  DP_Hagen_Poiseuille (l ^ 3 / s * Q) (l * D) (l * L) (m / (l * s) * mu) = m / (l * s ^ 2) * DP_Hagen_Poiseuille Q D L mu.
Proof. intros. pose proof PI_RGT_0. unfold DP_Hagen_Poiseuille. field. repeat split; lra. Qed.
Theorem C118_packed_bed G L Dp eps rho mu m l s : 0 < m -> 0 < l -> 0 < s -> 0 < Dp -> 0 < mu -> 0 < rho -> 0 < eps < 1 ->
  DP_packed_bed (m / (l ^ 2 * s) * G) (l * L) (l * Dp) eps (m / l ^ 3 * rho) (m / (l * s) * mu) = rscale (m / (l * s ^ 2)) (DP_packed_bed G L Dp eps rho mu).
Proof.
  intros Hm Hl Hs HD Hmu Hr He. unfold DP_packed_bed. cbv zeta.
  replace (l * Dp * (m / (l ^ 2 * s) * G) / (m / (l * s) * mu * (1 - eps))) with (Dp * G / (mu * (1 - eps))) by (field; repeat split; lra).
  destruct (pydiv 150 _) as [a|e]; cbn [bind rscale]; [|reflexivity].
  destruct (pydiv (42 / 10) _) as [b|e]; cbn [bind rscale]; [|reflexivity].
  f_equal. field. repeat split; lra.
Qed.

Lemma LM_dim mdot D rho mu er m l s : 0 < m -> 0 < l -> 0 < s -> 0 < D -> 0 < mu -> 0 < rho ->
  LM_phase (m / s * mdot) (l * D) (m / l ^ 3 * rho) (m / (l * s) * mu) er =
  match LM_phase mdot D rho mu er with Ok (d, Re) => Ok (m / (l ^ 2 * s ^ 2) * d, Re) | Err e => Err e end.
Proof.
  intros Hm Hl Hs HD Hmu Hr. pose proof PI_RGT_0 as HP. unfold LM_phase. cbv zeta.
  assert (Hms : 0 < m / s) by (apply Rdiv_lt_0_compat; lra).
  destruct (Rlt_le_dec 0 mdot) as [H|H].
  - rewrite (Rltb_t 0 mdot) by auto. rewrite Rltb_t by (apply Rmult_lt_0_compat; auto).
    replace (m / s * mdot / (PI / 4 * (l * D) ^ 2 * (m / l ^ 3 * rho))) with (l / s * (mdot / (PI / 4 * D ^ 2 * rho))) by (field; repeat split; lra).
    set (v := mdot / (PI / 4 * D ^ 2 * rho)).
    replace (m / l ^ 3 * rho * (l / s * v) * (l * D) / (m / (l * s) * mu)) with (rho * v * D / mu) by (field; repeat split; lra).
    destruct (fD_switch (rho * v * D / mu) er) as [f|e]; cbn [bind]; [|reflexivity].
    do 2 f_equal. replace 1 with (1 * 1) at 1 by ring. rewrite D_Darcy by auto. field. repeat split; lra.
  - rewrite (Rltb_f 0 mdot) by auto. rewrite Rltb_f; [do 2 f_equal; ring|]. nra.
Qed.
Theorem C118_Lockhart_Martinelli mdotL mdotG D L rhoL rhoG muL muG er m l s : 0 < m -> 0 < l -> 0 < s -> 0 < D -> 0 < muL -> 0 < muG -> 0 < rhoL -> 0 < rhoG ->
  DP_GL_Lockhart_Martinelli (m / s * mdotL) (m / s * mdotG) (l * D) (l * L) (m / l ^ 3 * rhoL) (m / l ^ 3 * rhoG) (m / (l * s) * muL) (m / (l * s) * muG) er
  = rscale (m / (l * s ^ 2)) (DP_GL_Lockhart_Martinelli mdotL mdotG D L rhoL rhoG muL muG er).
Proof.
  intros Hm Hl Hs HD HmuL HmuG HrL HrG. unfold DP_GL_Lockhart_Martinelli. rewrite !LM_dim by auto.
  destruct (LM_phase mdotL D rhoL muL er) as [[dL ReL]|e] eqn:EL; cbn [bind rscale]; [|reflexivity].
  destruct (LM_phase mdotG D rhoG muG er) as [[dG ReG]|e] eqn:EG; cbn [bind rscale]; [|reflexivity].
  set (c := m / (l ^ 2 * s ^ 2)). assert (Hc : 0 < c) by (apply Rdiv_lt_0_compat; [lra|]; apply Rmult_lt_0_compat; apply pow_lt; lra).
  assert (EC : m / (l * s ^ 2) = c * l) by (unfold c; field; lra). rewrite EC.
  assert (Z : forall d, Reqb (c * d) 0 = Reqb d 0).
  { intros d. destruct (Req_dec d 0) as [->|N]; [rewrite Rmult_0_r; reflexivity|]. rewrite !Reqb_f; auto. nra. }
  rewrite !Z. f_equal.
  destruct (Req_dec dG 0) as [->|NG]; [rewrite Reqb_refl; ring|]. rewrite (Reqb_f dG) by auto.
  destruct (Req_dec dL 0) as [->|NL]; [rewrite Reqb_refl; ring|]. rewrite (Reqb_f dL) by auto.
  replace (c * dL / (c * dG)) with (dL / dG) by (field; lra). ring.
Qed.
Theorem C118_Mueller_Bonn mdotL mdotG D L rhoL rhoG muL muG m l s : 0 < m -> 0 < l -> 0 < s -> 0 < D -> 0 < muL -> 0 < muG -> 0 < rhoL -> 0 < rhoG ->
  DP_GL_Mueller_Bonn (m / s * mdotL) (m / s * mdotG) (l * D) (l * L) (m / l ^ 3 * rhoL) (m / l ^ 3 * rhoG) (m / (l * s) * muL) (m / (l * s) * muG)
  = rscale (m / (l * s ^ 2)) (DP_GL_Mueller_Bonn mdotL mdotG D L rhoL rhoG muL muG).
Proof.
  intros Hm Hl Hs HD HmuL HmuG HrL HrG. pose proof PI_RGT_0 as HP. unfold DP_GL_Mueller_Bonn. cbv zeta.
  replace (m / s * mdotL + m / s * mdotG) with (m / s * (mdotL + mdotG)) by ring. set (t := mdotL + mdotG).
  assert (Hms : 0 < m / s) by (apply Rdiv_lt_0_compat; lra).
  assert (EX : pydiv (m / s * mdotG) (m / s * t) = pydiv mdotG t).
  { destruct (Req_dec t 0) as [->|N]; [rewrite Rmult_0_r, !pydiv_zero by reflexivity; reflexivity|].
    rewrite !pydiv_ok; auto; [f_equal; field; repeat split; lra|]. intros E. apply Rmult_integral in E. lra. }
  rewrite EX. destruct (pydiv mdotG t) as [x|e]; cbn [bind rscale]; [|reflexivity].
  replace (m / s * t / (PI / 4 * (l * D) ^ 2)) with (m / (l ^ 2 * s) * (t / (PI / 4 * D ^ 2))) by (field; repeat split; lra).
  set (v := t / (PI / 4 * D ^ 2)).
  replace (m / (l ^ 2 * s) * v * (l * D) / (m / (l * s) * muL)) with (v * D / muL) by (field; repeat split; lra).
  replace (m / (l ^ 2 * s) * v * (l * D) / (m / (l * s) * muG)) with (v * D / muG) by (field; repeat split; lra).
  destruct (f_MB (v * D / muL)) as [fL|e]; cbn [bind rscale]; [|reflexivity].
  destruct (f_MB (v * D / muG)) as [fG|e]; cbn [bind rscale]; [|reflexivity].
  f_equal. field. repeat split; lra.
Qed.

Lemma Cd_gt0 Re : 0 < Re -> 0 < Cd_sphere Re.
Proof.
  intros H. unfold Cd_sphere. pose proof (exp_pos (657 / 1000 * ln Re)). pose proof (exp_pos (- (109 / 100) * ln Re)).
  unfold Rpower. apply Rplus_lt_0_compat; [apply Rmult_lt_0_compat; [apply Rdiv_lt_0_compat|]|apply Rdiv_lt_0_compat]; lra.
Qed.
(** ** Settling: the acceleration of gravity is a number of the code, so length and time scale together *)
Theorem C118_Stokes Dp rhop rho mu m s : 0 < m -> 0 < s -> 0 < mu ->
  let l := s ^ 2 in vt_Stokes (l * Dp) (m / l ^ 3 * rhop) (m / l ^ 3 * rho) (m / (l * s) * mu) = l / s * vt_Stokes Dp rhop rho mu.
Proof. intros Hm Hs Hmu l. unfold vt_Stokes, g_acc, l. field. repeat split; lra. Qed.
Theorem C118_drag Dp rhop rho mu v m s : 0 < m -> 0 < s -> 0 < mu -> 0 < rho -> 0 < Dp -> 0 < v ->
  let l := s ^ 2 in vt_drag (l * Dp) (m / l ^ 3 * rhop) (m / l ^ 3 * rho) (m / (l * s) * mu) (l / s * v) = l / s * vt_drag Dp rhop rho mu v.
Proof.
  intros Hm Hs Hmu Hr HD Hv l. unfold vt_drag, l.
  replace (m / (s ^ 2) ^ 3 * rho * (s ^ 2 / s * v) * (s ^ 2 * Dp) / (m / (s ^ 2 * s) * mu)) with (rho * v * Dp / mu) by (field; repeat split; lra).
  set (Re := rho * v * Dp / mu). replace (s ^ 2 / s) with s by (field; lra).
  assert (HRe : 0 < Re) by (unfold Re; apply Rdiv_lt_0_compat; [repeat apply Rmult_lt_0_compat|]; lra).
  pose proof (Cd_gt0 Re HRe) as HC.
  replace (4 * (s ^ 2 * Dp) * g_acc * (m / (s ^ 2) ^ 3 * rhop - m / (s ^ 2) ^ 3 * rho) / (3 * Cd_sphere Re * (m / (s ^ 2) ^ 3 * rho)))
    with (s ^ 2 * (4 * Dp * g_acc * (rhop - rho) / (3 * Cd_sphere Re * rho))) by (field; repeat split; lra).
  rewrite sqrt_mult_alt by (apply pow2_ge_0). rewrite sqrt_pow2 by lra. reflexivity.
Qed.

(** ** Rheology: the viscosity factor c and the factor s of time *)
Theorem C118_power_law g K n c s : 0 < c -> 0 < s -> 0 < g ->
  mu_PowerLaw (g / s) (c * Rpower s (n - 1) * K) n = rscale c (mu_PowerLaw g K n).
Proof.
  intros Hc Hs Hg. assert (0 < g / s) by (apply Rdiv_lt_0_compat; lra). unfold mu_PowerLaw, py_pow. rewrite !Reqb_f by lra. cbn [bind rscale]. f_equal.
  replace g with (s * (g / s)) at 2 by (field; lra). rewrite <- Rpower_mult_distr by auto. ring.
Qed.
Theorem C118_Cross g mu0 lam n c s : 0 < s -> mu_Cross (g / s) (c * mu0) (s * lam) n = rscale c (mu_Cross g mu0 lam n).
Proof.
  intros Hs. unfold mu_Cross. replace (s * lam * (g / s)) with (lam * g) by (field; lra).
  destruct (py_pow (lam * g) (1 - n)) as [p|e]; cbn [bind rscale]; [|reflexivity]. f_equal. unfold Rdiv. ring.
Qed.
Theorem C118_Cross_modified g mu0 C n c s : 0 < s -> 0 < c -> mu_Cross_modified (g / s) (c * mu0) (s / c * C) n = rscale c (mu_Cross_modified g mu0 C n).
Proof.
  intros Hs Hc. unfold mu_Cross_modified. replace (s / c * C * (c * mu0) * (g / s)) with (C * mu0 * g) by (field; lra).
  destruct (py_pow (C * mu0 * g) (1 - n)) as [p|e]; cbn [bind rscale]; [|reflexivity]. f_equal. unfold Rdiv. ring.
Qed.
Theorem C118_Carreau_Yasuda g mu0 muinf lam n a c s : 0 < s ->
  mu_Carreau_Yasuda (g / s) (c * mu0) (c * muinf) (s * lam) n a = rscale c (mu_Carreau_Yasuda g mu0 muinf lam n a).
Proof.
  intros Hs. unfold mu_Carreau_Yasuda. replace (s * lam * (g / s)) with (lam * g) by (field; lra).
  destruct (py_pow (lam * g) a) as [p|e]; cbn [bind rscale]; [|reflexivity].
  destruct (pydiv (n - 1) a) as [e|e]; cbn [bind rscale]; [|reflexivity].
  destruct (py_pow (1 + p) e) as [q|e']; cbn [bind rscale]; [|reflexivity]. f_equal. ring.
Qed.

(** ** Relief areas: the coefficients carry units, but flow, pressure and density scale freely *)
Definition scalePRV (p a : R) (r : PRV) : PRV := mkPRV (match prv_Pcf r with Some x => Some (p * x) | None => None end) (prv_crit r) (a * prv_A r).
Lemma Rleb_scale c a b : 0 < c -> Rleb (c * a) (c * b) = Rleb a b.
Proof. intros H. destruct (Rle_lt_dec a b); [rewrite !Rleb_t|rewrite !Rleb_f]; auto; nra. Qed.
Lemma Rltb_scale c a b : 0 < c -> Rltb (c * a) (c * b) = Rltb a b.
Proof. intros H. destruct (Rlt_le_dec a b); [rewrite !Rltb_t|rewrite !Rltb_f]; auto; nra. Qed.
Lemma sqrt_scale c x : 0 < c -> sqrt (c ^ 2 * x) = c * sqrt x.
Proof. intros H. rewrite sqrt_mult_alt by apply pow2_ge_0. rewrite sqrt_pow2; lra. Qed.
Lemma inv_scale c x : 0 < c -> / (c * x) = / c * / x.
Proof. intros. apply Rinv_mult. Qed.

Theorem C118_relief_gas W P1 P2 T k M Z Kd Kb Kc KSH w p t : 0 < w -> 0 < p -> 0 < t -> 0 < P1 -> 0 < M ->
  area_relief_gas (w * W) (p * P1) (p * P2) (t ^ 2 * T) k M Z false Kd Kb Kc KSH =
  match area_relief_gas W P1 P2 T k M Z false Kd Kb Kc KSH with Ok r => Ok (scalePRV p (w * t / p) r) | Err e => Err e end.
Proof.
  intros Hw Hp Ht HP HM. unfold area_relief_gas. cbv zeta.
  replace (p * P1 * 100 * gas_rc k) with (p * (P1 * 100 * gas_rc k)) by ring. replace (p * P2 * 100) with (p * (P2 * 100)) by ring.
  replace (p * P1 * 100) with (p * (P1 * 100)) by ring. rewrite Rleb_scale by auto.
  set (q1 := P1 * 100). set (q2 := P2 * 100). assert (Hq : 0 < q1) by (unfold q1; lra).
  destruct (Rleb q2 (q1 * gas_rc k)); cbn [bind]; f_equal; unfold scalePRV; cbn [prv_Pcf prv_crit prv_A]; f_equal; try (f_equal; field).
  - replace (t ^ 2 * T * Z / M) with (t ^ 2 * (T * Z / M)) by (field; lra). rewrite sqrt_scale by auto.
    replace (gas_C k * Kd * (p * q1) * Kb * Kc) with (p * (gas_C k * Kd * q1 * Kb * Kc)) by ring. unfold Rdiv. rewrite Rinv_mult. ring.
  - replace (p * q2 / (p * q1)) with (q2 / q1) by (field; lra).
    replace (t ^ 2 * T * Z / (M * (p * q1) * (p * q1 - p * q2))) with ((t / p) ^ 2 * (T * Z / (M * q1 * (q1 - q2)))).
    2:{ replace (M * (p * q1) * (p * q1 - p * q2)) with (p ^ 2 * (M * q1 * (q1 - q2))) by ring. unfold Rdiv. rewrite (Rinv_mult (p ^ 2)). generalize (/ (M * q1 * (q1 - q2))). intros i. field. lra. }
    rewrite sqrt_scale by (apply Rdiv_lt_0_compat; lra). unfold Rdiv. ring.
Qed.
Theorem C118_relief_2phase W P1 P2 v1 v9 Kd Kb Kc Kv w p d : 0 < w -> 0 < p -> 0 < d -> 0 < P1 -> 0 < v1 -> v1 < v9 ->
  area_relief_2phase (w * W) (p ^ 2 * P1) (p ^ 2 * P2) (d ^ 2 * v1) (d ^ 2 * v9) Kd Kb Kc Kv = scalePRV (p ^ 2) (w * d / p) (area_relief_2phase W P1 P2 v1 v9 Kd Kb Kc Kv).
Proof.
  intros Hw Hp Hd HP Hv H9. assert (Hp2 : 0 < p ^ 2) by (apply pow_lt; lra). assert (Hd2 : 0 < d ^ 2) by (apply pow_lt; lra).
  unfold area_relief_2phase, scalePRV. cbv zeta. cbn [prv_Pcf prv_crit prv_A].
  replace (d ^ 2 * v9 / (d ^ 2 * v1)) with (v9 / v1) by (field; lra).
  set (om := 9 * (v9 / v1 - 1)). assert (Hom : 0 < om) by (unfold om; assert (1 < v9 / v1) by (apply (Rmult_lt_reg_r v1); [lra|]; unfold Rdiv; rewrite Rmult_assoc, Rinv_l; lra); lra).
  set (q1 := P1 * 10 ^ 5). set (q2 := P2 * 10 ^ 5). assert (Hq : 0 < q1) by (unfold q1; lra).
  replace (p ^ 2 * P1 * 10 ^ 5) with (p ^ 2 * q1) by (unfold q1; ring). replace (p ^ 2 * P2 * 10 ^ 5) with (p ^ 2 * q2) by (unfold q2; ring).
  replace (p ^ 2 * q1 * omega_eta om) with (p ^ 2 * (q1 * omega_eta om)) by ring. rewrite Rleb_scale by auto.
  replace (p ^ 2 * q2 / (p ^ 2 * q1)) with (q2 / q1) by (field; lra).
  assert (E1 : omega_Gc om (omega_eta om) (p ^ 2 * q1) (d ^ 2 * v1) = p / d * omega_Gc om (omega_eta om) q1 v1).
  { unfold omega_Gc. replace (p ^ 2 * q1 / (d ^ 2 * v1 * om)) with ((p / d) ^ 2 * (q1 / (v1 * om))) by (field; lra). rewrite sqrt_scale by (apply Rdiv_lt_0_compat; lra). ring. }
  assert (E2 : omega_G om (q2 / q1) (p ^ 2 * q1) (d ^ 2 * v1) = p / d * omega_G om (q2 / q1) q1 v1).
  { unfold omega_G. replace (p ^ 2 * q1 / (d ^ 2 * v1)) with ((p / d) ^ 2 * (q1 / v1)) by (field; lra). rewrite sqrt_scale by (apply Rdiv_lt_0_compat; lra). unfold Rdiv. ring. }
  rewrite E1, E2. f_equal; [f_equal; field|].
  destruct (Rleb q2 (q1 * omega_eta om)).
  - replace (Kd * Kb * Kc * Kv * (p / d * omega_Gc om (omega_eta om) q1 v1)) with (p / d * (Kd * Kb * Kc * Kv * omega_Gc om (omega_eta om) q1 v1)) by ring.
    unfold Rdiv at 1. rewrite Rinv_mult. unfold Rdiv. rewrite Rinv_mult, Rinv_inv. ring.
  - replace (Kd * Kb * Kc * Kv * (p / d * omega_G om (q2 / q1) q1 v1)) with (p / d * (Kd * Kb * Kc * Kv * omega_G om (q2 / q1) q1 v1)) by ring.
    unfold Rdiv at 1. rewrite Rinv_mult. unfold Rdiv. rewrite Rinv_mult, Rinv_inv. ring.
Qed.
(** The viscosity of the liquid scales so that the Reynolds number stays the same; the whole iteration then scales. *)
Lemma liq_loop_scale a F G n A0 : 0 < a -> (forall A, G (a * A) = a * F A) -> liq_loop G n (a * A0) = rscale a (liq_loop F n A0).
Proof.
  intros Ha HG. revert A0. induction n as [|n IH]; intros A0; [reflexivity|]. cbn [liq_loop]. rewrite HG.
  replace (a * F A0 - a * A0) with (a * (F A0 - A0)) by ring.
  replace (a * (F A0 - A0) / (a * F A0)) with ((F A0 - A0) / F A0) by (unfold Rdiv; rewrite Rinv_mult; generalize (/ F A0); intros i; field; lra).
  destruct (Rltb _ _); [reflexivity|apply IH].
Qed.
Theorem C118_relief_liquid Q P1 P2 mu Gl Kd Kw Kc q p : 0 < q -> 0 < p -> P2 < P1 ->
  area_relief_liquid (q ^ 2 * p * Q) (p ^ 2 * P1) (p ^ 2 * P2) (q * p * mu) Gl Kd Kw Kc = rscale (q ^ 2) (area_relief_liquid Q P1 P2 mu Gl Kd Kw Kc).
Proof.
  intros Hq Hp HP. assert (Hp2 : 0 < p ^ 2) by (apply pow_lt; lra). assert (Hq2 : 0 < q ^ 2) by (apply pow_lt; lra).
  unfold area_relief_liquid. cbv zeta.
  replace (p ^ 2 * P1 * 100 - p ^ 2 * P2 * 100) with (p ^ 2 * (P1 * 100 - P2 * 100)) by ring. set (dP := P1 * 100 - P2 * 100). assert (HdP : 0 < dP) by (unfold dP; lra).
  assert (EA : forall K, liq_A (q ^ 2 * p * Q) (p ^ 2 * dP) Gl Kd Kw Kc K = q ^ 2 * liq_A Q dP Gl Kd Kw Kc K).
  { intros K. unfold liq_A. replace (Gl / (p ^ 2 * dP)) with ((/ p) ^ 2 * (Gl / dP)) by (field; lra).
    rewrite sqrt_scale by (apply Rinv_0_lt_compat; lra). generalize (sqrt (Gl / dP)); intros x. unfold Rdiv. generalize (/ (Kd * Kw * Kc * K)); intros i. field. lra. }
  assert (EK : forall A, liq_Kv (q ^ 2 * p * Q) (q * p * mu) Gl (q ^ 2 * A) = liq_Kv Q mu Gl A).
  { intros A. unfold liq_Kv. cbv zeta. rewrite sqrt_scale by auto.
    replace (18800 * (q ^ 2 * p * Q) * Gl / (q * p * mu * (q * sqrt A))) with (18800 * Q * Gl / (mu * sqrt A)); [reflexivity|].
    replace (q * p * mu * (q * sqrt A)) with (q ^ 2 * p * (mu * sqrt A)) by ring. unfold Rdiv. rewrite (Rinv_mult (q ^ 2 * p)). generalize (/ (mu * sqrt A)); intros i. field. lra. }
  rewrite EA. replace (q ^ 2 * liq_A Q dP Gl Kd Kw Kc 1 - 0) with (q ^ 2 * (liq_A Q dP Gl Kd Kw Kc 1 - 0)) by ring.
  set (A0 := liq_A Q dP Gl Kd Kw Kc 1).
  replace (q ^ 2 * (A0 - 0) / (q ^ 2 * A0)) with ((A0 - 0) / A0) by (unfold Rdiv; rewrite (Rinv_mult (q ^ 2)); generalize (/ A0); intros i; field; lra).
  destruct (Rltb _ _); [reflexivity|]. apply liq_loop_scale; auto. intros A. rewrite EA, EK. reflexivity.
Qed.
Theorem C118_relief_subcooled Q P1 P2 Ps rho1 rho9 Kd Kb Kc Kv q p d : 0 < q -> 0 < p -> 0 < d -> 0 < P1 -> 0 < rho9 ->
  area_relief_2phase_subcooled (q * Q) (p ^ 2 * P1) (p ^ 2 * P2) (p ^ 2 * Ps) (d ^ 2 * rho1) (d ^ 2 * rho9) Kd Kb Kc Kv =
  match area_relief_2phase_subcooled Q P1 P2 Ps rho1 rho9 Kd Kb Kc Kv with Ok r => Ok (scalePRV (p ^ 2) (q * d / p) r) | Err e => Err e end.
Proof.
  intros Hq Hp Hd HP H9. assert (Hp2 : 0 < p ^ 2) by (apply pow_lt; lra). assert (Hd2 : 0 < d ^ 2) by (apply pow_lt; lra). assert (Hpd : 0 < p * d) by (apply Rmult_lt_0_compat; lra).
  unfold area_relief_2phase_subcooled. cbv zeta.
  replace (d ^ 2 * rho1 / (d ^ 2 * rho9)) with (rho1 / rho9) by (field; lra). set (ws := 9 * (rho1 / rho9 - 1)).
  set (q1 := P1 * 10 ^ 5). set (q2 := P2 * 10 ^ 5). set (qs := Ps * 10 ^ 5). assert (Hq1 : 0 < q1) by (unfold q1; lra).
  replace (p ^ 2 * P1 * 10 ^ 5) with (p ^ 2 * q1) by (unfold q1; ring). replace (p ^ 2 * P2 * 10 ^ 5) with (p ^ 2 * q2) by (unfold q2; ring). replace (p ^ 2 * Ps * 10 ^ 5) with (p ^ 2 * qs) by (unfold qs; ring).
  replace (p ^ 2 * q2 / (p ^ 2 * q1)) with (q2 / q1) by (field; lra). replace (p ^ 2 * qs / (p ^ 2 * q1)) with (qs / q1) by (field; lra).
  set (es := qs / q1). set (ea := q2 / q1).
  assert (EA : forall G, 1667 / 100 * (q * Q) * (d ^ 2 * rho1) / (Kd * Kb * Kc * Kv * (p * d * G)) = q * d / p * (1667 / 100 * Q * rho1 / (Kd * Kb * Kc * Kv * G))).
  { intros G. replace (Kd * Kb * Kc * Kv * (p * d * G)) with (p * d * (Kd * Kb * Kc * Kv * G)) by ring. unfold Rdiv. rewrite (Rinv_mult (p * d)). generalize (/ (Kd * Kb * Kc * Kv * G)); intros i. field. lra. }
  destruct (Rltb es (sub_st ws)).
  - rewrite Rleb_scale by auto. cbn [bind]. f_equal. unfold scalePRV; cbn [prv_Pcf prv_crit prv_A]. f_equal. rewrite <- EA. do 2 f_equal.
    destruct (Rleb q2 qs).
    + replace (d ^ 2 * rho1 * (p ^ 2 * q1 - p ^ 2 * qs)) with ((p * d) ^ 2 * (rho1 * (q1 - qs))) by ring. rewrite sqrt_scale by auto. ring.
    + replace (d ^ 2 * rho1 * (p ^ 2 * q1 - p ^ 2 * q2)) with ((p * d) ^ 2 * (rho1 * (q1 - q2))) by ring. rewrite sqrt_scale by auto. ring.
  - destruct (pydiv (2 * ws) (2 * ws - 1)) as [z|z]; cbn [bind]; [|reflexivity].
    set (ec := if Rltb (sub_st ws) es then sub_eta ws es else es).
    replace (p ^ 2 * q1 * ec) with (p ^ 2 * (q1 * ec)) by ring. rewrite Rleb_scale by auto. cbn [bind]. f_equal.
    unfold scalePRV; cbn [prv_Pcf prv_crit prv_A]. f_equal; [f_equal; field|]. rewrite <- EA. do 2 f_equal.
    set (e := if Rleb q2 (q1 * ec) then ec else ea). unfold sub_G.
    replace (p ^ 2 * q1 * (d ^ 2 * rho1)) with ((p * d) ^ 2 * (q1 * rho1)) by ring. rewrite sqrt_scale by auto. unfold Rdiv. ring.
Qed.

(** SI to cgs units (kg = 1000 g, m = 100 cm): 1 Pa is 10 dyn/cm2.  Laminar flow of a viscous liquid. *)
Example C118_case : DP_tube (1 / 1000) (1 / 10) 10 1000 1 0 = Ok (128 * (1 / 1000) * 10 / (PI * (1 / 10) ^ 4)) /\
  DP_tube 1000 10 1000 1 10 0 = rscale 10 (DP_tube (1 / 1000) (1 / 10) 10 1000 1 0).
Proof.
  pose proof PI_RGT_0 as HP. pose proof PI2_3_2 as H3. unfold PI2 in H3. split.
  - unfold DP_tube, fD_switch. cbv zeta.
    assert (E : 1000 * (4 * (1 / 1000) / (PI * (1 / 10) ^ 2)) * (1 / 10) / 1 = 40 / PI) by (field; lra). rewrite E.
    assert (40 / PI < 2300) by (apply (Rmult_lt_reg_r PI); [lra|]; unfold Rdiv; rewrite Rmult_assoc, Rinv_l; lra).
    rewrite Rltb_t by lra. rewrite pydiv_ok by (apply Rgt_not_eq, Rdiv_lt_0_compat; lra). cbn [bind]. f_equal. unfold DP_Darcy_Weisbach. field. lra.
  - pose proof (C118_tube (1 / 1000) (1 / 10) 10 1000 1 0 1000 100 1 ltac:(lra) ltac:(lra) ltac:(lra) ltac:(lra) ltac:(lra)) as H.
    replace 1000 with (100 ^ 3 / 1 * (1 / 1000)) at 1 by field. replace 10 with (100 * (1 / 10)) at 1 by field.
    replace (DP_tube (100 ^ 3 / 1 * (1 / 1000)) (100 * (1 / 10)) 1000 1 10 0) with (DP_tube (100 ^ 3 / 1 * (1 / 1000)) (100 * (1 / 10)) (100 * 10) (1000 / 100 ^ 3 * 1000) (1000 / (100 * 1) * 1) 0) by (f_equal; field).
    rewrite H. f_equal. field.
Qed.
(** A factor that is not consistent is noticed: doubling only the length unit does not give the same number. *)
Example C118_inconsistent : DP_Hagen_Poiseuille 1 2 2 1 <> DP_Hagen_Poiseuille 1 1 1 1.
Proof. pose proof PI_RGT_0 as HP. unfold DP_Hagen_Poiseuille. intros E. apply (f_equal (fun x => x * PI)) in E. field_simplify in E; lra. Qed.

(** in SI units the Stokes velocity carries the standard gravity 9.80665 m/s2 *)
Example C118_gravity : vt_Stokes 3 1000 998 1 = 980665 / 100000.
Proof. unfold vt_Stokes, g_acc. field. Qed.
Print Assumptions C118_tube.
Print Assumptions C118_relief_liquid.
