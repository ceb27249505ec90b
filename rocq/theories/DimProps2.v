(** The results do not depend on the system of units: residence times, diffusion, heat transfer, step growth. *)
From Coq Require Import Reals Lra Lia List Bool Arith FunctionalExtensionality.
From Verif Require Import Prelude CopoModel KinModel HmtModel FlowModel StepModel RtdModel HmtProps FlowProps DimProps.
Import ListNotations.
Open Scope R_scope.

(** ** Residence time distributions: c is the factor of time *)
Lemma ratio_same c a b : 0 < c -> c * a / (c * b) = a / b.
Proof. intros H. unfold Rdiv. rewrite Rinv_mult. generalize (/ b); intros i. field. lra. Qed.
Theorem C118_rtd_F t tau N c : 0 < c -> F_cstr (c * t) (c * tau) = F_cstr t tau /\ F_tanks_series (c * t) (c * tau) N = F_tanks_series t tau N /\ F_laminar_flow (c * t) (c * tau) = F_laminar_flow t tau.
Proof.
  intros H. unfold F_cstr, F_tanks_series, F_laminar_flow. cbv zeta. rewrite !ratio_same by auto. split; [|split]; auto.
  replace (- (c * t)) with (c * - t) by ring. rewrite ratio_same by auto. reflexivity.
Qed.
Theorem C118_rtd_E t tau N Pe c : 0 < c -> 0 < tau -> 0 < t -> E_cstr (c * t) (c * tau) = E_cstr t tau / c /\ E_tanks_series (c * t) (c * tau) N = E_tanks_series t tau N / c /\
  E_laminar_flow (c * t) (c * tau) = E_laminar_flow t tau / c /\ E_dispersion_model (c * t) (c * tau) Pe = E_dispersion_model t tau Pe / c.
Proof.
  intros H Ht Htt. unfold E_cstr, E_tanks_series, E_laminar_flow, E_dispersion_model. cbv zeta. rewrite !ratio_same by auto. split; [|split; [|split]].
  - replace (- (c * t)) with (c * - t) by ring. rewrite ratio_same by auto. field. lra.
  - generalize (INR N ^ N / INR (fact (N - 1))); intros z. field. lra.
  - destruct (Rltb (t / tau) (1 / 2)); field; lra.
  - destruct (Reqb (t / tau) 0); [field; lra|]. destruct (Rltb 100 Pe); [generalize (sqrt (Pe / PI)); intros z|generalize (sqrt (Pe / (PI * (t / tau)))); intros z].
    + generalize (exp (- Pe / 4 * (1 - t / tau) ^ 2)); intros x. field. lra.
    + generalize (exp (- Pe / (4 * (t / tau)) * (1 - t / tau) ^ 2)); intros x. field. lra.
Qed.

(** ** Diffusion and walls: l, s length and time; h, u any factor of the heat transfer coefficient *)
Theorem C118_semiinf t x D l s : 0 < l -> 0 < s -> profile_semiinf (s * t) (l * x) (l ^ 2 / s * D) = profile_semiinf t x D.
Proof.
  intros Hl Hs. unfold profile_semiinf. f_equal. replace (l ^ 2 / s * D * (s * t)) with (l ^ 2 * (D * t)) by (field; lra). rewrite sqrt_scale by auto.
  replace (2 * (l * sqrt (D * t))) with (l * (2 * sqrt (D * t))) by ring. generalize (2 * sqrt (D * t)); intros y.
  unfold np_div. assert (Z : forall z, Reqb (l * z) 0 = Reqb z 0).
  { intros z. destruct (Req_dec z 0) as [->|N]; [rewrite Rmult_0_r; reflexivity|]. rewrite !Reqb_f; auto. intros E. apply Rmult_integral in E. lra. }
  rewrite !Z. rewrite ratio_same by auto. replace (Rltb 0 (l * x)) with (Rltb 0 x); [reflexivity|]. replace 0 with (l * 0) at 2 by ring. symmetry. apply Rltb_scale; auto.
Qed.
Theorem C118_plane_wall h1 h2 L k r1 r2 l u : 0 < l -> 0 < u -> 0 < h1 -> 0 < h2 -> 0 < L -> 0 < k -> 0 <= r1 -> 0 <= r2 ->
  U_plane_wall (u * h1) (u * h2) (l * L) (u * l * k) (r1 / u) (r2 / u) = u * U_plane_wall h1 h2 L k r1 r2.
Proof.
  intros Hl Hu H1 H2 HL Hk Hr1 Hr2. unfold U_plane_wall.
  assert (0 < 1 / h1 + 1 / h2 + L / k + r1 + r2).
  { assert (0 < 1 / h1) by (apply Rdiv_lt_0_compat; lra). assert (0 < 1 / h2) by (apply Rdiv_lt_0_compat; lra). assert (0 < L / k) by (apply Rdiv_lt_0_compat; lra). lra. }
  replace (1 / (u * h1) + 1 / (u * h2) + l * L / (u * l * k) + r1 / u + r2 / u) with ((1 / h1 + 1 / h2 + L / k + r1 + r2) / u) by (field; repeat split; lra).
  set (z := 1 / h1 + 1 / h2 + L / k + r1 + r2) in *. field. lra.
Qed.
Theorem C118_cylindrical_wall hi ho di d k r1 r2 l u : 0 < l -> 0 < u -> 0 < hi -> 0 < ho -> 0 < di -> di < d -> 0 < k -> 0 <= r1 -> 0 <= r2 ->
  U_cylindrical_wall (u * hi) (u * ho) (l * di) (l * d) (u * l * k) (r1 / u) (r2 / u) = u * U_cylindrical_wall hi ho di d k r1 r2.
Proof.
  intros Hl Hu H1 H2 HL Hd Hk Hr1 Hr2. unfold U_cylindrical_wall. rewrite ratio_same by auto.
  assert (Hln : 0 < ln (d / di)). { rewrite <- ln_1. apply ln_increasing; [lra|]. apply (Rmult_lt_reg_r di); [lra|]. unfold Rdiv. rewrite Rmult_assoc, Rinv_l; lra. }
  set (g := ln (d / di)) in *.
  set (z := d / (hi * di) + 1 / ho + r1 * d / di + r2 + d / (2 * k) * g).
  assert (0 < z).
  { unfold z. assert (0 < d / (hi * di)) by (apply Rdiv_lt_0_compat; [|apply Rmult_lt_0_compat]; lra). assert (0 < 1 / ho) by (apply Rdiv_lt_0_compat; lra).
    assert (0 <= r1 * d / di) by (apply Rmult_le_pos; [nra|left; apply Rinv_0_lt_compat; lra]). assert (0 < d / (2 * k) * g) by (apply Rmult_lt_0_compat; auto; apply Rdiv_lt_0_compat; lra). lra. }
  replace (l * d / (u * hi * (l * di)) + 1 / (u * ho) + r1 / u * (l * d) / (l * di) + r2 / u + l * d / (2 * (u * l * k)) * g) with (z / u) by (unfold z; field; repeat split; lra).
  field. lra.
Qed.
Theorem C118_composite Dd Dc f sph c : 0 < c -> diffusivity_composite (c * Dd) (c * Dc) f sph = c * diffusivity_composite Dd Dc f sph.
Proof.
  intros Hc. unfold diffusivity_composite. cbv zeta. replace (c * Dd - c * Dc) with (c * (Dd - Dc)) by ring. replace (c * Dd + (3 / sph - 1) * (c * Dc)) with (c * (Dd + (3 / sph - 1) * Dc)) by ring.
  rewrite ratio_same by auto. unfold Rdiv. ring.
Qed.
Lemma bank_vmax_dim v al Dm ST SL l s : 0 < l -> 0 < s -> bank_vmax (l / s * v) al (l * Dm) (l * ST) (l * SL) = l / s * bank_vmax v al Dm ST SL.
Proof.
  intros Hl Hs. unfold bank_vmax. cbv zeta.
  assert (E0 : l / s * v * (l * ST) / (l * ST - l * Dm) = l / s * (v * ST / (ST - Dm))).
  { replace (l * ST - l * Dm) with (l * (ST - Dm)) by ring. replace (l / s * v * (l * ST)) with (l * (l / s * v * ST)) by ring. rewrite ratio_same by auto. unfold Rdiv. ring. }
  rewrite E0. destruct al; auto.
  replace ((l * SL) ^ 2 + (l * ST / 2) ^ 2) with (l ^ 2 * (SL ^ 2 + (ST / 2) ^ 2)) by field. rewrite sqrt_scale by auto. set (SD := sqrt (SL ^ 2 + (ST / 2) ^ 2)).
  replace ((l * ST + l * Dm) / 2) with (l * ((ST + Dm) / 2)) by field. rewrite Rltb_scale by auto. destruct (Rltb SD ((ST + Dm) / 2)); auto.
  replace (2 * (l * SD - l * Dm)) with (l * (2 * (SD - Dm))) by ring. replace (l / s * v * (l * ST)) with (l * (l / s * v * ST)) by ring. rewrite ratio_same by auto. unfold Rdiv. ring.
Qed.
Theorem C118_cylinder_bank v rho mu Pr Prs al Dm ST SL NL m l s : 0 < m -> 0 < l -> 0 < s -> 0 < mu ->
  Nu_cylinder_bank (l / s * v) (m / l ^ 3 * rho) (m / (l * s) * mu) Pr Prs al (l * Dm) (l * ST) (l * SL) NL = Nu_cylinder_bank v rho mu Pr Prs al Dm ST SL NL.
Proof.
  intros Hm Hl Hs Hmu. unfold Nu_cylinder_bank. cbv zeta. rewrite bank_vmax_dim by auto.
  set (vm := bank_vmax v al Dm ST SL). replace (m / l ^ 3 * rho * (l / s * vm) * (l * Dm) / (m / (l * s) * mu)) with (rho * vm * Dm / mu) by (field; repeat split; lra).
  unfold bank_Cm. rewrite ratio_same by auto. reflexivity.
Qed.

(** ** Step growth: the averages are proportional to the molar masses, and do not depend on the size of the batch *)
Definition rscale2 (c : R) (r : res (R * R)) : res (R * R) := match r with Ok (a, b) => Ok (c * a, c * b) | Err e => Err e end.
Lemma pydiv_sc c a b : pydiv (c * a) b = rscale c (pydiv a b).
Proof. unfold pydiv. destruct (Req_EM_T b 0); [reflexivity|]. cbn [rscale]. f_equal. unfold Rdiv. ring. Qed.
Lemma pydiv_same c a b : 0 < c -> pydiv (c * a) (c * b) = pydiv a b.
Proof.
  intros Hc. destruct (Req_dec b 0) as [->|N]; [rewrite Rmult_0_r, !pydiv_zero by reflexivity; reflexivity|].
  rewrite !pydiv_ok; auto; [f_equal; field; lra|]. intros E. apply Rmult_integral in E. lra.
Qed.
Theorem C118_Case_1 pB r MA MB c : 0 < c -> Case_1 pB r (c * MA) (c * MB) = rscale2 c (Case_1 pB r MA MB).
Proof.
  intros Hc. unfold Case_1. cbv zeta. set (b := pB). set (a := b * r).
  replace (b * (c * MA) + a * (c * MB)) with (c * (b * MA + a * MB)) by ring. rewrite pydiv_sc.
  destruct (pydiv (b * MA + a * MB) (a + b - 2 * a * b)) as [Mn|e]; cbn [bind rscale rscale2]; [|reflexivity].
  destruct (pydiv (1 + a * b) (1 - a * b)) as [q1|e]; cbn [bind rscale2]; [|reflexivity].
  replace (q1 * (b * (c * MA) ^ 2 + a * (c * MB) ^ 2)) with (c * (c * (q1 * (b * MA ^ 2 + a * MB ^ 2)))) by ring. rewrite pydiv_same, pydiv_sc by auto.
  destruct (pydiv (q1 * (b * MA ^ 2 + a * MB ^ 2)) (b * MA + a * MB)) as [q2|e]; cbn [bind rscale rscale2]; [|reflexivity].
  replace (4 * a * b * (c * MA) * (c * MB)) with (c * (c * (4 * a * b * MA * MB))) by ring. replace ((1 - a * b) * (c * (b * MA + a * MB))) with (c * ((1 - a * b) * (b * MA + a * MB))) by ring.
  rewrite pydiv_same, pydiv_sc by auto.
  destruct (pydiv (4 * a * b * MA * MB) ((1 - a * b) * (b * MA + a * MB))) as [q3|e]; cbn [bind rscale rscale2]; [|reflexivity]. do 2 f_equal. ring.
Qed.
Theorem C118_Case_3 pB pC r MA MB c : 0 < c -> Case_3 pB pC r (c * MA) (c * MB) = rscale2 c (Case_3 pB pC r MA MB).
Proof.
  intros Hc. unfold Case_3. cbv zeta. set (b := pB). set (d := pC). set (a := r * (b + d) / 2).
  replace ((b + d) * (c * MA) + 2 * a * (c * MB)) with (c * ((b + d) * MA + 2 * a * MB)) by ring. rewrite pydiv_sc.
  destruct (pydiv ((b + d) * MA + 2 * a * MB) _) as [Mn|e]; cbn [bind rscale rscale2]; [|reflexivity].
  destruct (pydiv (2 * a * b * d) (b + d)) as [q1|e]; cbn [bind rscale2]; [|reflexivity].
  destruct (pydiv _ ((b + d) ^ 2)) as [q2|e]; cbn [bind rscale2]; [|reflexivity].
  destruct (pydiv (2 * a) (b + d)) as [q3|e]; cbn [bind rscale2]; [|reflexivity].
  replace ((1 + q1) * (c * MA) ^ 2 + 4 * a * (c * MA) * (c * MB) + q2 * (c * MB) ^ 2) with (c * (c * ((1 + q1) * MA ^ 2 + 4 * a * MA * MB + q2 * MB ^ 2))) by ring.
  replace ((1 - q1) * (c * MA + q3 * (c * MB))) with (c * ((1 - q1) * (MA + q3 * MB))) by ring. rewrite pydiv_same, pydiv_sc by auto.
  destruct (pydiv _ _) as [Mw|e]; reflexivity.
Qed.
Ltac stp := match goal with |- bind (pydiv ?a ?b) _ = _ => destruct (pydiv a b) as [?q|?e]; cbn [bind rscale]; [|reflexivity] end.
Theorem C118_Case_5_8 pB pC r v MA MB MC c :
  Case_5 pB pC r v (c * MA) (c * MB) (c * MC) = rscale c (Case_5 pB pC r v MA MB MC) /\ Case_8 pB pC r v (c * MA) (c * MB) (c * MC) = rscale c (Case_8 pB pC r v MA MB MC).
Proof.
  split; [unfold Case_5|unfold Case_8]; cbv zeta; stp.
  - stp. stp. stp. rewrite <- pydiv_sc. f_equal. ring.
  - replace (q * (c * MB + v * (c * MC))) with (c * (q * (MB + v * MC))) by ring. rewrite pydiv_sc.
    destruct (pydiv (q * (MB + v * MC)) _) as [q1|e]; cbn [bind rscale]; [|reflexivity]. stp. rewrite <- pydiv_sc. f_equal. ring.
Qed.
Theorem C118_Case_6_7 p p' r MA MB c : Case_6 p r (c * MA) (c * MB) = rscale c (Case_6 p r MA MB) /\ Case_7 p p' r (c * MA) (c * MB) = rscale c (Case_7 p p' r MA MB).
Proof. split; [unfold Case_6|unfold Case_7]; rewrite <- pydiv_sc; f_equal; ring. Qed.
Theorem C118_Case_9 pB pC pD r v w MA MB MC MD c : Case_9 pB pC pD r v w (c * MA) (c * MB) (c * MC) (c * MD) = rscale c (Case_9 pB pC pD r v w MA MB MC MD).
Proof. unfold Case_9. cbv zeta. stp. stp. rewrite <- pydiv_sc. f_equal. ring. Qed.
Theorem C118_Case_10_11 pB pC pD r v MA MB MD c : Case_10 pB pC pD r v (c * MA) (c * MB) (c * MD) = rscale c (Case_10 pB pC pD r v MA MB MD) /\ Case_11 pB pC pD r v (c * MA) (c * MB) (c * MD) = rscale c (Case_11 pB pC pD r v MA MB MD).
Proof.
  split; [unfold Case_10|unfold Case_11]; cbv zeta.
  - stp. replace (q * (c * MD + 2 * (v / 2) * (c * MB))) with (c * (q * (MD + 2 * (v / 2) * MB))) by ring. rewrite pydiv_sc.
    destruct (pydiv (q * (MD + 2 * (v / 2) * MB)) _) as [q1|e]; cbn [bind rscale]; [|reflexivity]. stp. rewrite <- pydiv_sc. f_equal. ring.
  - stp. rewrite <- pydiv_sc. f_equal. ring.
Qed.
Definition flscale (c : R) (x : fl) : fl := match x with Fin r => Fin (c * r) | y => y end.
Lemma dot_sc_l c n x y : dot n (fun i => c * x i) y = c * dot n x y.
Proof. unfold dot. rewrite <- sumn_scal. apply sumn_ext. intros. ring. Qed.
Lemma dot_sc_r c n x y : dot n x (fun i => c * y i) = c * dot n x y.
Proof. unfold dot. rewrite <- sumn_scal. apply sumn_ext. intros. ring. Qed.
Theorem C118_Stockmayer_mass N M nA nB f g MA MB pB c : 0 < c ->
  Stockmayer N M nA nB f g (fun i => c * MA i) (fun j => c * MB j) pB = (flscale c (fst (Stockmayer N M nA nB f g MA MB pB)), flscale c (snd (Stockmayer N M nA nB f g MA MB pB))).
Proof.
  intros Hc. unfold Stockmayer. cbv zeta. rewrite !dot_sc_l.
  assert (E2 : forall n X Y, dot n (fun i => (c * X i) ^ 2) Y = c ^ 2 * dot n (fun i => X i ^ 2) Y).
  { intros. rewrite <- dot_sc_l. unfold dot. apply sumn_ext. intros. ring. }
  rewrite !E2.
  assert (E3 : forall n X Y Z, sumn n (fun i => c * X i * Y i * Z i) = c * sumn n (fun i => X i * Y i * Z i)).
  { intros. rewrite <- sumn_scal. apply sumn_ext. intros. ring. }
  rewrite !E3.
  set (sfA := dot N f nA). set (sgB := dot M g nB). set (fe := dot N (fun i => f i ^ 2) nA / sfA). set (ge := dot M (fun j => g j ^ 2) nB / sgB).
  destruct (if Rleb (sgB * (fe - 1) * (ge - 1)) 0 then false else Rleb (sqrt (sfA / (sgB * (fe - 1) * (ge - 1)))) pB); [reflexivity|].
  cbn [fst snd flscale]. f_equal; f_equal; [unfold Rdiv; ring|].
  set (pA := pB * sgB / sfA). set (Ma := sumn N (fun i => MA i * f i * nA i)). set (Mb := sumn M (fun j => MB j * g j * nB j)).
  replace (pB * (c * dot N MA nA / sfA) + pA * (c * dot M MB nB / sgB)) with (c * (pB * (dot N MA nA / sfA) + pA * (dot M MB nB / sgB))) by (unfold Rdiv; ring).
  set (D := pB * (dot N MA nA / sfA) + pA * (dot M MB nB / sgB)).
  match goal with |- ?u / _ = _ * (?w / _) => replace u with (c * (c * w)) by (unfold Rdiv; ring) end. rewrite ratio_same by auto. unfold Rdiv. ring.
Qed.
Theorem C118_Stockmayer_batch N M nA nB f g MA MB pB c : 0 < c ->
  Stockmayer N M (fun i => c * nA i) (fun j => c * nB j) f g MA MB pB = Stockmayer N M nA nB f g MA MB pB.
Proof.
  intros Hc. unfold Stockmayer. cbv zeta. rewrite !dot_sc_r.
  assert (E3 : forall n X Y Z, sumn n (fun i => X i * Y i * (c * Z i)) = c * sumn n (fun i => X i * Y i * Z i)).
  { intros. rewrite <- sumn_scal. apply sumn_ext. intros. ring. }
  rewrite !E3, !sumn_scal. rewrite !ratio_same by auto.
  set (sfA := dot N f nA). set (sgB := dot M g nB). set (fe := dot N (fun i => f i ^ 2) nA / sfA). set (ge := dot M (fun j => g j ^ 2) nB / sgB).
  replace (c * sgB * (fe - 1) * (ge - 1)) with (c * (sgB * (fe - 1) * (ge - 1))) by ring. replace (Rleb (c * (sgB * (fe - 1) * (ge - 1))) 0) with (Rleb (sgB * (fe - 1) * (ge - 1)) 0).
  2:{ replace 0 with (c * 0) at 2 by ring. symmetry. apply Rleb_scale; auto. }
  rewrite ratio_same by auto. replace (pB * (c * sgB) / (c * sfA)) with (pB * sgB / sfA) by (replace (pB * (c * sgB)) with (c * (pB * sgB)) by ring; rewrite ratio_same; auto).
  destruct (if Rleb (sgB * (fe - 1) * (ge - 1)) 0 then false else Rleb (sqrt (sfA / (sgB * (fe - 1) * (ge - 1)))) pB); [reflexivity|].
  f_equal. f_equal. symmetry. rewrite <- (ratio_same c) by auto. f_equal; ring.
Qed.
Theorem C118_Flory f M p c : Flory_Af f (c * M) p = match Flory_Af f M p with Ok (a, b, d) => Ok (flscale c a, flscale c b, flscale c d) | Err e => Err e end.
Proof.
  unfold Flory_Af. cbv zeta. destruct (pydiv 1 (INR f - 1)) as [g|e]; cbn [bind]; [|reflexivity]. destruct (Rleb g p); [reflexivity|].
  rewrite pydiv_sc. destruct (pydiv M _) as [Mn|e]; cbn [bind rscale]; [|reflexivity].
  replace (c * M * (1 + p)) with (c * (M * (1 + p))) by ring. rewrite pydiv_sc. destruct (pydiv (M * (1 + p)) _) as [Mw|e]; cbn [bind rscale]; [|reflexivity].
  rewrite Rmult_assoc, pydiv_sc. destruct (pydiv _ _) as [Mz|e]; reflexivity.
Qed.
Theorem C118_Miller_1_mass nAf nA2 nB2 f MAf MA2 MB2 p1 p2 c : 0 < c -> Miller_1 nAf nA2 nB2 f (c * MAf) (c * MA2) (c * MB2) p1 p2 = rscale2 c (Miller_1 nAf nA2 nB2 f MAf MA2 MB2 p1 p2).
Proof.
  intros Hc. unfold Miller_1. cbv zeta. stp. stp. stp. stp.
  match goal with |- bind (pydiv ?a ?b) _ = rscale2 _ (bind (pydiv ?a' ?b) _) => replace a with (c * a') by ring; rewrite pydiv_sc; destruct (pydiv a' b) as [E|e]; cbn [bind rscale]; [|reflexivity] end.
  match goal with |- bind (pydiv ?a ?b) _ = rscale2 _ (bind (pydiv ?a' ?b) _) => replace a with (c * a') by ring; rewrite pydiv_sc; destruct (pydiv a' b) as [Mn|e]; cbn [bind rscale]; [|reflexivity] end.
  match goal with |- bind (pydiv ?a ?b) _ = rscale2 _ (bind (pydiv ?a' ?b') _) => replace a with (c * (c * a')) by ring; replace b with (c * b') by ring; rewrite pydiv_same, pydiv_sc by auto; destruct (pydiv a' b') as [Mw|e]; reflexivity end.
Qed.
Theorem C118_Miller_1_batch nAf nA2 nB2 f MAf MA2 MB2 p1 p2 c : 0 < c -> Miller_1 (c * nAf) (c * nA2) (c * nB2) f MAf MA2 MB2 p1 p2 = Miller_1 nAf nA2 nB2 f MAf MA2 MB2 p1 p2.
Proof.
  intros Hc. unfold Miller_1. cbv zeta.
  replace (INR f * (c * nAf) + 2 * (c * nA2)) with (c * (INR f * nAf + 2 * nA2)) by ring. replace (2 * (c * nB2)) with (c * (2 * nB2)) by ring. replace (INR f * (c * nAf)) with (c * (INR f * nAf)) by ring.
  rewrite !pydiv_same by auto. stp. stp. stp. stp. stp.
  match goal with |- bind (pydiv ?a ?b) _ = bind (pydiv ?a' ?b') _ => replace a with (c * a') by ring; replace b with (c * b') by ring; rewrite pydiv_same by auto; destruct (pydiv a' b') as [Mn|e]; cbn [bind]; [|reflexivity] end.
  match goal with |- bind (pydiv ?a ?b) _ = bind (pydiv ?a' ?b') _ => replace a with (c * a') by ring; replace b with (c * b') by ring; rewrite pydiv_same by auto; reflexivity end.
Qed.
Theorem C118_Miller_2 nAf nB2 f MAf MB2 p c d : 0 < c -> 0 < d ->
  Miller_2 (d * nAf) (d * nB2) f (c * MAf) (c * MB2) p = (flscale c (fst (Miller_2 nAf nB2 f MAf MB2 p)), flscale c (snd (Miller_2 nAf nB2 f MAf MB2 p))).
Proof.
  intros Hc Hd. unfold Miller_2. cbv zeta.
  replace (INR f * (d * nAf) / (2 * (d * nB2))) with (INR f * nAf / (2 * nB2)) by (rewrite <- (ratio_same d) by auto; f_equal; ring).
  set (r := INR f * nAf / (2 * nB2)). set (pA := sumn f (fun i => INR (S i) * p i) / INR f). set (m := sumn f (fun i => INR (S i) ^ 2 * p i) / sumn f (fun i => INR (S i) * p i)).
  destruct (Rltb (r * pA * (m - 1)) 1); [|reflexivity]. cbn [fst snd flscale]. f_equal; f_equal.
  - replace (c * MAf * (d * nAf) + c * MB2 * (d * nB2)) with (d * (c * (MAf * nAf + MB2 * nB2))) by ring. replace (d * nAf + d * nB2 - INR f * (d * nAf) * pA) with (d * (nAf + nB2 - INR f * nAf * pA)) by ring.
    rewrite ratio_same by auto. unfold Rdiv. ring.
  - match goal with |- ?u / ?v = c * (?u' / ?v') => replace u with (c * (c * u')) by (unfold Rdiv; ring); replace v with (c * v') by ring end. rewrite ratio_same by auto. unfold Rdiv. ring.
Qed.

(** Case_1 at complete conversion of an excess: kg/mol to g/mol multiplies both averages by 1000 *)
Example C118_case_step : Case_1 1 (1 / 2) 2 1 = Ok (5, 43 / 5) /\ Case_1 1 (1 / 2) 2000 1000 = Ok (5000, 8600).
Proof.
  assert (H : Case_1 1 (1 / 2) 2 1 = Ok (5, 43 / 5)).
  { unfold Case_1. cbv zeta. rewrite !pydiv_ok by lra. cbn [bind]. rewrite !pydiv_ok by lra. cbn [bind]. do 2 f_equal; field. }
  split; auto. replace 2000 with (1000 * 2) by ring. replace 1000 with (1000 * 1) at 2 by ring. rewrite C118_Case_1, H by lra. cbn [rscale2]. do 2 f_equal; field.
Qed.
Example C118_case_rtd : E_cstr 60 60 = E_cstr 1 1 / 60 /\ F_cstr 60 60 = F_cstr 1 1.
Proof.
  destruct (C118_rtd_E 1 1 1 1 60) as (H & _); try lra. destruct (C118_rtd_F 1 1 1 60) as (H' & _); [lra|].
  replace 60 with (60 * 1) at 1 2 by ring. split; [exact H|]. replace 60 with (60 * 1) at 1 2 by ring. exact H'.
Qed.
Print Assumptions C118_Stockmayer_mass.
Print Assumptions C118_cylinder_bank.
