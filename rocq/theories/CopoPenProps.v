(** Penultimate model against the terminal model, average propagation coefficient and
    composition drift: C31, C72, C73, C74. *)
From Coq Require Import Reals Lra Lia List Bool Arith String.
From Coquelicot Require Import Coquelicot.
From Verif Require Import Prelude UtilsModel RootsModel DistFamProps CopoModel CopoProps CopoStatProps.
Import ListNotations.
Open Scope R_scope.

(* ------------------------------------------------------------------ *)
(** * C31 Degeneration to the terminal model                          *)
(* ------------------------------------------------------------------ *)

Lemma ri_degenerate r1 r2 s1 s2 k1 k2 f1 : admissible f1 r1 r2 ->
  ri (Penultimate r1 r2 r1 r2 s1 s2 k1 k2) f1 = Ok (r1, r2).
Proof.
  intros H. destruct (denP1 _ _ _ H) as (D1 & D2). unfold ri. cbv zeta.
  rewrite !pydiv_ok' by lra. cbn [bind]. do 2 f_equal; field; lra.
Qed.
Lemma kii_degenerate r1 r2 k1 k2 f1 : admissible f1 r1 r2 ->
  kii (Penultimate r1 r2 r1 r2 1 1 k1 k2) f1 = kii (Terminal r1 r2 k1 k2) f1 /\
  kii (ImplicitPenultimate r1 r2 1 1 k1 k2) f1 = kii (Terminal r1 r2 k1 k2) f1.
Proof.
  intros H. destruct (denP1 _ _ _ H) as (D1 & D2). unfold kii. cbv zeta.
  destruct k1 as [k1|], k2 as [k2|]; try (split; reflexivity).
  rewrite !(pydiv_ok' _ 1) by lra. cbn [bind]. unfold Rdiv at 1 2 3 4. rewrite Rinv_1, !Rmult_1_r.
  rewrite !pydiv_ok' by lra. cbn [bind]. split; do 2 f_equal; field; lra.
Qed.

Theorem C31_composition_kp r1 r2 k1 k2 f1 : admissible f1 r1 r2 ->
  (forall s1 s2, model_F1 (Penultimate r1 r2 r1 r2 s1 s2 k1 k2) f1 = model_F1 (Terminal r1 r2 k1 k2) f1) /\
  model_kp (Penultimate r1 r2 r1 r2 1 1 k1 k2) f1 = model_kp (Terminal r1 r2 k1 k2) f1 /\
  model_kp (ImplicitPenultimate r1 r2 1 1 k1 k2) f1 = model_kp (Terminal r1 r2 k1 k2) f1.
Proof.
  intros H. destruct (kii_degenerate r1 r2 k1 k2 f1 H) as (K1 & K2).
  unfold model_F1, model_kp. rewrite K1, K2. split; [|split].
  - intros. rewrite ri_degenerate by auto. reflexivity.
  - rewrite ri_degenerate by auto. reflexivity.
  - reflexivity.
Qed.

(** The implicit penultimate model has the terminal composition and azeotrope for every
    s1, s2 and every input, admissible or not. *)
Theorem C31_implicit r1 r2 s1 s2 k1 k2 f1 :
  model_F1 (ImplicitPenultimate r1 r2 s1 s2 k1 k2) f1 = model_F1 (Terminal r1 r2 k1 k2) f1 /\
  azeotrope (ImplicitPenultimate r1 r2 s1 s2 k1 k2) = azeotrope (Terminal r1 r2 k1 k2).
Proof. split; reflexivity. Qed.

(** Transition probabilities coincide. *)
Theorem C31_transitions r1 r2 f1 : interior r1 r2 r1 r2 f1 ->
  exists P Q, transitions r1 r2 f1 = Ok P /\ ptransitions r1 r2 r1 r2 f1 = Ok Q /\
    P111 Q = P11 P /\ P211 Q = P11 P /\ P112 Q = P12 P /\ P212 Q = P12 P /\
    P222 Q = P22 P /\ P122 Q = P22 P /\ P221 Q = P21 P /\ P121 Q = P21 P.
Proof.
  intros H. destruct (ptransitions_ok _ _ _ _ _ H) as (Q & EQ & E1 & E2 & E3 & E4 & _ & _ & _ & _ & S1 & S2 & S3 & S4).
  destruct H as (H1 & H2 & _ & _ & Hf).
  rewrite transitions_ok by (repeat split; lra). do 2 eexists. split; [reflexivity|]. split; [exact EQ|].
  cbn [P11 P12 P21 P22]. repeat split; lra.
Qed.

(** Closed form of the normalised triads. *)
Lemma ptri3_equal e p : 0 <= e -> 0 < p < 1 ->
  ptri3 e p p = Ok (p ^ 2 / (1 + e * (1 + p)), 2 * p * (1 - p + e) / (1 + e * (1 + p)),
                    (1 - p) * (1 - p + e) / (1 + e * (1 + p))).
Proof.
  intros He Hp. unfold ptri3. rewrite pydiv_ok' by lra. cbn [bind].
  assert (D : 0 < 1 + e * (1 + p)) by (assert (0 <= e * (1 + p)) by (apply Rmult_le_pos; lra); lra).
  assert (S : p * p / (1 - p + e) + 2 * p + (1 - p) = (1 + e * (1 + p)) / (1 - p + e)) by (field; lra).
  rewrite S. assert (0 < (1 + e * (1 + p)) / (1 - p + e)) by (apply Rdiv_lt_0_compat; lra).
  rewrite !pydiv_ok' by lra. cbn [bind]. f_equal. f_equal; [f_equal|]; field; lra.
Qed.

(** The penultimate triads are, within two units of eps, the terminal triads conditional
    on the central unit: A111/F1, A112/F1, ... *)
Theorem C31_triads r1 r2 f1 : interior r1 r2 r1 r2 f1 ->
  exists t P, ptriads r1 r2 r1 r2 f1 = Ok t /\ transitions r1 r2 f1 = Ok P /\
    Rabs (A111 t - P11 P ^ 2) <= 2 * eps /\ Rabs (A112 t - 2 * P11 P * P12 P) <= 2 * eps /\
    Rabs (A212 t - P12 P ^ 2) <= 2 * eps /\ Rabs (A222 t - P22 P ^ 2) <= 2 * eps /\
    Rabs (A221 t - 2 * P22 P * P21 P) <= 2 * eps /\ Rabs (A121 t - P21 P ^ 2) <= 2 * eps.
Proof.
  intros H. destruct (C31_transitions _ _ _ H) as (P & Q & EP & EQ & Q1 & Q2 & _ & _ & Q3 & Q4 & _).
  destruct (ptransitions_ok _ _ _ _ _ H) as (Q' & EQ' & _ & _ & _ & _ & I1 & I2 & I3 & I4 & _).
  rewrite EQ in EQ'. injection EQ' as <-.
  assert (ADM : admissible f1 r1 r2) by (destruct H as (? & ? & ? & ? & ?); repeat split; lra).
  destruct (trans_facts _ _ _ _ ADM EP) as (_ & _ & _ & _ & S1 & S2 & _).
  pose proof eps_pos as He.
  unfold ptriads, ptriads_e. rewrite EQ. cbn [bind]. rewrite Q1, Q2, Q3, Q4 in *.
  rewrite !ptri3_equal by lra. cbn [bind]. do 2 eexists. split; [reflexivity|]. split; [exact EP|].
  cbn [A111 A112 A212 A222 A221 A121].
  replace (P12 P) with (1 - P11 P) by lra. replace (P21 P) with (1 - P22 P) by lra.
  assert (G : forall p, 0 < p < 1 ->
    Rabs (p ^ 2 / (1 + eps * (1 + p)) - p ^ 2) <= 2 * eps /\
    Rabs (2 * p * (1 - p + eps) / (1 + eps * (1 + p)) - 2 * p * (1 - p)) <= 2 * eps /\
    Rabs ((1 - p) * (1 - p + eps) / (1 + eps * (1 + p)) - (1 - p) ^ 2) <= 2 * eps).
  { clear - He. intros p Hp.
    assert (B : 0 <= eps * (1 + p)) by (apply Rmult_le_pos; lra).
    assert (K : forall c, 0 <= c <= 2 -> 0 <= c * eps / (1 + eps * (1 + p)) <= 2 * eps).
    { intros c Hc. assert (0 <= c * eps) by (apply Rmult_le_pos; lra). split.
      - unfold Rdiv. apply Rmult_le_pos; auto. left. apply Rinv_0_lt_compat. lra.
      - apply (Rmult_le_reg_r (1 + eps * (1 + p))); [lra|]. unfold Rdiv. rewrite Rmult_assoc, Rinv_l by lra.
        assert (c * eps <= 2 * eps) by (apply Rmult_le_compat_r; lra).
        assert (0 <= 2 * eps * (eps * (1 + p))) by (apply Rmult_le_pos; lra). lra. }
    assert (p2 : 0 < p ^ 2 < 1) by nra. assert (p3 : 0 < p ^ 3 < 1) by nra.
    split; [|split].
    - replace (p ^ 2 / (1 + eps * (1 + p)) - p ^ 2) with (- ((p ^ 2 + p ^ 3) * eps / (1 + eps * (1 + p)))) by (field; lra).
      rewrite Rabs_Ropp, Rabs_pos_eq; apply K; lra.
    - replace (2 * p * (1 - p + eps) / (1 + eps * (1 + p)) - 2 * p * (1 - p)) with
        (2 * p ^ 3 * eps / (1 + eps * (1 + p))) by (field; lra).
      rewrite Rabs_pos_eq; apply K; lra.
    - replace ((1 - p) * (1 - p + eps) / (1 + eps * (1 + p)) - (1 - p) ^ 2) with
        ((p ^ 2 - p ^ 3) * eps / (1 + eps * (1 + p))) by (field; lra).
      assert (p ^ 3 <= p ^ 2) by nra. rewrite Rabs_pos_eq; apply K; lra. }
  destruct (G _ I1) as (A & B & C). destruct (G _ I3) as (A' & B' & C'). tauto.
Qed.

(** Finding: the triad fractions of the two classes are normalised differently (per centre
    against overall), so they differ even for identical parameters. *)
Theorem C31_triads_refuted : forall r1 r2 f1, interior r1 r2 r1 r2 f1 ->
  exists t t', triads r1 r2 f1 = Ok t /\ ptriads r1 r2 r1 r2 f1 = Ok t' /\
    A111 t + A112 t + A212 t + A222 t + A221 t + A121 t = 1 /\
    A111 t' + A112 t' + A212 t' + A222 t' + A221 t' + A121 t' = 2 /\ t <> t'.
Proof.
  intros r1 r2 f1 H.
  destruct (C30_penultimate _ _ _ _ _ H) as (P & m & t' & _ & _ & E' & S1 & S2 & _).
  destruct (C30_triads_eps f1 r1 r2) as (t & E & S).
  { destruct H as (? & ? & ? & ? & ?). repeat split; lra. }
  exists t, t'. repeat split; auto; try lra. intros ->. lra.
Qed.

(** Sequence-length distributions coincide; means coincide up to the regularisation. *)
Theorem C31_sequences r1 r2 f1 k : interior r1 r2 r1 r2 f1 -> (1 <= k)%nat ->
  psequence_dist r1 r2 r1 r2 f1 k = sequence_dist r1 r2 f1 k /\
  exists m m', sequence_mean r1 r2 f1 = Ok m /\ psequence_mean r1 r2 r1 r2 f1 = Ok m' /\
    fst m' - fst m = eps * fst m /\ snd m' - snd m = eps * snd m.
Proof.
  intros H Hk. destruct (C31_transitions _ _ _ H) as (P & Q & EP & EQ & Q1 & Q2 & _ & _ & Q3 & Q4 & _).
  destruct (ptransitions_ok _ _ _ _ _ H) as (Q' & EQ' & _ & _ & _ & _ & I1 & I2 & I3 & I4 & _).
  rewrite EQ in EQ'. injection EQ' as <-. rewrite Q1, Q3 in *.
  pose proof eps_pos as He. split.
  - unfold psequence_dist, sequence_dist. rewrite EP, EQ. cbn [bind]. rewrite Q1, Q2, Q3, Q4.
    assert (E : forall p, pseq_dist p p k = seq_dist p k).
    { intros p. unfold pseq_dist, seq_dist. destruct (Nat.eqb_spec k 1) as [->|N].
      - cbn. ring.
      - replace (k - 1)%nat with (S (k - 2)) by lia. cbn [pow]. ring. }
    now rewrite !E.
  - unfold psequence_mean, psequence_mean_e, sequence_mean, sequence_mean_e, pseq_mean_e, seq_mean_e.
    rewrite EP, EQ. cbn [bind]. rewrite Q1, Q2, Q3, Q4. rewrite !pydiv_ok' by lra. cbn [bind].
    do 2 eexists. split; [reflexivity|]. split; [reflexivity|]. cbn [fst snd]. split; field; lra.
Qed.

Example C31_case : model_kp (Penultimate 2 3 2 3 1 1 (Some 100) (Some 50)) (1 / 2) =
                   model_kp (Terminal 2 3 (Some 100) (Some 50)) (1 / 2).
Proof. apply (C31_composition_kp 2 3). repeat split; lra. Qed.

(* ------------------------------------------------------------------ *)
(** * C72 Average propagation coefficient                             *)
(* ------------------------------------------------------------------ *)

(** Terminal model: for radical fractions p1, p2 in the long-chain steady state, the
    average coefficient is the sum over the four propagation steps. *)
Theorem C72_terminal f1 r1 r2 k11 k22 p1 p2 :
  0 < r1 -> 0 < r2 -> 0 < k11 -> 0 < k22 -> 0 <= f1 <= 1 ->
  p1 + p2 = 1 -> p1 * (k11 / r1) * (1 - f1) = p2 * (k22 / r2) * f1 ->
  kp_average_binary f1 r1 r2 k11 k22 =
  Fin (p1 * (k11 * f1 + k11 / r1 * (1 - f1)) + p2 * (k22 * (1 - f1) + k22 / r2 * f1)).
Proof.
  intros H1 H2 K1 K2 Hf S B. unfold kp_average_binary. cbv zeta.
  set (D := r1 * f1 / k11 + r2 * (1 - f1) / k22).
  assert (HD : 0 < D).
  { unfold D. assert (0 <= r1 * f1 / k11).
    { unfold Rdiv. apply Rmult_le_pos; [apply Rmult_le_pos; lra|left; now apply Rinv_0_lt_compat]. }
    assert (0 <= r2 * (1 - f1) / k22).
    { unfold Rdiv. apply Rmult_le_pos; [apply Rmult_le_pos; lra|left; now apply Rinv_0_lt_compat]. }
    destruct (Req_dec f1 0) as [->|N].
    - assert (0 < r2 * (1 - 0) / k22) by (apply Rdiv_lt_0_compat; lra). lra.
    - assert (0 < r1 * f1 / k11) by (apply Rdiv_lt_0_compat; auto; apply Rmult_lt_0_compat; lra). lra. }
  rewrite np_div_ok by lra. f_equal.
  assert (P1 : p1 = r1 * f1 / k11 / D).
  { apply (Rmult_eq_reg_r D); [|lra]. replace (r1 * f1 / k11 / D * D) with (r1 * f1 / k11) by (field; lra).
    replace p2 with (1 - p1) in B by lra. unfold D.
    apply (Rmult_eq_reg_r (k11 * k22 / (r1 * r2))).
    2:{ apply Rgt_not_eq. apply Rdiv_lt_0_compat; apply Rmult_lt_0_compat; auto. }
    replace (p1 * (r1 * f1 / k11 + r2 * (1 - f1) / k22) * (k11 * k22 / (r1 * r2))) with
      (p1 * (k22 / r2 * f1) + p1 * (k11 / r1) * (1 - f1)) by (field; lra).
    rewrite B. field. lra. }
  assert (P2 : p2 = r2 * (1 - f1) / k22 / D).
  { replace p2 with (1 - p1) by lra. rewrite P1. unfold D in *. field. repeat split; try lra.
    intros K. assert (D * (k11 * k22) = 0) by (unfold D; rewrite <- K; field; lra).
    assert (0 < D * (k11 * k22)) by (apply Rmult_lt_0_compat; auto; apply Rmult_lt_0_compat; auto). lra. }
  rewrite P1, P2. field. repeat split; lra.
Qed.

Lemma lump_r p s r11 r21 k f1 f2 : 0 < p -> 0 < s -> 0 < r11 -> 0 < r21 -> 0 < k -> 0 < f1 -> 0 < f2 ->
  (p * (s * r11 * f1 / f2) * k + p * (s * k)) / (p * (s * r11 * f1 / f2) + p) /
  ((p * (s * r11 * f1 / f2) * (k / r11) + p * (s * k / r21)) / (p * (s * r11 * f1 / f2) + p)) =
  r21 * (f1 * r11 + f2) / (f1 * r21 + f2).
Proof.
  intros Hp Hs H1 H2 Hk F1 F2.
  assert (0 < s * r11 * f1) by (apply Rmult_lt_0_compat; auto; apply Rmult_lt_0_compat; auto).
  assert (0 < f1 * r21) by (apply Rmult_lt_0_compat; auto).
  replace (p * (s * r11 * f1 / f2) + p) with (p / f2 * (s * r11 * f1 + f2)) by (field; lra).
  replace (p * (s * r11 * f1 / f2) * k + p * (s * k)) with (p * s * k / f2 * (f1 * r11 + f2)) by (field; lra).
  replace (p * (s * r11 * f1 / f2) * (k / r11) + p * (s * k / r21)) with (p * s * k / (f2 * r21) * (f1 * r21 + f2)) by (field; lra).
  field. repeat split; lra.
Qed.
Lemma lump_k p s r k f1 f2 : 0 < p -> 0 < s -> 0 < r -> 0 < k -> 0 < f1 -> 0 < f2 ->
  (p * (s * r * f1 / f2) * k + p * (s * k)) / (p * (s * r * f1 / f2) + p) =
  k * (f1 * r + f2) / (f1 * r + f2 / s).
Proof.
  intros Hp Hs H1 Hk F1 F2.
  assert (0 < s * r * f1) by (apply Rmult_lt_0_compat; auto; apply Rmult_lt_0_compat; auto).
  replace (p * (s * r * f1 / f2) + p) with (p / f2 * (s * r * f1 + f2)) by (field; lra).
  replace (p * (s * r * f1 / f2) * k + p * (s * k)) with (p * s * k / f2 * (f1 * r + f2)) by (field; lra).
  replace (f1 * r + f2 / s) with ((s * r * f1 + f2) / s) by (field; lra).
  field. repeat split; lra.
Qed.

(** Penultimate model: radicals are distinguished by their last two units; p_ij are the
    fractions in the long-chain steady state; k111, k222 are the homo-propagation
    coefficients and the others follow from the r's and s's. *)
Theorem C72_penultimate f1 r11 r12 r21 r22 s1 s2 k1 k2 p11 p21 p12 p22 :
  0 < s1 -> 0 < s2 -> 0 < k1 -> 0 < k2 -> interior r11 r12 r21 r22 f1 ->
  let f2 := 1 - f1 in
  let k111 := k1 in let k112 := k111 / r11 in
  let k211 := s1 * k111 in let k212 := k211 / r21 in
  let k222 := k2 in let k221 := k222 / r22 in
  let k122 := s2 * k222 in let k121 := k122 / r12 in
  p11 + p21 + p12 + p22 = 1 ->
  0 < p21 -> 0 < p12 ->
  p11 * k112 * f2 = p21 * k211 * f1 ->
  p22 * k221 * f1 = p12 * k122 * f2 ->
  (p11 * k112 + p21 * k212) * f2 = (p12 * k121 + p22 * k221) * f1 ->
  model_kp (Penultimate r11 r12 r21 r22 s1 s2 (Some k1) (Some k2)) f1 =
  Ok (Fin (p11 * (k111 * f1 + k112 * f2) + p21 * (k211 * f1 + k212 * f2)
         + p12 * (k121 * f1 + k122 * f2) + p22 * (k221 * f1 + k222 * f2))).
Proof.
  intros S1 S2 K1 K2 (R11 & R12 & R21 & R22 & Hf) f2 k111 k112 k211 k212 k222 k221 k122 k121
    SUM P21 P12 B1 B2 B3.
  assert (F2 : 0 < f2) by (unfold f2; lra).
  assert (HK112 : 0 < k112) by (apply Rdiv_lt_0_compat; auto).
  assert (HK221 : 0 < k221) by (apply Rdiv_lt_0_compat; auto).
  assert (HK211 : 0 < k211) by (apply Rmult_lt_0_compat; auto).
  assert (HK122 : 0 < k122) by (apply Rmult_lt_0_compat; auto).
  assert (HK212 : 0 < k212) by (apply Rdiv_lt_0_compat; auto).
  assert (HK121 : 0 < k121) by (apply Rdiv_lt_0_compat; auto).
  assert (E11 : p11 = p21 * (s1 * r11 * f1 / f2)).
  { apply (Rmult_eq_reg_r (k112 * f2)); [|apply Rgt_not_eq, Rmult_lt_0_compat; lra].
    rewrite <- Rmult_assoc, B1. unfold k211, k112, k111. field. lra. }
  assert (E22 : p22 = p12 * (s2 * r22 * f2 / f1)).
  { apply (Rmult_eq_reg_r (k221 * f1)); [|apply Rgt_not_eq, Rmult_lt_0_compat; lra].
    rewrite <- Rmult_assoc, B2. unfold k122, k221, k222. field. lra. }
  assert (PP : 0 < s1 * r11 * f1 / f2).
  { apply Rdiv_lt_0_compat; auto. apply Rmult_lt_0_compat; [apply Rmult_lt_0_compat; auto|lra]. }
  assert (QQ : 0 < s2 * r22 * f2 / f1).
  { apply Rdiv_lt_0_compat; [|lra]. apply Rmult_lt_0_compat; [apply Rmult_lt_0_compat; auto|lra]. }
  assert (P11 : 0 < p11) by (rewrite E11; now apply Rmult_lt_0_compat).
  assert (P22 : 0 < p22) by (rewrite E22; now apply Rmult_lt_0_compat).
  (* lumped terminal model *)
  set (q1 := p11 + p21). set (q2 := p12 + p22).
  assert (Q1 : 0 < q1) by (unfold q1; lra). assert (Q2 : 0 < q2) by (unfold q2; lra).
  set (K11 := (p11 * k111 + p21 * k211) / q1). set (K12 := (p11 * k112 + p21 * k212) / q1).
  set (K22 := (p22 * k222 + p12 * k122) / q2). set (K21 := (p22 * k221 + p12 * k121) / q2).
  assert (HK11 : 0 < K11).
  { apply Rdiv_lt_0_compat; auto. assert (0 < p11 * k111) by (apply Rmult_lt_0_compat; auto).
    assert (0 < p21 * k211) by (apply Rmult_lt_0_compat; auto). lra. }
  assert (HK12 : 0 < K12).
  { apply Rdiv_lt_0_compat; auto. assert (0 < p11 * k112) by (apply Rmult_lt_0_compat; auto).
    assert (0 < p21 * k212) by (apply Rmult_lt_0_compat; auto). lra. }
  assert (HK22 : 0 < K22).
  { apply Rdiv_lt_0_compat; auto. assert (0 < p22 * k222) by (apply Rmult_lt_0_compat; auto).
    assert (0 < p12 * k122) by (apply Rmult_lt_0_compat; auto). lra. }
  assert (HK21 : 0 < K21).
  { apply Rdiv_lt_0_compat; auto. assert (0 < p22 * k221) by (apply Rmult_lt_0_compat; auto).
    assert (0 < p12 * k121) by (apply Rmult_lt_0_compat; auto). lra. }
  assert (A1 : 0 < f1 * r11) by (apply Rmult_lt_0_compat; lra).
  assert (A2 : 0 < f1 * r21) by (apply Rmult_lt_0_compat; lra).
  assert (A3 : 0 < f2 * r22) by (apply Rmult_lt_0_compat; lra).
  assert (A4 : 0 < f2 * r12) by (apply Rmult_lt_0_compat; lra).
  assert (A5 : 0 < f2 / s1) by (apply Rdiv_lt_0_compat; lra).
  assert (A6 : 0 < f1 / s2) by (apply Rdiv_lt_0_compat; lra).
  assert (ERI : ri (Penultimate r11 r12 r21 r22 s1 s2 (Some k1) (Some k2)) f1 = Ok (K11 / K12, K22 / K21)).
  { unfold ri. cbv zeta. fold f2. rewrite !pydiv_ok' by lra. cbn [bind]. f_equal. f_equal.
    - unfold K11, K12, q1, k111, k211, k112, k212, k111. rewrite E11. symmetry. apply lump_r; auto; lra.
    - unfold K22, K21, q2, k222, k122, k221, k121, k222. rewrite (Rplus_comm p12 p22), E22. symmetry. apply lump_r; auto; lra. }
  assert (EKI : kii (Penultimate r11 r12 r21 r22 s1 s2 (Some k1) (Some k2)) f1 = Ok (K11, K22)).
  { unfold kii. cbv zeta. fold f2. rewrite (pydiv_ok' f2), (pydiv_ok' f1) by lra. cbn [bind].
    rewrite !pydiv_ok' by lra. cbn [bind]. f_equal. f_equal.
    - unfold K11, q1, k211, k111. rewrite E11. symmetry. apply lump_k; auto; lra.
    - unfold K22, q2, k122, k222. rewrite (Rplus_comm p12 p22), E22. symmetry. apply lump_k; auto; lra. }
  unfold model_kp. rewrite check_f1_ok by lra. cbn [bind]. rewrite ERI, EKI. cbn [bind fst snd]. f_equal.
  rewrite (C72_terminal f1 (K11 / K12) (K22 / K21) K11 K22 q1 q2);
    [|apply Rdiv_lt_0_compat; lra|apply Rdiv_lt_0_compat; lra|lra|lra|lra|unfold q1, q2; lra|].
  - f_equal. replace (K11 / (K11 / K12)) with K12 by (field; lra).
    replace (K22 / (K22 / K21)) with K21 by (field; lra). fold f2.
    replace (q1 * (K11 * f1 + K12 * f2)) with ((p11 * k111 + p21 * k211) * f1 + (p11 * k112 + p21 * k212) * f2)
      by (unfold K11, K12; field; lra).
    replace (q2 * (K22 * f2 + K21 * f1)) with ((p22 * k222 + p12 * k122) * f2 + (p22 * k221 + p12 * k121) * f1)
      by (unfold K22, K21; field; lra). ring.
  - replace (K11 / (K11 / K12)) with K12 by (field; lra).
    replace (K22 / (K22 / K21)) with K21 by (field; lra). fold f2.
    replace (q1 * K12 * f2) with ((p11 * k112 + p21 * k212) * f2) by (unfold K12; field; lra).
    replace (q2 * K21 * f1) with ((p22 * k221 + p12 * k121) * f1) by (unfold K21; field; lra). lra.
Qed.

Example C72_case :
  model_kp (Penultimate 1 1 1 1 2 1 (Some 1) (Some 1)) (1 / 2) = Ok (Fin (8 / 7)).
Proof.
  rewrite (C72_penultimate (1 / 2) 1 1 1 1 2 1 1 1 (2 / 7) (1 / 7) (2 / 7) (2 / 7)); try lra.
  - f_equal. f_equal. lra.
  - repeat split; lra.
Qed.

(* ------------------------------------------------------------------ *)
(** * C73 Composition drift                                           *)
(* ------------------------------------------------------------------ *)

(** [f] is an exact solution of the drift equation on [0,X], with [F] the instantaneous
    composition function. *)
Definition drift_solution (r1 r2 : R) (F f : R -> R) (X : R) : Prop :=
  (forall y, 0 <= y <= 1 -> inst_copolymer_binary y r1 r2 = Fin (F y)) /\
  (forall x, 0 <= x <= X -> 0 <= f x <= 1) /\
  (forall x, 0 <= x <= X -> is_derive f x (df1dx F x (f x))).

Lemma F_is_F1val r1 r2 F y : 0 < r1 -> 0 < r2 -> 0 <= y <= 1 ->
  inst_copolymer_binary y r1 r2 = Fin (F y) -> F y = F1val y r1 r2.
Proof.
  intros H1 H2 Hy E. rewrite inst_val in E by (repeat split; lra). now injection E.
Qed.

Lemma F1val_continuous r1 r2 y : 0 < r1 -> 0 < r2 -> 0 <= y <= 1 ->
  continuous (fun y => F1val y r1 r2) y.
Proof.
  intros H1 H2 Hy. assert (D := den_pos y r1 r2 ltac:(repeat split; lra)).
  apply (ex_derive_continuous (fun y => F1val y r1 r2)). unfold F1val. auto_derive. simpl in D |- *. lra.
Qed.

(** Monomer balance: what is left plus what was incorporated is what was charged (the
    code's eps shifts the denominator 1 - x by eps, hence the factors 1 + eps). *)
Theorem C73_balance r1 r2 F f X : 0 < r1 -> 0 < r2 -> 0 <= X <= 1 -> drift_solution r1 r2 F f X ->
  is_RInt (fun x => F (f x)) 0 X (f 0 * (1 + eps) - f X * (1 - X + eps)).
Proof.
  intros H1 H2 HX (HF & Hf & Hd). pose proof eps_pos as He.
  apply (is_RInt_ext (fun x => F1val (f x) r1 r2)).
  { intros x Hx. rewrite Rmin_left, Rmax_right in Hx by lra. symmetry.
    apply F_is_F1val; auto; [apply Hf; lra|apply HF, Hf; lra]. }
  replace (f 0 * (1 + eps) - f X * (1 - X + eps)) with
    ((- (f X * (1 - X + eps))) - (- (f 0 * (1 - 0 + eps)))) by ring.
  apply (is_RInt_derive (fun x => - (f x * (1 - x + eps))) (fun x => F1val (f x) r1 r2)).
  - intros x Hx. rewrite Rmin_left, Rmax_right in Hx by lra.
    specialize (Hd x Hx). unfold df1dx in Hd. rewrite (F_is_F1val r1 r2 F) in Hd by auto.
    assert (G : is_derive (fun x0 => - (f x0 * (1 - x0 + eps))) x
       (- ((f x - F1val (f x) r1 r2) / (1 - x + eps) * (1 - x + eps) + f x * (-1)))).
    { apply (is_derive_opp (fun x0 => f x0 * (1 - x0 + eps))).
      apply (is_derive_mult f (fun x0 => 1 - x0 + eps)); auto.
      - apply (is_derive_ext (fun x0 => (1 + eps) - x0)); [intros; match goal with |- ?a = ?b => change (@eq R a b) end; ring|].
        auto_derive; auto.
      - intros; apply Rmult_comm. }
    refine (eq_ind _ (fun l : R => is_derive (fun x0 => - (f x0 * (1 - x0 + eps))) x l) G _ _).
    field. lra.
  - intros x Hx. rewrite Rmin_left, Rmax_right in Hx by lra.
    apply (continuous_comp f (fun y => F1val y r1 r2)).
    + apply (ex_derive_continuous f). exists (df1dx F x (f x)). now apply Hd.
    + apply F1val_continuous; auto.
Qed.

(** Azeotropic feeds do not drift, and only those are stationary. *)
Theorem C73_azeotrope r1 r2 F a X : 0 < r1 -> 0 < r2 -> 0 <= X <= 1 -> 0 <= a <= 1 ->
  (forall y, 0 <= y <= 1 -> inst_copolymer_binary y r1 r2 = Fin (F y)) ->
  (drift_solution r1 r2 F (fun _ => a) X <-> F a = a).
Proof.
  intros H1 H2 HX Ha HF. pose proof eps_pos as He. split.
  - intros (_ & _ & D). specialize (D 0 ltac:(lra)).
    assert (E : df1dx F 0 a = 0) by (apply (is_derive_unique _ _ _) in D; rewrite <- D; apply Derive_const).
    unfold df1dx in E. apply Rmult_integral in E. destruct E as [E|E]; [lra|].
    assert (0 < / (1 - 0 + eps)) by (apply Rinv_0_lt_compat; lra). lra.
  - intros E. split; [auto|]. split; [auto|]. intros x Hx. unfold df1dx.
    replace ((a - F a) / (1 - x + eps)) with 0 by (rewrite E; field; lra).
    apply (is_derive_const a x).
Qed.

(** The monomer that enters the copolymer preferentially is depleted. *)
Theorem C73_direction r1 r2 F f X : 0 < r1 -> 0 < r2 -> 0 <= X <= 1 -> drift_solution r1 r2 F f X ->
  (forall x, 0 <= x <= X -> f x < F (f x)) ->
  forall x y, 0 <= x < y -> y <= X -> f y < f x.
Proof.
  intros H1 H2 HX (HF & Hf & Hd) HL x y Hxy HyX. pose proof eps_pos as He.
  destruct (MVT_gen f x y (fun t => df1dx F t (f t))) as (c & Hc & E).
  - intros t Ht. rewrite Rmin_left, Rmax_right in Ht by lra. apply Hd. lra.
  - intros t Ht. rewrite Rmin_left, Rmax_right in Ht by lra. apply continuity_pt_filterlim.
    apply (ex_derive_continuous f). exists (df1dx F t (f t)). apply Hd. lra.
  - rewrite Rmin_left, Rmax_right in Hc by lra.
    assert (N : df1dx F c (f c) < 0).
    { unfold df1dx. specialize (HL c ltac:(lra)). apply Rmult_lt_reg_r with (1 - c + eps); [lra|].
      replace ((f c - F (f c)) / (1 - c + eps) * (1 - c + eps)) with (f c - F (f c)) by (field; lra). lra. }
    assert (df1dx F c (f c) * (y - x) < 0) by (apply Ropp_lt_cancel; rewrite Ropp_0, Ropp_mult_distr_l; apply Rmult_lt_0_compat; lra).
    lra.
Qed.

(** r1 = r2 = 1: F = f for every feed, so every constant is a solution. *)
Example C73_case a : 0 <= a <= 1 -> drift_solution 1 1 (fun y => y) (fun _ => a) 1.
Proof.
  intros Ha. apply C73_azeotrope; auto; try lra. intros y Hy.
  rewrite inst_val by (repeat split; lra). f_equal. unfold F1val. field. simpl. lra.
Qed.

(* ------------------------------------------------------------------ *)
(** * C74 Cumulative composition                                      *)
(* ------------------------------------------------------------------ *)

(** For x > 0 the cumulative composition computed from the drift is the mean of the
    instantaneous composition over the conversion, up to the two regularisation
    constants. *)
Theorem C74_cumulative r1 r2 F f X I : 0 < r1 -> 0 < r2 -> 0 < X <= 1 -> drift_solution r1 r2 F f X ->
  is_RInt (fun x => F (f x)) 0 X I ->
  Rabs (F1_cum (f 0) (f X) X - I / X) <= (eps + 1 / 10 ^ 10 / X) / X.
Proof.
  intros H1 H2 HX HS HI. pose proof eps_pos as He.
  assert (B := C73_balance r1 r2 F f X H1 H2 ltac:(lra) HS).
  assert (E : I = f 0 * (1 + eps) - f X * (1 - X + eps)).
  { rewrite <- (is_RInt_unique _ _ _ _ HI). exact (is_RInt_unique _ _ _ _ B). }
  destruct HS as (_ & Hf & _). assert (A0 := Hf 0 ltac:(lra)). assert (AX := Hf X ltac:(lra)).
  rewrite E. unfold F1_cum. set (d := 1 / 10 ^ 10). assert (Hd : 0 < d) by (unfold d; lra). clearbody d.
  replace (f X + (f 0 - f X) / (X + d) - (f 0 * (1 + eps) - f X * (1 - X + eps)) / X) with
    ((f 0 - f X) * (- ((eps + d / (X + d)) / X))) by (field; lra).
  assert (K : 0 <= (eps + d / (X + d)) / X).
  { assert (0 < d / (X + d)) by (apply Rdiv_lt_0_compat; lra). apply Rlt_le, Rdiv_lt_0_compat; lra. }
  rewrite Rabs_mult, Rabs_Ropp, (Rabs_pos_eq _ K).
  apply Rle_trans with (1 * ((eps + d / (X + d)) / X)).
  - apply Rmult_le_compat_r; auto. apply Rabs_le. lra.
  - rewrite Rmult_1_l. unfold Rdiv at 1 3. apply Rmult_le_compat_r; [apply Rlt_le, Rinv_0_lt_compat; lra|].
    apply Rplus_le_compat_l. unfold Rdiv. apply Rmult_le_compat_l; [lra|]. apply Rinv_le_contravar; lra.
Qed.

(** Finding: at x = 0 the same formula returns the feed composition f10 instead of the
    initial copolymer composition F1(f10). *)
Theorem C74_zero_refuted : exists r1 r2 f10 F,
  model_F1 (Terminal r1 r2 None None) f10 = Ok (Fin F) /\ Rabs (F1_cum f10 f10 0 - F) >= 1 / 4.
Proof.
  exists 3, (1 / 3), (1 / 2), (3 / 4). split.
  - unfold model_F1. rewrite check_f1_ok by lra. cbn [bind ri fst snd].
    rewrite inst_val by (repeat split; lra). do 2 f_equal. unfold F1val. field.
  - unfold F1_cum. replace (1 / 2 - 1 / 2) with 0 by lra. unfold Rdiv at 2. rewrite Rmult_0_l.
    rewrite Rabs_left by lra. lra.
Qed.

Example C74_case : Rabs (F1_cum (1 / 2) (1 / 2) 1 - 1 / 2) = 0.
Proof. unfold F1_cum. replace (1 / 2 - 1 / 2) with 0 by lra. unfold Rdiv at 2. rewrite Rmult_0_l. rewrite Rplus_0_r, Rminus_diag_eq by reflexivity. apply Rabs_R0. Qed.

Print Assumptions C31_composition_kp.
Print Assumptions C31_implicit.
Print Assumptions C31_transitions.
Print Assumptions C31_triads.
Print Assumptions C31_triads_refuted.
Print Assumptions C31_sequences.
Print Assumptions C72_terminal.
Print Assumptions C72_penultimate.
Print Assumptions C73_balance.
Print Assumptions C73_azeotrope.
Print Assumptions C73_direction.
Print Assumptions C74_cumulative.
Print Assumptions C74_zero_refuted.
