(** Sequence statistics, penultimate model, average kp and drift: C30, C31, C72, C73, C74. *)
From Coq Require Import Reals Lra Lia List Bool Arith String.
From Coquelicot Require Import Coquelicot.
From Verif Require Import Prelude UtilsModel RootsModel DistFamProps CopoModel CopoProps.
Import ListNotations.
Open Scope R_scope.

(* ------------------------------------------------------------------ *)
(** * C30 Terminal-model statistics                                   *)
(* ------------------------------------------------------------------ *)

Definition prob (x : R) : Prop := 0 <= x <= 1.

Lemma prob_ratio a b : 0 <= a -> 0 <= b -> 0 < a + b -> prob (a / (a + b)).
Proof.
  intros Ha Hb H. split.
  - unfold Rdiv. apply Rmult_le_pos; auto. left. now apply Rinv_0_lt_compat.
  - apply (Rmult_le_reg_r (a + b)); auto. unfold Rdiv. rewrite Rmult_assoc, Rinv_l by lra. lra.
Qed.

Lemma trans_facts f1 r1 r2 P : admissible f1 r1 r2 -> transitions r1 r2 f1 = Ok P ->
  prob (P11 P) /\ prob (P12 P) /\ prob (P21 P) /\ prob (P22 P) /\
  P11 P + P12 P = 1 /\ P21 P + P22 P = 1 /\ 0 < P12 P + P21 P.
Proof.
  intros H E. rewrite transitions_ok in E by auto. injection E as <-. cbn [P11 P12 P21 P22].
  destruct (denP1 _ _ _ H) as (D1 & D2). destruct H as (H1 & H2 & (H3 & H4) & _).
  assert (A : prob (r1 * f1 / (r1 * f1 + (1 - f1)))) by (apply prob_ratio; auto; [now apply Rmult_le_pos|lra]).
  assert (B : prob (r2 * (1 - f1) / (r2 * (1 - f1) + f1))) by (apply prob_ratio; auto; apply Rmult_le_pos; lra).
  assert (C : 1 - r1 * f1 / (r1 * f1 + (1 - f1)) = (1 - f1) / (r1 * f1 + (1 - f1))) by (field; lra).
  assert (D : 1 - r2 * (1 - f1) / (r2 * (1 - f1) + f1) = f1 / (r2 * (1 - f1) + f1)) by (field; lra).
  unfold prob in *. repeat split; try lra.
  rewrite C, D. destruct (Req_dec f1 0) as [->|N].
  - assert (0 < (1 - 0) / (r1 * 0 + (1 - 0))) by (apply Rdiv_lt_0_compat; lra). unfold Rdiv in *. lra.
  - assert (0 < f1 / (r2 * (1 - f1) + f1)) by (apply Rdiv_lt_0_compat; lra).
    assert (0 <= (1 - f1) / (r1 * f1 + (1 - f1))).
    { unfold Rdiv. apply Rmult_le_pos; [lra|left; now apply Rinv_0_lt_compat]. } lra.
Qed.

(** Every admissible input has transition probabilities in [0,1] summing to one from each
    state; compositions outside [0,1] are rejected. *)
Theorem C30_transitions f1 r1 r2 :
  (admissible f1 r1 r2 -> exists P, transitions r1 r2 f1 = Ok P /\
     prob (P11 P) /\ prob (P12 P) /\ prob (P21 P) /\ prob (P22 P) /\
     P11 P + P12 P = 1 /\ P21 P + P22 P = 1) /\
  (~ (0 <= f1 <= 1) -> transitions r1 r2 f1 = Err RangeError).
Proof.
  split.
  - intros H. rewrite transitions_ok by auto. eexists; split; [reflexivity|].
    pose proof (trans_facts _ _ _ _ H (transitions_ok _ _ _ H)). tauto.
  - intros H. unfold transitions. now rewrite check_f1_err.
Qed.

(** Finding: a composition and reactivity ratio both accepted by the validators raise
    ZeroDivisionError (pure monomer 1 with r1 = 0). *)
Theorem C30_transitions_refuted : exists r1 r2 f1 k1 k2,
  make_model (Terminal r1 r2 k1 k2) = Ok (Terminal r1 r2 k1 k2) /\ 0 <= f1 <= 1 /\
  transitions r1 r2 f1 = Err ZeroDivisionError.
Proof.
  exists 0, 1, 1, None, None. split; [|split; [lra|]].
  - cbn. unfold nonneg_check.
    repeat match goal with |- context [Rleb ?a ?b] =>
      assert (Rleb a b = true) as -> by (apply (proj2 (Rleb_true _ _)); lra) end. reflexivity.
  - unfold transitions. rewrite check_f1_ok by lra. cbn [bind]. now rewrite pydiv_zero by lra.
Qed.

(** Triads: non-negative, sum exactly to one; the 1-centred ones sum to F1 up to the
    regularisation constant. *)
Theorem C30_triads e f1 r1 r2 : 0 <= e -> admissible f1 r1 r2 ->
  exists t P F, triads_e e r1 r2 f1 = Ok t /\ transitions r1 r2 f1 = Ok P /\
    inst_copolymer_binary f1 r1 r2 = Fin F /\
    0 <= A111 t /\ 0 <= A112 t /\ 0 <= A212 t /\ 0 <= A222 t /\ 0 <= A221 t /\ 0 <= A121 t /\
    A111 t + A112 t + A212 t + A222 t + A221 t + A121 t = 1 /\
    0 <= F - (A111 t + A112 t + A212 t) <= e * F / (P12 P + P21 P) /\
    (e = 0 -> A112 t / 2 + A212 t = A221 t / 2 + A121 t).
Proof.
  intros He H. pose proof (transitions_ok _ _ _ H) as ET.
  pose proof (trans_facts _ _ _ _ H ET) as TF.
  destruct (C28_stationary _ _ _ H) as (F & P & EF & EP & S1 & S2).
  rewrite ET in EP. injection EP as EP. rewrite EP in ET, TF.
  destruct TF as (p11 & p12 & p21 & p22 & q1 & q2 & q3). unfold prob in *.
  unfold triads_e. rewrite ET. cbn [bind]. rewrite pydiv_ok' by lra. cbn [bind].
  do 3 eexists. split; [reflexivity|]. split; [reflexivity|]. split; [exact EF|].
  cbn [A111 A112 A212 A222 A221 A121].
  set (Fe := P21 P / (P12 P + P21 P + e)).
  assert (PF : prob Fe).
  { unfold Fe. replace (P12 P + P21 P + e) with (P21 P + (P12 P + e)) by ring. apply prob_ratio; lra. }
  unfold prob in PF.
  assert (FF : F = P21 P / (P12 P + P21 P)).
  { apply (Rmult_eq_reg_r (P12 P + P21 P)); [|lra]. unfold Rdiv. rewrite Rmult_assoc, Rinv_l by lra.
    replace (P11 P) with (1 - P12 P) in S1 by lra. lra. }
  assert (SUM : Fe * P11 P ^ 2 + Fe * 2 * P11 P * P12 P + Fe * P12 P ^ 2 = Fe).
  { replace (P11 P) with (1 - P12 P) by lra. ring. }
  assert (SUM2 : (1 - Fe) * P22 P ^ 2 + (1 - Fe) * 2 * P22 P * P21 P + (1 - Fe) * P21 P ^ 2 = 1 - Fe).
  { replace (P22 P) with (1 - P21 P) by lra. ring. }
  split; [apply Rmult_le_pos; [lra|apply pow2_ge_0]|].
  split; [apply Rmult_le_pos; [apply Rmult_le_pos; [apply Rmult_le_pos|]|]; lra|].
  split; [apply Rmult_le_pos; [lra|apply pow2_ge_0]|].
  split; [apply Rmult_le_pos; [lra|apply pow2_ge_0]|].
  split; [apply Rmult_le_pos; [apply Rmult_le_pos; [apply Rmult_le_pos|]|]; lra|].
  split; [apply Rmult_le_pos; [lra|apply pow2_ge_0]|].
  split; [lra|]. rewrite SUM. split.
  - assert (D : F - Fe = e * F / (P12 P + P21 P) * ((P12 P + P21 P) / (P12 P + P21 P + e))).
    { rewrite FF. unfold Fe. field. lra. }
    assert (F0 : 0 <= F). { rewrite FF. unfold Rdiv. apply Rmult_le_pos; [lra|left; apply Rinv_0_lt_compat; lra]. }
    assert (Q : prob ((P12 P + P21 P) / (P12 P + P21 P + e))) by (apply prob_ratio; lra).
    assert (0 <= e * F / (P12 P + P21 P)).
    { unfold Rdiv. apply Rmult_le_pos; [now apply Rmult_le_pos|left; apply Rinv_0_lt_compat; lra]. }
    unfold prob in Q. rewrite D. split; [apply Rmult_le_pos; lra|].
    rewrite <- (Rmult_1_r (e * F / (P12 P + P21 P))) at 2. apply Rmult_le_compat_l; lra.
  - intros ->. replace (Fe * 2 * P11 P * P12 P / 2 + Fe * P12 P ^ 2) with (Fe * P12 P * (P11 P + P12 P)) by field.
    replace ((1 - Fe) * 2 * P22 P * P21 P / 2 + (1 - Fe) * P21 P ^ 2)
      with ((1 - Fe) * P21 P * (P21 P + P22 P)) by field.
    rewrite q1, q2. unfold Fe. field. lra.
Qed.

(** The stored triads use the constant eps. *)
Theorem C30_triads_eps f1 r1 r2 : admissible f1 r1 r2 ->
  exists t, triads r1 r2 f1 = Ok t /\
    A111 t + A112 t + A212 t + A222 t + A221 t + A121 t = 1.
Proof.
  intros H. pose proof eps_pos. destruct (C30_triads eps f1 r1 r2) as (t & P & F & E & _ & _ & R); auto; [lra|].
  exists t. split; [exact E|tauto].
Qed.

(** Sequence-length distributions: probabilities, total one, mean 1/(1-P); the reported
    mean m satisfies 1/m = (1-P) + eps and falls short of the true mean by eps*m*mean. *)
Lemma geo_series (p : R) : 0 <= p < 1 -> is_series (fun k => (1 - p) * p ^ k) 1.
Proof.
  intros H. assert (G : is_series (fun k => p ^ k) (/ (1 - p))) by (apply is_series_geom; rewrite Rabs_pos_eq; lra).
  apply (is_series_scal_l (1 - p)) in G.
  assert (E : (1 - p) * / (1 - p) = 1) by (field; lra).
  exact (eq_ind ((1 - p) * / (1 - p)) (fun l : R => is_series (fun k => (1 - p) * p ^ k) l) G 1 E).
Qed.
Lemma geo_mean (p : R) : 0 <= p < 1 ->
  is_series (fun k => INR (S k) * ((1 - p) * p ^ k)) (/ (1 - p)).
Proof.
  intros H.
  apply (is_series_telescope _ (fun n => / (1 - p) - p ^ n * (p / (1 - p) + p + p * INR n))).
  - cbn. field. lra.
  - intros n. rewrite !S_INR. cbn [pow]. field. lra.
  - pose proof (lim_pow_geo 0 p H) as L0. pose proof (lim_pow_geo 1 p H) as L1.
    apply (is_lim_seq_scal_l _ (p / (1 - p) + p)) in L0. apply (is_lim_seq_scal_l _ p) in L1.
    assert (L : is_lim_seq (fun n => (p / (1 - p) + p) * (INR n ^ 0 * p ^ n) + p * (INR n ^ 1 * p ^ n)) 0).
    { replace (Finite 0) with (Finite (0 + 0)) by (f_equal; ring).
      apply is_lim_seq_plus'; [replace 0 with ((p / (1 - p) + p) * 0) by ring; exact L0|
        replace 0 with (p * 0) by ring; exact L1]. }
    pose proof (is_lim_seq_minus' _ _ _ _ (is_lim_seq_const (/ (1 - p))) L) as LL.
    replace (/ (1 - p) - 0) with (/ (1 - p)) in LL by ring.
    refine (is_lim_seq_ext _ _ _ _ LL). intros n. cbn [pow]. ring.
Qed.

Theorem C30_sequences f1 r1 r2 : 0 < r1 -> 0 < r2 -> 0 < f1 < 1 ->
  exists P m, transitions r1 r2 f1 = Ok P /\ sequence_mean r1 r2 f1 = Ok m /\
    (forall k, sequence_dist r1 r2 f1 (S k) = Ok (seq_dist (P11 P) (S k), seq_dist (P22 P) (S k))) /\
    (forall p mean, (p = P11 P /\ mean = fst m) \/ (p = P22 P /\ mean = snd m) ->
       0 < p < 1 /\
       (forall k, 0 < seq_dist p (S k)) /\
       is_series (fun k => seq_dist p (S k)) 1 /\
       is_series (fun k => INR (S k) * seq_dist p (S k)) (/ (1 - p)) /\
       0 < / (1 - p) - mean /\ / (1 - p) - mean = eps * mean / (1 - p)).
Proof.
  intros H1 H2 Hf. assert (H : admissible f1 r1 r2) by (repeat split; lra).
  pose proof eps_pos as He.
  rewrite transitions_ok by auto. destruct (denP1 _ _ _ H) as (D1 & D2).
  assert (Q1 : 0 < r1 * f1) by (apply Rmult_lt_0_compat; lra).
  assert (Q2 : 0 < r2 * (1 - f1)) by (apply Rmult_lt_0_compat; lra).
  assert (I1 : 0 < r1 * f1 / (r1 * f1 + (1 - f1)) < 1).
  { split; [apply Rdiv_lt_0_compat; lra|]. apply (Rmult_lt_reg_r (r1 * f1 + (1 - f1))); auto.
    unfold Rdiv. rewrite Rmult_assoc, Rinv_l; lra. }
  assert (I2 : 0 < r2 * (1 - f1) / (r2 * (1 - f1) + f1) < 1).
  { split; [apply Rdiv_lt_0_compat; lra|]. apply (Rmult_lt_reg_r (r2 * (1 - f1) + f1)); auto.
    unfold Rdiv. rewrite Rmult_assoc, Rinv_l; lra. }
  unfold sequence_mean, sequence_mean_e, sequence_dist, seq_mean_e. rewrite transitions_ok by auto.
  cbn [bind P11 P22].
  set (p1 := r1 * f1 / (r1 * f1 + (1 - f1))) in *. set (p2 := r2 * (1 - f1) / (r2 * (1 - f1) + f1)) in *.
  rewrite !pydiv_ok' by lra. cbn [bind]. do 2 eexists. split; [reflexivity|]. split; [reflexivity|].
  cbn [P11 P22 fst snd]. split; [reflexivity|].
  assert (G : forall p, 0 < p < 1 -> 0 < p < 1 /\
       (forall k, 0 < seq_dist p (S k)) /\
       is_series (fun k => seq_dist p (S k)) 1 /\
       is_series (fun k => INR (S k) * seq_dist p (S k)) (/ (1 - p)) /\
       0 < / (1 - p) - 1 / (1 - p + eps) /\
       / (1 - p) - 1 / (1 - p + eps) = eps * (1 / (1 - p + eps)) / (1 - p)).
  { intros p Hp. assert (E : / (1 - p) - 1 / (1 - p + eps) = eps * (1 / (1 - p + eps)) / (1 - p)) by (field; lra).
    split; [exact Hp|]. split; [|split; [|split; [|split]]].
    - intros k. unfold seq_dist. apply Rmult_lt_0_compat; [lra|apply pow_lt; lra].
    - refine (is_series_ext _ _ _ _ (geo_series p _)); [|lra].
      intros k. unfold seq_dist. replace (S k - 1)%nat with k by lia. reflexivity.
    - refine (is_series_ext _ _ _ _ (geo_mean p _)); [|lra].
      intros k. unfold seq_dist. replace (S k - 1)%nat with k by lia. reflexivity.
    - rewrite E. apply Rdiv_lt_0_compat; [|lra]. apply Rmult_lt_0_compat; auto. apply Rdiv_lt_0_compat; lra.
    - exact E. }
  intros p mean [(-> & ->)|(-> & ->)]; now apply G.
Qed.

Example C30_case : exists P, transitions 2 (1 / 2) (1 / 2) = Ok P /\ P11 P = 2 / 3 /\ P22 P = 1 / 3.
Proof.
  rewrite transitions_ok by (repeat split; lra). eexists; split; [reflexivity|]. cbn. split; field.
Qed.

(* ------------------------------------------------------------------ *)
(** * C30 Penultimate-model statistics                                *)
(* ------------------------------------------------------------------ *)

Definition interior (r11 r12 r21 r22 f1 : R) : Prop :=
  0 < r11 /\ 0 < r12 /\ 0 < r21 /\ 0 < r22 /\ 0 < f1 < 1.

Lemma ratio01 a b : 0 < a -> 0 < b -> 0 < a / (a + b) < 1.
Proof.
  intros. split; [apply Rdiv_lt_0_compat; lra|]. apply (Rmult_lt_reg_r (a + b)); [lra|].
  unfold Rdiv. rewrite Rmult_assoc, Rinv_l; lra.
Qed.

Lemma ptransitions_ok r11 r12 r21 r22 f1 : interior r11 r12 r21 r22 f1 ->
  exists P, ptransitions r11 r12 r21 r22 f1 = Ok P /\
    P111 P = r11 * f1 / (r11 * f1 + (1 - f1)) /\ P211 P = r21 * f1 / (r21 * f1 + (1 - f1)) /\
    P222 P = r22 * (1 - f1) / (r22 * (1 - f1) + f1) /\ P122 P = r12 * (1 - f1) / (r12 * (1 - f1) + f1) /\
    0 < P111 P < 1 /\ 0 < P211 P < 1 /\ 0 < P222 P < 1 /\ 0 < P122 P < 1 /\
    P111 P + P112 P = 1 /\ P211 P + P212 P = 1 /\ P222 P + P221 P = 1 /\ P122 P + P121 P = 1.
Proof.
  intros (H1 & H2 & H3 & H4 & Hf).
  assert (Q1 : 0 < r11 * f1) by (apply Rmult_lt_0_compat; lra).
  assert (Q2 : 0 < r21 * f1) by (apply Rmult_lt_0_compat; lra).
  assert (Q3 : 0 < r22 * (1 - f1)) by (apply Rmult_lt_0_compat; lra).
  assert (Q4 : 0 < r12 * (1 - f1)) by (apply Rmult_lt_0_compat; lra).
  unfold ptransitions. rewrite check_f1_ok by lra. cbn [bind]. rewrite !pydiv_ok' by lra. cbn [bind].
  eexists; split; [reflexivity|]. cbn [P111 P211 P222 P122 P112 P212 P221 P121].
  repeat (split; [reflexivity|]).
  repeat (split; [apply ratio01; lra|]). repeat split; ring.
Qed.

Lemma series_shift (a : nat -> R) (l l' : R) :
  is_series (fun k => a (S k)) l' -> l = a O + l' -> is_series a l.
Proof.
  intros H E. apply is_series_decr_1.
  assert (E' : l' = l + - a O) by lra.
  exact (eq_ind l' (fun z : R => is_series (fun k => a (S k)) z) H (l + - a O) E').
Qed.
Lemma series_scal (c : R) (a : nat -> R) (l : R) : is_series a l -> is_series (fun k => c * a k) (c * l).
Proof. exact (is_series_scal_l c a l). Qed.
Lemma series_plus (a b : nat -> R) (l m : R) :
  is_series a l -> is_series b m -> is_series (fun k => a k + b k) (l + m).
Proof. exact (is_series_plus a b l m). Qed.

(** Penultimate sequence-length distributions and triads are normalised for each centre. *)
Theorem C30_penultimate r11 r12 r21 r22 f1 : interior r11 r12 r21 r22 f1 ->
  exists P m t, ptransitions r11 r12 r21 r22 f1 = Ok P /\
    psequence_mean r11 r12 r21 r22 f1 = Ok m /\ ptriads r11 r12 r21 r22 f1 = Ok t /\
    A111 t + A112 t + A212 t = 1 /\ A222 t + A221 t + A121 t = 1 /\
    0 < A111 t /\ 0 < A112 t /\ 0 < A212 t /\ 0 < A222 t /\ 0 < A221 t /\ 0 < A121 t /\
    (forall k, psequence_dist r11 r12 r21 r22 f1 (S k) =
       Ok (pseq_dist (P111 P) (P211 P) (S k), pseq_dist (P222 P) (P122 P) (S k))) /\
    (forall pa pb mean, (pa = P111 P /\ pb = P211 P /\ mean = fst m) \/
                        (pa = P222 P /\ pb = P122 P /\ mean = snd m) ->
       (forall k, 0 < pseq_dist pa pb (S k)) /\
       is_series (fun k => pseq_dist pa pb (S k)) 1 /\
       is_series (fun k => INR (S k) * pseq_dist pa pb (S k)) (1 + pb / (1 - pa)) /\
       1 + pb / (1 - pa) - mean = eps * (mean - 1) / (1 - pa)).
Proof.
  intros H. pose proof eps_pos as He.
  destruct (ptransitions_ok _ _ _ _ _ H) as (P & EP & _ & _ & _ & _ & I1 & I2 & I3 & I4 & _).
  unfold psequence_mean, psequence_mean_e, psequence_dist, ptriads, ptriads_e. rewrite EP. cbn [bind].
  unfold pseq_mean_e. rewrite !pydiv_ok' by lra. cbn [bind].
  assert (TRI : forall pa pb, 0 < pa < 1 -> 0 < pb < 1 -> exists a b c, ptri3 eps pa pb = Ok (a, b, c) /\
     a + b + c = 1 /\ 0 < a /\ 0 < b /\ 0 < c).
  { intros pa pb Ha Hb. unfold ptri3. rewrite pydiv_ok' by lra. cbn [bind].
    assert (0 < pb * pa / (1 - pa + eps)).
    { apply Rdiv_lt_0_compat; [|lra]. apply Rmult_lt_0_compat; lra. }
    revert H0. generalize (pb * pa / (1 - pa + eps)). intros q Hq.
    rewrite !pydiv_ok' by lra. cbn [bind]. do 3 eexists. split; [reflexivity|].
    split; [field; lra|split; [|split]; apply Rdiv_lt_0_compat; lra]. }
  destruct (TRI _ _ I1 I2) as (a & b & c & -> & Sx & X1 & X2 & X3).
  destruct (TRI _ _ I3 I4) as (a' & b' & c' & -> & Sy & Y1 & Y2 & Y3). cbn [bind].
  do 3 eexists. split; [reflexivity|]. split; [reflexivity|]. split; [reflexivity|].
  cbn [A111 A112 A212 A222 A221 A121 fst snd]. do 8 (split; [assumption|]).
  split; [reflexivity|].
  assert (G : forall pa pb, 0 < pa < 1 -> 0 < pb < 1 ->
       (forall k, 0 < pseq_dist pa pb (S k)) /\
       is_series (fun k => pseq_dist pa pb (S k)) 1 /\
       is_series (fun k => INR (S k) * pseq_dist pa pb (S k)) (1 + pb / (1 - pa)) /\
       1 + pb / (1 - pa) - (1 + pb / (1 - pa + eps)) = eps * (1 + pb / (1 - pa + eps) - 1) / (1 - pa)).
  { intros pa pb Ha Hb.
    assert (D0 : pseq_dist pa pb 1 = 1 - pb) by reflexivity.
    assert (DS : forall k, pseq_dist pa pb (S (S k)) = pb * ((1 - pa) * pa ^ k)).
    { intros k. unfold pseq_dist. cbn [Nat.eqb]. replace (S (S k) - 2)%nat with k by lia. ring. }
    split; [|split; [|split]].
    - intros [|k]; [rewrite D0; lra|rewrite DS]. apply Rmult_lt_0_compat; [lra|].
      apply Rmult_lt_0_compat; [lra|apply pow_lt; lra].
    - apply (series_shift _ _ (pb * 1)); [|rewrite D0; ring].
      refine (is_series_ext _ _ _ _ (series_scal pb _ _ (geo_series pa _))); [|lra].
      intros k. symmetry. apply DS.
    - apply (series_shift _ _ (pb * (/ (1 - pa) + 1))).
      2:{ rewrite D0. change (INR 1) with 1. field. lra. }
      refine (is_series_ext _ _ _ _ (series_scal pb _ _
        (series_plus _ _ _ _ (geo_mean pa _) (geo_series pa _)))); [|lra|lra].
      intros k. rewrite DS, (S_INR (S k)).
      match goal with |- ?a = ?b => change (@eq R a b) end. ring.
    - field. lra. }
  intros pa pb mean [(-> & -> & ->)|(-> & -> & ->)]; now apply G.
Qed.

