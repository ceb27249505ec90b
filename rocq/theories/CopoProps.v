(** Binary copolymerization: C28 (composition), C29 (azeotrope), C30 (terminal-model
    statistics), C31 (penultimate model), C72 (average kp), C73 (drift). *)
From Coq Require Import Reals Lra Lia List Bool Arith String.
From Coquelicot Require Import Coquelicot.
From Verif Require Import Prelude UtilsModel RootsModel RootsProps DistFamProps CopoModel.
Import ListNotations.
Open Scope R_scope.

Lemma np_div_ok a b : b <> 0 -> np_div a b = Fin (a / b).
Proof. intros H. unfold np_div. assert (Reqb b 0 = false) as -> by (apply Reqb_false; lra). reflexivity. Qed.
Lemma np_div_nan : np_div 0 0 = NaN.
Proof. unfold np_div. assert (Reqb 0 0 = true) as -> by (apply Reqb_true; lra). reflexivity. Qed.
Lemma pydiv_ok' a b : b <> 0 -> pydiv a b = Ok (a / b).
Proof. apply pydiv_ok. Qed.

Lemma eps_pos : 0 < eps.
Proof. unfold eps. apply Rinv_0_lt_compat. apply pow_lt; lra. Qed.

(* ------------------------------------------------------------------ *)
(** * C28 Instantaneous copolymer composition                         *)
(* ------------------------------------------------------------------ *)

(** Admissible inputs: non-negative reactivity ratios, composition in [0,1], excluding the
    two degenerate corners (pure monomer that cannot homopolymerise). *)
Definition admissible (f1 r1 r2 : R) : Prop :=
  0 <= r1 /\ 0 <= r2 /\ 0 <= f1 <= 1 /\ ~ (f1 = 1 /\ r1 = 0) /\ ~ (f1 = 0 /\ r2 = 0).

Lemma den_pos f1 r1 r2 : admissible f1 r1 r2 ->
  0 < r1 * f1 ^ 2 + 2 * f1 * (1 - f1) + r2 * (1 - f1) ^ 2.
Proof.
  intros (H1 & H2 & (H3 & H4) & D1 & D2).
  assert (0 <= r1 * f1 ^ 2) by (apply Rmult_le_pos; auto; apply pow2_ge_0).
  assert (0 <= r2 * (1 - f1) ^ 2) by (apply Rmult_le_pos; auto; apply pow2_ge_0).
  destruct H3 as [H3|H3].
  - destruct H4 as [H4|H4].
    + assert (0 < f1 * (1 - f1)) by (apply Rmult_lt_0_compat; lra). lra.
    + subst f1. assert (0 < r1) by (destruct H1 as [H1|H1]; auto; exfalso; apply D1; split; lra). nra.
  - subst f1. assert (0 < r2) by (destruct H2 as [H2|H2]; auto; exfalso; apply D2; split; lra). nra.
Qed.

Lemma adm_swap f1 r1 r2 : admissible f1 r1 r2 -> admissible (1 - f1) r2 r1.
Proof.
  intros (H1 & H2 & H3 & D1 & D2). repeat split; auto; try lra;
  intros (E1 & E2); first [apply D2; split; lra|apply D1; split; lra].
Qed.

Definition F1val (f1 r1 r2 : R) : R :=
  (r1 * f1 ^ 2 + f1 * (1 - f1)) / (r1 * f1 ^ 2 + 2 * f1 * (1 - f1) + r2 * (1 - f1) ^ 2).

Lemma inst_val f1 r1 r2 : admissible f1 r1 r2 ->
  inst_copolymer_binary f1 r1 r2 = Fin (F1val f1 r1 r2).
Proof.
  intros H. unfold inst_copolymer_binary. cbn zeta. rewrite np_div_ok; [reflexivity|].
  pose proof (den_pos _ _ _ H). lra.
Qed.

Theorem C28_range f1 r1 r2 : admissible f1 r1 r2 ->
  exists F, inst_copolymer_binary f1 r1 r2 = Fin F /\ 0 <= F <= 1 /\
    (f1 = 0 -> F = 0) /\ (f1 = 1 -> F = 1) /\ (r1 = 1 -> r2 = 1 -> F = f1) /\
    (0 < f1 < 1 -> 0 < F < 1).
Proof.
  intros H. pose proof (den_pos _ _ _ H) as D. rewrite (inst_val _ _ _ H).
  destruct H as (H1 & H2 & (H3 & H4) & _).
  assert (0 <= r1 * f1 ^ 2) by (apply Rmult_le_pos; auto; apply pow2_ge_0).
  assert (0 <= r2 * (1 - f1) ^ 2) by (apply Rmult_le_pos; auto; apply pow2_ge_0).
  assert (0 <= f1 * (1 - f1)) by (apply Rmult_le_pos; lra).
  eexists; split; [reflexivity|]. unfold F1val.
  set (den := r1 * f1 ^ 2 + 2 * f1 * (1 - f1) + r2 * (1 - f1) ^ 2) in *.
  split; [split|split; [|split; [|split]]].
  - unfold Rdiv. apply Rmult_le_pos; [lra|left; now apply Rinv_0_lt_compat].
  - apply (Rmult_le_reg_r den); auto. unfold Rdiv. rewrite Rmult_assoc, Rinv_l by lra. unfold den; lra.
  - intros ->. unfold Rdiv. replace (r1 * 0 ^ 2 + 0 * (1 - 0)) with 0 by ring. ring.
  - intros E. unfold den. rewrite E in *. unfold den in D. field. nra.
  - intros E1 E2. unfold den. rewrite E1, E2 in *. field. unfold den in D. lra.
  - intros (Hp & Hl). assert (0 < f1 * (1 - f1)) by (apply Rmult_lt_0_compat; lra). split.
    + apply Rdiv_lt_0_compat; lra.
    + apply (Rmult_lt_reg_r den); auto. unfold Rdiv. rewrite Rmult_assoc, Rinv_l by lra. unfold den; lra.
Qed.

(** Relabelling the monomers. *)
Theorem C28_relabel f1 r1 r2 : admissible f1 r1 r2 ->
  exists F G, inst_copolymer_binary f1 r1 r2 = Fin F /\
    inst_copolymer_binary (1 - f1) r2 r1 = Fin G /\ F + G = 1.
Proof.
  intros H. exists (F1val f1 r1 r2), (F1val (1 - f1) r2 r1).
  pose proof (den_pos _ _ _ H). rewrite !inst_val by auto using adm_swap.
  repeat split. unfold F1val. replace (1 - (1 - f1)) with f1 by ring.
  replace (r2 * (1 - f1) ^ 2 + 2 * (1 - f1) * f1 + r1 * f1 ^ 2) with
    (r1 * f1 ^ 2 + 2 * f1 * (1 - f1) + r2 * (1 - f1) ^ 2) by ring.
  field. lra.
Qed.

(** Monotonicity in f1 (strict unless both reactivity ratios are zero). *)
Theorem C28_monotone f1 g1 r1 r2 :
  admissible f1 r1 r2 -> admissible g1 r1 r2 -> f1 < g1 ->
  exists F G, inst_copolymer_binary f1 r1 r2 = Fin F /\
    inst_copolymer_binary g1 r1 r2 = Fin G /\ F <= G /\
    (0 < r1 -> 0 < r2 -> F < G).
Proof.
  intros Hf Hg L. exists (F1val f1 r1 r2), (F1val g1 r1 r2).
  pose proof (den_pos _ _ _ Hf) as Df. pose proof (den_pos _ _ _ Hg) as Dg.
  rewrite !inst_val by auto. do 2 (split; [reflexivity|]).
  destruct Hf as (H1 & H2 & (H3 & H4) & _). destruct Hg as (_ & _ & (H5 & H6) & _).
  set (f2 := 1 - f1) in *. set (g2 := 1 - g1) in *.
  set (Nf := r1 * f1 ^ 2 + f1 * f2). set (Ng := r1 * g1 ^ 2 + g1 * g2).
  set (Df' := r1 * f1 ^ 2 + 2 * f1 * f2 + r2 * f2 ^ 2) in *.
  set (Dg' := r1 * g1 ^ 2 + 2 * g1 * g2 + r2 * g2 ^ 2) in *.
  assert (E : Ng * Df' - Nf * Dg' =
     r1 * r2 * ((g1 * f2 - f1 * g2) * (g1 * f2 + f1 * g2)) + r1 * (f1 * g1 * (g1 * f2 - f1 * g2))
     + r2 * (g2 * f2 * (g1 * f2 - f1 * g2))).
  { unfold Ng, Nf, Df', Dg'. ring. }
  assert (X : 0 < g1 * f2 - f1 * g2) by (unfold f2, g2; lra).
  assert (0 <= f2) by (unfold f2; lra). assert (0 <= g2) by (unfold g2; lra).
  assert (0 < g1) by lra. assert (0 < f2) by (unfold f2; lra).
  assert (Y : 0 < g1 * f2 + f1 * g2).
  { assert (0 < g1 * f2) by (apply Rmult_lt_0_compat; lra).
    assert (0 <= f1 * g2) by (apply Rmult_le_pos; lra). lra. }
  assert (T1 : 0 < (g1 * f2 - f1 * g2) * (g1 * f2 + f1 * g2)) by now apply Rmult_lt_0_compat.
  assert (T2 : 0 <= f1 * g1 * (g1 * f2 - f1 * g2)) by (apply Rmult_le_pos; [apply Rmult_le_pos; lra|lra]).
  assert (T3 : 0 <= g2 * f2 * (g1 * f2 - f1 * g2)) by (apply Rmult_le_pos; [apply Rmult_le_pos; lra|lra]).
  assert (R1 : 0 <= r1 * (f1 * g1 * (g1 * f2 - f1 * g2))) by now apply Rmult_le_pos.
  assert (R2 : 0 <= r2 * (g2 * f2 * (g1 * f2 - f1 * g2))) by now apply Rmult_le_pos.
  assert (FG : F1val g1 r1 r2 - F1val f1 r1 r2 = (Ng * Df' - Nf * Dg') / (Df' * Dg')).
  { unfold F1val. fold f2 g2. fold Nf Ng Df' Dg'. field. lra. }
  assert (DD : 0 < Df' * Dg') by now apply Rmult_lt_0_compat.
  split.
  - assert (0 <= (Ng * Df' - Nf * Dg') / (Df' * Dg')); [|lra].
    unfold Rdiv. apply Rmult_le_pos; [|left; now apply Rinv_0_lt_compat].
    rewrite E. assert (0 <= r1 * r2 * ((g1 * f2 - f1 * g2) * (g1 * f2 + f1 * g2))); [|lra].
    apply Rmult_le_pos; [now apply Rmult_le_pos|lra].
  - intros P1 P2. assert (0 < (Ng * Df' - Nf * Dg') / (Df' * Dg')); [|lra].
    apply Rdiv_lt_0_compat; auto. rewrite E.
    assert (0 < r1 * r2 * ((g1 * f2 - f1 * g2) * (g1 * f2 + f1 * g2))); [|lra].
    apply Rmult_lt_0_compat; auto. now apply Rmult_lt_0_compat.
Qed.

Lemma check_f1_ok f1 : 0 <= f1 <= 1 -> check_f1 f1 = Ok tt.
Proof.
  intros H. unfold check_f1, between. cbn -[Rleb].
  assert (Rleb 0 f1 = true) as -> by (apply (proj2 (Rleb_true _ _)); lra).
  assert (Rleb f1 1 = true) as -> by (apply (proj2 (Rleb_true _ _)); lra). reflexivity.
Qed.
Lemma check_f1_err f1 : ~ (0 <= f1 <= 1) -> check_f1 f1 = Err RangeError.
Proof.
  intros H. unfold check_f1, between. cbn -[Rleb].
  destruct (Rleb 0 f1) eqn:E1; [|reflexivity]. destruct (Rleb f1 1) eqn:E2; [|reflexivity].
  apply (proj1 (Rleb_true _ _)) in E1, E2. lra.
Qed.

Lemma denP1 f1 r1 r2 : admissible f1 r1 r2 -> 0 < r1 * f1 + (1 - f1) /\ 0 < r2 * (1 - f1) + f1.
Proof.
  intros (H1 & H2 & (H3 & H4) & D1 & D2).
  assert (0 <= r1 * f1) by (apply Rmult_le_pos; auto).
  assert (0 <= r2 * (1 - f1)) by (apply Rmult_le_pos; lra). split.
  - destruct H4 as [H4|H4]; [lra|]. subst f1.
    destruct H1 as [H1|H1]; [nra|exfalso; apply D1; split; lra].
  - destruct H3 as [H3|H3]; [lra|]. subst f1.
    destruct H2 as [H2|H2]; [nra|exfalso; apply D2; split; lra].
Qed.

Lemma transitions_ok f1 r1 r2 : admissible f1 r1 r2 ->
  transitions r1 r2 f1 = Ok (mkT (r1 * f1 / (r1 * f1 + (1 - f1))) (1 - r1 * f1 / (r1 * f1 + (1 - f1)))
     (1 - r2 * (1 - f1) / (r2 * (1 - f1) + f1)) (r2 * (1 - f1) / (r2 * (1 - f1) + f1))).
Proof.
  intros H. destruct (denP1 _ _ _ H). unfold transitions.
  rewrite check_f1_ok by (destruct H; tauto). cbn [bind]. rewrite !pydiv_ok' by lra. reflexivity.
Qed.

(** The composition is the stationary distribution of the chain of transitions. *)
Theorem C28_stationary f1 r1 r2 : admissible f1 r1 r2 ->
  exists F P, inst_copolymer_binary f1 r1 r2 = Fin F /\ transitions r1 r2 f1 = Ok P /\
    F * P11 P + (1 - F) * P21 P = F /\ F * P12 P + (1 - F) * P22 P = 1 - F.
Proof.
  intros H. pose proof (den_pos _ _ _ H) as D. destruct (denP1 _ _ _ H) as (D1 & D2).
  rewrite inst_val, transitions_ok by auto. do 2 eexists. do 2 (split; [reflexivity|]). cbn [P11 P12 P21 P22].
  unfold F1val. assert (r1 * f1 ^ 2 + 2 * f1 * (1 - f1) + r2 * (1 - f1) ^ 2 <> 0) by lra.
  split; field; repeat split; lra.
Qed.

(** The degenerate corner gives nan. *)
Theorem C28_degenerate r2 : inst_copolymer_binary 1 0 r2 = NaN /\ inst_copolymer_binary 0 r2 0 = NaN.
Proof.
  unfold inst_copolymer_binary. split; cbn zeta; match goal with |- np_div ?a ?b = _ =>
    replace a with 0 by ring; replace b with 0 by ring end; apply np_div_nan.
Qed.

Example C28_case : inst_copolymer_binary (1 / 2) 2 (1 / 2) = Fin (2 / 3).
Proof. unfold inst_copolymer_binary. rewrite np_div_ok by lra. f_equal. field. Qed.

(* ------------------------------------------------------------------ *)
(** * C29 Azeotrope                                                   *)
(* ------------------------------------------------------------------ *)

Lemma azeo_eq f1 r1 r2 : admissible f1 r1 r2 -> 0 < f1 < 1 ->
  (F1val f1 r1 r2 = f1 <-> (r1 - 1) * f1 = (r2 - 1) * (1 - f1)).
Proof.
  intros H (H1 & H2). pose proof (den_pos _ _ _ H) as D. unfold F1val.
  set (den := r1 * f1 ^ 2 + 2 * f1 * (1 - f1) + r2 * (1 - f1) ^ 2) in *.
  assert (E : r1 * f1 ^ 2 + f1 * (1 - f1) - f1 * den = f1 * (1 - f1) * ((r1 - 1) * f1 - (r2 - 1) * (1 - f1))).
  { unfold den. ring. }
  assert (0 < f1 * (1 - f1)) by (apply Rmult_lt_0_compat; lra). split.
  - intros K. assert (K' : r1 * f1 ^ 2 + f1 * (1 - f1) = f1 * den).
    { apply (f_equal (fun z => z * den)) in K. rewrite <- K. field. lra. }
    rewrite K' in E. assert (f1 * (1 - f1) * ((r1 - 1) * f1 - (r2 - 1) * (1 - f1)) = 0) by lra.
    apply Rmult_integral in H3. lra.
  - intros K. rewrite K in E. replace (r1 * f1 ^ 2 + f1 * (1 - f1)) with (f1 * den) by lra. field. lra.
Qed.

(** For r1, r2 < 1 the returned value is the one and only azeotrope in (0,1). *)
Theorem C29_found r1 r2 k1 k2 : 0 <= r1 < 1 -> 0 <= r2 < 1 ->
  exists a, azeotrope (Terminal r1 r2 k1 k2) = Ok (Some a) /\ 0 < a < 1 /\
    inst_copolymer_binary a r1 r2 = Fin a /\
    forall f, 0 < f < 1 -> inst_copolymer_binary f r1 r2 = Fin f -> f = a.
Proof.
  intros H1 H2. unfold azeotrope, azeotrope_terminal.
  assert (Rltb r1 1 = true) as -> by (apply Rltb_true; lra).
  assert (Rltb r2 1 = true) as -> by (apply Rltb_true; lra). cbn [andb].
  set (a := (1 - r2) / (2 - r1 - r2)). exists a.
  assert (D : 0 < 2 - r1 - r2) by lra.
  assert (A0 : 0 < a) by (apply Rdiv_lt_0_compat; lra).
  assert (A1 : a < 1).
  { apply (Rmult_lt_reg_r (2 - r1 - r2)); auto. unfold a. unfold Rdiv. rewrite Rmult_assoc, Rinv_l; lra. }
  assert (ADM : forall f, 0 < f < 1 -> admissible f r1 r2).
  { intros f Hf. repeat split; lra. }
  split; [reflexivity|]. split; [lra|]. split.
  - rewrite inst_val by auto. f_equal. apply azeo_eq; auto. unfold a. field. lra.
  - intros f Hf E. rewrite inst_val in E by auto. injection E as E.
    apply azeo_eq in E; auto. unfold a. apply (Rmult_eq_reg_r (2 - r1 - r2)); [|lra].
    unfold Rdiv. rewrite Rmult_assoc, Rinv_l by lra. lra.
Qed.

(** If one reactivity ratio is below and the other is at least one, there is none and
    None is returned. *)
Theorem C29_none r1 r2 k1 k2 : 0 <= r1 -> 0 <= r2 -> (r1 < 1 <= r2) \/ (r2 < 1 <= r1) ->
  azeotrope (Terminal r1 r2 k1 k2) = Ok None /\
  forall f, 0 < f < 1 -> inst_copolymer_binary f r1 r2 <> Fin f.
Proof.
  intros H1 H2 H. split.
  - unfold azeotrope, azeotrope_terminal. destruct H as [H|H].
    + assert (Rltb r2 1 = false) as -> by (apply Rltb_false; lra). now rewrite andb_false_r.
    + assert (Rltb r1 1 = false) as -> by (apply Rltb_false; lra). reflexivity.
  - intros f Hf E. assert (A : admissible f r1 r2) by (repeat split; lra).
    rewrite inst_val in E by auto. injection E as E. apply azeo_eq in E; auto.
    destruct H as [H|H].
    + assert ((r1 - 1) * f < 0) by nra. assert (0 <= (r2 - 1) * (1 - f)) by (apply Rmult_le_pos; lra). lra.
    + assert (0 <= (r1 - 1) * f) by (apply Rmult_le_pos; lra). assert ((r2 - 1) * (1 - f) < 0) by nra. lra.
Qed.

(** Finding: with both reactivity ratios above one an azeotrope exists but None is returned. *)
Theorem C29_missed_refuted : forall k1 k2, exists r1 r2 f, 0 < f < 1 /\
  make_model (Terminal r1 r2 k1 k2) = Ok (Terminal r1 r2 k1 k2) /\
  inst_copolymer_binary f r1 r2 = Fin f /\ azeotrope (Terminal r1 r2 k1 k2) = Ok None.
Proof.
  intros. exists 2, 3, (2 / 3). split; [lra|]. split; [|split].
  - cbn. unfold nonneg_check.
    repeat match goal with |- context [Rleb ?a ?b] =>
      assert (Rleb a b = true) as -> by (apply (proj2 (Rleb_true _ _)); lra) end. reflexivity.
  - unfold inst_copolymer_binary. rewrite np_div_ok by lra. f_equal. field.
  - unfold azeotrope, azeotrope_terminal. assert (Rltb 2 1 = false) as -> by (apply Rltb_false; lra). reflexivity.
Qed.

(** Finding: the generic search used by PenultimateModel accepts the end of its bracket as
    an azeotrope when |F1 - f1| is below the default tolerance there, although F1 > f1 for
    every composition in (0,1). *)
Theorem C29_spurious_refuted :
  let m := Penultimate 3 1 3 1 1 1 None None in
  make_model m = Ok m /\
  azeotrope m = Ok (Some (1 / 10000)) /\
  forall f, 0 < f < 1 -> exists F, model_F1 m f = Ok (Fin F) /\ f < F.
Proof.
  intros m. split; [|split].
  - cbn. unfold nonneg_check.
    assert (Rleb 0 3 = true) as -> by (apply (proj2 (Rleb_true _ _)); lra).
    assert (Rleb 0 1 = true) as -> by (apply (proj2 (Rleb_true _ _)); lra). reflexivity.
  - assert (RI : forall f, 0 < f < 1 -> ri m f = Ok (3, 1)).
    { intros f Hf. unfold m, ri. cbv zeta. rewrite !pydiv_ok' by lra. cbn [bind].
      do 2 f_equal; field; lra. }
    unfold azeotrope, m. fold m. unfold azeotrope_generic. rewrite !RI by lra. cbn [bind fst snd].
    assert (close1 3 = false) as ->.
    { unfold close1. apply (proj2 (Rleb_false _ _)). rewrite Rabs_pos_eq; lra. }
    cbn [andb]. unfold root_brent.
    assert (Rleb (Rabs (fzero m (1 / 10000))) (1 / 10 ^ 6) = true) as ->; [|reflexivity].
    apply (proj2 (Rleb_true _ _)). unfold fzero. rewrite RI by lra. cbn [fst snd].
    rewrite inst_val by (repeat split; lra). cbn [fin]. unfold F1val.
    apply Rabs_le. split; lra.
  - intros f Hf. unfold model_F1. rewrite check_f1_ok by lra. cbn [bind].
    unfold m, ri. cbv zeta. rewrite !pydiv_ok' by lra. cbn [bind fst snd].
    replace (3 * (f * 3 + (1 - f)) / (f * 3 + (1 - f))) with 3 by (field; lra).
    replace (1 * ((1 - f) * 1 + f) / ((1 - f) * 1 + f)) with 1 by (field; lra).
    rewrite inst_val by (repeat split; lra). eexists; split; [reflexivity|].
    unfold F1val. apply (Rmult_lt_reg_r (2 * f ^ 2 + 1)); [nra|].
    replace ((3 * f ^ 2 + f * (1 - f)) / (3 * f ^ 2 + 2 * f * (1 - f) + 1 * (1 - f) ^ 2) * (2 * f ^ 2 + 1))
      with (2 * f ^ 2 + f) by (field; nra).
    assert (0 < f ^ 2 * (1 - f)) by (apply Rmult_lt_0_compat; nra). nra.
Qed.

(** What a result of the generic search does guarantee: the residual is below 1e-6, or a
    sign change of F1 - f1 lies within the tolerance. *)
Theorem C29_generic m a :
  azeotrope_generic m = Ok (Some a) ->
  Rabs (fzero m a) <= 1 / 10 ^ 6 \/
  exists c, 1 / 10000 <= c <= 9999 / 10000 /\
    Rabs (c - a) <= 1 / 10 ^ 6 + 4 * eps * Rabs a /\ fzero m a * fzero m c <= 0.
Proof.
  unfold azeotrope_generic. destruct (ri m (1 / 10)); [|easy]. destruct (ri m (9 / 10)); [|easy].
  cbn [bind]. destruct (_ && _); [easy|].
  destruct (root_brent (fzero m) (1 / 10000) (9999 / 10000) (1 / 10 ^ 6) (1 / 10 ^ 6) 50) as (tr, s) eqn:E.
  cbn [snd]. destruct s as [s|e]; [|destruct e; easy].
  destruct (rr_success s) eqn:S; [|easy]. intros K; injection K as <-.
  destruct (C03_brent_success_is_enclosure (fzero m) (1 / 10000) (9999 / 10000) (1 / 10 ^ 6) (1 / 10 ^ 6) 50 tr s)
    as (_ & H); try lra; auto.
  destruct (H S) as [B|(c & B1 & B2 & B3)]; [now left|right].
  exists c. rewrite Rmin_left, Rmax_right in B1 by lra. auto.
Qed.

(** Finding: ratios within 0.01001 of one are declared trivial, with no azeotrope, although the terminal model with the same ratios has
    and reports one. *)
Theorem C29_trivial_refuted r : 1 - 1001 / 100000 <= r < 1 ->
  azeotrope (Penultimate r r r r 1 1 None None) = Ok None /\ azeotrope (Terminal r r None None) = Ok (Some (1 / 2)) /\
  model_F1 (Penultimate r r r r 1 1 None None) (1 / 2) = Ok (Fin (1 / 2)).
Proof.
  intros Hr. assert (RI : forall f, 0 < f < 1 -> ri (Penultimate r r r r 1 1 None None) f = Ok (r, r)).
  { intros f Hf. unfold ri. cbv zeta. rewrite !pydiv_ok' by nra. cbn [bind]. do 2 f_equal; field; nra. }
  split; [|split].
  - unfold azeotrope, azeotrope_generic. rewrite !RI by lra. cbn [bind fst snd]. assert (close1 r = true) as ->; [|reflexivity]. unfold close1. apply (proj2 (Rleb_true _ _)). apply Rabs_le. lra.
  - unfold azeotrope, azeotrope_terminal. assert (Rltb r 1 = true) as -> by (apply Rltb_true; lra). cbn [andb]. do 2 f_equal. field. lra.
  - unfold model_F1. rewrite check_f1_ok by lra. cbn [bind]. rewrite RI by lra. cbn [bind fst snd]. rewrite inst_val by (repeat split; lra). do 2 f_equal. unfold F1val. field. lra.
Qed.

Example C29_case : azeotrope (Terminal (1 / 2) (1 / 4) None None) = Ok (Some (3 / 5)).
Proof.
  unfold azeotrope, azeotrope_terminal.
  assert (Rltb (1 / 2) 1 = true) as -> by (apply Rltb_true; lra).
  assert (Rltb (1 / 4) 1 = true) as -> by (apply Rltb_true; lra). cbn [andb].
  do 2 f_equal. field.
Qed.

Print Assumptions C28_range.
Print Assumptions C28_monotone.
Print Assumptions C28_stationary.
Print Assumptions C29_found.
Print Assumptions C29_spurious_refuted.
Print Assumptions C29_generic.
Print Assumptions C29_trivial_refuted.
