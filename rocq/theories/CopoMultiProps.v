(** Multicomponent copolymerization: C30 (multi), C32, C34, C75. *)
From Coq Require Import Reals Lra Lia List Bool Arith.
From Coquelicot Require Import Coquelicot.
From Verif Require Import Prelude UtilsModel RootsModel CopoModel CopoProps CopoMultiModel LinAlg.
Import ListNotations.
Open Scope R_scope.

(** A stochastic matrix with a strictly positive column. *)
Definition stochastic (N : nat) (P : mat) : Prop :=
  (forall i j, (i < N)%nat -> (j < N)%nat -> 0 <= P i j) /\
  (forall i, (i < N)%nat -> sumn N (fun j => P i j) = 1).
Definition pos_column (N : nat) (P : mat) : Prop :=
  exists c, (c < N)%nat /\ forall i, (i < N)%nat -> 0 < P i c.

Lemma min_pos N (g : nat -> R) : (forall i, (i < N)%nat -> 0 < g i) ->
  exists d, 0 < d /\ forall i, (i < N)%nat -> d <= g i.
Proof.
  induction N; intros H; [exists 1; split; [lra|lia]|].
  destruct IHN as (d & Hd & HD); [intros; apply H; lia|].
  exists (Rmin d (g N)). split; [apply Rmin_glb_lt; auto; apply H; lia|].
  intros i Hi. destruct (Nat.eq_dec i N) as [->|]; [apply Rmin_r|].
  eapply Rle_trans; [apply Rmin_l|]. apply HD. lia.
Qed.

(** Contraction: y = yP implies |y|_1 <= (1-d)|y|_1 + d |sum y|. *)
Lemma contraction N P y : stochastic N P -> pos_column N P ->
  (forall j, (j < N)%nat -> sumn N (fun i => y i * P i j) = y j) ->
  sumn N (fun i => Rabs (y i)) <= Rabs (sumn N y).
Proof.
  intros (HP & HR) (c & Hc & HC) Hy.
  destruct (min_pos N (fun i => P i c) HC) as (d & Hd & HD).
  set (Q := fun i j => P i j - d * delta j c).
  assert (HQ : forall i j, (i < N)%nat -> (j < N)%nat -> 0 <= Q i j).
  { intros i j Hi Hj. unfold Q, delta. destruct (Nat.eq_dec j c) as [->|]; [specialize (HD i Hi); cbn beta in HD; lra|].
    specialize (HP i j Hi Hj). lra. }
  assert (E : forall j, (j < N)%nat -> y j = sumn N (fun i => y i * Q i j) + d * delta j c * sumn N y).
  { intros j Hj. rewrite <- (Hy j Hj) at 1. unfold Q.
    rewrite (sumn_ext N (fun i => y i * (P i j - d * delta j c)) (fun i => y i * P i j - (d * delta j c) * y i)) by (intros; ring).
    rewrite sumn_minus, sumn_scal. ring. }
  assert (RS : forall i, (i < N)%nat -> sumn N (fun j => Q i j) = 1 - d).
  { intros i Hi. unfold Q. rewrite sumn_minus, HR by auto. rewrite sumn_scal.
    rewrite (sumn_ext N (fun j => delta j c) (fun j => delta j c * 1)) by (intros; ring).
    rewrite (sumn_delta N c (fun _ => 1)) by auto. ring. }
  assert (B : sumn N (fun j => Rabs (y j)) <= sumn N (fun j => sumn N (fun i => Rabs (y i) * Q i j) + d * delta j c * Rabs (sumn N y))).
  { apply sumn_le. intros j Hj. rewrite (E j Hj).
    eapply Rle_trans; [apply Rabs_triang|]. apply Rplus_le_compat.
    - eapply Rle_trans; [apply sumn_abs|]. apply sumn_le. intros i Hi.
      rewrite Rabs_mult, (Rabs_pos_eq (Q i j)) by auto. lra.
    - rewrite Rabs_mult. assert (0 <= d * delta j c).
      { apply Rmult_le_pos; [lra|]. unfold delta. destruct (Nat.eq_dec j c); lra. }
      rewrite (Rabs_pos_eq (d * delta j c)) by auto. lra. }
  rewrite sumn_plus in B. rewrite sumn_swap in B.
  rewrite (sumn_ext N (fun j => sumn N (fun i => Rabs (y j) * Q j i)) (fun j => Rabs (y j) * (1 - d))) in B.
  2:{ intros i Hi. rewrite sumn_scal, RS by auto. reflexivity. }
  rewrite sumn_scal_r in B.
  rewrite (sumn_ext N (fun j => d * delta j c * Rabs (sumn N y)) (fun j => delta j c * (d * Rabs (sumn N y)))) in B by (intros; ring).
  rewrite (sumn_delta N c (fun _ => d * Rabs (sumn N y))) in B by auto.
  apply (Rmult_le_reg_l d); auto. lra.
Qed.

Lemma fixed_zero N P y : stochastic N P -> pos_column N P ->
  (forall j, (j < N)%nat -> sumn N (fun i => y i * P i j) = y j) -> sumn N y = 0 ->
  forall i, (i < N)%nat -> y i = 0.
Proof.
  intros HS HC Hy H0 i Hi. pose proof (contraction N P y HS HC Hy) as B. rewrite H0, Rabs_R0 in B.
  assert (G : Rabs (y i) <= sumn N (fun i => Rabs (y i))).
  { apply (sumn_ge_term N (fun i => Rabs (y i)) i); auto. intros; apply Rabs_pos. }
  pose proof (Rabs_pos (y i)). assert (Rabs (y i) = 0) by lra.
  destruct (Req_dec (y i) 0); auto. exfalso. pose proof (Rabs_pos_lt _ H2). lra.
Qed.

Lemma fixed_nonneg N P y : stochastic N P -> pos_column N P ->
  (forall j, (j < N)%nat -> sumn N (fun i => y i * P i j) = y j) -> sumn N y = 1 ->
  forall i, (i < N)%nat -> 0 <= y i.
Proof.
  intros HS HC Hy H1 i Hi. pose proof (contraction N P y HS HC Hy) as B. rewrite H1, Rabs_R1 in B.
  destruct (Rle_dec 0 (y i)); auto. exfalso.
  assert (sumn N y < sumn N (fun i => Rabs (y i))).
  { apply (sumn_lt N y _ i); auto.
    - intros; apply RRle_abs.
    - rewrite Rabs_left; lra. }
  lra.
Qed.

(** All but the last balance imply the last one. *)
Lemma last_balance N (z : nat -> R) : (1 <= N)%nat -> sumn N z = 0 ->
  (forall j, (j < N - 1)%nat -> z j = 0) -> forall j, (j < N)%nat -> z j = 0.
Proof.
  intros HN S0 H j Hj. destruct (Nat.eq_dec j (N - 1)) as [->|]; [|apply H; lia].
  destruct N; [lia|]. cbn [sumn] in S0. replace (S N - 1)%nat with N in * by lia.
  rewrite sumn_zero' in S0 by auto. lra.
Qed.

Lemma stat_row N P y i : (i < N - 1)%nat ->
  sumn N (fun j => stat_matrix N P i j * y j) = sumn N (fun j => y j * P j i) - y i.
Proof.
  intros Hi. unfold stat_matrix. destruct (Nat.eqb_spec i (N - 1)); [lia|].
  rewrite (sumn_ext N _ (fun j => y j * P j i - delta i j * y j)).
  - rewrite sumn_minus, (sumn_delta_l N i y) by lia. reflexivity.
  - intros j _. unfold delta. destruct (Nat.eqb_spec i j), (Nat.eq_dec i j); try lia; ring.
Qed.
Lemma stat_last N P y : sumn N (fun j => stat_matrix N P (N - 1)%nat j * y j) = sumn N y.
Proof.
  unfold stat_matrix. rewrite Nat.eqb_refl. apply sumn_ext. intros; ring.
Qed.

Lemma stat_invariant N P y : (1 <= N)%nat -> stochastic N P ->
  (forall i, (i < N - 1)%nat -> sumn N (fun j => stat_matrix N P i j * y j) = 0) ->
  forall j, (j < N)%nat -> sumn N (fun i => y i * P i j) = y j.
Proof.
  intros HN (HP & HR) H j Hj. apply Rminus_diag_uniq.
  apply (last_balance N (fun j => sumn N (fun i => y i * P i j) - y j) HN); auto.
  - rewrite sumn_minus, sumn_swap.
    rewrite (sumn_ext N (fun j => sumn N (fun i => y j * P j i)) y); [ring|].
    intros i Hi. rewrite sumn_scal, HR by auto. ring.
  - intros i Hi. rewrite <- stat_row by auto. auto.
Qed.

Lemma stat_nonsingular N P : (1 <= N)%nat -> stochastic N P -> pos_column N P -> nonsingular N (stat_matrix N P).
Proof.
  intros HN HS HC y H. apply (fixed_zero N P); auto.
  - apply stat_invariant; auto. intros i Hi. apply H. lia.
  - rewrite <- (stat_last N P). apply H. lia.
Qed.

(** inst_copolymer_multi on a transition matrix: it succeeds, and its result is the unique
    invariant vector with sum one; it is nonnegative. *)
Theorem C32_stationary solve N P : solve_spec solve -> (1 <= N)%nat -> stochastic N P -> pos_column N P ->
  exists F, inst_copolymer_multi solve N None None (Some P) = Ok F /\
    (forall i, (i < N)%nat -> 0 <= F i <= 1) /\ sumn N F = 1 /\
    (forall j, (j < N)%nat -> sumn N (fun i => F i * P i j) = F j) /\
    (forall G, sumn N G = 1 -> (forall j, (j < N)%nat -> sumn N (fun i => G i * P i j) = G j) ->
       forall i, (i < N)%nat -> F i = G i).
Proof.
  intros HSolve HN HS HC. destruct (HSolve N (stat_matrix N P) (last_unit N)) as (S1 & S2).
  destruct (S2 (stat_nonsingular N P HN HS HC)) as (F & EF). exists F.
  cbn [inst_copolymer_multi bind]. split; [exact EF|].
  specialize (S1 F EF).
  assert (SUM : sumn N F = 1).
  { rewrite <- (stat_last N P), S1 by lia. unfold last_unit. now rewrite Nat.eqb_refl. }
  assert (INV : forall j, (j < N)%nat -> sumn N (fun i => F i * P i j) = F j).
  { apply stat_invariant; auto. intros i Hi. rewrite S1 by lia. unfold last_unit.
    destruct (Nat.eqb_spec i (N - 1)); auto; lia. }
  assert (NN := fixed_nonneg N P F HS HC INV SUM).
  split; [|split; [exact SUM|split; [exact INV|]]].
  - intros i Hi. split; auto. rewrite <- SUM. now apply (sumn_ge_term N F i).
  - intros G GS GI i Hi. apply Rminus_diag_uniq. apply (fixed_zero N P (fun i => F i - G i)); auto.
    + intros j Hj. rewrite (sumn_ext N _ (fun i => F i * P i j - G i * P i j)) by (intros; ring).
      rewrite sumn_minus, INV, GI by auto. reflexivity.
    + rewrite sumn_minus, SUM, GS. ring.
Qed.

(** Transition probabilities are a stochastic matrix for every composition with
    nonnegative fractions, not all zero, and positive reactivity ratios. *)
Definition composition (N : nat) (f : vec) : Prop :=
  (forall i, (i < N)%nat -> 0 <= f i) /\ 0 < sumn N f.
Definition positive_matrix (N : nat) (r : mat) : Prop :=
  forall i j, (i < N)%nat -> (j < N)%nat -> 0 < r i j.

Lemma comp_some N f : composition N f -> exists c, (c < N)%nat /\ 0 < f c.
Proof.
  intros (H & S). apply Classical_Prop.NNPP. intros K.
  assert (sumn N f = 0); [|lra]. apply sumn_zero'. intros i Hi. specialize (H i Hi).
  destruct (Rlt_dec 0 (f i)); [exfalso; apply K; eauto|lra].
Qed.

Lemma row_pos N f r i : composition N f -> positive_matrix N r -> (i < N)%nat -> 0 < sumn N (fun l => f l / r i l).
Proof.
  intros HF HR Hi. destruct (comp_some N f HF) as (c & Hc & Fc). destruct HF as (HF & _).
  apply (sumn_pos N (fun l => f l / r i l) c); auto.
  - intros j Hj. unfold Rdiv. apply Rmult_le_pos; auto. apply Rlt_le, Rinv_0_lt_compat. auto.
  - apply Rdiv_lt_0_compat; auto.
Qed.

Theorem C30_transitions_multi N f r : composition N f -> positive_matrix N r ->
  (forall i j, (i < N)%nat -> (j < N)%nat -> 0 <= transitions_multi N f r i j <= 1) /\
  (forall i, (i < N)%nat -> sumn N (fun j => transitions_multi N f r i j) = 1).
Proof.
  intros HF HR.
  assert (S : forall i, (i < N)%nat -> sumn N (fun j => transitions_multi N f r i j) = 1).
  { intros i Hi. unfold transitions_multi. rewrite sumn_div. field.
    apply Rgt_not_eq. now apply row_pos. }
  assert (NN : forall i j, (i < N)%nat -> (j < N)%nat -> 0 <= transitions_multi N f r i j).
  { intros i j Hi Hj. unfold transitions_multi. unfold Rdiv at 1.
    apply Rmult_le_pos; [|apply Rlt_le, Rinv_0_lt_compat; now apply row_pos].
    unfold Rdiv. destruct HF as (HF & _). apply Rmult_le_pos; auto. apply Rlt_le, Rinv_0_lt_compat. auto. }
  split; auto. intros i j Hi Hj. split; auto. rewrite <- (S i Hi).
  apply (sumn_ge_term N (fun j => transitions_multi N f r i j) j); auto.
Qed.

Lemma transitions_stoch N f r : composition N f -> positive_matrix N r ->
  stochastic N (transitions_multi N f r) /\ pos_column N (transitions_multi N f r).
Proof.
  intros HF HR. destruct (C30_transitions_multi N f r HF HR) as (A & B). split.
  - split; auto. intros. now apply A.
  - destruct (comp_some N f HF) as (c & Hc & Fc). exists c. split; auto. intros i Hi.
    unfold transitions_multi. apply Rdiv_lt_0_compat; [apply Rdiv_lt_0_compat; auto|now apply row_pos].
Qed.

Theorem C32_from_feed solve N f r : solve_spec solve -> (1 <= N)%nat -> composition N f -> positive_matrix N r ->
  let P := transitions_multi N f r in
  exists F, inst_copolymer_multi solve N (Some f) (Some r) None = Ok F /\
    (forall i, (i < N)%nat -> 0 <= F i <= 1) /\ sumn N F = 1 /\
    (forall j, (j < N)%nat -> sumn N (fun i => F i * P i j) = F j) /\
    (forall G, sumn N G = 1 -> (forall j, (j < N)%nat -> sumn N (fun i => G i * P i j) = G j) ->
       forall i, (i < N)%nat -> F i = G i).
Proof.
  intros HS HN HF HR P. destruct (transitions_stoch N f r HF HR) as (A & B).
  apply (C32_stationary solve N P HS HN A B).
Qed.

(** Any other combination of the three inputs is rejected. *)
Theorem C32_inputs solve N f r P :
  inst_copolymer_multi solve N (Some f) (Some r) (Some P) = Err ValueError /\
  inst_copolymer_multi solve N (Some f) None None = Err ValueError /\
  inst_copolymer_multi solve N None (Some r) None = Err ValueError /\
  inst_copolymer_multi solve N None None None = Err ValueError.
Proof. repeat split. Qed.

(** Reactivity matrices of the binary and ternary systems. *)
Definition r2mat (r12 r21 : R) : mat := fun i j =>
  match i, j with 0%nat, 1%nat => r12 | 1%nat, 0%nat => r21 | _, _ => 1 end.
Definition r3mat (r12 r21 r13 r31 r23 r32 : R) : mat := fun i j =>
  match i, j with
  | 0%nat, 1%nat => r12 | 1%nat, 0%nat => r21 | 0%nat, 2%nat => r13
  | 2%nat, 0%nat => r31 | 1%nat, 2%nat => r23 | 2%nat, 1%nat => r32 | _, _ => 1 end.
Definition v2 (a b : R) : vec := fun i => match i with 0%nat => a | _ => b end.
Definition v3 (a b c : R) : vec := fun i => match i with 0%nat => a | 1%nat => b | _ => c end.

Ltac cases2 i Hi := destruct i as [|[|i]]; [| |lia].
Ltac cases3 i Hi := destruct i as [|[|[|i]]]; [| | |lia].

Theorem C32_binary solve f1 r1 r2 : solve_spec solve -> 0 <= f1 <= 1 -> 0 < r1 -> 0 < r2 ->
  exists F, inst_copolymer_multi solve 2 (Some (v2 f1 (1 - f1))) (Some (r2mat r1 r2)) None = Ok F /\
    inst_copolymer_binary f1 r1 r2 = Fin (F 0%nat) /\ F 1%nat = 1 - F 0%nat.
Proof.
  intros HS Hf H1 H2.
  destruct (C32_from_feed solve 2 (v2 f1 (1 - f1)) (r2mat r1 r2) HS) as (F & EF & _ & SF & _ & U); try lia.
  - split; [|cbn; lra]. intros i Hi. cases2 i Hi; cbn; lra.
  - intros i j Hi Hj. cases2 i Hi; cases2 j Hj; cbn; lra.
  - exists F. split; [exact EF|]. cbn in SF. split; [|lra].
    assert (ADM : admissible f1 r1 r2) by (repeat split; lra).
    rewrite inst_val by auto. f_equal.
    assert (D := den_pos _ _ _ ADM). destruct (denP1 _ _ _ ADM) as (D1 & D2).
    symmetry. rewrite (U (v2 (F1val f1 r1 r2) (1 - F1val f1 r1 r2))); [reflexivity|cbn; lra| |lia].
    intros j Hj. unfold transitions_multi. cbn [sumn v2 r2mat].
    assert (Z1 : f1 / 1 + (1 - f1) / r1 = (r1 * f1 + (1 - f1)) / r1) by (field; lra).
    assert (Z2 : f1 / r2 + (1 - f1) / 1 = (r2 * (1 - f1) + f1) / r2) by (field; lra).
    cases2 j Hj; cbn [v2 r2mat]; rewrite !Rplus_0_l, Z1, Z2; unfold F1val; field; repeat split; lra.
Qed.

Theorem C32_ternary solve f1 f2 r12 r21 r13 r31 r23 r32 : solve_spec solve ->
  0 <= f1 -> 0 <= f2 -> f1 + f2 <= 1 ->
  0 < r12 -> 0 < r21 -> 0 < r13 -> 0 < r31 -> 0 < r23 -> 0 < r32 ->
  exists F, inst_copolymer_multi solve 3 (Some (v3 f1 f2 (1 - (f1 + f2)))) (Some (r3mat r12 r21 r13 r31 r23 r32)) None = Ok F /\
    inst_copolymer_ternary f1 f2 r12 r21 r13 r31 r23 r32 = Some (F 0%nat, F 1%nat, F 2%nat).
Proof.
  intros HS F1 F2 F3 H12 H21 H13 H31 H23 H32.
  destruct (C32_from_feed solve 3 (v3 f1 f2 (1 - (f1 + f2))) (r3mat r12 r21 r13 r31 r23 r32) HS) as (F & EF & _ & SF & _ & U); try lia.
  - split; [|cbn; lra]. intros i Hi. cases3 i Hi; cbn; lra.
  - intros i j Hi Hj. cases3 i Hi; cases3 j Hj; cbn; lra.
  - exists F. split; [exact EF|].
    unfold inst_copolymer_ternary. cbv zeta. set (f3 := 1 - (f1 + f2)) in *.
    assert (HF3 : 0 <= f3) by (unfold f3; lra). assert (FS : f1 + f2 + f3 = 1) by (unfold f3; lra). clearbody f3.
    set (q12 := / r12). set (q21 := / r21). set (q13 := / r13). set (q31 := / r31). set (q23 := / r23). set (q32 := / r32).
    assert (Q12 : 0 < q12) by (now apply Rinv_0_lt_compat). assert (Q21 : 0 < q21) by (now apply Rinv_0_lt_compat).
    assert (Q13 : 0 < q13) by (now apply Rinv_0_lt_compat). assert (Q31 : 0 < q31) by (now apply Rinv_0_lt_compat).
    assert (Q23 : 0 < q23) by (now apply Rinv_0_lt_compat). assert (Q32 : 0 < q32) by (now apply Rinv_0_lt_compat).
    set (a := f1 / (r21 * r31) + f2 / (r21 * r32) + f3 / (r31 * r23)).
    set (b := f1 + f2 / r12 + f3 / r13).
    set (c := f1 / (r12 * r31) + f2 / (r12 * r32) + f3 / (r13 * r32)).
    set (d := f2 + f1 / r21 + f3 / r23).
    set (e := f1 / (r13 * r21) + f2 / (r23 * r12) + f3 / (r13 * r23)).
    set (g := f3 + f1 / r31 + f2 / r32).
    assert (Ea : a = f1 * (q21 * q31) + f2 * (q21 * q32) + f3 * (q31 * q23)) by (unfold a, q21, q31, q32, q23; field; lra).
    assert (Ec : c = f1 * (q12 * q31) + f2 * (q12 * q32) + f3 * (q13 * q32)) by (unfold c, q12, q31, q32, q13; field; lra).
    assert (Ee : e = f1 * (q13 * q21) + f2 * (q23 * q12) + f3 * (q13 * q23)) by (unfold e, q12, q21, q23, q13; field; lra).
    assert (Eb : b = f1 + f2 * q12 + f3 * q13) by reflexivity.
    assert (Ed : d = f2 + f1 * q21 + f3 * q23) by reflexivity.
    assert (Eg : g = f3 + f1 * q31 + f2 * q32) by reflexivity.
    assert (PP : forall x y z u v w, 0 < u -> 0 < v -> 0 < w -> 0 <= x -> 0 <= y -> 0 <= z -> x + y + z = 1 ->
       0 < x * u + y * v + z * w).
    { clear. intros x y z u v w Hu Hv Hw Hx Hy Hz S.
      assert (0 <= x * u) by (apply Rmult_le_pos; lra). assert (0 <= y * v) by (apply Rmult_le_pos; lra).
      assert (0 <= z * w) by (apply Rmult_le_pos; lra).
      destruct (Req_dec x 0) as [->|]; [|assert (0 < x * u) by (apply Rmult_lt_0_compat; lra); lra].
      destruct (Req_dec y 0) as [->|]; [|assert (0 < y * v) by (apply Rmult_lt_0_compat; lra); lra].
      assert (0 < z * w) by (apply Rmult_lt_0_compat; lra). lra. }
    assert (MM : forall x y, 0 < x -> 0 < y -> 0 < x * y) by (intros; apply Rmult_lt_0_compat; auto).
    assert (Ha : 0 < a) by (rewrite Ea; apply PP; auto).
    assert (Hc : 0 < c) by (rewrite Ec; apply PP; auto).
    assert (He : 0 < e) by (rewrite Ee; apply PP; auto).
    assert (Hb : 0 < b). { rewrite Eb. replace (f1 + f2 * q12 + f3 * q13) with (f1 * 1 + f2 * q12 + f3 * q13) by ring. apply PP; auto; lra. }
    assert (Hd : 0 < d). { rewrite Ed. replace (f2 + f1 * q21 + f3 * q23) with (f1 * q21 + f2 * 1 + f3 * q23) by ring. apply PP; auto; lra. }
    assert (Hg : 0 < g). { rewrite Eg. replace (f3 + f1 * q31 + f2 * q32) with (f1 * q31 + f2 * q32 + f3 * 1) by ring. apply PP; auto; lra. }
    assert (HD : 0 < f1 * a * b + f2 * c * d + f3 * e * g).
    { rewrite !Rmult_assoc. apply PP; auto. }
    set (D := f1 * a * b + f2 * c * d + f3 * e * g) in *.
    rewrite !np_div_ok by lra.
    assert (S3 : f1 * a * b / D + f2 * c * d / D + f3 * e * g / D = 1) by (unfold D in *; field; lra).
    assert (INV : forall j, (j < 3)%nat -> sumn 3 (fun i => v3 (f1 * a * b / D) (f2 * c * d / D) (f3 * e * g / D) i *
        transitions_multi 3 (v3 f1 f2 f3) (r3mat r12 r21 r13 r31 r23 r32) i j) =
        v3 (f1 * a * b / D) (f2 * c * d / D) (f3 * e * g / D) j).
    { intros j Hj. unfold transitions_multi. cbn [sumn v3 r3mat].
      replace (0 + f1 / 1 + f2 / r12 + f3 / r13) with b by (unfold b; field; lra).
      replace (0 + f1 / r21 + f2 / 1 + f3 / r23) with d by (unfold d; field; lra).
      replace (0 + f1 / r31 + f2 / r32 + f3 / 1) with g by (unfold g; field; lra).
      assert (T : forall u x y z u', 0 < u -> x + y + z = u' -> 0 + x / D + y / D + z / D = u' / D).
      { intros u x y z u' _ <-. field. lra. }
      cases3 j Hj; cbn [v3 r3mat].
      - transitivity (0 + f1 * a * f1 / D + f2 * c * f1 * q21 / D + f3 * e * f1 * q31 / D).
        + unfold q21, q31. field. repeat split; lra.
        + apply (T 1); [lra|]. rewrite Eb, Ea, Ec, Ee. ring.
      - transitivity (0 + f1 * a * f2 * q12 / D + f2 * c * f2 / D + f3 * e * f2 * q32 / D).
        + unfold q12, q32. field. repeat split; lra.
        + apply (T 1); [lra|]. rewrite Ed, Ea, Ec, Ee. ring.
      - transitivity (0 + f1 * a * f3 * q13 / D + f2 * c * f3 * q23 / D + f3 * e * f3 / D).
        + unfold q13, q23. field. repeat split; lra.
        + apply (T 1); [lra|]. rewrite Eg, Ea, Ec, Ee. ring. }
    specialize (U (v3 (f1 * a * b / D) (f2 * c * d / D) (f3 * e * g / D)) ltac:(cbn; lra) INV).
    rewrite (U 0%nat), (U 1%nat), (U 2%nat) by lia. cbn [v3]. do 2 f_equal. lra.
Qed.

(* ------------------------------------------------------------------ *)
(** * Radical fractions                                               *)
(* ------------------------------------------------------------------ *)

(** Residual of the balance of radical i: gain minus loss by cross-propagation. *)
Definition rad_res (N : nat) (f : vec) (k : mat) (p : vec) (i : nat) : R :=
  sumn N (fun j => f i * k j i * p j - p i * k i j * f j).
Definition unit_diag (k : mat) : mat := fun i j => if Nat.eqb i j then 1 else k i j.

Lemma rad_res_diag N f k p i : rad_res N f k p i = rad_res N f (unit_diag k) p i.
Proof.
  apply sumn_ext. intros j _. unfold unit_diag. rewrite (Nat.eqb_sym j i).
  destruct (Nat.eqb_spec i j) as [->|]; ring.
Qed.
Lemma rad_res_total N f k p : sumn N (rad_res N f k p) = 0.
Proof.
  unfold rad_res. rewrite (sumn_ext N _ (fun i => sumn N (fun j => f i * k j i * p j) - sumn N (fun j => p i * k i j * f j)))
    by (intros; apply sumn_minus).
  rewrite sumn_minus, (sumn_swap N N (fun i j => f i * k j i * p j)).
  rewrite (sumn_ext N (fun j => sumn N (fun i => f i * k j i * p j)) (fun i => sumn N (fun j => p i * k i j * f j))); [ring|].
  intros i Hi. apply sumn_ext. intros; ring.
Qed.
Lemma rad_row N f k p i : (i < N - 1)%nat ->
  sumn N (fun j => radical_matrix N f k i j * p j) = rad_res N f k p i.
Proof.
  intros Hi. unfold radical_matrix, rad_res. destruct (Nat.eqb_spec i (N - 1)); [lia|].
  rewrite sumn_minus.
  rewrite (sumn_ext N _ (fun j => f i * k j i * p j - delta i j * (sumn N (fun l => k j l * f l) * p j))).
  - rewrite sumn_minus, (sumn_delta_l N i (fun j => sumn N (fun l => k j l * f l) * p j)) by lia. f_equal.
    rewrite <- sumn_scal_r. apply sumn_ext. intros; ring.
  - intros j _. unfold delta. destruct (Nat.eqb_spec i j), (Nat.eq_dec i j); try lia; ring.
Qed.
Lemma rad_last N f k p : sumn N (fun j => radical_matrix N f k (N - 1)%nat j * p j) = sumn N p.
Proof. unfold radical_matrix. rewrite Nat.eqb_refl. apply sumn_ext. intros; ring. Qed.

Section Radicals.
  Variables (N : nat) (f : vec) (k : mat).
  Hypothesis HN : (1 <= N)%nat.
  Hypothesis HF : composition N f.
  Hypothesis HK : forall i j, (i < N)%nat -> (j < N)%nat -> i <> j -> 0 < k i j.
  Let r : mat := fun i j => / unit_diag k i j.
  Let x (i : nat) : R := sumn N (fun l => f l / r i l).

  Lemma r_pos : positive_matrix N r.
  Proof.
    intros i j Hi Hj. apply Rinv_0_lt_compat. unfold unit_diag.
    destruct (Nat.eqb_spec i j); [lra|auto].
  Qed.
  Lemma x_pos i : (i < N)%nat -> 0 < x i.
  Proof. intros Hi. now apply row_pos; auto using r_pos. Qed.

  Lemma rad_to_stat p : (forall i, (i < N)%nat -> rad_res N f k p i = 0) ->
    forall j, (j < N)%nat -> sumn N (fun i => (p i * x i) * transitions_multi N f r i j) = p j * x j.
  Proof.
    intros H j Hj. specialize (H j Hj). rewrite rad_res_diag in H. unfold rad_res in H. rewrite sumn_minus in H.
    transitivity (sumn N (fun i => f j * unit_diag k i j * p i)).
    - apply sumn_ext. intros i Hi. unfold transitions_multi. fold (x i). pose proof (x_pos i Hi).
      unfold r at 1, Rdiv. rewrite Rinv_inv. field. lra.
    - transitivity (sumn N (fun l => p j * unit_diag k j l * f l)); [lra|].
      unfold x. rewrite <- sumn_scal. apply sumn_ext. intros l _. unfold r, Rdiv. rewrite Rinv_inv. ring.
  Qed.

  (** p is a multiple of a nonnegative vector with positive sum *)
  Lemma rad_shape p : (forall i, (i < N)%nat -> rad_res N f k p i = 0) ->
    (forall i, (i < N)%nat -> p i = 0) \/
    exists s G, s <> 0 /\ (forall i, (i < N)%nat -> 0 <= G i) /\ 0 < sumn N G /\
      (forall i, (i < N)%nat -> p i = s * G i).
  Proof.
    intros H. pose proof (rad_to_stat p H) as INV.
    destruct (transitions_stoch N f r HF r_pos) as (A & B).
    destruct (Req_dec (sumn N (fun i => p i * x i)) 0) as [E|E].
    - left. intros i Hi. pose proof (fixed_zero N _ _ A B INV E i Hi) as Z. cbn beta in Z.
      pose proof (x_pos i Hi). destruct (Rmult_integral _ _ Z); lra.
    - right. set (s := sumn N (fun i => p i * x i)) in *.
      exists s, (fun i => (p i * x i / s) / x i).
      assert (S1 : sumn N (fun i => p i * x i / s) = 1) by (rewrite sumn_div; fold s; field; auto).
      assert (NNG : forall i, (i < N)%nat -> 0 <= p i * x i / s).
      { apply (fixed_nonneg N (transitions_multi N f r) (fun i => p i * x i / s)); auto.
        intros j Hj. rewrite <- (INV j Hj). rewrite <- sumn_div. apply sumn_ext. intros; field; auto. }
      split; [auto|]. split; [|split].
      + intros i Hi. unfold Rdiv at 1. apply Rmult_le_pos; auto. apply Rlt_le, Rinv_0_lt_compat, x_pos; auto.
      + assert (C : exists c, (c < N)%nat /\ 0 < p c * x c / s).
        { apply (comp_some N (fun i => p i * x i / s)). split; [auto|lra]. }
        destruct C as (c & Hc & Pc).
        apply (sumn_pos N _ c); auto.
        * intros i Hi. unfold Rdiv at 1. apply Rmult_le_pos; auto. apply Rlt_le, Rinv_0_lt_compat, x_pos; auto.
        * apply Rdiv_lt_0_compat; auto. now apply x_pos.
      + intros i Hi. pose proof (x_pos i Hi). field. split; lra.
  Qed.

  Lemma rad_zero p : (forall i, (i < N)%nat -> rad_res N f k p i = 0) -> sumn N p = 0 ->
    forall i, (i < N)%nat -> p i = 0.
  Proof.
    intros H S. destruct (rad_shape p H) as [Z|(s & G & Hs & HG & HGS & E)]; auto.
    rewrite (sumn_ext N p (fun i => s * G i)) in S by auto. rewrite sumn_scal in S.
    destruct (Rmult_integral _ _ S); [easy|lra].
  Qed.
  Lemma rad_nonneg p : (forall i, (i < N)%nat -> rad_res N f k p i = 0) -> sumn N p = 1 ->
    forall i, (i < N)%nat -> 0 <= p i.
  Proof.
    intros H S. destruct (rad_shape p H) as [Z|(s & G & Hs & HG & HGS & E)].
    - rewrite sumn_zero' in S by auto. lra.
    - rewrite (sumn_ext N p (fun i => s * G i)) in S by auto. rewrite sumn_scal in S.
      assert (0 < s).
      { destruct (Rlt_dec 0 s); auto. exfalso. assert (0 <= (- s) * sumn N G) by (apply Rmult_le_pos; lra). lra. }
      intros i Hi. rewrite E by auto. apply Rmult_le_pos; auto. lra.
  Qed.

  Lemma rad_all p : (forall i, (i < N - 1)%nat -> rad_res N f k p i = 0) ->
    forall i, (i < N)%nat -> rad_res N f k p i = 0.
  Proof. apply last_balance; auto. apply rad_res_total. Qed.
End Radicals.

(** radical_fractions_multi succeeds and returns the unique solution of the
    cross-propagation balances with sum one; it is nonnegative.  The diagonal of k is
    arbitrary. *)
Theorem C32_radicals solve N f k : solve_spec solve -> (1 <= N)%nat -> composition N f ->
  (forall i j, (i < N)%nat -> (j < N)%nat -> i <> j -> 0 < k i j) ->
  let off i j : R := if Nat.eqb i j then 0 else 1 in
  let balance p := forall i, (i < N)%nat ->
    p i * sumn N (fun j => off i j * k i j * f j) = f i * sumn N (fun j => off i j * k j i * p j) in
  exists p, radical_fractions_multi solve N f k = Ok p /\
    (forall i, (i < N)%nat -> 0 <= p i <= 1) /\ sumn N p = 1 /\ balance p /\
    (forall q, sumn N q = 1 -> balance q -> forall i, (i < N)%nat -> p i = q i).
Proof.
  intros HS HN HF HK off balance.
  assert (BR : forall p i, rad_res N f k p i =
     f i * sumn N (fun j => off i j * k j i * p j) - p i * sumn N (fun j => off i j * k i j * f j)).
  { intros p i. unfold rad_res. rewrite <- !sumn_scal, <- sumn_minus. apply sumn_ext. intros j _.
    unfold off. destruct (Nat.eqb_spec i j) as [->|]; ring. }
  assert (NS : nonsingular N (radical_matrix N f k)).
  { intros p H. apply (rad_zero N f k); auto.
    - apply rad_all; auto. intros i Hi. rewrite <- rad_row by auto. apply H. lia.
    - rewrite <- (rad_last N f k). apply H. lia. }
  destruct (HS N (radical_matrix N f k) (last_unit N)) as (S1 & S2).
  destruct (S2 NS) as (p & EP). specialize (S1 p EP). exists p. split; [exact EP|].
  assert (SUM : sumn N p = 1).
  { rewrite <- (rad_last N f k), S1 by lia. unfold last_unit. now rewrite Nat.eqb_refl. }
  assert (RES : forall i, (i < N)%nat -> rad_res N f k p i = 0).
  { apply rad_all; auto. intros i Hi. rewrite <- rad_row, S1 by lia. unfold last_unit.
    destruct (Nat.eqb_spec i (N - 1)); auto; lia. }
  assert (NN := rad_nonneg N f k HF HK p RES SUM).
  split; [|split; [exact SUM|split]].
  - intros i Hi. split; auto. rewrite <- SUM. now apply (sumn_ge_term N p i).
  - intros i Hi. specialize (RES i Hi). rewrite BR in RES. lra.
  - intros q SQ BQ i Hi. apply Rminus_diag_uniq.
    apply (rad_zero N f k HF HK (fun i => p i - q i)); auto.
    + intros j Hj. transitivity (rad_res N f k p j - rad_res N f k q j).
      * unfold rad_res. rewrite <- sumn_minus. apply sumn_ext. intros; ring.
      * rewrite RES by auto. rewrite BR. specialize (BQ j Hj). lra.
    + rewrite sumn_minus, SUM, SQ. ring.
Qed.

(** radical_fractions_ternary returns the same vector as the general routine. *)
Definition k3mat (k12 k21 k13 k31 k23 k32 : R) : mat := r3mat k12 k21 k13 k31 k23 k32.
Theorem C32_radicals_ternary solve f1 f2 k12 k21 k13 k31 k23 k32 : solve_spec solve ->
  0 <= f1 -> 0 <= f2 -> f1 + f2 <= 1 ->
  0 < k12 -> 0 < k21 -> 0 < k13 -> 0 < k31 -> 0 < k23 -> 0 < k32 ->
  exists p, radical_fractions_multi solve 3 (v3 f1 f2 (1 - (f1 + f2))) (k3mat k12 k21 k13 k31 k23 k32) = Ok p /\
    radical_fractions_ternary f1 f2 k12 k21 k13 k31 k23 k32 = (Fin (p 0%nat), Fin (p 1%nat), Fin (p 2%nat)).
Proof.
  intros HS F1 F2 F3 H12 H21 H13 H31 H23 H32.
  destruct (C32_radicals solve 3 (v3 f1 f2 (1 - (f1 + f2))) (k3mat k12 k21 k13 k31 k23 k32) HS) as (p & EP & _ & _ & _ & U); try lia.
  - split; [|cbn; lra]. intros i Hi. cases3 i Hi; cbn; lra.
  - intros i j Hi Hj. cases3 i Hi; cases3 j Hj; cbn; lra.
  - exists p. split; [exact EP|]. unfold radical_fractions_ternary. cbv zeta.
    set (f3 := 1 - (f1 + f2)) in *.
    assert (HF3 : 0 <= f3) by (unfold f3; lra). assert (FS : f1 + f2 + f3 = 1) by (unfold f3; lra). clearbody f3.
    assert (MM : forall x y, 0 < x -> 0 < y -> 0 < x * y) by (intros; apply Rmult_lt_0_compat; auto).
    assert (PP : forall x y z u v w, 0 < u -> 0 < v -> 0 < w -> 0 <= x -> 0 <= y -> 0 <= z -> x + y + z = 1 ->
       0 < x * u + y * v + z * w).
    { clear. intros x y z u v w Hu Hv Hw Hx Hy Hz S.
      assert (0 <= x * u) by (apply Rmult_le_pos; lra). assert (0 <= y * v) by (apply Rmult_le_pos; lra).
      assert (0 <= z * w) by (apply Rmult_le_pos; lra).
      destruct (Req_dec x 0) as [->|]; [|assert (0 < x * u) by (apply Rmult_lt_0_compat; lra); lra].
      destruct (Req_dec y 0) as [->|]; [|assert (0 < y * v) by (apply Rmult_lt_0_compat; lra); lra].
      assert (0 < z * w) by (apply Rmult_lt_0_compat; lra). lra. }
    set (p1 := k21 * k31 * f1 ^ 2 + k21 * k32 * f1 * f2 + k23 * k31 * f1 * f3).
    set (p2 := k12 * k31 * f1 * f2 + k12 * k32 * f2 ^ 2 + k13 * k32 * f2 * f3).
    set (p3 := k12 * k23 * f2 * f3 + k13 * k21 * f1 * f3 + k13 * k23 * f3 ^ 2).
    assert (HD : 0 < p1 + p2 + p3).
    { replace (p1 + p2 + p3) with
        (f1 * (f1 * (k21 * k31) + f2 * (k21 * k32) + f3 * (k23 * k31)) +
         f2 * (f1 * (k12 * k31) + f2 * (k12 * k32) + f3 * (k13 * k32)) +
         f3 * (f1 * (k13 * k21) + f2 * (k12 * k23) + f3 * (k13 * k23))) by (unfold p1, p2, p3; ring).
      apply PP; auto. }
    assert (BAL : forall j, (j < 3)%nat -> v3 (p1 / (p1 + p2 + p3)) (p2 / (p1 + p2 + p3)) (p3 / (p1 + p2 + p3)) j *
       sumn 3 (fun l => (if Nat.eqb j l then 0 else 1) * k3mat k12 k21 k13 k31 k23 k32 j l * v3 f1 f2 f3 l) =
       v3 f1 f2 f3 j * sumn 3 (fun l => (if Nat.eqb j l then 0 else 1) * k3mat k12 k21 k13 k31 k23 k32 l j *
         v3 (p1 / (p1 + p2 + p3)) (p2 / (p1 + p2 + p3)) (p3 / (p1 + p2 + p3)) l)).
    { assert (T : forall x y z D, 0 < D -> x / D * y = z / D <-> x * y = z).
      { clear. intros x y z D HD. split; intros H.
        - apply (Rmult_eq_reg_r (/ D)); [|apply Rinv_neq_0_compat; lra]. transitivity (x / D * y); [field; lra|]. rewrite H. reflexivity.
        - rewrite <- H. field. lra. }
      intros j Hj. set (D := p1 + p2 + p3) in *. cases3 j Hj; cbn [sumn Nat.eqb v3 k3mat r3mat].
      - replace (f1 * (0 + 0 * 1 * (p1 / D) + 1 * k21 * (p2 / D) + 1 * k31 * (p3 / D))) with
          ((f1 * (k21 * p2 + k31 * p3)) / D) by (field; lra). apply T; auto. unfold p1, p2, p3. ring.
      - replace (f2 * (0 + 1 * k12 * (p1 / D) + 0 * 1 * (p2 / D) + 1 * k32 * (p3 / D))) with
          ((f2 * (k12 * p1 + k32 * p3)) / D) by (field; lra). apply T; auto. unfold p1, p2, p3. ring.
      - replace (f3 * (0 + 1 * k13 * (p1 / D) + 1 * k23 * (p2 / D) + 0 * 1 * (p3 / D))) with
          ((f3 * (k13 * p1 + k23 * p2)) / D) by (field; lra). apply T; auto. unfold p1, p2, p3. ring. }
    specialize (U (v3 (p1 / (p1 + p2 + p3)) (p2 / (p1 + p2 + p3)) (p3 / (p1 + p2 + p3))) ltac:(cbn; field; lra) BAL).
    rewrite !np_div_ok by lra. rewrite (U 0%nat), (U 1%nat), (U 2%nat) by lia. reflexivity.
Qed.

Example C32_case : exists F, inst_copolymer_multi gauss 2 (Some (v2 (1 / 2) (1 - 1 / 2))) (Some (r2mat 3 (1 / 3))) None = Ok F /\
  F 0%nat = 3 / 4.
Proof.
  destruct (C32_binary gauss (1 / 2) 3 (1 / 3) solve_spec_gauss) as (F & E & EB & _); try lra.
  exists F. split; auto. rewrite inst_val in EB by (repeat split; lra). injection EB as <-. unfold F1val. field.
Qed.

(* ------------------------------------------------------------------ *)
(** * C30 Sequence lengths (multicomponent)                           *)
(* ------------------------------------------------------------------ *)
From Verif Require Import DistFamProps CopoStatProps.

Theorem C30_sequence_multi p : 0 <= p < 1 ->
  is_series (fun k => sequence_multi p (S k)) 1 /\
  is_series (fun k => INR (S k) * sequence_multi p (S k)) (/ (1 - p)) /\
  exists m, sequence_multi_mean p = Fin m /\ 0 <= / (1 - p) - m <= eps / (1 - p) ^ 2.
Proof.
  intros Hp. pose proof eps_pos as He. split; [|split].
  - pose proof (geo_series p Hp) as G.
    refine (is_series_ext _ _ _ _ G). intros n. unfold sequence_multi. now rewrite Nat.sub_succ, Nat.sub_0_r.
  - pose proof (geo_mean p Hp) as G.
    refine (is_series_ext _ _ _ _ G). intros n. unfold sequence_multi. now rewrite Nat.sub_succ, Nat.sub_0_r.
  - unfold sequence_multi_mean. rewrite np_div_ok by lra. eexists. split; [reflexivity|].
    replace (/ (1 - p) - 1 / (1 - p + eps)) with (eps * / ((1 - p) * (1 - p + eps))) by (field; lra).
    assert (0 < (1 - p) * (1 - p)) by (apply Rmult_lt_0_compat; lra).
    assert (0 < (1 - p) * (1 - p + eps)) by (apply Rmult_lt_0_compat; lra).
    split.
    + apply Rmult_le_pos; [lra|]. apply Rlt_le, Rinv_0_lt_compat. auto.
    + unfold Rdiv. apply Rmult_le_compat_l; [lra|]. apply Rinv_le_contravar; [simpl; lra|].
      replace ((1 - p) ^ 2) with ((1 - p) * (1 - p)) by ring. apply Rmult_le_compat_l; lra.
Qed.

(* ------------------------------------------------------------------ *)
(** * C34 Q-e scheme                                                  *)
(* ------------------------------------------------------------------ *)

Lemma traverse_ok {A B : Type} (g : A -> res B) (h : A -> B) l : (forall a, In a l -> g a = Ok (h a)) ->
  traverse g l = Ok (map h l).
Proof.
  induction l; intros H; [reflexivity|]. cbn. rewrite H by now left. cbn [bind].
  rewrite IHl by (intros; apply H; now right). reflexivity.
Qed.

(** Entry of a matrix given as a list of rows. *)
Definition ent (M : list (list R)) (i j : nat) : R := nth j (nth i M []) 0.

Lemma Qe_ok Qe : (forall x, In x Qe -> fst x <> 0) ->
  exists M, convert_Qe_to_r Qe = Ok M /\ length M = length Qe /\
   (forall i, (i < length Qe)%nat -> length (nth i M []) = length Qe) /\
   forall i j, (i < length Qe)%nat -> (j < length Qe)%nat ->
     ent M i j = fst (nth i Qe (0, 0)) / fst (nth j Qe (0, 0)) *
                 exp (- snd (nth i Qe (0, 0)) * (snd (nth i Qe (0, 0)) - snd (nth j Qe (0, 0)))).
Proof.
  intros H. unfold convert_Qe_to_r. cbv zeta.
  set (h := fun i j => fst (nth i Qe (0, 0)) / fst (nth j Qe (0, 0)) *
                 exp (- snd (nth i Qe (0, 0)) * (snd (nth i Qe (0, 0)) - snd (nth j Qe (0, 0))))).
  rewrite (traverse_ok _ (fun i => map (h i) (seq 0 (length Qe)))).
  - eexists. split; [reflexivity|]. rewrite map_length, seq_length. split; [reflexivity|].
    assert (N : forall i, (i < length Qe)%nat -> nth i (map (fun i => map (h i) (seq 0 (length Qe))) (seq 0 (length Qe))) [] =
       map (h i) (seq 0 (length Qe))).
    { intros i Hi. rewrite (nth_indep _ [] (map (h 0%nat) (seq 0 (length Qe)))) by (rewrite map_length, seq_length; auto).
      rewrite (map_nth (fun i => map (h i) (seq 0 (length Qe)))), seq_nth by auto. reflexivity. }
    split.
    + intros i Hi. rewrite N by auto. now rewrite map_length, seq_length.
    + intros i j Hi Hj. unfold ent. rewrite N by auto.
      rewrite (nth_indep _ 0 (h i 0%nat)) by (rewrite map_length, seq_length; auto).
      rewrite (map_nth (h i)), seq_nth by auto. reflexivity.
  - intros i Hi. apply in_seq in Hi. apply (traverse_ok _ (h i)). intros j Hj. apply in_seq in Hj.
    unfold Qe_entry. cbv zeta. rewrite pydiv_ok; [reflexivity|]. apply H. apply nth_In. lia.
Qed.

Theorem C34_Qe Qe : (forall x, In x Qe -> fst x <> 0) ->
  exists M, convert_Qe_to_r Qe = Ok M /\
   forall i j k, (i < length Qe)%nat -> (j < length Qe)%nat -> (k < length Qe)%nat ->
     let e n := snd (nth n Qe (0, 0)) in
     ent M i i = 1 /\
     ent M i j * ent M j i = exp (- (e i - e j) ^ 2) /\ 0 < ent M i j * ent M j i <= 1 /\
     ent M i j * ent M j k * ent M k i = ent M i k * ent M k j * ent M j i.
Proof.
  intros H. destruct (Qe_ok Qe H) as (M & E & _ & _ & HM). exists M. split; [exact E|].
  intros i j k Hi Hj Hk e. rewrite !HM by auto. fold (e i) (e j) (e k).
  assert (Q : forall n, (n < length Qe)%nat -> fst (nth n Qe (0, 0)) <> 0) by (intros n Hn; apply H, nth_In; auto).
  pose proof (Q i Hi) as Qi. pose proof (Q j Hj) as Qj. pose proof (Q k Hk) as Qk.
  generalize dependent (fst (nth i Qe (0, 0))). generalize dependent (fst (nth j Qe (0, 0))).
  generalize dependent (fst (nth k Qe (0, 0))). intros qk Nk qj Nj qi Ni.
  generalize (e i) (e j) (e k). intros ei ej ek. clear - Ni Nj Nk.
  assert (PR : qi / qj * exp (- ei * (ei - ej)) * (qj / qi * exp (- ej * (ej - ei))) = exp (- (ei - ej) ^ 2)).
  { transitivity (exp (- ei * (ei - ej)) * exp (- ej * (ej - ei))); [field; auto|].
    rewrite <- exp_plus. f_equal. ring. }
  split; [|split; [exact PR|split]].
  - rewrite Rminus_diag_eq, Rmult_0_r, exp_0 by reflexivity. field. auto.
  - rewrite PR. split; [apply exp_pos|]. rewrite <- exp_0. destruct (Req_dec (ei - ej) 0) as [->|N].
    + right. f_equal. ring.
    + left. apply exp_increasing. assert (0 < (ei - ej) ^ 2) by (rewrite <- Rsqr_pow2; now apply Rsqr_pos_lt). lra.
  - transitivity (exp (- ei * (ei - ej)) * exp (- ej * (ej - ek)) * exp (- ek * (ek - ei))); [field; auto|].
    transitivity (exp (- ei * (ei - ek)) * exp (- ek * (ek - ej)) * exp (- ej * (ej - ei))); [|field; auto].
    rewrite <- !exp_plus. f_equal. ring.
Qed.

(** A zero Q value raises ZeroDivisionError. *)
Theorem C34_zero_Q Q1 e1 e2 : Q1 <> 0 -> convert_Qe_to_r [(Q1, e1); (0, e2)] = Err ZeroDivisionError.
Proof.
  intros H. unfold convert_Qe_to_r. cbn [length seq traverse Qe_entry nth fst snd].
  unfold Qe_entry. cbn [nth fst snd]. rewrite (pydiv_ok Q1 Q1) by auto. cbn [bind].
  rewrite (pydiv_zero Q1 0) by reflexivity. reflexivity.
Qed.

Example C34_case : exists M, convert_Qe_to_r [(1, -1); (2, 1)] = Ok M /\ ent M 0 1 = 1 / 2 * exp (-2).
Proof.
  destruct (Qe_ok [(1, -1); (2, 1)]) as (M & E & _ & _ & H).
  - intros x [<-|[<-|[]]]; cbn; lra.
  - exists M. split; auto. rewrite H by (cbn; lia). cbn [nth fst snd]. f_equal. f_equal. ring.
Qed.

(* ------------------------------------------------------------------ *)
(** * C75 Multicomponent drift                                        *)
(* ------------------------------------------------------------------ *)

(** The coded right-hand side for the first N-1 fractions implies the same equation for the
    last fraction, which the routine computes by difference. *)
Theorem C75_closure solve N r x y : solve_spec solve -> (1 <= N)%nat -> positive_matrix N r ->
  composition N (drift_row N y) -> 0 <= x <= 1 ->
  exists F d, inst_copolymer_multi solve N (Some (drift_row N y)) (Some r) None = Ok F /\
    dfdx solve N r x y = Ok d /\
    sumn N (drift_row N y) = 1 /\
    (forall i, (i < N - 1)%nat -> d i = (drift_row N y i - F i) / (1 - x + eps)) /\
    - sumn (N - 1) d = (drift_row N y (N - 1)%nat - F (N - 1)%nat) / (1 - x + eps).
Proof.
  intros HS HN HR HC Hx. pose proof eps_pos as He.
  destruct (C32_from_feed solve N (drift_row N y) r HS HN HC HR) as (F & EF & _ & SF & _).
  assert (ED : dfdx solve N r x y = bind (inst_copolymer_multi solve N (Some (drift_row N y)) (Some r) None)
     (fun F => Ok (fun i => (y i - F i) / (1 - x + eps)))) by reflexivity.
  rewrite EF in ED. exists F. eexists. split; [exact EF|]. split; [exact ED|].
  assert (L : drift_row N y (N - 1)%nat = 1 - sumn (N - 1) y) by (unfold drift_row; now rewrite Nat.ltb_irrefl).
  assert (I : forall i, (i < N - 1)%nat -> drift_row N y i = y i).
  { intros i Hi. unfold drift_row. apply Nat.ltb_lt in Hi. now rewrite Hi. }
  split; [|split].
  - destruct N; [lia|]. cbn [sumn]. replace (S N - 1)%nat with N in * by lia. rewrite L.
    rewrite (sumn_ext N _ y) by auto. ring.
  - intros i Hi. now rewrite I.
  - rewrite L, sumn_div, sumn_minus. destruct N; [lia|]. replace (S N - 1)%nat with N in * by lia.
    cbn [sumn] in SF. replace (F N) with (1 - sumn N F) by lra. field. lra.
Qed.

Example C75_case : exists F d,
  inst_copolymer_multi gauss 2 (Some (drift_row 2 (fun _ => 1 / 2))) (Some (r2mat 3 (1 / 3))) None = Ok F /\
  dfdx gauss 2 (r2mat 3 (1 / 3)) 0 (fun _ => 1 / 2) = Ok d /\ d 0%nat = (1 / 2 - F 0%nat) / (1 - 0 + eps).
Proof.
  destruct (C75_closure gauss 2 (r2mat 3 (1 / 3)) 0 (fun _ => 1 / 2)) as (F & d & E1 & E2 & _ & H & _); try lra; try lia.
  - apply solve_spec_gauss.
  - intros i j Hi Hj. cases2 i Hi; cases2 j Hj; cbn; lra.
  - split; [|cbn; lra]. intros i Hi. cases2 i Hi; cbn; lra.
  - exists F, d. repeat split; auto. rewrite H by lia. reflexivity.
Qed.

Print Assumptions C30_transitions_multi.
Print Assumptions C30_sequence_multi.
Print Assumptions C32_stationary.
Print Assumptions C32_from_feed.
Print Assumptions C32_inputs.
Print Assumptions C32_binary.
Print Assumptions C32_ternary.
Print Assumptions C32_radicals.
Print Assumptions C32_radicals_ternary.
Print Assumptions C34_Qe.
Print Assumptions C34_zero_Q.
Print Assumptions C75_closure.
