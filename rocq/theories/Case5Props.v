(** Concrete cases for the step-growth, copolymerisation and data theorems
    (C30-C41, C51, C70-C76, C98-C117): each shows inputs that meet the hypotheses of the
    theorem it is named after, and what the theorem then says. *)
From Coq Require Import Reals Lra Lia List Bool Arith Psatz String.
From Coquelicot Require Import Coquelicot.
From Verif Require Import Prelude.
Import ListNotations.
Close Scope string_scope.
Open Scope R_scope.

(* ================================================================== *)
(** * Step growth                                                       *)
(* ================================================================== *)
Section Step.
From Verif Require Import StepModel StepProofs StepProps.

Example C37_case3_case : exists Mw, Case_3 (9 / 10) (8 / 10) (1 / 2) 100 80 = Ok (2800 / 13, Mw).
Proof.
  destruct (C37_case3_Mn_partial 2 1 100 80 (9 / 10) (8 / 10)) as [Mw E]; try lra.
  exists Mw. rewrite E. do 2 f_equal. lra.
Qed.

(** nylon-type AA + BC feed with 3 mol AA and 2 mol BC *)
Example C37_case6_case : Case_6 (9 / 10) (2 / 3) 100 80 = Ok (460 / (32 / 10)).
Proof. rewrite (C37_case6_Mn 3 2 100 80 (9 / 10)); [f_equal; lra|lra|lra]. Qed.

Example C37_case7_case : Case_7 (9 / 10) (8 / 10) (2 / 3) 100 80 = Ok (460 / (7 / 10)).
Proof. rewrite (C37_case7_Mn 3 2 100 80 (9 / 10) (8 / 10)); [f_equal; lra|lra|lra]. Qed.

Example C37_case8_case : Case_8 (9 / 10) (8 / 10) ((2 * 2 + 2 * 1) / (2 * 3)) (1 / 2) 100 80 60 = Ok (520 / (8 / 10)).
Proof. rewrite (C37_case8_Mn 3 2 1 100 80 60 (9 / 10) (8 / 10)); [f_equal; lra|lra..]. Qed.

Example C37_case9_case : Case_9 (7 / 10) (9 / 10) (8 / 10) ((2 * 2 + 2 * 1) / (2 * 3 + 2 * 1)) (1 / 3) (1 / 2) 100 90 80 60 = Ok (610 / (18 / 10)).
Proof. rewrite (C37_case9_Mn 3 1 2 1 100 90 80 60 (7 / 10) (9 / 10) (8 / 10)); [f_equal; lra|lra..]. Qed.

Example C37_case10_case : Case_10 (9 / 10) (8 / 10) (7 / 10) ((2 * 2 + 2 * 1) / (2 * 3)) (2 / 1) 100 80 60 = Ok (520 / (12 / 10)).
Proof. rewrite (C37_case10_Mn 3 2 1 100 80 60 (9 / 10) (8 / 10) (7 / 10)); [f_equal; lra|lra..]. Qed.

Example C37_case11_case : Case_11 (9 / 10) (8 / 10) (7 / 10) (2 / 3) (1 / 3) 100 80 60 = Ok (520 / 3).
Proof. rewrite (C37_case11_Mn 3 2 1 100 80 60 (9 / 10) (8 / 10) (7 / 10)); [f_equal; lra|lra..]. Qed.

Example C37_case5_case : Case_5 (9 / 10) (1 / 2) ((2 * 2) / (2 * 3)) 0 100 80 60 = Ok (460 / (14 / 10)).
Proof. rewrite (C37_case5_noC_partial 3 2 100 80 60 (9 / 10) (1 / 2)); [f_equal; lra|lra..]. Qed.

Example C37_flory_case : exists Mw Mz, Flory_Af 3 100 (/ 4) = Ok (Fin 160, Mw, Mz).
Proof.
  destruct (C37_flory_Mn 3 100 (/ 4)) as [Mw [Mz E]]; [lia|lra|lra|simpl; lra|].
  exists Mw, Mz. rewrite E. simpl INR. repeat f_equal. lra.
Qed.

(** 1 mol of a trifunctional monomer, 2 mol A2 and 3 mol B1B2: below the gel point *)
Example C37_miller1_case : exists Mw, Miller_1 1 2 3 3 150 100 80 (1 / 2) (1 / 2) = Ok (590 / 3, Mw) /\ 590 / 3 <= Mw.
Proof.
  destruct (C37_miller1_Mn 1 2 3 3 150 100 80 (1 / 2) (1 / 2)) as [Mw E]; try (simpl; lra).
  exists Mw. split. { rewrite E. do 2 f_equal. lra. }
  destruct (C39_miller1_order_partial 1 2 3 3 150 100 80 (1 / 2) (1 / 2)) as [Mn [Mw' [E' H]]]; try lia; try (simpl; lra).
  rewrite E in E'. injection E'; intros <- <-. lra.
Qed.

(** AA + BB, 1 mol each, half converted: both chains start in an A or a B unit *)
Example C38_recursion_case : exists EA EB, recursion_AB 1 1 (fun _ => 1) (fun _ => 1) (fun _ => 2) (fun _ => 2) (fun _ => 100) (fun _ => 80) (1 / 2 * (0 + 2 * 1) / (0 + 2 * 1)) (1 / 2) EA EB.
Proof.
  exact (C38_stockmayer_recursion_solvable 1 1 (fun _ => 1) (fun _ => 1) (fun _ => 2) (fun _ => 2) (fun _ => 100) (fun _ => 80) (1 / 2)
    ltac:(simpl; lra) ltac:(simpl; lra) ltac:(simpl; lra)).
Qed.

Example C38_case1_case : exists Mn Mw, Case_1 (9 / 10) (1 / 2) 100 80 = Ok (Mn, Mw) /\
  Stockmayer 1 1 (fun _ => 2) (fun _ => 1) (fun _ => 2) (fun _ => 2) (fun _ => 100) (fun _ => 80) (9 / 10) = (Fin Mn, Fin Mw) /\ 0 < Mn <= Mw.
Proof.
  destruct (C38_case1_is_stockmayer 2 1 100 80 (9 / 10)) as [Mn [Mw [E S]]]; try lra.
  exists Mn, Mw. repeat split; auto;
  (destruct (C39_case1_order 2 1 100 80 (9 / 10)) as [Mn' [Mw' [E' H]]]; try lra; rewrite E in E'; injection E'; intros <- <-; lra).
Qed.

(** AA + BC with unequal reactivities: the branch weights solve the recursion *)
Example C38_case3_case : exists Mn, Case_3 (1 / 2) (1 / 4) (1 / 1) 100 80 =
  Ok (Mn, Mw_of_AB1B2 1 (fun _ => 1) (fun _ => 2) (fun _ => 100) 1 80 (340 / 7) (520 / 7) (260 / 7)) /\ 0 < Mn <= 3 * Mn.
Proof.
  destruct (C38_case3_Mw 1 1 100 80 (1 / 2) (1 / 4) (340 / 7) (520 / 7) (260 / 7)) as [Mn E]; try lra.
  { unfold recursion_AB1B2. simpl. lra. }
  exists Mn. split; [exact E|].
  destruct (C39_case3_order 1 1 100 80 (1 / 2) (1 / 4)) as [Mn' [Mw' [E' H]]]; try lra.
  rewrite E in E'. injection E'; intros _ <-. lra.
Qed.

Example C38_equal_case : Mw_of_AB 1 1 (fun _ => 1) (fun _ => 1) (fun _ => 2) (fun _ => 2) (fun _ => 100) (fun _ => 80) (260 / 3) (280 / 3) =
  Mw_of_AB1B2 1 (fun _ => 1) (fun _ => 2) (fun _ => 100) 1 80 (260 / 3) (280 / 3) (280 / 3).
Proof.
  apply (C38_equal_sites 1 (fun _ => 1) (fun _ => 2) (fun _ => 100) 1 80 (1 / 2) (1 / 2)); try lra.
  unfold recursion_AB1B2. simpl. lra.
Qed.

Example C38_miller1_case : exists Mn, Miller_1 1 2 3 3 150 100 80 (1 / 2) (1 / 2) =
  Ok (Mn, Mw_of_AB1B2 2 (pair2 1 2) (pair2 (INR 3) 2) (pair2 150 100) 3 80 (2955 / 34) (4175 / 34) (4175 / 34)).
Proof.
  apply C38_miller1_Mw; try (simpl; lra).
  - unfold mass_AB2. simpl. lra.
  - unfold recursion_AB1B2. simpl. lra.
Qed.

(** half of the Af units have reacted once and a quarter twice *)
Example C38_miller2_case : exists Mn, Miller_2 1 1 2 100 80 (pair2 (1 / 2) (1 / 4)) =
  (Fin Mn, Fin (Mw_of_M2 1 1 2 100 80 (pair2 (1 / 2) (1 / 4)) (1 / 2) (560 / 3) (520 / 3))) /\ 0 < Mn.
Proof.
  assert (E : 1 * sumn 2 (fun i => INR (S i) * pair2 (1 / 2) (1 / 4) i) / (2 * 1) = 1 / 2) by (simpl; lra).
  destruct (C38_miller2_Mw 1 1 2 100 80 (pair2 (1 / 2) (1 / 4)) (560 / 3) (520 / 3)) as [Mn H]; try (simpl; lra).
  { unfold recursion_M2. simpl. lra. }
  rewrite E in H. exists Mn. split; [exact H|].
  destruct (C39_miller2_order 1 1 2 100 80 (pair2 (1 / 2) (1 / 4))) as [Mn' [Mw' [E' H']]]; try (simpl; lra).
  { intros [|i] _; simpl; lra. }
  rewrite H in E'. injection E'; intros _ <-. lra.
Qed.

Example C38_binomial_case : Miller_2 1 2 2 100 80 (fun i => Binomial.C 2 (S i) * (1 / 2) ^ S i * (1 - 1 / 2) ^ (2 - S i)) =
  Stockmayer 1 1 (fun _ => 1) (fun _ => 2) (fun _ => INR 2) (fun _ => 2) (fun _ => 100) (fun _ => 80) (INR 2 * 1 * (1 / 2) / (2 * 2)).
Proof. apply C38_miller2_binomial; try lia; try lra. simpl; lra. Qed.

(** fully reacted trifunctional units with a stoichiometric amount of B2: a gel *)
Example C39_miller2_gel_case : Miller_2 1 (3 / 2) 3 100 80 (fun i => match i with 2%nat => 1 | _ => 0 end) = (NaN, NaN).
Proof. apply C39_miller2_gel; simpl; lra. Qed.

Example C39_flory_case : exists Mn Mw Mz, Flory_Af 4 100 (1 / 4) = Ok (Fin Mn, Fin Mw, Fin Mz) /\ 100 <= Mn <= Mw /\ Mw <= Mz.
Proof. apply C39_flory_order; [lia|lra|lra|simpl; lra]. Qed.
End Step.

(* ================================================================== *)
(** * Copolymerisation                                                  *)
(* ================================================================== *)
Section Copo.
From Verif Require Import RootsModel CopoModel CopoProps CopoStatProps CopoPenProps CopoMultiModel LinAlg CopoMultiProps CopoTupleProps.

Example C30_transitions_case : (exists P, transitions 2 (1 / 2) (1 / 4) = Ok P /\ P11 P + P12 P = 1 /\ P21 P + P22 P = 1) /\
  transitions 2 (1 / 2) (5 / 4) = Err RangeError.
Proof.
  split.
  - destruct (proj1 (C30_transitions (1 / 4) 2 (1 / 2))) as [P (E & _ & _ & _ & _ & S1 & S2)]; [unfold admissible; lra|].
    exists P. auto.
  - apply (C30_transitions (5 / 4) 2 (1 / 2)). lra.
Qed.

Example C30_triads_case : exists t F, triads_e eps 2 (1 / 2) (1 / 4) = Ok t /\ inst_copolymer_binary (1 / 4) 2 (1 / 2) = Fin F /\
  A111 t + A112 t + A212 t + A222 t + A221 t + A121 t = 1 /\ A111 t + A112 t + A212 t <= F.
Proof.
  destruct (C30_triads eps (1 / 4) 2 (1 / 2)) as [t [P [F (E & _ & EF & _ & _ & _ & _ & _ & _ & S & [B _] & _)]]].
  - unfold eps. apply Rlt_le, Rinv_0_lt_compat, pow_lt. lra.
  - unfold admissible. lra.
  - exists t, F. repeat split; auto. lra.
Qed.

Example C30_sequences_case : exists P m, transitions 2 (1 / 2) (1 / 4) = Ok P /\ sequence_mean 2 (1 / 2) (1 / 4) = Ok m /\
  is_series (fun k => seq_dist (P11 P) (S k)) 1 /\ fst m < / (1 - P11 P).
Proof.
  destruct (C30_sequences (1 / 4) 2 (1 / 2)) as [P [m (E & Em & _ & H)]]; try lra.
  exists P, m. destruct (H (P11 P) (fst m)) as (_ & _ & S & _ & D & _); [now left|]. repeat split; auto. lra.
Qed.

Example C31_case2 : exists P Q t, transitions 2 (1 / 2) (1 / 4) = Ok P /\ ptransitions 2 (1 / 2) 2 (1 / 2) (1 / 4) = Ok Q /\
  P111 Q = P11 P /\ ptriads 2 (1 / 2) 2 (1 / 2) (1 / 4) = Ok t /\ Rabs (A111 t - P11 P ^ 2) <= 2 * eps.
Proof.
  assert (I : interior 2 (1 / 2) 2 (1 / 2) (1 / 4)) by (unfold interior; lra).
  destruct (C31_transitions 2 (1 / 2) (1 / 4) I) as [P [Q (E & EQ & H & _)]].
  destruct (C31_triads 2 (1 / 2) (1 / 4) I) as [t [P' (Et & E' & B & _)]].
  rewrite E in E'. injection E'; intros <-. exists P, Q, t. auto.
Qed.

(** a ternary feed, all reactivity ratios 2 *)
Example C32_feed_case : exists F, inst_copolymer_multi gauss 3 (Some (fun i => match i with O => 1 / 2 | 1%nat => 1 / 4 | _ => 1 / 4 end)) (Some (fun _ _ => 2)) None = Ok F /\
  sumn 3 F = 1 /\ forall i, (i < 3)%nat -> 0 <= F i <= 1.
Proof.
  destruct (C32_from_feed gauss 3 (fun i => match i with O => 1 / 2 | 1%nat => 1 / 4 | _ => 1 / 4 end) (fun _ _ => 2)) as [F (E & B & S & _)].
  - apply solve_spec_gauss.
  - lia.
  - split; [intros [|[|i]] _; lra|simpl; lra].
  - intros i j _ _. lra.
  - exists F. auto.
Qed.

Example C32_stationary_case : exists F, inst_copolymer_multi gauss 3 None None (Some (fun i j => if Nat.eqb i j then 1 / 2 else 1 / 4)) = Ok F /\
  (forall i, (i < 3)%nat -> F i = 1 / 3).
Proof.
  destruct (C32_stationary gauss 3 (fun i j => if Nat.eqb i j then 1 / 2 else 1 / 4)) as [F (E & _ & _ & _ & U)].
  - apply solve_spec_gauss.
  - lia.
  - split; [intros i j _ _; destruct (Nat.eqb i j); lra|intros [|[|[|i]]] Hi; [simpl; lra..|lia]].
  - exists 0%nat. split; [lia|intros i _; destruct (Nat.eqb i 0); lra].
  - exists F. split; [exact E|]. intros i Hi. apply (U (fun _ => 1 / 3)); [simpl; lra| |exact Hi].
    intros [|[|[|j]]] Hj; [simpl; lra..|lia].
Qed.

Example C32_radicals_case : exists p, radical_fractions_multi gauss 2 (fun _ => 1 / 2) (fun i j => match i with O => 100 | _ => 300 end) = Ok p /\
  p 0%nat = 3 / 4 /\ p 1%nat = 1 / 4.
Proof.
  destruct (C32_radicals gauss 2 (fun _ => 1 / 2) (fun i j => match i with O => 100 | _ => 300 end)) as [p (E & _ & _ & _ & U)].
  - apply solve_spec_gauss.
  - lia.
  - split; [intros; lra|simpl; lra].
  - intros [|i] j _ _ _; lra.
  - exists p. split; [exact E|]. pose proof (U (fun i => match i with O => 3 / 4 | _ => 1 / 4 end)) as V.
    assert (Q : forall i, (i < 2)%nat -> p i = match i with O => 3 / 4 | _ => 1 / 4 end).
    { apply V; [simpl; lra|]. intros [|[|i]] Hi; [simpl; lra..|lia]. }
    split; [apply (Q 0%nat); lia|apply (Q 1%nat); lia].
Qed.

(** pentads of a ternary chain with identical rows *)
Example C33_total_case : exists d, tuples_multi gauss 3 (fun i j => if Nat.eqb i j then 1 / 2 else 1 / 4) 5 None = Ok d /\ lsum snd d = 1.
Proof.
  destruct (C33_total_one gauss 3 (fun i j => if Nat.eqb i j then 1 / 2 else 1 / 4) 5) as [d (E & S & _)].
  - apply solve_spec_gauss.
  - lia.
  - lia.
  - split; [intros i j _ _; destruct (Nat.eqb i j); lra|intros [|[|[|i]]] Hi; [simpl; lra..|lia]].
  - exists 0%nat. split; [lia|intros i _; destruct (Nat.eqb i 0); lra].
  - exists d. auto.
Qed.

Example C33_marginal_case : exists d d', tuples_multi gauss 3 (fun i j => if Nat.eqb i j then 1 / 2 else 1 / 4) 2 (Some (fun _ => 1 / 3)) = Ok d /\
  tuples_multi gauss 3 (fun i j => if Nat.eqb i j then 1 / 2 else 1 / 4) 3 (Some (fun _ => 1 / 3)) = Ok d' /\
  forall t, valid 3 2 t -> sumn 3 (fun k => mass d' (t ++ [k])) = mass d t.
Proof.
  apply (C33_marginal gauss 3 _ 2).
  - lia.
  - split; [intros i j _ _; destruct (Nat.eqb i j); lra|intros [|[|[|i]]] Hi; [simpl; lra..|lia]].
  - intros [|[|[|j]]] Hj; [simpl; lra..|lia].
Qed.

(** styrene, methyl methacrylate and acrylonitrile *)
Example C34_Qe_case : exists M, convert_Qe_to_r [(1, - (8 / 10)); (74 / 100, 40 / 100); (48 / 100, 123 / 100)] = Ok M /\
  ent M 0 1 * ent M 1 0 = exp (- (144 / 100)) /\ ent M 0 1 * ent M 1 2 * ent M 2 0 = ent M 0 2 * ent M 2 1 * ent M 1 0.
Proof.
  destruct (C34_Qe [(1, - (8 / 10)); (74 / 100, 40 / 100); (48 / 100, 123 / 100)]) as [M [E H]].
  - intros x [<-|[<-|[<-|[]]]]; simpl; lra.
  - exists M. split; [exact E|]. destruct (H 0%nat 1%nat 2%nat) as (_ & P & _ & A); [simpl; lia..|]. split; [|exact A].
    rewrite P. f_equal. simpl. lra.
Qed.

Example C34_zero_case : convert_Qe_to_r [(2, 1); (0, 3)] = Err ZeroDivisionError.
Proof. apply C34_zero_Q. lra. Qed.

(** f1 = 1/2, r1 = 2, r2 = 1/2, k11 = 100, k22 = 50: cross rates 50 and 100, so 2/3 of the
    radicals end in monomer 1 *)
Example C72_terminal_case : kp_average_binary (1 / 2) 2 (1 / 2) 100 50 = Fin 75.
Proof. rewrite (C72_terminal (1 / 2) 2 (1 / 2) 100 50 (2 / 3) (1 / 3)); try lra. f_equal. lra. Qed.

(** A drift that is not constant: r1 = 2, r2 = 1/2, equimolar feed.  The solution of the
    equation is f = (u - 1) / (u + 1) with u = sqrt (1 + 8 (1 - x + eps) / (1 + eps)). *)
Definition drift_u (x : R) : R := sqrt (1 + 8 / (1 + eps) * (1 - x + eps)).
Definition drift_f (x : R) : R := (drift_u x - 1) / (drift_u x + 1).
Definition drift_F (y : R) : R := 2 * y / (1 + y).
Lemma eps_pos : 0 < eps.
Proof. unfold eps. apply Rinv_0_lt_compat, pow_lt. lra. Qed.
Lemma drift_arg x : 0 <= x <= 1 -> 1 < 1 + 8 / (1 + eps) * (1 - x + eps).
Proof.
  intros Hx. pose proof eps_pos. assert (0 < 8 / (1 + eps)) by (apply Rdiv_lt_0_compat; lra). nra.
Qed.
Lemma drift_u_gt1 x : 0 <= x <= 1 -> 1 < drift_u x.
Proof.
  intros Hx. unfold drift_u. rewrite <- sqrt_1 at 1. apply sqrt_lt_1; try lra; pose proof (drift_arg x Hx); lra.
Qed.
Lemma drift_u_sq x : 0 <= x <= 1 -> drift_u x * drift_u x = 1 + 8 / (1 + eps) * (1 - x + eps).
Proof. intros Hx. unfold drift_u. apply sqrt_sqrt. pose proof (drift_arg x Hx). lra. Qed.

Example C73_drift_case : drift_solution 2 (1 / 2) drift_F drift_f 1 /\ drift_f 0 = 1 / 2 /\
  (forall x y, 0 <= x < y -> y <= 1 -> drift_f y < drift_f x).
Proof.
  pose proof eps_pos as HE.
  assert (B : forall x, 0 <= x <= 1 -> 0 < drift_f x < 1).
  { intros x Hx. pose proof (drift_u_gt1 x Hx). unfold drift_f. split.
    - apply Rdiv_lt_0_compat; lra.
    - apply (Rmult_lt_reg_r (drift_u x + 1)); [lra|]. replace ((drift_u x - 1) / (drift_u x + 1) * (drift_u x + 1)) with (drift_u x - 1) by (field; lra). lra. }
  assert (S : drift_solution 2 (1 / 2) drift_F drift_f 1).
  { split; [|split].
    - intros y Hy. rewrite inst_val by (repeat split; lra). f_equal. unfold F1val, drift_F. field. split; nra.
    - intros x Hx. pose proof (B x Hx). lra.
    - intros x Hx. pose proof (drift_u_gt1 x Hx) as U. pose proof (drift_u_sq x Hx) as Q.
      assert (D : is_derive drift_u x (- (4 / (1 + eps)) / drift_u x)).
      { unfold drift_u. auto_derive; [pose proof (drift_arg x Hx); repeat split; lra|].
        replace (1 + 8 / (1 + eps) * (1 + - x + eps)) with (1 + 8 / (1 + eps) * (1 - x + eps)) by ring.
        fold (drift_u x). field. split; lra. }
      assert (DF : is_derive drift_f x (- (4 / (1 + eps)) / drift_u x * (2 / (drift_u x + 1) ^ 2))).
      { unfold drift_f. apply (is_derive_comp (fun u => (u - 1) / (u + 1)) drift_u x (2 / (drift_u x + 1) ^ 2)); [|exact D].
        auto_derive; [lra|]. field. lra. }
      match goal with |- is_derive _ _ ?v => replace v with (- (4 / (1 + eps)) / drift_u x * (2 / (drift_u x + 1) ^ 2)); [exact DF|] end.
      unfold df1dx, drift_F, drift_f.
      assert (E : 1 - x + eps = (drift_u x * drift_u x - 1) * (1 + eps) / 8) by (rewrite Q; field; lra).
      rewrite E. field. repeat split; try lra; nra. }
  split; [exact S|]. split.
  - unfold drift_f. assert (E : drift_u 0 = 3).
    { unfold drift_u. replace (1 + 8 / (1 + eps) * (1 - 0 + eps)) with (3 * 3) by (field; lra). apply sqrt_square. lra. }
    rewrite E. lra.
  - apply (C73_direction 2 (1 / 2) drift_F drift_f 1); try lra; auto. intros x Hx. pose proof (B x Hx).
    unfold drift_F. apply (Rmult_lt_reg_r (1 + drift_f x)); [lra|]. replace (2 * drift_f x / (1 + drift_f x) * (1 + drift_f x)) with (2 * drift_f x) by (field; lra). nra.
Qed.

Example C74_drift_case : exists I, is_RInt (fun x => drift_F (drift_f x)) 0 (1 / 2) I /\
  Rabs (F1_cum (drift_f 0) (drift_f (1 / 2)) (1 / 2) - I / (1 / 2)) <= (eps + 1 / 10 ^ 10 / (1 / 2)) / (1 / 2).
Proof.
  assert (S : drift_solution 2 (1 / 2) drift_F drift_f (1 / 2)).
  { destruct C73_drift_case as [[S1 [S2 S3]] _]. split; [exact S1|]. split; intros x Hx; [apply S2|apply S3]; lra. }
  eexists. split; [apply (C73_balance 2 (1 / 2)); [lra|lra|lra|exact S]|].
  apply (C74_cumulative 2 (1 / 2) drift_F drift_f); try lra; auto. apply (C73_balance 2 (1 / 2)); try lra. exact S.
Qed.
End Copo.

(* ================================================================== *)
(** * Reactions                                                         *)
(* ================================================================== *)
Section React.
From Verif Require Import ReactModel ReactProps.

Definition rx_ex : prop := mkProp (mkSpecies 0 SScalar (Some 0%nat)) (mkSpecies 1 SDist (Some 1%nat)) None (fun _ => Ok 5).
Definition rx_ex2 : prop := mkProp (mkSpecies 0 SScalar (Some 0%nat)) (mkSpecies 1 SDist (Some 1%nat)) (Some (mkSpecies 2 SScalar (Some 4%nat))) (fun _ => Ok 5).

(** chains of one unit (concentration 3) and two units (concentration 4): the moments are
    7, 11 and 19 *)
Example C103_moments_case : let p := fun n => match n with 1%nat => 3 | 2%nat => 4 | _ => 0 end in
  exists y, prop_eval rx_ex 300 [2; 7; 11; 19] [0; 0; 0; 0] = Ok y /\
   forall q, (q <= 2)%nat -> nth (1 + q) y 0 - nth (1 + q) [0; 0; 0; 0] 0 = moment q (balance (5 * 2) p) 3.
Proof.
  intros p. destruct (C103_moments rx_ex 300 [2; 7; 11; 19] [0; 0; 0; 0] 0 1 5 p 2) as [y (E & H & _)]; try (simpl; lia); try reflexivity.
  - repeat split.
  - simpl. lra.
  - simpl. lra.
  - exists y. split; [exact E|exact H].
Qed.

Example C103_rate_case : exists y v, prop_eval rx_ex2 300 [2; 7; 11; 19; 0] [0; 0; 0; 0; 0] = Ok y /\ rate rx_ex2 [2; 7; 11; 19; 0] 300 = Ok v /\ nth 4 y 0 = nth 4 [0; 0; 0; 0; 0] 0 + v.
Proof.
  destruct (C103_rate rx_ex2 300 [2; 7; 11; 19; 0] [0; 0; 0; 0; 0] 0 1 4 5) as [y [v (E & V & _ & H & _)]]; try (simpl; lia); try reflexivity.
  - repeat split.
  - exists y, v. auto.
Qed.

Example C103_raises_case : prop_eval rx_ex 300 [2; 7] [0; 0; 0; 0] = Err IndexError /\ prop_eval rx_ex 300 [2; 7; 11; 19] [0; 0] = Err IndexError /\
  prop_eval (mkProp (mkSpecies 0 SScalar None) (mkSpecies 1 SDist (Some 1%nat)) None (fun _ => Ok 5)) 300 [2; 7; 11; 19] [0; 0; 0; 0] = Err AttributeError.
Proof.
  split; [|split].
  - apply (C103_raises rx_ex 300 [2; 7] [0; 0; 0; 0]) with (iM := 0%nat) (iP := 1%nat) (iA := None); [repeat split|simpl; lia].
  - apply (C103_raises rx_ex 300 [2; 7; 11; 19] [0; 0]) with (iM := 0%nat) (iP := 1%nat) (iA := None) (k := 5); [repeat split|reflexivity|simpl; lia].
  - apply C103_raises. reflexivity.
Qed.

Example C103_order_case : rates_loop (as_reactions [(0%nat, rx_ex); (1%nat, rx_ex2)]) 300 [2; 7; 11; 19; 0] [0; 0; 0; 0; 0] =
  rates_loop (as_reactions [(1%nat, rx_ex2); (0%nat, rx_ex)]) 300 [2; 7; 11; 19; 0] [0; 0; 0; 0; 0].
Proof.
  apply C103_order; [reflexivity| |apply Permutation.perm_swap].
  constructor; [|constructor; [|constructor]].
  - exists 0%nat, 1%nat, None, 5. repeat split; simpl; lia.
  - exists 0%nat, 1%nat, (Some 4%nat), 5. repeat split; simpl; lia.
Qed.
End React.

(* ================================================================== *)
(** * Confidence regions                                                *)
(* ================================================================== *)
Section Jcr.
From Verif Require Import RootsModel HmtProps JcrModel JcrProps JcrEllProps QrProps.

(** covariance matrix [[2, 1], [1, 2]], 12 points, quantiles 5 (F) and 2 (t) *)
Definition cov_ex : nat -> nat -> R := fun i j => if Nat.eqb i j then 2 else 1.
Example C98_ellipse_case : exists e el deg, eigh_spec cov_ex e /\
  confidence_ellipse (fun _ _ => 5) (fun _ _ => 2) (fun _ => e) 2 (3, 4) 2 2 cov_ex 12 (5 / 100) true = Ok el /\ el_angle el = Fin deg /\
  (forall t, quad2 cov_ex (3, 4) (patch_point (3, 4) (el_width el) (el_height el) deg t) = 10).
Proof.
  set (r := sqrt 2 / 2).
  set (e := mkEig 1 3 (fun i j : nat => match i, j with 0%nat, 0%nat => - r | _, _ => r end)).
  assert (R2 : sqrt 2 * sqrt 2 = 2) by (apply sqrt_sqrt; lra).
  assert (S : eigh_spec cov_ex e).
  { unfold eigh_spec, e, r, cov_ex. cbn [eg_w0 eg_w1 eg_v]. repeat split; try lra; try nra; intros i Hi; destruct i as [|[|i]]; cbn; try lra; lia. }
  destruct (proj2 (C98_accepts (fun _ _ => 5) (fun _ _ => 2) (fun _ => e) 2 (3, 4) 2 2 cov_ex 12 (5 / 100) true)) as [el E]; [repeat split; try lra; lia|].
  destruct (C98_ellipse _ _ _ _ _ _ _ _ _ E) as [deg (D & _ & H & _)]; try exact S; try reflexivity; try (simpl; lra).
  exists e, el, deg. split; [exact S|]. split; [exact E|]. split; [exact D|]. intros t. rewrite H. lra.
Qed.

Example C98_bars_case e : exists el a b, confidence_ellipse (fun _ _ => 5) (fun _ _ => 2) (fun _ => e) 2 (3, 4) 2 2 cov_ex 12 (5 / 100) true = Ok el /\
  el_ci el = Some (a, b) /\ a * a = 8 /\ 0 <= a.
Proof.
  destruct (proj2 (C98_accepts (fun _ _ => 5) (fun _ _ => 2) (fun _ => e) 2 (3, 4) 2 2 cov_ex 12 (5 / 100) true)) as [el E]; [repeat split; try lra; lia|].
  pose proof (C98_bars _ _ _ _ _ _ _ _ _ E ltac:(unfold cov_ex; simpl; lra) ltac:(unfold cov_ex; simpl; lra) ltac:(unfold cov_ex; simpl; lra)) as H.
  cbv beta zeta iota in H. destruct H as [a [b (C & A & _ & P & _)]].
  exists el, a, b. split; [exact E|]. split; [exact C|]. split; [rewrite A; unfold cov_ex; simpl; lra|apply P; lra].
Qed.

(** a paraboloid around (4, -1): level B = 2 at radius 10 *)
Definition bowl (p : R * R) : R := 3 * (1 + / 100 * ((fst p - 4) ^ 2 + (snd p - -1) ^ 2)).
Lemma bowl_ray th r : bowl (point (4, -1) th r) = bowl (4, -1) * (1 + / 100 * r ^ 2).
Proof.
  unfold bowl, point. cbn [fst snd]. pose proof (sin2_cos2 th) as H. unfold Rsqr in H.
  replace ((4 + r * cos th - 4) ^ 2 + (-1 + r * sin th - -1) ^ 2) with (r ^ 2 * (sin th * sin th + cos th * cos th)) by ring.
  rewrite H. ring.
Qed.
Lemma bowl_eps : eps <= Rabs (bowl (4, -1)).
Proof.
  unfold bowl. cbn [fst snd]. rewrite Rabs_pos_eq by nra. replace (3 * (1 + / 100 * ((4 - 4) ^ 2 + (-1 - -1) ^ 2))) with 3 by ring.
  unfold eps. assert (1 <= 2 ^ 52) by (apply pow_R1_Rle; lra). apply Rle_trans with 1; [|lra]. rewrite <- Rinv_1. apply Rinv_le_contravar; lra.
Qed.
Example C99_ray_case th : exists x, find_radius bowl (4, -1) 2 (1 / 100) th 20 = (true, Fin x) /\ 10 <= exp x.
Proof.
  destruct (C99_ray bowl (4, -1) 2 (1 / 100) th 20 (/ 100) 10) as [x (E & H & _)]; try lra.
  - apply bowl_eps.
  - intros r _. apply bowl_ray.
  - exists x. auto.
Qed.
Example C99_near_case th : exists x, find_radius bowl (4, -1) 2 (1 / 100) th 11 = (true, Fin x) /\ Rabs (x - ln 10) <= 16 / 1000.
Proof.
  destruct (C99_ray_near bowl (4, -1) 2 (1 / 100) th 11 (/ 100) 10) as [x (E & H)]; try lra.
  - apply bowl_eps.
  - intros r _. apply bowl_ray.
  - exists x. split; [exact E|]. rewrite Rmax_right in H by lra. lra.
Qed.
Example C99_low_case th : exists x, find_radius bowl (4, -1) 2 (1 / 100) th 7 = (true, Fin x) /\ Rabs (x - ln 10) <= 16 / 1000.
Proof.
  destruct (C99_ray_low bowl (4, -1) 2 (1 / 100) th 7 (/ 100) 10) as [x (E & H)]; try lra.
  - apply bowl_eps.
  - intros r _. apply bowl_ray.
  - exists x. split; [exact E|]. rewrite Rmax_right in H by lra. lra.
Qed.
Example C99_range_case th : exists x, find_radius bowl (4, -1) 2 (1 / 100) th 500 = (true, Fin x) /\ - (16 / 1000) <= x - ln 10 <= 5 / 100.
Proof.
  destruct (C99_ray_range bowl (4, -1) 2 (1 / 100) th 500 (/ 100) 10) as [x (E & H)]; try lra.
  - apply bowl_eps.
  - intros r _. apply bowl_ray.
  - exists x. split; [exact E|]. rewrite !Rmax_right in H by lra. lra.
Qed.
Example C99_points_case : exists pts, confidence_region (fun _ _ => 5) bowl 2 (4, -1) 12 (5 / 100) 0 200 (1 / 100) = Ok pts /\ List.length pts = 200%nat.
Proof.
  destruct (C99_points_partial (fun _ _ => 5) bowl (4, -1) 12 (5 / 100) 0 200 (1 / 100)) as [pts (E & L & _)].
  - unfold args_ok. repeat split; try lia; try lra.
  - apply bowl_eps.
  - unfold bound. simpl. lra.
  - unfold guess0. replace (Rltb 0 0) with false by (symmetry; apply HmtProps.Rltb_f; lra). simpl. lra.
  - exists pts. auto.
Qed.
Example C99_scale_case : confidence_region (fun _ _ => 5) (fun p => 2 * bowl p) 2 (4, -1) 12 (5 / 100) 0 200 (1 / 100) =
  confidence_region (fun _ _ => 5) bowl 2 (4, -1) 12 (5 / 100) 0 200 (1 / 100).
Proof.
  apply C99_scale; [lra|apply bowl_eps|]. rewrite Rabs_mult, (Rabs_pos_eq 2) by lra. pose proof bowl_eps. pose proof (Rabs_pos (bowl (4, -1))). lra.
Qed.
Example C99_translation_case : confidence_region (fun _ _ => 5) (fun p => bowl (fst p - 1, snd p - 2)) 2 (shift (1, 2) (4, -1)) 12 (5 / 100) 1 200 (1 / 100) =
  match confidence_region (fun _ _ => 5) bowl 2 (4, -1) 12 (5 / 100) 1 200 (1 / 100) with Ok l => Ok (map (option_map (shift (1, 2))) l) | Err e => Err e end.
Proof. apply (C99_translation (fun _ _ => 5) bowl (4, -1) (1, 2)). lra. Qed.
End Jcr.

(* ================================================================== *)
(** * Flash                                                             *)
(* ================================================================== *)
Section Flash.
From Verif Require Import RootsModel FlashModel FlashRRProps FlashProps.

Definition z_ex : nat -> R := fun _ => 1 / 2.
Definition k_ex : nat -> R := fun i => match i with O => 2 | _ => 1 / 2 end.
Lemma feed_ex : feed 2 z_ex.
Proof. split; [intros; unfold z_ex; lra|simpl; unfold z_ex; lra]. Qed.
Lemma pos_ex : positive 2 k_ex.
Proof. intros [|i] _; simpl; lra. Qed.

(** an equimolar feed with K = 2 and 1/2: half of it evaporates *)
Example C40_result_case : exists r, solve_RR 2 (fin k_ex) z_ex (Some (1 / 4)) 50 (1 / 10 ^ 6) = Ok r /\ 0 <= rs_beta r <= 1 /\
  (rs_success r = true -> slope_min 2 k_ex z_ex * Rabs (rs_beta r - 1 / 2) <= 1 / 10 ^ 6).
Proof.
  destruct (C40_result 2 k_ex z_ex (Some (1 / 4)) 50 (1 / 10 ^ 6)) as [r (E & B & _ & _ & _ & H)].
  - apply feed_ex.
  - intros i Hi. left. apply pos_ex. exact Hi.
  - lra.
  - lia.
  - exists r. split; [exact E|]. split; [exact B|]. intros S. destruct H as [_ H].
    + unfold k_ex, z_ex. simpl. lra.
    + intros _. unfold k_ex, z_ex. simpl. lra.
    + destruct (H S) as (_ & _ & _ & U). apply U; [lra| |].
      * intros [|i] _; simpl; lra.
      * unfold RR, k_ex, z_ex. simpl. lra.
Qed.
Example C40_residual_case : residual_RR 2 (1 / 4) (fin k_ex) z_ex = Fin (4 / 35) /\ RR 2 k_ex z_ex (3 / 4) < RR 2 k_ex z_ex (1 / 4).
Proof.
  destruct (C40_residual 2 k_ex z_ex (1 / 4)) as (E & _ & M).
  - apply feed_ex.
  - intros i Hi. apply Rlt_le, pos_ex, Hi.
  - lra.
  - split.
    + rewrite E. f_equal. unfold RR, k_ex, z_ex. simpl. lra.
    + apply M; [lra|]. exists 0%nat. split; [lia|]. unfold k_ex, z_ex. lra.
Qed.
Example C40_zero_case : solve_RR 2 (fin k_ex) z_ex (Some (1 / 4)) 0 (1 / 10 ^ 6) = Err UnboundLocalError.
Proof. apply C40_maxiter_zero; [apply feed_ex|apply pos_ex|unfold k_ex, z_ex; simpl; lra|unfold k_ex, z_ex; simpl; lra]. Qed.

(** the whole flash with constant K values: it succeeds, and the theorem on successful
    results applies to it *)
Example C41_PT_case : exists r b, flash2_PT (fun _ _ _ _ => k_ex) 2 10 z_ex 1 300 None None None 1000 (1 / 100) 0 0 = Ok r /\ fr_success r = true /\
  fr_beta r = Fin b /\ 0 <= b <= 1 /\ sumn 2 (fr_x r) = 1 /\ sumn 2 (fr_y r) = 1.
Proof.
  destruct (C41_PT_ideal k_ex 2 10 z_ex 1 300 None None None 1000 (1 / 100) 0 0 400) as [r [E S]].
  - intros; unfold z_ex; lra.
  - simpl; unfold z_ex; lra.
  - apply pos_ex.
  - lra.
  - lra.
  - rewrite INR_IZR_INZ. unfold slope_max, normalise, k_ex, z_ex. cbn -[Rmin].
    rewrite (Rmin_left 1 2), (Rmin_right 1 (1 / 2)) by lra. lra.
  - lia.
  - destruct (C41_PT (fun _ _ _ _ => k_ex) 2 0 10 z_ex 1 300 None None None 1000 (1 / 100) 0 0 r) as [b [k (B & I & _ & _ & _ & X & Y & _)]]; auto; try lra; try lia.
    + intros; unfold z_ex; lra.
    + unfold z_ex; lra.
    + intros x y i Hi. apply Rlt_le, pos_ex, Hi.
    + intros x y. apply pos_ex. lia.
    + exists r, b. auto 10.
Qed.
Example C41_TV_log_case2 : let re := logP_re 2 0 1 1 1 1 in let im := logP_im 2 0 1 1 1 1 in
  2 * 1 = exp (0 + 1 * 1 / 1 + re) * cos (1 * 1 / 1 + im) /\ 0 < 1 * 1 / 1 + im < PI.
Proof. destruct (C41_TV_log 2 0 1 1 1 1) as (A & _ & B); [lra|lra|]. split; [exact A|exact B]. Qed.
End Flash.
