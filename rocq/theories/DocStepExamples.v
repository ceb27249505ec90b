(** The examples of the docstrings of stepgrowth/ and copolymerization/, evaluated in exact arithmetic: the
    value of the model lies in the range that rounds to the printed number. *)
From Coq Require Import Reals Lra Lia List Bool Arith ZArith.
From Verif Require Import Prelude KinModel RootsModel StepModel CopoModel CopoMultiModel IvTac DocTac.
Import ListNotations.
Open Scope R_scope.

Ltac ndv := repeat match goal with |- context [np_div ?a ?b] => unfold np_div at 1 end; brs 60%Z 3%nat.
Ltac num := iv_num 60%Z 3%nat.
(** solutions.py:74-76 *)
Example doc_Case_1 : exists Mn Mw, Case_1 (99 / 100) (100 / 101) 100 90 = Ok (Mn, Mw) /\ 63665 / 10 <= Mn <= 63675 / 10 /\ 126445 / 10 <= Mw <= 126455 / 10.
Proof. unfold Case_1. cbv zeta. brs 60%Z 3%nat. do 2 eexists. split; [reflexivity|]. split; num. Qed.
(** solutions.py:154-156 *)
Example doc_Case_3 : exists Mn Mw, Case_3 (99 / 100) (95 / 100) (100 / 101) 100 90 = Ok (Mn, Mw) /\ 27285 / 10 <= Mn <= 27295 / 10 /\ 53315 / 10 <= Mw <= 53325 / 10.
Proof. unfold Case_3. cbv zeta. brs 60%Z 3%nat. do 2 eexists. split; [reflexivity|]. split; num. Qed.
(** solutions.py:236-238 *)
Example doc_Case_5 : exists Mn, Case_5 (99 / 100) (95 / 100) ((2 + 1 / 100) / (202 / 100)) (1 / 100 / 2) 100 90 40 = Ok Mn /\ 68595 / 10 <= Mn <= 68605 / 10.
Proof. unfold Case_5. cbv zeta. brs 60%Z 3%nat. okv. num. Qed.
(** solutions.py:308-310 *)
Example doc_Case_6 : exists Mn, Case_6 (99 / 100) (2 / (1 / 100)) 100 80 = Ok Mn /\ 53665 / 10 <= Mn <= 53675 / 10.
Proof. unfold Case_6. cbv zeta. brs 60%Z 3%nat. okv. num. Qed.
(** solutions.py:381-383 *)
Example doc_Case_7 : exists Mn, Case_7 (99 / 100) (98 / 100) 2 100 80 = Ok Mn /\ 51995 / 10 <= Mn <= 52005 / 10.
Proof. unfold Case_7. cbv zeta. brs 60%Z 3%nat. okv. num. Qed.
(** solutions.py:457-459 *)
Example doc_Case_8 : exists Mn, Case_8 (99 / 100) (95 / 100) (100 / 101) (4 / 6) 100 90 50 = Ok Mn /\ 28225 / 10 <= Mn <= 28235 / 10.
Proof. unfold Case_8. cbv zeta. brs 60%Z 3%nat. okv. num. Qed.
(** solutions.py:548-551 *)
Example doc_Case_9 : exists Mn, Case_9 (99 / 100) (98 / 100) (999 / 1000) 1 (1 / 2) (9 / 6) 100 80 90 70 = Ok Mn /\ 99605 / 10 <= Mn <= 99615 / 10.
Proof. unfold Case_9. cbv zeta. brs 60%Z 3%nat. okv. num. Qed.
(** solutions.py:635-637 *)
Example doc_Case_10 : exists Mn, Case_10 (99 / 100) (98 / 100) (999 / 1000) (100 / 101) (6 / 4) 100 90 50 = Ok Mn /\ 60755 / 10 <= Mn <= 60765 / 10.
Proof. unfold Case_10. cbv zeta. brs 60%Z 3%nat. okv. num. Qed.
(** solutions.py:719-721 *)
Example doc_Case_11 : exists Mn, Case_11 (99 / 100) (999 / 1000) (98 / 100) (150 / 101) (100 / 101) 100 90 50 = Ok Mn /\ 55525 / 10 <= Mn <= 55535 / 10.
Proof. unfold Case_11. cbv zeta. brs 60%Z 3%nat. okv. num. Qed.
Definition v2 (a b : R) : nat -> R := fun i => match i with O => a | _ => b end.
(** solutions.py:803-806 *)
Example doc_Stockmayer : exists Mn Mw, Stockmayer 2 2 (v2 1 (1 / 100)) (v2 (101 / 100) (3 / 100)) (v2 2 3) (v2 2 1) (v2 100 150) (v2 80 40) (99 / 100) = (Fin Mn, Fin Mw)
  /\ 89505 / 10 <= Mn <= 89515 / 10 /\ 347215 / 10 <= Mw <= 347225 / 10.
Proof. unfold Stockmayer, dot. cbv zeta. cbn [sumn v2]. brs 60%Z 3%nat. do 2 eexists. split; [reflexivity|]. split; num. Qed.
(** solutions.py:892-894 *)
Example doc_Flory_Af : exists Mn Mw Mz, Flory_Af 4 100 (30 / 100) = Ok (Fin Mn, Fin Mw, Fin Mz) /\ Mn = 250 /\ Mw = 1300 /\ 77615 / 10 <= Mz <= 77625 / 10.
Proof.
  unfold Flory_Af. cbv zeta. replace (INR 4) with 4 by (rewrite INR_IZR_INZ; reflexivity). brs 60%Z 3%nat. do 3 eexists. split; [reflexivity|].
  split; [field|]. split; [field|]. num.
Qed.
(** solutions.py:970-972 *)
Example doc_Miller_1 : exists Mn Mw, Miller_1 (1 / 10) (9 / 10) 1 3 150 100 80 (95 / 100) (90 / 100) = Ok (Mn, Mw) /\ 12325 / 10 <= Mn <= 12335 / 10 /\ 50235 / 10 <= Mw <= 50245 / 10.
Proof. unfold Miller_1. cbv zeta. replace (INR 3) with 3 by (rewrite INR_IZR_INZ; reflexivity). brs 60%Z 3%nat. do 2 eexists. split; [reflexivity|]. split; num. Qed.
(** solutions.py:1060-1062 *)
Example doc_Miller_2 : exists Mn Mw, Miller_2 1 (3 / 2) 3 100 80 (fun i => match i with O => 1 / 10 | 1%nat => 2 / 10 | _ => 4 / 10 end) = (Fin Mn, Fin Mw)
  /\ 2745 / 10 <= Mn <= 2755 / 10 /\ 38215 / 10 <= Mw <= 38225 / 10.
Proof. unfold Miller_2. cbv zeta. cbn [sumn]. cbn [INR]. brs 60%Z 3%nat. do 2 eexists. split; [reflexivity|]. split; num. Qed.

(** binary.py:71-79 *)
Example doc_inst_binary : exists a b c d, inst_copolymer_binary (1 / 2) (16 / 100) (7 / 10) = Fin a /\ inst_copolymer_binary (2 / 10) (16 / 100) (7 / 10) = Fin b
  /\ inst_copolymer_binary (6 / 10) (16 / 100) (7 / 10) = Fin c /\ inst_copolymer_binary (8 / 10) (16 / 100) (7 / 10) = Fin d
  /\ 4055 / 10 ^ 4 <= a <= 4065 / 10 ^ 4 /\ 21487602 / 10 ^ 8 <= b <= 21487604 / 10 ^ 8 /\ 45812807 / 10 ^ 8 <= c <= 45812809 / 10 ^ 8 /\ 58259324 / 10 ^ 8 <= d <= 58259326 / 10 ^ 8.
Proof. unfold inst_copolymer_binary, np_div. cbv zeta. brs 60%Z 3%nat. do 4 eexists. do 4 (split; [reflexivity|]). repeat split; num. Qed.
(** binary.py:132-140 *)
Example doc_kp_binary : exists a b c d, kp_average_binary (1 / 2) (16 / 100) (7 / 10) 100 1000 = Fin a /\ kp_average_binary (2 / 10) (16 / 100) (7 / 10) 100 1000 = Fin b
  /\ kp_average_binary (6 / 10) (16 / 100) (7 / 10) 100 1000 = Fin c /\ kp_average_binary (8 / 10) (16 / 100) (7 / 10) 100 1000 = Fin d
  /\ 6215 / 10 <= a <= 6225 / 10 /\ b = 880 /\ 52387096 / 10 ^ 5 <= c <= 52387097 / 10 ^ 5 /\ 31718309 / 10 ^ 5 <= d <= 31718310 / 10 ^ 5.
Proof. unfold kp_average_binary, np_div. cbv zeta. brs 60%Z 3%nat. do 4 eexists. do 4 (split; [reflexivity|]). split; [num|]. split; [field|]. split; num. Qed.
(** multicomponent.py:107-110 *)
Example doc_ternary : exists F1 F2 F3, inst_copolymer_ternary (1 / 2) (3 / 10) (2 / 10) (23 / 10) 3 (9 / 10) (4 / 10) (15 / 10) = Some (F1, F2, F3)
  /\ 315 / 1000 <= F1 <= 325 / 1000 /\ 405 / 1000 <= F2 <= 415 / 1000 /\ 265 / 1000 <= F3 <= 275 / 1000.
Proof. unfold inst_copolymer_ternary, np_div. cbv zeta. brs 60%Z 3%nat. do 3 eexists. split; [reflexivity|]. repeat split; num. Qed.
(** multicomponent.py:207-213 *)
Definition doc_r : mat := fun i j => match i, j with
  | 0%nat, 1%nat => 2 / 10 | 1%nat, 0%nat => 23 / 10 | 0%nat, 2%nat => 3 | 2%nat, 0%nat => 9 / 10 | 1%nat, 2%nat => 4 / 10 | 2%nat, 1%nat => 15 / 10 | _, _ => 1 end.
Definition v3 (a b c : R) : vec := fun i => match i with 0%nat => a | 1%nat => b | _ => c end.
Definition doc_f : vec := v3 (5 / 10) (3 / 10) (2 / 10).
(** multicomponent.py:550-556 *)
Example doc_transitions :
  24193548 / 10 ^ 8 <= transitions_multi 3 doc_f doc_r 0%nat 0%nat <= 24193549 / 10 ^ 8 /\ 72580645 / 10 ^ 8 <= transitions_multi 3 doc_f doc_r 0%nat 1%nat <= 72580646 / 10 ^ 8
  /\ 21367521 / 10 ^ 8 <= transitions_multi 3 doc_f doc_r 1%nat 0%nat <= 21367522 / 10 ^ 8 /\ 49145299 / 10 ^ 8 <= transitions_multi 3 doc_f doc_r 1%nat 2%nat <= 49145300 / 10 ^ 8
  /\ 58139534 / 10 ^ 8 <= transitions_multi 3 doc_f doc_r 2%nat 0%nat <= 58139535 / 10 ^ 8 /\ 20930232 / 10 ^ 8 <= transitions_multi 3 doc_f doc_r 2%nat 1%nat <= 20930233 / 10 ^ 8.
Proof. unfold transitions_multi. cbn [sumn doc_f doc_r v3]. repeat split; num. Qed.
(** multicomponent.py:216-219, for every vector that solves the system *)
Example doc_inst_multi : forall solve F, solve_spec solve -> inst_copolymer_multi solve 3 (Some doc_f) (Some doc_r) None = Ok F ->
  32138110 / 10 ^ 8 <= F 0%nat <= 32138112 / 10 ^ 8 /\ 41041607 / 10 ^ 8 <= F 1%nat <= 41041609 / 10 ^ 8 /\ 26820281 / 10 ^ 8 <= F 2%nat <= 26820283 / 10 ^ 8.
Proof.
  intros solve F S E. unfold inst_copolymer_multi in E. cbn [bind] in E. pose proof (proj1 (S _ _ _) F E) as H.
  pose proof (H 0%nat ltac:(lia)) as H0. pose proof (H 1%nat ltac:(lia)) as H1. pose proof (H 2%nat ltac:(lia)) as H2.
  unfold stat_matrix, last_unit, transitions_multi in *. cbn [sumn Nat.eqb Nat.sub doc_f doc_r v3] in *.
  repeat split; lra.
Qed.
(** multicomponent.py:304-308 *)
Example doc_radicals : exists p1 p2 p3, radical_fractions_ternary (1 / 2) (3 / 10) 500 50 30 200 300 40 = (Fin p1, Fin p2, Fin p3)
  /\ 25012790 / 10 ^ 8 <= p1 <= 25012792 / 10 ^ 8 /\ 47956340 / 10 ^ 8 <= p2 <= 47956342 / 10 ^ 8 /\ 27030867 / 10 ^ 8 <= p3 <= 27030869 / 10 ^ 8.
Proof. unfold radical_fractions_ternary, np_div. cbv zeta. brs 60%Z 3%nat. do 3 eexists. split; [reflexivity|]. repeat split; num. Qed.
(** multicomponent.py:638-647 *)
Example doc_sequence : let P := transitions_multi 3 doc_f doc_r in
  75806451 / 10 ^ 8 <= sequence_multi (P 0%nat 0%nat) 1 <= 75806452 / 10 ^ 8 /\ 259718 / 10 ^ 8 <= sequence_multi (P 0%nat 0%nat) 5 <= 259720 / 10 ^ 8
  /\ 533090 / 10 ^ 8 <= sequence_multi (P 1%nat 1%nat) 5 <= 533092 / 10 ^ 8 /\ 151741 / 10 ^ 8 <= sequence_multi (P 2%nat 2%nat) 5 <= 151743 / 10 ^ 8.
Proof. cbv zeta. unfold sequence_multi, transitions_multi. cbn [sumn doc_f doc_r v3 Nat.sub]. repeat split; num. Qed.
