(** Statement added after a mutation round: the damped update of the equilibrium ratios in the PT flash (C78). *)
From Coq Require Import Reals Lra Lia List Bool Arith Psatz.
From Verif Require Import Prelude RootsModel CopoModel FlashModel FlashRRProps FlashProps.
Open Scope R_scope.

(** The updated ratio is the weighted geometric mean of new and old: between the two, equal to the new one without
    damping, and unchanged exactly when the new ratio equals the old one. *)
Theorem C78_update alpha kn k : 0 < kn -> 0 < k -> 0 < alpha <= 1 -> exists r,
  k_update alpha kn (Fin k) = Fin r /\ ln r = alpha * ln kn + (1 - alpha) * ln k /\
  Rmin kn k <= r <= Rmax kn k /\ (alpha = 1 -> r = kn) /\ (r = k <-> kn = k).
Proof.
  intros Hn Hk Ha. exists (exp (alpha * ln kn + (1 - alpha) * ln k)).
  assert (E : k_update alpha kn (Fin k) = Fin (exp (alpha * ln kn + (1 - alpha) * ln k))).
  { rewrite k_update_pos by assumption. unfold Rpower. now rewrite exp_plus. }
  assert (LE : forall a b, 0 < b -> a <= ln b -> exp a <= b).
  { intros a b Hb H. rewrite <- (exp_ln b) by exact Hb. destruct H as [H| ->]; [apply Rlt_le, exp_increasing, H|apply Rle_refl]. }
  assert (GE : forall a b, 0 < b -> ln b <= a -> b <= exp a).
  { intros a b Hb H. rewrite <- (exp_ln b) at 1 by exact Hb. destruct H as [H| <-]; [apply Rlt_le, exp_increasing, H|apply Rle_refl]. }
  assert (Mono : forall a b, 0 < a -> a <= b -> ln a <= ln b).
  { intros a b Ha' [H| ->]; [apply Rlt_le, ln_increasing; assumption|apply Rle_refl]. }
  split; [exact E|]. split; [apply ln_exp|]. split; [|split].
  - destruct (Rle_dec kn k) as [H|H].
    + rewrite Rmin_left, Rmax_right by exact H. pose proof (Mono kn k Hn H). split; [apply GE|apply LE]; try assumption; nra.
    + rewrite Rmin_right, Rmax_left by lra. pose proof (Mono k kn Hk ltac:(lra)). split; [apply GE|apply LE]; try assumption; nra.
  - intros ->. replace (1 * ln kn + (1 - 1) * ln k) with (ln kn) by ring. now apply exp_ln.
  - split.
    + intros H. apply ln_inv; try assumption. assert (alpha * ln kn + (1 - alpha) * ln k = ln k) by (rewrite <- H at 2; now rewrite ln_exp).
      apply (Rmult_eq_reg_l alpha); lra.
    + intros ->. replace (alpha * ln k + (1 - alpha) * ln k) with (ln k) by ring. now apply exp_ln.
Qed.
Example C78_update_case : exists r, k_update (1 / 2) 4 (Fin 1) = Fin r /\ r = 2.
Proof.
  destruct (C78_update (1 / 2) 4 1) as (r & E & L & B & _); try lra. exists r. split; [exact E|].
  rewrite Rmin_right, Rmax_left in B by lra. apply ln_inv; try lra. rewrite L, ln_1. replace 4 with (2 * 2) by ring.
  rewrite ln_mult by lra. lra.
Qed.
Print Assumptions C78_update.
