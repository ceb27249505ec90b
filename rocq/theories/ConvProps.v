(** C97: uptakes with convection at the surface (truncated eigenfunction series with computed roots). *)
From Coq Require Import Reals Lra Lia List Bool Arith Psatz.
From Verif Require Import Prelude RootsModel KinModel CopoModel Deriv NumBounds Erf HmtModel HmtProps TrigRootsProps.
Import ListNotations.
Open Scope R_scope.

(* ------------------------------------------------------------------ *)
(** * Bessel's inequality on [0, 1], by primitives                    *)
(* ------------------------------------------------------------------ *)

Lemma bessel N (g : R -> R) (phi : nat -> R -> R) (P0 : R -> R) (P1 : nat -> R -> R) (P2 : nat -> nat -> R -> R) (h : nat -> R) :
  (forall x, D P0 x (g x * g x)) -> (forall n x, (n < N)%nat -> D (P1 n) x (g x * phi n x)) ->
  (forall n m x, (n < N)%nat -> (m < N)%nat -> D (P2 n m) x (phi n x * phi m x)) ->
  (forall n m, (n < N)%nat -> (m < N)%nat -> P2 n m 1 - P2 n m 0 = delta n m * h m) -> (forall n, (n < N)%nat -> 0 < h n) ->
  sumn N (fun n => (P1 n 1 - P1 n 0) ^ 2 / h n) <= P0 1 - P0 0.
Proof.
  intros H0 H1 H2 HO Hh. set (c := fun n => P1 n 1 - P1 n 0). set (a := fun n => c n / h n).
  set (G := fun x => P0 x - 2 * sumn N (fun n => a n * P1 n x) + sumn N (fun n => sumn N (fun m => a n * a m * P2 n m x))).
  assert (M : G 0 <= G 1).
  { apply (mono_incr G (fun x => g x * g x - 2 * sumn N (fun n => a n * (g x * phi n x)) + sumn N (fun n => sumn N (fun m => a n * a m * (phi n x * phi m x))))); [lra| |].
    - intros t _. unfold G. apply (D_plus (fun x => P0 x - 2 * sumn N (fun n => a n * P1 n x)) (fun x => sumn N (fun n => sumn N (fun m => a n * a m * P2 n m x)))).
      + apply (D_minus P0 (fun x => 2 * sumn N (fun n => a n * P1 n x))); [apply H0|]. apply (D_scal 2 (fun x => sumn N (fun n => a n * P1 n x))). apply (D_sumn N (fun n x => a n * P1 n x)). intros i Hi. now apply D_scal, H1.
      + apply (D_sumn N (fun n x => sumn N (fun m => a n * a m * P2 n m x))). intros i Hi. apply (D_sumn N (fun m x => a i * a m * P2 i m x)). intros j Hj. now apply D_scal, H2.
    - intros t _. set (S1 := sumn N (fun n => a n * phi n t)).
      replace (sumn N (fun n => a n * (g t * phi n t))) with (g t * S1) by (unfold S1; rewrite <- sumn_scal; apply sumn_ext; intros; ring).
      replace (sumn N (fun n => sumn N (fun m => a n * a m * (phi n t * phi m t)))) with (S1 * S1).
      + pose proof (Rle_0_sqr (g t - S1)) as Q. unfold Rsqr in Q. lra.
      + unfold S1 at 1. rewrite <- sumn_scal_r. apply sumn_ext. intros i Hi. unfold S1. rewrite <- sumn_scal. apply sumn_ext. intros; ring. }
  assert (E : G 1 - G 0 = P0 1 - P0 0 - 2 * sumn N (fun n => a n * c n) + sumn N (fun n => a n * a n * h n)).
  { unfold G. replace (sumn N (fun n => a n * a n * h n)) with (sumn N (fun n => sumn N (fun m => a n * a m * P2 n m 1)) - sumn N (fun n => sumn N (fun m => a n * a m * P2 n m 0))).
    - replace (sumn N (fun n => a n * c n)) with (sumn N (fun n => a n * P1 n 1) - sumn N (fun n => a n * P1 n 0)) by (rewrite <- sumn_minus; apply sumn_ext; intros; unfold c; ring). ring.
    - rewrite <- sumn_minus. apply sumn_ext. intros i Hi. rewrite <- sumn_minus. rewrite <- (sumn_delta_l N i (fun m => a i * a m * h m) Hi). apply sumn_ext. intros j Hj. replace (a i * a j * P2 i j 1 - a i * a j * P2 i j 0) with (a i * a j * (P2 i j 1 - P2 i j 0)) by ring. rewrite HO by auto. ring. }
  assert (E1 : sumn N (fun n => a n * c n) = sumn N (fun n => c n ^ 2 / h n)) by (apply sumn_ext; intros i Hi; pose proof (Hh i Hi); unfold a; field; lra).
  assert (E2 : sumn N (fun n => a n * a n * h n) = sumn N (fun n => c n ^ 2 / h n)) by (apply sumn_ext; intros i Hi; pose proof (Hh i Hi); unfold a; field; lra).
  change (sumn N (fun n => c n ^ 2 / h n) <= P0 1 - P0 0). lra.
Qed.

Lemma sin2_lt b : 0 < b -> Rabs (sin b * cos b) < b.
Proof.
  intros H. replace (sin b * cos b) with (sin (2 * b) / 2) by (rewrite sin_2a; field). unfold Rdiv. rewrite Rabs_mult, (Rabs_right (/ 2)) by lra.
  assert (Rabs (sin (2 * b)) < 2 * b); [|lra]. apply Rabs_def1; [apply sin_lt_x; lra|].
  assert (- sin (2 * b) < 2 * b); [|lra]. destruct (Rlt_dec (2 * b) 2) as [L|L].
  - assert (0 < sin (2 * b)) by (apply sin_gt_0; pose proof PI_bounds; lra). lra.
  - pose proof (SIN_bound (2 * b)). lra.
Qed.

(** the eigenfunctions of the sheet: cos(b x) with b tan b = Bi *)
Lemma sheet_bessel N (b : nat -> R) Bi : 0 < Bi -> (forall n, (n < N)%nat -> 0 < b n /\ b n * sin (b n) = Bi * cos (b n)) ->
  (forall n m, (n < N)%nat -> (m < N)%nat -> n <> m -> b n <> b m) ->
  2 * Bi ^ 2 * sumn N (fun n => 1 / (b n ^ 2 * (b n ^ 2 + Bi * (Bi + 1)))) <= 1.
Proof.
  intros HB Hb Hd.
  set (h := fun n => 1 / 2 + sin (b n) * cos (b n) / (2 * b n)).
  pose proof (bessel N (fun _ => 1) (fun n x => cos (b n * x)) (fun x => x) (fun n x => sin (b n * x) / b n)
    (fun n m x => if Nat.eq_dec n m then x / 2 + sin (b n * x) * cos (b n * x) / (2 * b n) else (b m * sin (b m * x) * cos (b n * x) - b n * sin (b n * x) * cos (b m * x)) / (b m ^ 2 - b n ^ 2)) h) as Q.
  assert (Hh : forall n, (n < N)%nat -> 0 < h n).
  { intros n Hn. destruct (Hb n Hn) as (P & _). pose proof (sin2_lt (b n) P) as A. apply Rabs_def2 in A. unfold h. assert (- (1 / 2) < sin (b n) * cos (b n) / (2 * b n)); [|lra]. apply (Rmult_lt_reg_r (2 * b n)); [lra|]. replace (sin (b n) * cos (b n) / (2 * b n) * (2 * b n)) with (sin (b n) * cos (b n)) by (field; lra). lra. }
  assert (DC : forall c x, D (fun x => cos (c * x)) x (- sin (c * x) * c)) by (intros; apply D_cos; eapply D_eq; [apply D_scal, D_id|ring]).
  assert (DS : forall c x, D (fun x => sin (c * x)) x (cos (c * x) * c)) by (intros; apply D_sin; eapply D_eq; [apply D_scal, D_id|ring]).
  eapply Rle_trans; [|eapply Rle_trans; [apply Q|]].
  - right. rewrite <- sumn_scal. apply sumn_ext. intros n Hn. destruct (Hb n Hn) as (P & E). pose proof (sin2_cos2 (b n)) as SC. unfold Rsqr in SC. pose proof (Hh n Hn) as Hp. unfold h in Hp |- *. rewrite Rmult_1_r, Rmult_0_r, sin_0.
    set (s := sin (b n)) in *. set (c := cos (b n)) in *. assert (Ec : c = b n * s / Bi) by (rewrite E; field; lra). rewrite Ec in SC, Hp |- *.
    assert (P2 : 0 < b n ^ 2) by (apply pow_lt; auto). assert (PB : 0 < Bi ^ 2) by (apply pow_lt; auto).
    assert (Es : s * s = Bi ^ 2 / (Bi ^ 2 + b n ^ 2)). { apply (Rmult_eq_reg_r (Bi ^ 2 + b n ^ 2)); [|lra]. replace (Bi ^ 2 / (Bi ^ 2 + b n ^ 2) * (Bi ^ 2 + b n ^ 2)) with (Bi ^ 2) by (field; lra). rewrite <- (Rmult_1_r (Bi ^ 2)) at 2. rewrite <- SC. field. lra. }
    replace ((s / b n - 0 / b n) ^ 2) with (s * s / b n ^ 2) by (field; lra). replace (1 / 2 + s * (b n * s / Bi) / (2 * b n)) with (1 / 2 + s * s / (2 * Bi)) by (field; lra). rewrite Es. assert (0 < Bi * (Bi + 1)) by nra. field. repeat split; try nra; lra.
  - intros x. eapply D_eq; [apply D_id|ring].
  - intros n x Hn. destruct (Hb n Hn) as (P & _). apply (D_ext (fun x => / b n * sin (b n * x))); [intros; unfold Rdiv; ring|]. eapply D_eq; [apply D_scal, DS|]. field. lra.
  - intros n m x Hn Hm. destruct (Hb n Hn) as (P & _). destruct (Hb m Hm) as (P' & _). destruct (Nat.eq_dec n m) as [<- |Nm].
    + apply (D_ext (fun x => 1 / 2 * x + / (2 * b n) * (sin (b n * x) * cos (b n * x)))); [intros; field; lra|].
      eapply D_eq; [apply (D_plus (fun x => 1 / 2 * x) (fun x => / (2 * b n) * (sin (b n * x) * cos (b n * x)))); [apply D_scal, D_id|apply (D_scal _ (fun x => sin (b n * x) * cos (b n * x))), (D_mult (fun x => sin (b n * x)) (fun x => cos (b n * x))); [apply DS|apply DC]]|].
      pose proof (sin2_cos2 (b n * x)) as SC. unfold Rsqr in SC. set (s := sin (b n * x)) in *. set (c := cos (b n * x)) in *. transitivity (1 / 2 + (c * c - s * s) / 2); [field; lra|]. lra.
    + pose proof (Hd n m Hn Hm Nm) as NE. assert (ND : b m ^ 2 - b n ^ 2 <> 0). { intros Z. apply NE. assert (Z' : (b m - b n) * (b m + b n) = 0) by (rewrite <- Z; ring). apply Rmult_integral in Z'. lra. }
      apply (D_ext (fun x => / (b m ^ 2 - b n ^ 2) * (b m * (sin (b m * x) * cos (b n * x)) - b n * (sin (b n * x) * cos (b m * x))))); [intros; field; auto|].
      eapply D_eq; [apply (D_scal _ (fun x => b m * (sin (b m * x) * cos (b n * x)) - b n * (sin (b n * x) * cos (b m * x)))), (D_minus (fun x => b m * (sin (b m * x) * cos (b n * x))) (fun x => b n * (sin (b n * x) * cos (b m * x))));
        [apply (D_scal _ (fun x => sin (b m * x) * cos (b n * x))), (D_mult (fun x => sin (b m * x)) (fun x => cos (b n * x))); [apply DS|apply DC]|apply (D_scal _ (fun x => sin (b n * x) * cos (b m * x))), (D_mult (fun x => sin (b n * x)) (fun x => cos (b m * x))); [apply DS|apply DC]]|]. field. auto.
  - intros n m Hn Hm. destruct (Hb n Hn) as (P & E). destruct (Hb m Hm) as (P' & E'). unfold delta. destruct (Nat.eq_dec n m) as [<- |Nm].
    + rewrite !Rmult_1_r, !Rmult_0_r, sin_0. unfold h. field. lra.
    + rewrite !Rmult_1_r, !Rmult_0_r, sin_0, !Rmult_0_r, !Rmult_0_l. replace (b m * sin (b m) * cos (b n) - b n * sin (b n) * cos (b m)) with 0 by (rewrite E, E'; ring). unfold Rdiv. ring.
  - exact Hh.
  - lra.
Qed.

(** the eigenfunctions of the sphere: sin(b r) with b cos b = (1 - Bi) sin b *)
Lemma sphere_pos b Bi : 0 < b -> b * cos b = (1 - Bi) * sin b -> 0 < b ^ 2 + Bi * (Bi - 1).
Proof.
  intros P E. pose proof (sin2_lt b P) as A. apply Rabs_def2 in A. pose proof (sin2_cos2 b) as SC. unfold Rsqr in SC. set (s := sin b) in *. set (c := cos b) in *.
  assert (Ec : c = (1 - Bi) * s / b) by (rewrite <- E; field; lra). rewrite Ec in SC, A. assert (P2 : 0 < b ^ 2) by (apply pow_lt; auto).
  assert (Es : s * s * (b ^ 2 + (1 - Bi) ^ 2) = b ^ 2). { transitivity (b ^ 2 * (s * s + (1 - Bi) * s / b * ((1 - Bi) * s / b))); [field; lra|rewrite SC; ring]. }
  assert (A1 : (1 - Bi) * (s * s) < b ^ 2). { destruct A as (A & _). apply (Rmult_lt_compat_r b) in A; auto. replace (s * ((1 - Bi) * s / b) * b) with ((1 - Bi) * (s * s)) in A by (field; lra). lra. }
  assert (0 < s * s). { pose proof (Rle_0_sqr s) as S0. unfold Rsqr in S0. destruct (Req_dec (s * s) 0) as [Z|Z]; [rewrite Z in Es; lra|lra]. }
  assert (1 - Bi < b ^ 2 + (1 - Bi) ^ 2); [|nra]. apply (Rmult_lt_reg_l (s * s)); auto. lra.
Qed.
Lemma sphere_bessel N (b : nat -> R) Bi : 0 < Bi -> (forall n, (n < N)%nat -> 0 < b n /\ b n * cos (b n) = (1 - Bi) * sin (b n)) ->
  (forall n m, (n < N)%nat -> (m < N)%nat -> n <> m -> b n <> b m) ->
  6 * Bi ^ 2 * sumn N (fun n => 1 / (b n ^ 2 * (b n ^ 2 + Bi * (Bi - 1)))) <= 1.
Proof.
  intros HB Hb Hd.
  set (h := fun n => 1 / 2 - sin (b n) * cos (b n) / (2 * b n)).
  pose proof (bessel N (fun x => x) (fun n x => sin (b n * x)) (fun x => x ^ 3 / 3) (fun n x => sin (b n * x) / b n ^ 2 - x * cos (b n * x) / b n)
    (fun n m x => if Nat.eq_dec n m then x / 2 - sin (b n * x) * cos (b n * x) / (2 * b n) else (b n * cos (b n * x) * sin (b m * x) - b m * sin (b n * x) * cos (b m * x)) / (b m ^ 2 - b n ^ 2)) h) as Q.
  assert (Hh : forall n, (n < N)%nat -> 0 < h n).
  { intros n Hn. destruct (Hb n Hn) as (P & _). pose proof (sin2_lt (b n) P) as A. apply Rabs_def2 in A. unfold h. assert (sin (b n) * cos (b n) / (2 * b n) < 1 / 2); [|lra]. apply (Rmult_lt_reg_r (2 * b n)); [lra|]. replace (sin (b n) * cos (b n) / (2 * b n) * (2 * b n)) with (sin (b n) * cos (b n)) by (field; lra). lra. }
  assert (DC : forall c x, D (fun x => cos (c * x)) x (- sin (c * x) * c)) by (intros; apply D_cos; eapply D_eq; [apply D_scal, D_id|ring]).
  assert (DS : forall c x, D (fun x => sin (c * x)) x (cos (c * x) * c)) by (intros; apply D_sin; eapply D_eq; [apply D_scal, D_id|ring]).
  cut (sumn N (fun n => (sin (b n * 1) / b n ^ 2 - 1 * cos (b n * 1) / b n - (sin (b n * 0) / b n ^ 2 - 0 * cos (b n * 0) / b n)) ^ 2 / h n) <= 1 ^ 3 / 3 - 0 ^ 3 / 3).
  { intros C. set (T := sumn N (fun n => (sin (b n * 1) / b n ^ 2 - 1 * cos (b n * 1) / b n - (sin (b n * 0) / b n ^ 2 - 0 * cos (b n * 0) / b n)) ^ 2 / h n)) in *.
    apply (Rle_trans _ (3 * T)); [|lra]. unfold T. right. rewrite <- !sumn_scal. apply sumn_ext. intros n Hn. destruct (Hb n Hn) as (P & E). pose proof (sphere_pos (b n) Bi P E) as SP. pose proof (sin2_cos2 (b n)) as SC. unfold Rsqr in SC. pose proof (Hh n Hn) as Hp. unfold h in Hp |- *. rewrite !Rmult_1_r, !Rmult_0_r, sin_0, cos_0.
    set (s := sin (b n)) in *. set (c := cos (b n)) in *. assert (Ec : c = (1 - Bi) * s / b n) by (rewrite <- E; field; lra). rewrite Ec in SC, Hp |- *.
    assert (P2 : 0 < b n ^ 2) by (apply pow_lt; auto). assert (PB : 0 <= (1 - Bi) ^ 2) by apply pow2_ge_0.
    assert (Es : s * s = b n ^ 2 / (b n ^ 2 + (1 - Bi) ^ 2)). { apply (Rmult_eq_reg_r (b n ^ 2 + (1 - Bi) ^ 2)); [|lra]. replace (b n ^ 2 / (b n ^ 2 + (1 - Bi) ^ 2) * (b n ^ 2 + (1 - Bi) ^ 2)) with (b n ^ 2) by (field; lra). transitivity (b n ^ 2 * (s * s + (1 - Bi) * s / b n * ((1 - Bi) * s / b n))); [field; lra|rewrite SC; ring]. }
    replace ((s / b n ^ 2 - 1 * ((1 - Bi) * s / b n) / b n - (0 / b n ^ 2 - 0 * 1 / b n)) ^ 2) with (Bi ^ 2 * (s * s) / b n ^ 4) by (field; lra).
    replace (1 / 2 - s * ((1 - Bi) * s / b n) / (2 * b n)) with (1 / 2 - (1 - Bi) * (s * s) / (2 * b n ^ 2)) by (field; lra). rewrite Es.
    replace (1 / 2 - (1 - Bi) * (b n ^ 2 / (b n ^ 2 + (1 - Bi) ^ 2)) / (2 * b n ^ 2)) with ((b n ^ 2 + Bi * (Bi - 1)) / (2 * (b n ^ 2 + (1 - Bi) ^ 2))) by (field; split; lra).
    field. repeat split; lra. }
  apply Q; clear Q.
  - intros x. apply (D_ext (fun x => / 3 * (x * (x * x)))); [intros; field|]. eapply D_eq; [apply (D_scal _ (fun x => x * (x * x))), (D_mult (fun x => x) (fun x => x * x)); [apply D_id|apply (D_mult (fun x => x) (fun x => x)); apply D_id]|]. field.
  - intros n x Hn. destruct (Hb n Hn) as (P & _). apply (D_ext (fun x => / b n ^ 2 * sin (b n * x) - / b n * (x * cos (b n * x)))); [intros; unfold Rdiv; ring|].
    eapply D_eq; [apply (D_minus (fun x => / b n ^ 2 * sin (b n * x)) (fun x => / b n * (x * cos (b n * x)))); [apply D_scal, DS|apply (D_scal _ (fun x => x * cos (b n * x))), (D_mult (fun x => x) (fun x => cos (b n * x))); [apply D_id|apply DC]]|]. field. lra.
  - intros n m x Hn Hm. destruct (Hb n Hn) as (P & _). destruct (Hb m Hm) as (P' & _). destruct (Nat.eq_dec n m) as [<- |Nm].
    + apply (D_ext (fun x => 1 / 2 * x - / (2 * b n) * (sin (b n * x) * cos (b n * x)))); [intros; field; lra|].
      eapply D_eq; [apply (D_minus (fun x => 1 / 2 * x) (fun x => / (2 * b n) * (sin (b n * x) * cos (b n * x)))); [apply D_scal, D_id|apply (D_scal _ (fun x => sin (b n * x) * cos (b n * x))), (D_mult (fun x => sin (b n * x)) (fun x => cos (b n * x))); [apply DS|apply DC]]|].
      pose proof (sin2_cos2 (b n * x)) as SC. unfold Rsqr in SC. set (s := sin (b n * x)) in *. set (c := cos (b n * x)) in *. transitivity (1 / 2 - (c * c - s * s) / 2); [field; lra|]. lra.
    + pose proof (Hd n m Hn Hm Nm) as NE. assert (ND : b m ^ 2 - b n ^ 2 <> 0). { intros Z. apply NE. assert (Z' : (b m - b n) * (b m + b n) = 0) by (rewrite <- Z; ring). apply Rmult_integral in Z'. lra. }
      apply (D_ext (fun x => / (b m ^ 2 - b n ^ 2) * (b n * (cos (b n * x) * sin (b m * x)) - b m * (sin (b n * x) * cos (b m * x))))); [intros; field; auto|].
      eapply D_eq; [apply (D_scal _ (fun x => b n * (cos (b n * x) * sin (b m * x)) - b m * (sin (b n * x) * cos (b m * x)))), (D_minus (fun x => b n * (cos (b n * x) * sin (b m * x))) (fun x => b m * (sin (b n * x) * cos (b m * x))));
        [apply (D_scal _ (fun x => cos (b n * x) * sin (b m * x))), (D_mult (fun x => cos (b n * x)) (fun x => sin (b m * x))); [apply DC|apply DS]|apply (D_scal _ (fun x => sin (b n * x) * cos (b m * x))), (D_mult (fun x => sin (b n * x)) (fun x => cos (b m * x))); [apply DS|apply DC]]|]. field. auto.
  - intros n m Hn Hm. destruct (Hb n Hn) as (P & E). destruct (Hb m Hm) as (P' & E'). unfold delta. destruct (Nat.eq_dec n m) as [<- |Nm].
    + rewrite !Rmult_1_r, !Rmult_0_r, sin_0. unfold h. field. lra.
    + rewrite !Rmult_1_r, !Rmult_0_r, sin_0, !Rmult_0_r, !Rmult_0_l. replace (b n * cos (b n) * sin (b m) - b m * sin (b n) * cos (b m)) with 0. { unfold Rdiv; ring. } rewrite E. replace (b m * sin (b n) * cos (b m)) with (sin (b n) * (b m * cos (b m))) by ring. rewrite E'. ring.
  - exact Hh.
Qed.

(* ------------------------------------------------------------------ *)
(** * Truncated series with approximate roots                         *)
(* ------------------------------------------------------------------ *)

Lemma term_le q d rho x : 0 < rho -> 0 < rho ^ 2 + q -> 0 <= d < 1 -> d = 0 \/ 0 <= q -> (1 - d) * rho <= x ->
  0 < x /\ 0 < x ^ 2 + q /\ 1 / (x ^ 2 * (x ^ 2 + q)) * (1 - 4 * d) <= 1 / (rho ^ 2 * (rho ^ 2 + q)).
Proof.
  intros Hr Hq Hd Hc Hx. assert (P : 0 < (1 - d) * rho) by (apply Rmult_lt_0_compat; lra). assert (X : 0 < x) by lra. set (k := (1 - d) ^ 2).
  assert (K : 0 < k <= 1) by (unfold k; split; [apply pow_lt; lra|nra]). assert (K4 : 1 - 4 * d <= k * k). { unfold k. assert (0 <= d * d) by nra. assert ((1 - d) ^ 2 * (1 - d) ^ 2 = 1 - 4 * d + d * d * (6 - 4 * d + d * d)) as -> by ring. assert (0 <= d * d * (6 - 4 * d + d * d)) by (apply Rmult_le_pos; nra). lra. }
  assert (X2 : k * rho ^ 2 <= x ^ 2). { replace (k * rho ^ 2) with (((1 - d) * rho) ^ 2) by (unfold k; ring). apply pow_incr. lra. }
  assert (R2 : 0 < rho ^ 2) by (apply pow_lt; auto). assert (P2 : 0 < x ^ 2) by (apply pow_lt; auto).
  assert (XQ : k * (rho ^ 2 + q) <= x ^ 2 + q). { destruct Hc as [-> |Hc]; [replace k with 1 in * by (unfold k; ring); lra|nra]. }
  assert (XP : 0 < x ^ 2 + q) by (assert (0 < k * (rho ^ 2 + q)) by (apply Rmult_lt_0_compat; lra); lra).
  split; [auto|]. split; [auto|]. assert (A : 0 < rho ^ 2 * (rho ^ 2 + q)) by (apply Rmult_lt_0_compat; auto). assert (B : 0 < x ^ 2 * (x ^ 2 + q)) by (apply Rmult_lt_0_compat; auto).
  apply (Rmult_le_reg_r (x ^ 2 * (x ^ 2 + q))); auto. replace (1 / (x ^ 2 * (x ^ 2 + q)) * (1 - 4 * d) * (x ^ 2 * (x ^ 2 + q))) with (1 - 4 * d) by (field; split; lra).
  apply (Rmult_le_reg_r (rho ^ 2 * (rho ^ 2 + q))); auto. replace (1 / (rho ^ 2 * (rho ^ 2 + q)) * (x ^ 2 * (x ^ 2 + q)) * (rho ^ 2 * (rho ^ 2 + q))) with (x ^ 2 * (x ^ 2 + q)) by (field; split; lra).
  apply (Rle_trans _ (k * rho ^ 2 * (k * (rho ^ 2 + q)))); [|apply Rmult_le_compat; auto; apply Rmult_le_pos; lra].
  replace (k * rho ^ 2 * (k * (rho ^ 2 + q))) with (k * k * (rho ^ 2 * (rho ^ 2 + q))) by ring. apply Rmult_le_compat_r; lra.
Qed.
Lemma four_sum (rho x : nat -> R) q K d Fo e : 0 < K -> 0 <= d <= 1 / 8 -> d = 0 \/ 0 <= q ->
  (forall n, (n < 5)%nat -> 0 < rho n /\ 0 < rho n ^ 2 + q) -> (forall n, (n < 4)%nat -> (1 - d) * rho n <= x n) ->
  K * sumn 5 (fun n => 1 / (rho n ^ 2 * (rho n ^ 2 + q))) <= 1 -> 4 * d + e <= K / (rho 4%nat ^ 2 * (rho 4%nat ^ 2 + q)) -> 0 <= e -> 0 <= Fo ->
  e <= 1 - K * sumn 4 (fun n => exp (- x n ^ 2 * Fo) / (x n ^ 2 * (x n ^ 2 + q))) < 1.
Proof.
  intros HK Hd Hc Hr Hx HB H5 He HF. assert (T : forall n, (n < 4)%nat -> _) by (intros n Hn; destruct (Hr n ltac:(lia)) as (P & Q); exact (term_le q d (rho n) (x n) P Q ltac:(lra) Hc (Hx n Hn))).
  assert (XP : forall n, (n < 4)%nat -> 0 < x n ^ 2 * (x n ^ 2 + q)) by (intros n Hn; destruct (T n Hn) as (A & B & _); apply Rmult_lt_0_compat; [apply pow_lt|]; auto).
  assert (EB : forall n, 0 < exp (- x n ^ 2 * Fo) <= 1). { intros n. split; [apply exp_pos|]. rewrite <- exp_0. apply exp_le. pose proof (pow2_ge_0 (x n)). nra. }
  split.
  - set (S4 := sumn 4 (fun n => 1 / (rho n ^ 2 * (rho n ^ 2 + q)))). change (sumn 5 (fun n => 1 / (rho n ^ 2 * (rho n ^ 2 + q)))) with (S4 + 1 / (rho 4%nat ^ 2 * (rho 4%nat ^ 2 + q))) in HB. rewrite Rmult_plus_distr_l in HB. replace (K * (1 / (rho 4%nat ^ 2 * (rho 4%nat ^ 2 + q)))) with (K / (rho 4%nat ^ 2 * (rho 4%nat ^ 2 + q))) in HB by (unfold Rdiv; ring).
    assert (L : K * sumn 4 (fun n => exp (- x n ^ 2 * Fo) / (x n ^ 2 * (x n ^ 2 + q))) * (1 - 4 * d) <= K * S4).
    { rewrite Rmult_assoc. apply Rmult_le_compat_l; [lra|]. unfold S4. rewrite <- sumn_scal_r. apply sumn_le. intros n Hn. destruct (T n Hn) as (_ & _ & C). eapply Rle_trans; [|exact C]. apply Rmult_le_compat_r; [lra|]. unfold Rdiv. apply Rmult_le_compat_r; [left; apply Rinv_0_lt_compat; auto|]. apply EB. }
    set (V := K * sumn 4 (fun n => exp (- x n ^ 2 * Fo) / (x n ^ 2 * (x n ^ 2 + q)))) in *. assert (V * (1 - 4 * d) <= (1 - e) * (1 - 4 * d)); [|assert (V <= 1 - e); [apply (Rmult_le_reg_r (1 - 4 * d)); lra|lra]]. nra.
  - assert (0 < K * sumn 4 (fun n => exp (- x n ^ 2 * Fo) / (x n ^ 2 * (x n ^ 2 + q)))); [|lra]. apply Rmult_lt_0_compat; auto. assert (TP : forall n, (n < 4)%nat -> 0 < exp (- x n ^ 2 * Fo) / (x n ^ 2 * (x n ^ 2 + q))) by (intros n Hn; apply Rdiv_lt_0_compat; [apply EB|auto]).
    apply (sumn_pos 4 _ 0); [|lia|]; [intros; left|]; apply TP; auto; lia.
Qed.

(* ------------------------------------------------------------------ *)
(** * The computed roots of the sheet                                 *)
(* ------------------------------------------------------------------ *)

(** the first Newton test cannot stop at the starting point for a small Biot number *)
Lemma xt_start_small a : 1 / 10 ^ 9 <= a <= 1 / 2 -> let x0 := INR 0 * PI + PI / 2 * (a / (a + 1)) in let g := tan x0 + x0 * (1 + tan x0 ^ 2) in
  1 / 10 ^ 10 < Rabs (x0 * tan x0 - a) /\ eps < g /\ 1 / 10 ^ 6 < Rabs ((x0 * tan x0 - a) / g).
Proof.
  intros Ha x0 g. pose proof PI_bounds as (P1 & P2). assert (E0 : x0 = PI / 2 * (a / (a + 1))) by (unfold x0; cbn [INR]; ring). clearbody x0.
  assert (A : 2 / 3 * a <= a / (a + 1) <= 1 / 3). { split; apply (Rmult_le_reg_r (a + 1)); try lra; (replace (a / (a + 1) * (a + 1)) with a by (field; lra)); nra. }
  assert (A1 : a / (a + 1) <= a). { apply (Rmult_le_reg_r (a + 1)); [lra|]. replace (a / (a + 1) * (a + 1)) with a by (field; lra). nra. }
  assert (X : 0 < x0 <= PI / 6) by (rewrite E0; split; nra). assert (C : 0 < cos x0) by (apply cos_gt_0; lra).
  assert (XL : 1 / 10 ^ 9 <= x0) by (apply (Rle_trans _ a); [lra|]; rewrite E0; nra).
  assert (CB : 3 / 4 <= cos x0 * cos x0). { pose proof (sin2_cos2 x0) as SC. unfold Rsqr in SC. assert (0 <= sin x0) by (apply sin_ge_0; lra). assert (sin x0 <= 1 / 2) by (rewrite <- sin_PI6; apply sin_incr_1; lra). nra. }
  assert (CL : 86 / 100 <= cos x0) by nra. set (t := tan x0) in *. assert (TB : 0 < t <= x0 * (116300 / 100000)).
  { unfold t, tan. assert (SB : 0 < sin x0 < x0) by (split; [apply sin_gt_0; lra|apply sin_lt_x; lra]). split; [apply Rdiv_lt_0_compat; lra|]. apply (Rmult_le_reg_r (cos x0)); auto. replace (sin x0 / cos x0 * cos x0) with (sin x0) by (field; lra). nra. }
  assert (XB : x0 * x0 <= 556 / 1000 * a). { rewrite E0. set (v := a / (a + 1)) in *. assert (V : v * v <= 2 / 9 * a). { unfold v. replace (a / (a + 1) * (a / (a + 1))) with (a * (a / (a + 1) ^ 2)) by (field; lra). rewrite (Rmult_comm (2 / 9)). apply Rmult_le_compat_l; [lra|]. apply (Rmult_le_reg_r ((a + 1) ^ 2)); [apply pow_lt; lra|]. replace (a / (a + 1) ^ 2 * (a + 1) ^ 2) with a by (field; lra). nra. }
    replace (PI / 2 * v * (PI / 2 * v)) with (PI * PI / 4 * (v * v)) by field. assert (PI * PI / 4 <= 249 / 100) by nra. assert (0 <= v * v) by nra. nra. }
  assert (F : x0 * t - a <= - (35 / 100) * a) by nra. assert (T1 : t <= 7 / 10) by lra.
  assert (G : 0 < x0 /\ x0 <= g <= 266 / 100 * x0) by (unfold g; split; [lra|]; split; nra).
  rewrite Rabs_left by lra. split; [lra|]. split; [pose proof (Rinv_0_lt_compat _ (pow_lt 2 52 ltac:(lra))); unfold eps; apply (Rlt_le_trans _ (1 / 10 ^ 9)); [|lra]; unfold Rdiv; rewrite Rmult_1_l; apply Rinv_lt_contravar; [apply Rmult_lt_0_compat; apply pow_lt; lra|]; lra|].
  assert (F2 : 1 / 10 ^ 6 * g < - (x0 * t - a)). { assert (x0 <= 16 / 10 * a) by (rewrite E0; nra). lra. }
  rewrite <- Rabs_Ropp, Rabs_right; [|apply Rle_ge; replace (- ((x0 * t - a) / g)) with (- (x0 * t - a) / g) by (field; lra); apply Rle_mult_inv_pos; lra].
  apply (Rmult_lt_reg_r g); [lra|]. replace (- ((x0 * t - a) / g) * g) with (- (x0 * t - a)) by (field; lra). exact F2.
Qed.
(** the distance of a computed root below the true one *)
Lemma xt_near a i r : 1 / 10 ^ 9 <= a -> INR i * PI < r < INR i * PI + PI / 2 -> r * tan r = a ->
  exists x, roots_xtanx (Some a) i (1 / 10 ^ 6) = Ok x /\ (r <= x \/ (1 / 2 <= a /\ r - x <= 102 / 10 ^ 8)).
Proof.
  intros Ha Hr E. pose proof PI_bounds as (P1 & P2). pose proof (XPI i) as X0. unfold roots_xtanx. rewrite Reqb_f by lra. destruct (Rlt_dec a 100) as [L|L].
  - rewrite Rltb_t by auto. destruct (C91_xtanx_newton a i (1 / 10 ^ 6) 50 ltac:(lra) ltac:(lia)) as (tr & rr & N & B & _ & C & C'). unfold newton_x. rewrite N. exists (rr_x rr). split; [reflexivity|].
    destruct i as [|i]; [|left; apply (C ltac:(lia) r Hr E)]. destruct (C' r Hr E) as [Q|(Q & Q1 & Q2)]; [now left|]. clear C C' N. set (x0 := INR 0 * PI + PI / 2 * (a / (a + 1))) in *. set (g := tan x0 + x0 * (1 + tan x0 ^ 2)) in *.
    destruct (Rle_dec a (1 / 2)) as [S|S].
    + exfalso. destruct (xt_start_small a ltac:(lra)) as (S1 & S2 & S3). cbv zeta in S1, S2, S3. fold x0 in S1, S2, S3. fold g in S2, S3. destruct Q2 as [Z|[Z|[Z|Z]]]; [discriminate|lra|lra|lra].
    + right. split; [lra|]. rewrite Q. assert (V : 1 / 3 <= a / (a + 1) < 1). { split; [apply (Rmult_le_reg_r (a + 1))|apply (Rmult_lt_reg_r (a + 1))]; try lra; (replace (a / (a + 1) * (a + 1)) with a by (field; lra)); lra. }
      assert (X : 52 / 100 <= x0 < PI / 2). { unfold x0. cbn [INR]. split; nra. } destruct (tan_pos x0 ltac:(lra)) as (T1 & T2). assert (G : 1 / 2 <= g). { unfold g. pose proof (pow2_ge_0 (tan x0)). nra. }
      assert (eps < 1 / 2). { unfold eps. unfold Rdiv. rewrite Rmult_1_l. apply Rinv_lt_contravar; [assert (0 < 2 ^ 52) by (apply pow_lt; lra); lra|lra]. }
      destruct Q2 as [Z|[Z|[Z|Z]]]; [discriminate| |lra|lra]. eapply Rle_trans; [exact Q1|]. unfold Rdiv at 1. rewrite Rabs_mult, Rabs_inv. rewrite (Rabs_right g) by lra. apply (Rmult_le_reg_r g); [lra|]. rewrite Rmult_assoc, Rinv_l by lra. lra.
  - rewrite Rltb_f by lra. eexists. split; [reflexivity|]. right. split; [lra|]. destruct (C91_xtanx_large a i (1 / 10 ^ 6) r ltac:(lra) Hr E) as (_ & Q). rewrite <- Rabs_Ropp, Ropp_minus_distr in Q.
    pose proof (Rle_abs (r - xtanx_large a i (1 / 10 ^ 6))). destruct Q as [Q|Q]; [lra|]. assert (2 / 100 ^ 10 <= 1 / 10 ^ 6); [|lra]. apply (Rmult_le_reg_r (100 ^ 10)); [apply pow_lt; lra|]. unfold Rdiv at 1. rewrite Rmult_assoc, Rinv_l by (apply pow_nonzero; lra). lra.
Qed.
Lemma xt_half a r : 1 / 2 <= a -> 0 < r < PI / 2 -> r * tan r = a -> 1 / 2 <= r.
Proof.
  intros Ha Hr E. pose proof PI_bounds as (P1 & P2). destruct (Rle_dec (1 / 2) r) as [|N]; auto. exfalso. destruct (tan_le r (PI / 4) ltac:(lra) ltac:(lra)) as (A & B). rewrite tan_PI4 in B. nra.
Qed.

(* ------------------------------------------------------------------ *)
(** * The computed roots of the sphere                                *)
(* ------------------------------------------------------------------ *)

Lemma xc_near a i r : 0 < a -> INR i * PI < r < INR i * PI + PI -> 1 - r * (1 / tan r) = a ->
  exists x, roots_xcotx (Some a) i (1 / 10 ^ 6) = Ok x /\ (r <= x \/ (1 <= a /\ 1 <= x /\ r - x <= 15 / 10 ^ 7)).
Proof.
  intros Ha Hr E. pose proof PI_bounds as (P1 & P2). pose proof (XPI i) as X0. destruct (C91_xcotx_roots a i Ha) as (r0 & _ & _ & U). assert (Er := U r Hr E).
  unfold roots_xcotx. destruct (Req_dec a 1) as [A1|A1].
  - rewrite A1 in *. rewrite Reqb_refl. eexists. split; [reflexivity|]. left. right. rewrite Er. symmetry. apply U; [nra|]. unfold Rdiv at 2. rewrite Rmult_1_l, inv_tan, cot_half. ring.
  - rewrite Reqb_f by auto. destruct (Rlt_dec a 2) as [L|L].
    + rewrite Rltb_t by auto. destruct (C91_xcotx_newton a i (1 / 10 ^ 6) 50 ltac:(lra) A1 ltac:(lia)) as (tr & rr & N & B & _ & C & C'). unfold newton_x. rewrite N. exists (rr_x rr). split; [reflexivity|].
      destruct (Rlt_dec a 1) as [S|S]; [left; apply (C S r Hr E)|]. destruct (C' r Hr E) as [Q|(Q & Q1 & Q2)]; [now left|]. right. split; [lra|]. rewrite Q. set (x0 := (INR i + 1 / 2) * PI) in *. assert (X : 3 / 2 <= x0) by (unfold x0; lra). split; [lra|].
      assert (eps < 1 / 2). { unfold eps. unfold Rdiv. rewrite Rmult_1_l. apply Rinv_lt_contravar; [assert (0 < 2 ^ 52) by (apply pow_lt; lra); lra|lra]. }
      destruct Q2 as [Z|[Z|[Z|Z]]]; [discriminate| |lra|lra]. eapply Rle_trans; [exact Q1|]. unfold Rdiv at 1. rewrite Rabs_mult, Rabs_inv. rewrite (Rabs_right x0) by lra. apply (Rmult_le_reg_r x0); [lra|]. rewrite Rmult_assoc, Rinv_l by lra. lra.
    + rewrite Rltb_f by lra. eexists. split; [reflexivity|]. right. split; [lra|]. destruct (C91_xcotx_large a i (1 / 10 ^ 6) r ltac:(lra) Hr E) as (B & Q). split; [lra|]. rewrite <- Rabs_Ropp, Ropp_minus_distr in Q.
      pose proof (Rle_abs (r - xcotx_large a i (1 / 10 ^ 6))). destruct Q as [Q|Q]; [lra|]. assert (2 * (8 / 25) ^ 30 <= 1 / 10 ^ 6); [|lra].
      replace 30%nat with (6 * 5)%nat by reflexivity. rewrite pow_mult. assert ((8 / 25) ^ 6 <= 2 / 1000) by lra. assert (0 <= (8 / 25) ^ 6) by (apply pow_le; lra). assert (((8 / 25) ^ 6) ^ 5 <= (2 / 1000) ^ 5) by (apply pow_incr; lra). lra.
Qed.
Lemma cot_eq a i r : INR i * PI < r < INR i * PI + PI -> 1 - r * (1 / tan r) = a -> r * cos r = (1 - a) * sin r.
Proof.
  intros Hr E. unfold Rdiv in E. rewrite Rmult_1_l, inv_tan in E. pose proof (sin_x i r Hr) as S0. rewrite <- E. unfold cot. field. exact S0.
Qed.

(* ------------------------------------------------------------------ *)
(** * The uptakes                                                     *)
(* ------------------------------------------------------------------ *)

Lemma pick N (P : nat -> R -> Prop) : (forall i, exists r, P i r) -> exists f : nat -> R, forall i, (i < N)%nat -> P i (f i).
Proof.
  intros H. induction N as [|N (f & IH)]; [exists (fun _ => 0); intros; lia|]. destruct (H N) as (r & Hr). exists (fun i => if Nat.eq_dec i N then r else f i). intros i Hi. destruct (Nat.eq_dec i N) as [-> |Ne]; [auto|apply IH; lia].
Qed.
Lemma four_ok rt (Q : nat -> R -> Prop) : (forall i, (i < 4)%nat -> exists x, rt i = Ok x /\ Q i x) -> exists f, four rt = Ok f /\ forall i, (i < 4)%nat -> Q i (f i).
Proof.
  intros H. destruct (H 0%nat ltac:(lia)) as (x0 & E0 & Q0). destruct (H 1%nat ltac:(lia)) as (x1 & E1 & Q1). destruct (H 2%nat ltac:(lia)) as (x2 & E2 & Q2). destruct (H 3%nat ltac:(lia)) as (x3 & E3 & Q3).
  unfold four. rewrite E0, E1, E2, E3. cbn. eexists. split; [reflexivity|]. intros i Hi. destruct i as [|[|[|[|i]]]]; auto; lia.
Qed.
(** a series 1 - K sum_n exp(-x_n^2 Fo) / (x_n^2 (x_n^2 + q)) *)
Lemma series_incr (x : nat -> R) q K Fo1 Fo2 : 0 < K -> (forall n, (n < 4)%nat -> 0 < x n /\ 0 < x n ^ 2 + q) -> Fo1 < Fo2 ->
  1 - K * sumn 4 (fun n => exp (- x n ^ 2 * Fo1) / (x n ^ 2 * (x n ^ 2 + q))) < 1 - K * sumn 4 (fun n => exp (- x n ^ 2 * Fo2) / (x n ^ 2 * (x n ^ 2 + q))).
Proof.
  intros HK Hx HF. assert (T : forall n, (n < 4)%nat -> exp (- x n ^ 2 * Fo2) / (x n ^ 2 * (x n ^ 2 + q)) < exp (- x n ^ 2 * Fo1) / (x n ^ 2 * (x n ^ 2 + q))).
  { intros n Hn. destruct (Hx n Hn) as (A & B). assert (P : 0 < x n ^ 2) by (apply pow_lt; auto). unfold Rdiv. apply Rmult_lt_compat_r; [apply Rinv_0_lt_compat, Rmult_lt_0_compat; auto|]. apply exp_increasing. nra. }
  pose proof (sumn_lt 4 _ _ 0%nat (fun n Hn => Rlt_le _ _ (T n Hn)) ltac:(lia) (T 0%nat ltac:(lia))) as L. cbv beta in L. apply (Rmult_lt_compat_l K) in L; lra.
Qed.
Lemma series_lim (x : nat -> R) q K : 0 < K -> (forall n, (n < 4)%nat -> 0 < x n /\ 0 < x n ^ 2 + q) -> forall e, 0 < e -> exists T, 0 < T /\ forall Fo, T <= Fo ->
  1 - e < 1 - K * sumn 4 (fun n => exp (- x n ^ 2 * Fo) / (x n ^ 2 * (x n ^ 2 + q))).
Proof.
  intros HK Hx e He. set (A := K * sumn 4 (fun n => / x n ^ 2 / (x n ^ 2 * (x n ^ 2 + q)))).
  assert (P : forall n, (n < 4)%nat -> 0 < x n ^ 2 /\ 0 < / (x n ^ 2 * (x n ^ 2 + q))) by (intros n Hn; destruct (Hx n Hn); split; [apply pow_lt; auto|apply Rinv_0_lt_compat, Rmult_lt_0_compat; [apply pow_lt|]; auto]).
  assert (A0 : 0 <= A). { apply Rmult_le_pos; [lra|]. apply sumn_nonneg. intros n Hn. destruct (P n Hn) as (P1 & P2). unfold Rdiv. apply Rmult_le_pos; [left; now apply Rinv_0_lt_compat|lra]. }
  exists (A / e + 1). assert (0 <= A / e) by (apply Rle_mult_inv_pos; lra). split; [lra|]. intros Fo HF. assert (F0 : 0 < Fo) by lra.
  assert (L : K * sumn 4 (fun n => exp (- x n ^ 2 * Fo) / (x n ^ 2 * (x n ^ 2 + q))) <= A / Fo).
  { unfold A. replace (K * sumn 4 (fun n => / x n ^ 2 / (x n ^ 2 * (x n ^ 2 + q))) / Fo) with (K * (sumn 4 (fun n => / x n ^ 2 / (x n ^ 2 * (x n ^ 2 + q))) * / Fo)) by (unfold Rdiv; ring). apply Rmult_le_compat_l; [lra|]. rewrite <- sumn_scal_r. apply sumn_le. intros n Hn. destruct (P n Hn) as (P1 & P2). unfold Rdiv.
    replace (/ x n ^ 2 * / (x n ^ 2 * (x n ^ 2 + q)) * / Fo) with (/ (x n ^ 2 * Fo) * / (x n ^ 2 * (x n ^ 2 + q))) by (rewrite Rinv_mult; ring). apply Rmult_le_compat_r; [lra|]. replace (- x n ^ 2 * Fo) with (- (x n ^ 2 * Fo)) by ring. rewrite exp_Ropp. assert (0 < x n ^ 2 * Fo) by (apply Rmult_lt_0_compat; auto).
    apply Rinv_le_contravar; auto. pose proof (exp_ineq1_le (x n ^ 2 * Fo)). lra. }
  assert (A / Fo < e); [|lra]. apply (Rmult_lt_reg_r Fo); auto. unfold Rdiv. rewrite Rmult_assoc, Rinv_l by lra. assert (A = e * (A / e)) by (field; lra). nra.
Qed.

Lemma sheet_core Bi : 1 / 10 ^ 9 <= Bi -> exists x e, four (fun i => roots_xtanx (Some Bi) i (1 / 10 ^ 6)) = Ok x /\ (forall n, (n < 4)%nat -> 0 < x n /\ 0 < x n ^ 2 + Bi * (Bi + 1)) /\
  0 < e /\ (1 / 2 <= Bi -> 2 * Bi ^ 2 / (201 * (201 + Bi * (Bi + 1))) - 82 / 10 ^ 7 <= e) /\
  forall Fo, 0 <= Fo -> e <= 1 - 2 * Bi ^ 2 * sumn 4 (fun n => exp (- x n ^ 2 * Fo) / (x n ^ 2 * (x n ^ 2 + Bi * (Bi + 1)))) < 1.
Proof.
  intros HB. pose proof PI_bounds as (P1 & P2). assert (B0 : 0 < Bi) by lra. set (q := Bi * (Bi + 1)). assert (Q0 : 0 < q) by (unfold q; apply Rmult_lt_0_compat; lra).
  destruct (pick 5 (fun i r => INR i * PI < r < INR i * PI + PI / 2 /\ r * tan r = Bi)) as (rho & Hr). { intros i. destruct (C91_xtanx_roots Bi i B0) as (r & A & B & _). eauto. }
  destruct (four_ok (fun i => roots_xtanx (Some Bi) i (1 / 10 ^ 6)) (fun i x => rho i <= x \/ (1 / 2 <= Bi /\ rho i - x <= 102 / 10 ^ 8))) as (x & Ex & Hx). { intros i Hi. destruct (Hr i ltac:(lia)) as (A & B). now apply xt_near. }
  assert (RP : forall n, (n < 5)%nat -> 0 < rho n /\ 0 < rho n ^ 2 + q) by (intros n Hn; destruct (Hr n Hn) as (A & _); pose proof (XPI n); pose proof (pow2_ge_0 (rho n)); split; lra).
  set (d := if Rlt_dec Bi (1 / 2) then 0 else 204 / 10 ^ 8).
  assert (Hd : 0 <= d <= 204 / 10 ^ 8) by (unfold d; destruct (Rlt_dec Bi (1 / 2)); lra).
  assert (DX : forall n, (n < 4)%nat -> (1 - d) * rho n <= x n).
  { intros n Hn. destruct (RP n ltac:(lia)) as (R0 & _). destruct (Hx n Hn) as [L|(L & L')]; [nra|]. unfold d. destruct (Rlt_dec Bi (1 / 2)) as [|_]; [lra|]. assert (1 / 2 <= rho n); [|lra]. destruct (Hr n ltac:(lia)) as (A & B). destruct n as [|n]; [apply (xt_half Bi); auto; cbn in A; lra|]. rewrite S_INR in A. pose proof (XPI n). lra. }
  assert (BS : 2 * Bi ^ 2 * sumn 5 (fun n => 1 / (rho n ^ 2 * (rho n ^ 2 + q))) <= 1).
  { apply sheet_bessel; auto.
    - intros n Hn. split; [apply RP; auto|]. destruct (Hr n Hn) as (A & B). rewrite <- B. unfold tan. field. apply (cos_x n). lra.
    - intros n m Hn Hm NE EQ. destruct (Hr n Hn) as (A & _). destruct (Hr m Hm) as (A' & _). rewrite EQ in A. destruct (Nat.lt_total n m) as [L|[L|L]]; [|lia|].
      + apply le_INR in L. rewrite S_INR in L. nra.
      + apply le_INR in L. rewrite S_INR in L. nra. }
  destruct (Hr 4%nat ltac:(lia)) as (A4 & _). destruct (RP 4%nat ltac:(lia)) as (R4 & R4').
  assert (R42 : rho 4%nat ^ 2 <= 201). { assert (rho 4%nat <= 14175 / 1000) by (cbn in A4; lra). assert (rho 4%nat ^ 2 <= (14175 / 1000) ^ 2) by (apply pow_incr; lra). lra. }
  assert (B2 : 0 < 2 * Bi ^ 2) by (assert (0 < Bi ^ 2) by (apply pow_lt; auto); lra).
  assert (RR : 0 < rho 4%nat ^ 2) by (apply pow_lt; auto).
  assert (T5 : 2 * Bi ^ 2 / (201 * (201 + q)) <= 2 * Bi ^ 2 / (rho 4%nat ^ 2 * (rho 4%nat ^ 2 + q))).
  { unfold Rdiv. apply Rmult_le_compat_l; [lra|]. apply Rinv_le_contravar; [apply Rmult_lt_0_compat; auto|]. apply Rmult_le_compat; lra. }
  set (e := 2 * Bi ^ 2 / (rho 4%nat ^ 2 * (rho 4%nat ^ 2 + q)) - 4 * d).
  assert (E0 : 0 < e).
  { unfold e, d. destruct (Rlt_dec Bi (1 / 2)) as [L|L].
    - assert (0 < 2 * Bi ^ 2 / (rho 4%nat ^ 2 * (rho 4%nat ^ 2 + q))); [|lra]. apply Rdiv_lt_0_compat; auto. apply Rmult_lt_0_compat; auto.
    - assert (12 / 10 ^ 6 <= 2 * Bi ^ 2 / (201 * (201 + q))); [|lra]. apply (Rmult_le_reg_r (201 * (201 + q))); [apply Rmult_lt_0_compat; lra|]. unfold Rdiv at 2. rewrite (Rmult_assoc (2 * Bi ^ 2)), Rinv_l, Rmult_1_r by (apply Rgt_not_eq, Rmult_lt_0_compat; lra). unfold q. nra. }
  exists x, e. split; [exact Ex|]. split; [|split; [exact E0|split]].
  - intros n Hn. destruct (RP n ltac:(lia)) as (R0 & R1). destruct (term_le q d (rho n) (x n) R0 R1 ltac:(lra) ltac:(right; lra) (DX n Hn)) as (A & B & _). auto.
  - intros _. fold q. unfold e. lra.
  - intros Fo HF. apply (four_sum rho x q (2 * Bi ^ 2) d Fo e); auto; try lra. unfold e. lra.
Qed.
Lemma sphere_core Bi : 0 < Bi -> exists x e, four (fun i => roots_xcotx (Some Bi) i (1 / 10 ^ 6)) = Ok x /\ (forall n, (n < 4)%nat -> 0 < x n /\ 0 < x n ^ 2 + Bi * (Bi - 1)) /\
  0 < e /\ (1 <= Bi -> 6 * Bi ^ 2 / (249 * (249 + Bi * (Bi - 1))) - 6 / 10 ^ 6 <= e) /\
  forall Fo, 0 <= Fo -> e <= 1 - 6 * Bi ^ 2 * sumn 4 (fun n => exp (- x n ^ 2 * Fo) / (x n ^ 2 * (x n ^ 2 + Bi * (Bi - 1)))) < 1.
Proof.
  intros B0. pose proof PI_bounds as (P1 & P2). set (q := Bi * (Bi - 1)).
  destruct (pick 5 (fun i r => INR i * PI < r < INR i * PI + PI /\ 1 - r * (1 / tan r) = Bi)) as (rho & Hr). { intros i. destruct (C91_xcotx_roots Bi i B0) as (r & A & B & _). eauto. }
  destruct (four_ok (fun i => roots_xcotx (Some Bi) i (1 / 10 ^ 6)) (fun i x => rho i <= x \/ (1 <= Bi /\ 1 <= x /\ rho i - x <= 15 / 10 ^ 7))) as (x & Ex & Hx). { intros i Hi. destruct (Hr i ltac:(lia)) as (A & B). now apply xc_near. }
  assert (RE : forall n, (n < 5)%nat -> 0 < rho n /\ rho n * cos (rho n) = (1 - Bi) * sin (rho n)) by (intros n Hn; destruct (Hr n Hn) as (A & B); pose proof (XPI n); split; [lra|]; now apply (cot_eq Bi n)).
  assert (RP : forall n, (n < 5)%nat -> 0 < rho n /\ 0 < rho n ^ 2 + q) by (intros n Hn; destruct (RE n Hn) as (A & B); split; [auto|now apply sphere_pos]).
  set (d := if Rlt_dec Bi 1 then 0 else 15 / 10 ^ 7).
  assert (Hd : 0 <= d <= 15 / 10 ^ 7) by (unfold d; destruct (Rlt_dec Bi 1); lra). assert (Hc : d = 0 \/ 0 <= q) by (unfold d; destruct (Rlt_dec Bi 1); [now left|right; unfold q; apply Rmult_le_pos; lra]).
  assert (DX : forall n, (n < 4)%nat -> (1 - d) * rho n <= x n).
  { intros n Hn. destruct (RP n ltac:(lia)) as (R0 & _). destruct (Hx n Hn) as [L|(L & L1 & L')]; [nra|]. unfold d. destruct (Rlt_dec Bi 1) as [|_]; [lra|]. destruct (Rle_dec (rho n) 1); [nra|]. nra. }
  assert (BS : 6 * Bi ^ 2 * sumn 5 (fun n => 1 / (rho n ^ 2 * (rho n ^ 2 + q))) <= 1).
  { apply sphere_bessel; auto.
    intros n m Hn Hm NE EQ. destruct (Hr n Hn) as (A & _). destruct (Hr m Hm) as (A' & _). rewrite EQ in A. destruct (Nat.lt_total n m) as [L|[L|L]]; [|lia|].
      - apply le_INR in L. rewrite S_INR in L. nra.
      - apply le_INR in L. rewrite S_INR in L. nra. }
  destruct (Hr 4%nat ltac:(lia)) as (A4 & _). destruct (RP 4%nat ltac:(lia)) as (R4 & R4').
  assert (R42 : rho 4%nat ^ 2 <= 249). { assert (rho 4%nat <= 1575 / 100) by (cbn in A4; lra). assert (rho 4%nat ^ 2 <= (1575 / 100) ^ 2) by (apply pow_incr; lra). lra. }
  assert (B2 : 0 < 6 * Bi ^ 2) by (assert (0 < Bi ^ 2) by (apply pow_lt; auto); lra).
  assert (RR : 0 < rho 4%nat ^ 2) by (apply pow_lt; auto).
  assert (T5 : 6 * Bi ^ 2 / (249 * (249 + q)) <= 6 * Bi ^ 2 / (rho 4%nat ^ 2 * (rho 4%nat ^ 2 + q))).
  { unfold Rdiv. apply Rmult_le_compat_l; [lra|]. apply Rinv_le_contravar; [apply Rmult_lt_0_compat; auto|]. apply Rmult_le_compat; lra. }
  set (e := 6 * Bi ^ 2 / (rho 4%nat ^ 2 * (rho 4%nat ^ 2 + q)) - 4 * d).
  assert (E0 : 0 < e).
  { unfold e, d. destruct (Rlt_dec Bi 1) as [L|L].
    - assert (0 < 6 * Bi ^ 2 / (rho 4%nat ^ 2 * (rho 4%nat ^ 2 + q))); [|lra]. apply Rdiv_lt_0_compat; auto. apply Rmult_lt_0_compat; auto.
    - assert (0 <= q) by (unfold q; apply Rmult_le_pos; lra). assert (9 / 10 ^ 5 <= 6 * Bi ^ 2 / (249 * (249 + q))); [|lra]. apply (Rmult_le_reg_r (249 * (249 + q))); [apply Rmult_lt_0_compat; lra|]. unfold Rdiv at 2. rewrite (Rmult_assoc (6 * Bi ^ 2)), Rinv_l, Rmult_1_r by (apply Rgt_not_eq, Rmult_lt_0_compat; lra). unfold q. nra. }
  exists x, e. split; [exact Ex|]. split; [|split; [exact E0|split]].
  - intros n Hn. destruct (RP n ltac:(lia)) as (R0 & R1). destruct (term_le q d (rho n) (x n) R0 R1 ltac:(lra) Hc (DX n Hn)) as (A & B & _). auto.
  - intros _. fold q. unfold e. lra.
  - intros Fo HF. apply (four_sum rho x q (6 * Bi ^ 2) d Fo e); auto; try lra. unfold e. lra.
Qed.

(** the uptake of the sheet: computed for every time, zero at the start, strictly increasing, below one, and tending to
    one (for Bi <= 1e-10 this fails: C91_uptake_refuted) *)
Theorem C97_sheet Bi : 1 / 10 ^ 9 <= Bi -> exists f : R -> R, (forall Fo, 0 <= Fo -> uptake_convection_sheet Fo Bi = Ok (f Fo)) /\ f 0 = 0 /\
  (forall Fo1 Fo2, 0 <= Fo1 < Fo2 -> 0 <= f Fo1 < f Fo2 /\ f Fo2 < 1) /\ (forall e, 0 < e -> exists T, forall Fo, T <= Fo -> 1 - e < f Fo).
Proof.
  intros HB. destruct (sheet_core Bi HB) as (x & e0 & Ex & Hx & E0 & _ & HF). assert (B2 : 0 < 2 * Bi ^ 2) by (assert (0 < Bi ^ 2) by (apply pow_lt; lra); lra).
  exists (fun Fo => uptake_conv_sheet x Fo Bi). unfold uptake_convection_sheet, uptake_conv_sheet. rewrite (Reqb_f Bi 0) by lra. cbn [negb].
  assert (G : forall Fo, 0 < Fo -> Reqb Fo 0 = false) by (intros; apply Reqb_f; lra). split; [|split; [|split]].
  - intros Fo H. destruct (Req_dec Fo 0) as [-> |N]; [rewrite Reqb_refl; reflexivity|]. rewrite Reqb_f by auto. cbn [negb andb]. rewrite Ex. reflexivity.
  - rewrite Reqb_refl. reflexivity.
  - intros F1 F2 H. rewrite (G F2) by lra. cbn [negb andb]. pose proof (HF F2 ltac:(lra)) as H2. destruct (Req_dec F1 0) as [-> |N]; [rewrite Reqb_refl; cbn [negb andb]; lra|]. rewrite (G F1) by lra. cbn [negb andb]. pose proof (HF F1 ltac:(lra)) as H1. pose proof (series_incr x (Bi * (Bi + 1)) (2 * Bi ^ 2) F1 F2 B2 Hx ltac:(lra)). lra.
  - intros e He. destruct (series_lim x (Bi * (Bi + 1)) (2 * Bi ^ 2) B2 Hx e He) as (T & HT & L). exists T. intros Fo H. rewrite (G Fo) by lra. cbn [negb andb]. now apply L.
Qed.
(** the uptake of the sphere: the same for every Biot number *)
Theorem C97_sphere Bi : 0 < Bi -> exists f : R -> R, (forall Fo, 0 <= Fo -> uptake_convection_sphere Fo Bi = Ok (f Fo)) /\ f 0 = 0 /\
  (forall Fo1 Fo2, 0 <= Fo1 < Fo2 -> 0 <= f Fo1 < f Fo2 /\ f Fo2 < 1) /\ (forall e, 0 < e -> exists T, forall Fo, T <= Fo -> 1 - e < f Fo).
Proof.
  intros HB. destruct (sphere_core Bi HB) as (x & e0 & Ex & Hx & E0 & _ & HF). assert (B2 : 0 < 6 * Bi ^ 2) by (assert (0 < Bi ^ 2) by (apply pow_lt; lra); lra).
  exists (fun Fo => uptake_conv_sphere x Fo Bi). unfold uptake_convection_sphere, uptake_conv_sphere. rewrite (Reqb_f Bi 0) by lra. cbn [negb].
  assert (G : forall Fo, 0 < Fo -> Reqb Fo 0 = false) by (intros; apply Reqb_f; lra). split; [|split; [|split]].
  - intros Fo H. destruct (Req_dec Fo 0) as [-> |N]; [rewrite Reqb_refl; reflexivity|]. rewrite Reqb_f by auto. cbn [negb andb]. rewrite Ex. reflexivity.
  - rewrite Reqb_refl. reflexivity.
  - intros F1 F2 H. rewrite (G F2) by lra. cbn [negb andb]. pose proof (HF F2 ltac:(lra)) as H2. destruct (Req_dec F1 0) as [-> |N]; [rewrite Reqb_refl; cbn [negb andb]; lra|]. rewrite (G F1) by lra. cbn [negb andb]. pose proof (HF F1 ltac:(lra)) as H1. pose proof (series_incr x (Bi * (Bi - 1)) (6 * Bi ^ 2) F1 F2 B2 Hx ltac:(lra)). lra.
  - intros e He. destruct (series_lim x (Bi * (Bi - 1)) (6 * Bi ^ 2) B2 Hx e He) as (T & HT & L). exists T. intros Fo H. rewrite (G Fo) by lra. cbn [negb andb]. now apply L.
Qed.
(** with no convection, or at time zero, nothing is taken up *)
Theorem C97_zero Fo Bi : Fo = 0 \/ Bi = 0 -> uptake_convection_sheet Fo Bi = Ok 0 /\ uptake_convection_sphere Fo Bi = Ok 0.
Proof.
  intros H. unfold uptake_convection_sheet, uptake_convection_sphere. destruct H as [-> | ->]; rewrite Reqb_refl; cbn [negb andb]; [auto|]. rewrite andb_false_r. auto.
Qed.
(** finding: the series is cut after four terms, so the uptake jumps at the start: for every positive time it exceeds
    the value of the first missing term (up to the error of the roots) *)
Theorem C97_sheet_jump Fo Bi : 0 < Fo -> 1 / 2 <= Bi -> exists v, uptake_convection_sheet Fo Bi = Ok v /\ 2 * Bi ^ 2 / (201 * (201 + Bi * (Bi + 1))) - 82 / 10 ^ 7 <= v.
Proof.
  intros H HB. destruct (sheet_core Bi ltac:(lra)) as (x & e0 & Ex & Hx & E0 & E1 & HF). specialize (E1 HB). pose proof (HF Fo ltac:(lra)) as L. exists (uptake_conv_sheet x Fo Bi). unfold uptake_convection_sheet, uptake_conv_sheet. rewrite !Reqb_f by lra. cbn [negb andb]. rewrite Ex. cbn. split; [reflexivity|]. cbn in L. lra.
Qed.
Theorem C97_sphere_jump Fo Bi : 0 < Fo -> 1 <= Bi -> exists v, uptake_convection_sphere Fo Bi = Ok v /\ 6 * Bi ^ 2 / (249 * (249 + Bi * (Bi - 1))) - 6 / 10 ^ 6 <= v.
Proof.
  intros H HB. destruct (sphere_core Bi ltac:(lra)) as (x & e0 & Ex & Hx & E0 & E1 & HF). specialize (E1 HB). pose proof (HF Fo ltac:(lra)) as L. exists (uptake_conv_sphere x Fo Bi). unfold uptake_convection_sphere, uptake_conv_sphere. rewrite !Reqb_f by lra. cbn [negb andb]. rewrite Ex. cbn. split; [reflexivity|]. cbn in L. lra.
Qed.
(** so it is not continuous at the start: with Bi = 100 the sheet has taken up 0.9 %, the sphere 2.3 %, at once *)
Theorem C97_jump_refuted : exists Bi, 0 < Bi /\ uptake_convection_sheet 0 Bi = Ok 0 /\ uptake_convection_sphere 0 Bi = Ok 0 /\
  forall Fo, 0 < Fo -> exists v w, uptake_convection_sheet Fo Bi = Ok v /\ 9 / 1000 <= v /\ uptake_convection_sphere Fo Bi = Ok w /\ 23 / 1000 <= w.
Proof.
  exists 100. destruct (C97_zero 0 100 ltac:(auto)) as (A & B). repeat (split; [lra || auto|]). intros Fo H. destruct (C97_sheet_jump Fo 100 H ltac:(lra)) as (v & Ev & Lv). destruct (C97_sphere_jump Fo 100 H ltac:(lra)) as (w & Ew & Lw). exists v, w. repeat split; auto; lra.
Qed.
Example C97_example : exists v, uptake_convection_sheet (1 / 5) 3 = Ok v /\ 0 < v < 1.
Proof. destruct (C97_sheet 3 ltac:(lra)) as (f & E & Z & M & _). exists (f (1 / 5)). split; [apply E; lra|]. destruct (M 0 (1 / 5) ltac:(lra)) as (A & B). lra. Qed.
Print Assumptions C97_sheet.
Print Assumptions C97_sphere.
Print Assumptions C97_jump_refuted.
