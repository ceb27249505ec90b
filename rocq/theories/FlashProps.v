(** Flash calculations: C41, C78, C79, C80. *)
From Coq Require Import Reals Lra Lia List Bool Arith.
From Verif Require Import Prelude RootsModel RootsProps CopoModel FlashModel FlashRRProps.
Import ListNotations.
Open Scope R_scope.

Lemma normalise_sum N v : sumn N v <> 0 -> sumn N (normalise N v) = 1.
Proof. intros H. unfold normalise. rewrite sumn_div. field. auto. Qed.
Lemma normalise_feed N v : (forall i, (i < N)%nat -> 0 <= v i) -> 0 < sumn N v -> feed N (normalise N v).
Proof.
  intros H P. split; [|apply normalise_sum; lra]. intros i Hi. unfold normalise. apply Rmult_le_pos; auto.
  left. now apply Rinv_0_lt_compat.
Qed.

(* ------------------------------------------------------------------ *)
(** * PT flash                                                        *)
(* ------------------------------------------------------------------ *)

(** K-values as kept by the outer loop: finite ones are nonnegative, and positive for the
    component [v]. *)
Definition kinv (N v : nat) (K : nat -> fl) : Prop :=
  forall i, (i < N)%nat -> forall k, K i = Fin k -> 0 <= k /\ (i = v -> 0 < k).

Lemma k_update_inv alpha kn k r : 0 <= kn -> 0 <= k -> k_update alpha kn (Fin k) = Fin r ->
  0 <= r /\ (0 < kn -> 0 < k -> 0 < r).
Proof.
  intros Hn Ho E. unfold k_update in E.
  destruct (fl_plus _ _) as [a| | |] eqn:EP; cbn in E; try discriminate.
  - injection E as <-. pose proof (exp_pos a). split; [lra|auto].
  - injection E as <-. split; [lra|]. intros Pn Po. exfalso.
    unfold fl_log in EP. destruct (Rltb 0 kn) eqn:E1; [|rdec; lra]. destruct (Rltb 0 k) eqn:E2; [|rdec; lra]. discriminate EP.
Qed.

(** For positive K-values the update is the weighted geometric mean of new and old. *)
Lemma k_update_pos alpha kn k : 0 < kn -> 0 < k -> k_update alpha kn (Fin k) = Fin (Rpower kn alpha * Rpower k (1 - alpha)).
Proof.
  intros Hn Hk. unfold k_update, fl_log. destruct (Rltb 0 kn) eqn:E1; [|rdec; lra]. destruct (Rltb 0 k) eqn:E2; [|rdec; lra].
  cbn. f_equal. unfold Rpower. now rewrite exp_plus.
Qed.

Lemma resid_ext N b K K' z : (forall i, (i < N)%nat -> K i = K' i) -> residual_RR N b K z = residual_RR N b K' z.
Proof.
  intros H. unfold residual_RR. induction N; cbn [fl_sumn]; auto. rewrite IHN by (intros; apply H; lia). rewrite H by lia. reflexivity.
Qed.
(** A residual that is not NaN means that every K-value is finite. *)
Lemma all_fin N K z b : residual_RR N b K z <> NaN -> forall i, (i < N)%nat -> K i = fin (fun j => kfin (K j)) i.
Proof.
  intros H i Hi. unfold fin. destruct (K i) eqn:EK; cbn; auto; exfalso; apply H; apply (fl_sumn_nan N _ i Hi); now rewrite EK.
Qed.

Lemma rr_next_01 a b p F dF : 0 <= a <= 1 -> 0 <= b <= 1 -> 0 <= rr_next a b p F dF <= 1.
Proof.
  intros Ha Hb. unfold rr_next. assert (0 <= (a + b) / 2 <= 1) by lra.
  destruct (fl_plus _ _); auto. destruct (_ && _) eqn:E; auto. apply andb_prop in E. destruct E. rdec. lra.
Qed.
Lemma rr_loop_weak N K z atol : forall n i a b c last r, 0 <= a <= 1 -> 0 <= b <= 1 -> 0 <= c <= 1 ->
  rr_loop N K z atol n i a b c last = Ok r -> rs_success r = true ->
  0 <= rs_beta r <= 1 /\ exists f, residual_RR N (rs_beta r) K z = Fin f /\ Rabs f <= atol.
Proof.
  induction n as [|n IH]; intros i a b c last r Ha Hb Hc E S; cbn [rr_loop] in E.
  - destruct (Nat.eqb i 0); [discriminate|]. injection E as <-. discriminate S.
  - destruct (fl_abs_le (residual_RR N c K z) atol) eqn:EA.
    + injection E as <-. cbn. split; auto. destruct (residual_RR N c K z) as [f| | |]; try discriminate EA.
      exists f. split; auto. cbn in EA. now rdec.
    + apply IH in E; auto; destruct (fl_gt0 _); auto; now apply rr_next_01.
Qed.

(** What a successful inner solve means. *)
Lemma solve_success N v K z beta0 maxiter atol r : feed N z -> kinv N v K ->
  solve_RR N K z beta0 maxiter atol = Ok r -> rs_success r = true ->
  let k := fun i => kfin (K i) in
  (forall i, (i < N)%nat -> K i = Fin (k i)) /\ nonneg N k /\ 0 <= rs_beta r <= 1 /\ dom N k (rs_beta r) /\
  (Rabs (RR N k z (rs_beta r)) <= atol \/ rs_beta r = 0 \/ rs_beta r = 1).
Proof.
  intros HF HI E S k.
  assert (G : forall b f, 0 <= b <= 1 -> residual_RR N b K z = f -> f <> NaN -> f <> NInf \/ b = 0 ->
     (forall i, (i < N)%nat -> K i = Fin (k i)) /\ nonneg N k /\ dom N k b /\ f = Fin (RR N k z b)).
  { intros b f Hb Ef Hn Hi'.
    assert (AF := all_fin N K z b ltac:(rewrite Ef; auto)).
    assert (HK : nonneg N k) by (intros i Hi; apply (HI i Hi (k i)); apply AF; auto).
    assert (EE : residual_RR N b (fin k) z = f) by (rewrite <- Ef; symmetry; apply resid_ext; auto).
    destruct f as [f| | |]; try tauto.
    - destruct (resid_isfin N b k z f HK Hb EE) as (D & ->). auto.
    - exfalso. apply (resid_not_pinf N b k z); auto. apply HF.
    - destruct Hi' as [H'| ->]; [tauto|]. rewrite resid_fin in EE by apply dom0. discriminate. }
  unfold solve_RR in E. cbv zeta in E.
  destruct (fl_lt0 (residual_RR N 0 K z)) eqn:E0.
  - injection E as <-. cbn. destruct (G 0 (residual_RR N 0 K z)) as (A & B & C & D); auto; [lra| |].
    + intros K0. rewrite K0 in E0. discriminate.
    + repeat split; auto; lra.
  - destruct (fl_gt0 (residual_RR N 1 K z)) eqn:E1.
    + injection E as <-. cbn. destruct (G 1 (residual_RR N 1 K z)) as (A & B & C & D); auto; [lra| | |].
      * intros K0. rewrite K0 in E1. discriminate.
      * left. intros K0. rewrite K0 in E1. discriminate.
      * repeat split; auto; lra.
    + pose proof (bmin_range N K z). pose proof (bmax_range N K z).
      apply rr_loop_weak in E; auto; try lra.
      2:{ destruct beta0; [|lra]. unfold clip. split.
          - apply Rmin_glb; [|lra]. apply (Rle_trans _ (rr_bmin N K z)); [lra|apply Rmax_r].
          - apply (Rle_trans _ (rr_bmax N K z)); [apply Rmin_r|lra]. }
      destruct E as (Hb & f & Ef & Hf).
      destruct (G (rs_beta r) (Fin f)) as (A & B & C & D); auto; [discriminate|left; discriminate|].
      injection D as ->. repeat split; auto; lra.
Qed.

(** The material balance, exactly: with f = F(beta) the residual of the inner solve. *)
Lemma balance N k z b : feed N z -> nonneg N k -> 0 <= b <= 1 -> dom N k b ->
  let f := RR N k z b in
  let x1 := fun i => z i / (1 + b * (k i - 1)) in
  let y1 := fun i => k i * x1 i in
  0 < 1 - b * f -> 0 < 1 + (1 - b) * f ->
  let x := normalise N x1 in let y := normalise N y1 in
  sumn N x = 1 /\ sumn N y = 1 /\
  forall i, (i < N)%nat -> 0 <= x i /\ 0 <= y i /\ y i * (1 + (1 - b) * f) = k i * x i * (1 - b * f) /\
    z i = (1 - b) * x i + b * y i - b * (1 - b) * f * (x i - y i).
Proof.
  intros HF HK Hb HD f x1 y1 PX PY x y. destruct (phases N k z b HF HD) as (SX & SY).
  change (sumn N x1 = 1 - b * f) in SX. change (sumn N y1 = 1 + (1 - b) * f) in SY.
  split; [apply normalise_sum; lra|]. split; [apply normalise_sum; lra|].
  intros i Hi. assert (D := HD i Hi). unfold x, y, normalise. rewrite SX, SY.
  assert (X0 : 0 <= x1 i) by (unfold x1; apply Rmult_le_pos; [now apply HF|left; now apply Rinv_0_lt_compat]).
  assert (Y0 : 0 <= y1 i) by (unfold y1; apply Rmult_le_pos; auto).
  split; [apply Rmult_le_pos; auto; left; now apply Rinv_0_lt_compat|].
  split; [apply Rmult_le_pos; auto; left; now apply Rinv_0_lt_compat|].
  assert (Y1 : y1 i = k i * x1 i) by reflexivity.
  split; [rewrite Y1; field; lra|].
  assert (Z : z i = (1 - b) * x1 i + b * y1 i) by (unfold y1, x1; field; lra).
  rewrite Z. clearbody x1 y1. clear Y1 Z. field. lra.
Qed.

Lemma allclose_spec N a b t : allclose N a b t = true <-> forall i, (i < N)%nat -> Rabs (a i - b i) <= t + 1 / 10 ^ 5 * Rabs (b i).
Proof.
  unfold allclose. rewrite forallb_forall. split.
  - intros H i Hi. specialize (H i ltac:(apply in_seq; lia)). now apply Rleb_true in H.
  - intros H i Hi. apply in_seq in Hi. apply (proj2 (Rleb_true _ _)). apply H. lia.
Qed.
Lemma min_pos_spec N v m : min_pos N v = Ok m -> 0 < m /\ (forall i, (i < N)%nat -> 0 < v i -> m <= v i) /\ exists i, (i < N)%nat /\ v i = m.
Proof.
  unfold min_pos. destruct (min_pos_opt N v) as [q|] eqn:E; [|discriminate]. intros H. injection H as <-.
  revert q E. induction N as [|N IH]; intros q E; [discriminate|]. cbn in E. destruct (Rltb 0 (v N)) eqn:EV; rdec.
  - destruct (min_pos_opt N v) as [m|] eqn:EM.
    + injection E as <-. destruct (IH m eq_refl) as (A & B & (i & C & D)).
      split; [apply Rmin_glb_lt; auto|]. split.
      * intros j Hj Pj. destruct (Nat.eq_dec j N) as [->|]; [apply Rmin_r|]. apply (Rle_trans _ m); [apply Rmin_l|apply B; auto; lia].
      * unfold Rmin. destruct (Rle_dec m (v N)); [exists i; split; auto; lia|exists N; split; auto; lia].
    + injection E as <-. split; auto. split; [|exists N; split; auto; lia].
      intros j Hj Pj. destruct (Nat.eq_dec j N) as [->|]; [lra|]. exfalso.
      clear - EM Pj Hj n. revert EM. induction N as [|M IHM]; [lia|]. cbn. destruct (Rltb 0 (v M)) eqn:EV.
      * destruct (min_pos_opt M v); discriminate.
      * rdec. destruct (Nat.eq_dec j M) as [->|]; [lra|]. apply IHM; lia.
  - destruct (IH q E) as (A & B & (i & C & D)). split; auto. split; [|exists i; split; auto].
    intros j Hj Pj. destruct (Nat.eq_dec j N) as [->|]; [lra|]. apply B; auto. lia.
Qed.
Lemma min_pos_none N v : (forall i, (i < N)%nat -> v i <= 0) -> min_pos N v = Err ValueError.
Proof.
  intros H. unfold min_pos. assert (E : min_pos_opt N v = None); [|now rewrite E].
  induction N as [|N IH]; cbn; auto. destruct (Rltb 0 (v N)) eqn:EV; [rdec; specialize (H N ltac:(lia)); lra|]. apply IH. intros; apply H; lia.
Qed.

(** What a successful outer loop means. *)
Definition pt_good (Kcalc : kmodel) (N : nat) (z : nat -> R) (T P atol rtol : R) (s : ptst) : Prop :=
  exists b k f k0, pt_beta s = Some b /\ 0 <= b <= 1 /\ (forall i, (i < N)%nat -> pt_K s i = Fin (k i) /\ 0 <= k i) /\
   f = RR N k z b /\ 0 < 1 - b * f /\ 0 < 1 + (1 - b) * f /\
   (Rabs f <= atol \/ b = 0 \/ b = 1) /\ sumn N (pt_x s) = 1 /\ sumn N (pt_y s) = 1 /\
   (forall i, (i < N)%nat -> 0 <= pt_x s i /\ 0 <= pt_y s i /\
      pt_y s i * (1 + (1 - b) * f) = k i * pt_x s i * (1 - b * f) /\
      z i = (1 - b) * pt_x s i + b * pt_y s i - b * (1 - b) * f * (pt_x s i - pt_y s i)) /\
   0 < k0 /\ (forall i, (i < N)%nat -> 0 < Kcalc T P (pt_x s) (pt_y s) i -> k0 <= Kcalc T P (pt_x s) (pt_y s) i) /\
   (forall i, (i < N)%nat -> Rabs (Kcalc T P (pt_x s) (pt_y s) i - k i) <= k0 * rtol + 1 / 10 ^ 5 * k i).

Lemma pt_loop_good Kcalc N v z T P maxiter atol rtol alpha : feed N z -> (v < N)%nat -> 0 < z v ->
  (forall x y i, (i < N)%nat -> 0 <= Kcalc T P x y i) -> (forall x y, 0 < Kcalc T P x y v) -> 0 <= atol < 1 ->
  forall n K x y beta s, kinv N v K -> pt_loop Kcalc N z T P maxiter atol rtol alpha n K x y beta = Ok s ->
    pt_ok s = true -> pt_good Kcalc N z T P atol rtol s.
Proof.
  intros HF Hv Zv HK HV Ha. induction n as [|n IH]; intros K x y beta s HI E S; cbn [pt_loop] in E.
  - injection E as <-. discriminate S.
  - destruct (solve_RR N K z beta maxiter atol) as [sol|] eqn:ES; [|discriminate]. cbn [bind] in E.
    destruct (rs_success sol) eqn:EO; cbn [negb] in E; [|injection E as <-; discriminate S].
    destruct (solve_success N v K z beta maxiter atol sol HF HI ES EO) as (AF & NN & Hb & HD & HR). cbv zeta in AF.
    set (k := fun i => kfin (K i)) in *. set (b := rs_beta sol) in *. set (f := RR N k z b) in *.
    assert (KV : 0 < k v) by exact (proj2 (HI v Hv (k v) (AF v Hv)) eq_refl).
    assert (PX : 0 < 1 - b * f).
    { destruct (phases N k z b HF HD) as (SX & _). fold f in SX. rewrite <- SX. apply (sumn_pos N _ v); auto.
      - intros i Hi. apply Rmult_le_pos; [now apply HF|]. left. apply Rinv_0_lt_compat. now apply HD.
      - apply Rdiv_lt_0_compat; auto. }
    assert (PY : 0 < 1 + (1 - b) * f).
    { destruct (phases N k z b HF HD) as (_ & SY). fold f in SY. rewrite <- SY. apply (sumn_pos N _ v); auto.
      - intros i Hi. apply Rmult_le_pos; [now apply NN|]. apply Rmult_le_pos; [now apply HF|]. left. apply Rinv_0_lt_compat. now apply HD.
      - apply Rmult_lt_0_compat; auto. apply Rdiv_lt_0_compat; auto. }
    destruct (balance N k z b HF NN Hb HD PX PY) as (B1 & B2 & B3).
    set (x2 := normalise N (fun i => z i / (1 + b * (kfin (K i) - 1)))) in *.
    set (y2 := normalise N (fun i => kfin (K i) * (z i / (1 + b * (kfin (K i) - 1))))) in *.
    destruct (min_pos N (Kcalc T P x2 y2)) as [k0|] eqn:EM; [|discriminate]. cbn [bind] in E.
    destruct (min_pos_spec _ _ _ EM) as (M1 & M2 & _).
    destruct (allclose N (Kcalc T P x2 y2) k (k0 * rtol)) eqn:EC.
    + injection E as <-. exists b, k, f, k0. cbn.
      split; [auto|]. split; [auto|]. split; [intros i Hi; split; [exact (AF i Hi)|exact (NN i Hi)]|]. split; [auto|]. split; [exact PX|].
      split; [exact PY|]. split; [exact HR|]. split; [exact B1|]. split; [exact B2|]. split; [exact B3|]. split; [exact M1|]. split; [exact M2|].
      intros i Hi. pose proof (proj1 (allclose_spec _ _ _ _) EC i Hi) as Q. now rewrite (Rabs_pos_eq (k i)) in Q by auto.
    + apply IH in E; auto. intros i Hi r Er. rewrite (AF i Hi) in Er.
      destruct (k_update_inv _ _ _ _ (HK x2 y2 i Hi) (NN i Hi) Er) as (Q1 & Q2). split; auto.
      intros ->. apply Q2; auto.
Qed.

(** C41 for the PT flash.  For every nonnegative K-value model with at least one volatile
    component present in the feed: a successful result has compositions that are nonnegative
    and add to one, V = beta F, L + V = F, 0 <= beta <= 1, y proportional to K x, and the
    component balances hold with an error of at most atol/4 |x_i - y_i|; the K-values are
    consistent with the reported compositions to the stated tolerance. *)
Theorem C41_PT Kcalc N v F z P T x0 y0 beta0 maxiter atol rtol alpha r :
  (forall i, (i < N)%nat -> 0 <= z i) -> (v < N)%nat -> 0 < z v ->
  (forall x y i, (i < N)%nat -> 0 <= Kcalc T P x y i) -> (forall x y, 0 < Kcalc T P x y v) ->
  0 <= atol < 1 -> flash2_PT Kcalc N F z P T x0 y0 beta0 maxiter atol rtol alpha = Ok r -> fr_success r = true ->
  exists b k, fr_beta r = Fin b /\ 0 <= b <= 1 /\ fr_V r = Fin (F * b) /\ fr_L r = Fin (F - F * b) /\
    (forall i, (i < N)%nat -> fr_K r i = Fin (k i) /\ 0 <= k i) /\
    sumn N (fr_x r) = 1 /\ sumn N (fr_y r) = 1 /\
    (exists c, 0 < c /\ forall i, (i < N)%nat -> fr_y r i = c * (k i * fr_x r i)) /\
    (forall i, (i < N)%nat -> 0 <= fr_x r i /\ 0 <= fr_y r i /\
       Rabs (z i / sumn N z - ((1 - b) * fr_x r i + b * fr_y r i)) <= atol / 4 * Rabs (fr_x r i - fr_y r i)) /\
    (exists k0, 0 < k0 /\ (forall i, (i < N)%nat -> 0 < Kcalc T P (fr_x r) (fr_y r) i -> k0 <= Kcalc T P (fr_x r) (fr_y r) i) /\
      forall i, (i < N)%nat -> Rabs (Kcalc T P (fr_x r) (fr_y r) i - k i) <= k0 * rtol + 1 / 10 ^ 5 * k i).
Proof.
  intros HZ Hv Zv HK HV Ha E S. unfold flash2_PT in E. cbv zeta in E.
  assert (SZ : 0 < sumn N z) by (apply (sumn_pos N z v); auto).
  assert (HF := normalise_feed N z HZ SZ).
  destruct (pt_loop _ _ _ _ _ _ _ _ _ _ _ _ _ _) as [s|] eqn:EL; [|discriminate]. cbn [bind] in E. injection E as <-.
  cbn [fr_success fr_beta fr_V fr_L fr_K fr_x fr_y] in *.
  apply (pt_loop_good Kcalc N v (normalise N z) T P maxiter atol rtol alpha HF Hv) in EL; auto.
  2:{ unfold normalise. now apply Rdiv_lt_0_compat. }
  2:{ intros i Hi k Ek. injection Ek as <-. split; [now apply HK|intros ->; apply HV]. }
  destruct EL as (b & k & f & k0 & E1 & Hb & EK & Ef & XP & YP & HR & SX & SY & BAL & K0 & K1 & K2).
  rewrite E1. exists b, k. cbn.
  split; [auto|]. split; [auto|]. split; [auto|]. split; [auto|]. split; [auto|]. split; [auto|]. split; [auto|]. split; [|split].
  - exists ((1 - b * f) / (1 + (1 - b) * f)). split; [now apply Rdiv_lt_0_compat|]. intros i Hi.
    destruct (BAL i Hi) as (_ & _ & C & _). apply (Rmult_eq_reg_r (1 + (1 - b) * f)); [|lra]. rewrite C. field. lra.
  - intros i Hi. destruct (BAL i Hi) as (A & B & _ & C). split; auto. split; auto.
    change (z i / sumn N z) with (normalise N z i). rewrite C.
    replace (_ - _ - _) with (- (b * (1 - b) * f) * (pt_x s i - pt_y s i)) by ring.
    rewrite Rabs_mult, Rabs_Ropp. apply Rmult_le_compat_r; [apply Rabs_pos|].
    rewrite Rabs_mult. assert (Q : 0 <= b * (1 - b) <= 1 / 4).
    { split; [apply Rmult_le_pos; lra|]. assert (0 <= (b - 1 / 2) ^ 2) by apply pow2_ge_0. lra. }
    rewrite (Rabs_pos_eq (b * (1 - b))) by lra.
    destruct HR as [HR|[->| ->]].
    + apply (Rle_trans _ (1 / 4 * atol)); [|lra]. apply Rmult_le_compat; try lra. apply Rabs_pos.
    + rewrite Rmult_0_l, Rmult_0_l. lra.
    + replace (1 * (1 - 1)) with 0 by ring. rewrite Rmult_0_l. lra.
  - exists k0. auto.
Qed.

(** Composition-independent K-values (Raoult): the flash succeeds at the first outer iteration. *)
Lemma min_pos_ex N v i : (i < N)%nat -> 0 < v i -> exists m, min_pos N v = Ok m.
Proof.
  intros Hi P. unfold min_pos. destruct (min_pos_opt N v) as [m|] eqn:E; [eauto|]. exfalso. revert E.
  induction N as [|N IH]; [lia|]. cbn. destruct (Rltb 0 (v N)) eqn:EV.
  - destruct (min_pos_opt N v); discriminate.
  - rdec. destruct (Nat.eq_dec i N) as [->|]; [lra|]. apply IH. lia.
Qed.
Theorem C41_PT_ideal (k : nat -> R) N F z P T x0 y0 beta0 maxiter atol rtol alpha J :
  (forall i, (i < N)%nat -> 0 <= z i) -> 0 < sumn N z -> positive N k -> 0 < atol -> 0 <= rtol ->
  2 * slope_max N k (normalise N z) <= INR J * atol -> (2 * J + 1 <= maxiter)%nat ->
  exists r, flash2_PT (fun _ _ _ _ => k) N F z P T x0 y0 beta0 maxiter atol rtol alpha = Ok r /\ fr_success r = true.
Proof.
  intros HZ SZ HK Ha Hr HJ Hm. assert (HF := normalise_feed N z HZ SZ).
  assert (HN : (0 < N)%nat) by (destruct N; [cbn in SZ; lra|lia]).
  unfold flash2_PT. cbv zeta. destruct maxiter as [|n]; [lia|]. cbn [pt_loop].
  change (fun i : nat => Fin (k i)) with (fin k).
  set (b0 := match beta0 with Some b => Some (clip b 0 1) | None => None end).
  destruct (C40_converges N k (normalise N z) b0 (S n) atol J HF HK Ha HJ Hm) as (r & E & S).
  rewrite E. cbn [bind]. rewrite S. cbn [negb].
  destruct (min_pos_ex N k 0 HN (HK 0%nat HN)) as (m & Em). rewrite Em. cbn [bind].
  destruct (min_pos_spec _ _ _ Em) as (M1 & _).
  match goal with |- context [allclose ?a ?b ?c ?d] => assert (AC : allclose a b c d = true) end.
  { apply allclose_spec. intros i Hi. cbn. rewrite Rminus_diag_eq by reflexivity. rewrite Rabs_R0.
    assert (0 <= m * rtol) by (apply Rmult_le_pos; lra). pose proof (Rabs_pos (k i)). lra. }
  rewrite AC. cbn [bind]. eexists. split; reflexivity.
Qed.

(* ------------------------------------------------------------------ *)
(** * C78: the outer tolerance                                        *)
(* ------------------------------------------------------------------ *)

Definition half2 : nat -> R := fun i => match i with O => 1 / 2 | _ => 1 / 2 end.
Definition K78 : kmodel := fun _ _ _ y i => match i with O => 1 / 2 + (y 0%nat - 1 / 2) * (2 / 10 ^ 5) | _ => 1 / 4 end.

Lemma norm_half : forall i, (i < 2)%nat -> normalise 2 half2 i = 1 / 2.
Proof. intros [|[|i]] Hi; try lia; unfold normalise, half2; cbn; field. Qed.

(** A subcooled first iteration. *)
Lemma pt_first_sub Kcalc N z T P maxiter atol rtol alpha n K k x y beta k0 : feed N z ->
  (forall i, (i < N)%nat -> K i = Fin (k i)) -> sumn N (fun i => k i * z i) < 1 ->
  let x2 := normalise N (fun i => z i / (1 + 0 * (kfin (K i) - 1))) in
  let y2 := normalise N (fun i => kfin (K i) * (z i / (1 + 0 * (kfin (K i) - 1)))) in
  min_pos N (Kcalc T P x2 y2) = Ok k0 ->
  pt_loop Kcalc N z T P maxiter atol rtol alpha (S n) K x y beta =
  (if allclose N (Kcalc T P x2 y2) (fun i => kfin (K i)) (k0 * rtol) then Ok (mkPT true FConverged (Some 0) x2 y2 K)
   else pt_loop Kcalc N z T P maxiter atol rtol alpha n (fun i => k_update alpha (Kcalc T P x2 y2 i) (K i)) x2 y2 (Some 0)).
Proof.
  intros HF HK HS x2 y2 HM. cbn [pt_loop].
  assert (E : solve_RR N K z beta maxiter atol = Ok (mkRRR true 0 0 (Fin (RR N k z 0)))).
  { unfold solve_RR. cbv zeta. rewrite (resid_ext N 0 K (fin k)) by auto. rewrite resid_fin by apply dom0. cbn [fl_lt0].
    rewrite RR_at0 by auto. destruct (Rltb _ 0) eqn:E; [reflexivity|]. rdec. lra. }
  rewrite E. cbn [bind rs_success rs_beta negb]. fold x2 y2. rewrite HM. reflexivity.
Qed.

(** Finding: np.allclose keeps its default relative tolerance 1e-5, so a success is reported
    although the K-values disagree by more than six times the requested relative tolerance. *)
Theorem C78_outer_tolerance_refuted : exists Kcalc N F z P T maxiter atol rtol alpha r,
  rtol = 1 / 10 ^ 6 /\ flash2_PT Kcalc N F z P T None None None maxiter atol rtol alpha = Ok r /\ fr_success r = true /\
  exists i k, (i < N)%nat /\ fr_K r i = Fin k /\ 6 * rtol * k < Rabs (Kcalc T P (fr_x r) (fr_y r) i - k) /\
     6 * rtol * Kcalc T P (fr_x r) (fr_y r) i < Rabs (Kcalc T P (fr_x r) (fr_y r) i - k).
Proof.
  exists K78, 2%nat, 1, half2, 1, 300, 50%nat, (1 / 10 ^ 9), (1 / 10 ^ 6), 1.
  unfold flash2_PT. cbv zeta. cbn [guess].
  set (z := normalise 2 half2). assert (Z : forall i, (i < 2)%nat -> z i = 1 / 2) by exact norm_half.
  assert (HF : feed 2 z). { split; [intros i Hi; rewrite Z by auto; lra|cbn; rewrite !Z by lia; lra]. }
  set (K := fun i => Fin (K78 300 1 z z i)).
  set (k := fun i : nat => match i with O => 1 / 2 | _ => 1 / 4 end).
  assert (HK : forall i, (i < 2)%nat -> K i = Fin (k i)).
  { intros [|[|i]] Hi; try lia; unfold K, K78, k; [|reflexivity]. rewrite Z by lia. f_equal. lra. }
  set (x2 := normalise 2 (fun i => z i / (1 + 0 * (kfin (K i) - 1)))).
  set (y2 := normalise 2 (fun i => kfin (K i) * (z i / (1 + 0 * (kfin (K i) - 1))))).
  assert (Y0 : y2 0%nat = 2 / 3).
  { unfold y2, normalise. cbn [sumn]. rewrite !HK by lia. rewrite !Z by lia. cbn [kfin k]. field. }
  assert (N0 : K78 300 1 x2 y2 0%nat = 1 / 2 + (1 / 6) * (2 / 10 ^ 5)) by (unfold K78; rewrite Y0; field).
  assert (N1 : K78 300 1 x2 y2 1%nat = 1 / 4) by reflexivity.
  destruct (min_pos_ex 2 (K78 300 1 x2 y2) 1 ltac:(lia) ltac:(rewrite N1; lra)) as (k0 & EM).
  destruct (min_pos_spec _ _ _ EM) as (M0 & _ & _).
  eexists. split; [reflexivity|]. change 50%nat with (S 49) at 2.
  rewrite (pt_first_sub K78 2 z 300 1 50 (1 / 10 ^ 9) (1 / 10 ^ 6) 1 49 K k z z None k0 HF HK); [| |exact EM].
  2:{ cbn [sumn]. rewrite !Z by lia. cbn [k]. lra. }
  fold x2 y2.
  assert (AC : allclose 2 (K78 300 1 x2 y2) (fun i => kfin (K i)) (k0 * (1 / 10 ^ 6)) = true).
  { apply allclose_spec. intros [|[|i]] Hi; try lia; rewrite HK by lia; cbn [kfin k]; rewrite ?N0, ?N1.
    - rewrite (Rabs_pos_eq (1 / 2 + _ - _)) by lra. rewrite Rabs_pos_eq by lra. lra.
    - replace (1 / 4 - 1 / 4) with 0 by ring. rewrite Rabs_R0, Rabs_pos_eq by lra. lra. }
  rewrite AC. cbn [bind]. split; [reflexivity|]. cbn [fr_K fr_x fr_y fr_success pt_ok pt_K pt_x pt_y]. split; [reflexivity|].
  exists 0%nat, (1 / 2). split; [lia|]. split; [apply HK; lia|].
  rewrite N0.
  rewrite (Rabs_pos_eq (1 / 2 + _ - _)) by lra. lra.
Qed.
(** What does hold (used in C41): the error is at most rtol min(K) + 1e-5 K. *)

(* ------------------------------------------------------------------ *)
(** * C79: nonvolatile components                                     *)
(* ------------------------------------------------------------------ *)

Lemma k_update_nonvolatile : k_update 1 0 (Fin 0) = NaN.
Proof.
  unfold k_update, fl_log. destruct (Rltb 0 0) eqn:E; [rdec; lra|]. destruct (Reqb 0 0) eqn:E1; [|rdec; lra].
  cbn [fl_scal]. destruct (Reqb 1 0) eqn:E2; [rdec; lra|]. destruct (Reqb (1 - 1) 0) eqn:E3; [|rdec; lra].
  destruct (Rltb 0 1); reflexivity.
Qed.
Lemma solve_nan N K z beta0 maxiter atol r j : feed N z -> (j < N)%nat -> K j = NaN ->
  solve_RR N K z beta0 maxiter atol = Ok r -> rs_success r = false.
Proof.
  intros HF Hj HN E. destruct (rs_success r) eqn:S; auto. exfalso.
  assert (RN : forall b, residual_RR N b K z = NaN) by (intros b; apply (fl_sumn_nan N _ j Hj); now rewrite HN).
  unfold solve_RR in E. cbv zeta in E. rewrite !RN in E. cbn [fl_lt0 fl_gt0] in E.
  pose proof (bmin_range N K z). pose proof (bmax_range N K z).
  apply rr_loop_weak in E; auto; try lra.
  - destruct E as (_ & f & Ef & _). rewrite RN in Ef. discriminate.
  - destruct beta0; [|lra]. unfold clip. split.
    + apply Rmin_glb; [|lra]. apply (Rle_trans _ (rr_bmin N K z)); [lra|apply Rmax_r].
    + apply (Rle_trans _ (rr_bmax N K z)); [apply Rmin_r|lra].
Qed.

(** With a nonvolatile component (K = 0) and the default alpha_outer = 1 the outer loop
    cannot update the K-values: a success always reports the K-values of the initial guess. *)
Theorem C79_nonvolatile Kcalc N j F z P T x0 y0 beta0 maxiter atol rtol r :
  (forall i, (i < N)%nat -> 0 <= z i) -> 0 < sumn N z -> (j < N)%nat -> (forall x y, Kcalc T P x y j = 0) ->
  flash2_PT Kcalc N F z P T x0 y0 beta0 maxiter atol rtol 1 = Ok r -> fr_success r = true ->
  forall i, fr_K r i = Fin (Kcalc T P (guess N x0 (normalise N z)) (guess N y0 (normalise N z)) i).
Proof.
  intros HZ SZ Hj HK E S. assert (HF := normalise_feed N z HZ SZ). unfold flash2_PT in E. cbv zeta in E.
  destruct (pt_loop _ _ _ _ _ _ _ _ _ _ _ _ _ _) as [s|] eqn:EL; [|discriminate]. cbn [bind] in E. injection E as <-.
  cbn [fr_success fr_K] in *. destruct maxiter as [|n]; cbn [pt_loop] in EL; [injection EL as <-; discriminate S|].
  destruct (solve_RR _ _ _ _ _ _) as [sol|]; [|discriminate]. cbn [bind] in EL.
  destruct (rs_success sol); cbn [negb] in EL; [|injection EL as <-; discriminate S].
  destruct (min_pos _ _) as [k0|]; [|discriminate]. cbn [bind] in EL.
  destruct (allclose _ _ _ _); [injection EL as <-; reflexivity|]. exfalso.
  destruct n as [|n]; cbn [pt_loop] in EL; [injection EL as <-; discriminate S|].
  match type of EL with (do sol <- solve_RR ?a ?b ?c ?d ?e ?f; _) = _ => destruct (solve_RR a b c d e f) as [sol'|] eqn:ES; [|discriminate] end.
  cbn [bind] in EL.
  apply (solve_nan _ _ _ _ _ _ _ j) in ES; auto.
  - rewrite ES in EL. cbn [negb] in EL. injection EL as <-. discriminate S.
  - rewrite !HK. apply k_update_nonvolatile.
Qed.

(** Finding: a mixture with a nonvolatile component, whose exact solution is trivial (a
    subcooled liquid with vapour composition (1,0)), is never solved. *)
Definition K79 : kmodel := fun _ _ _ y i => match i with O => y 0%nat | _ => 0 end.
Theorem C79_nonvolatile_refuted : exists Kcalc N z,
  (exists k x y, (forall T P i, (i < N)%nat -> Kcalc T P x y i = k i) /\ sumn N x = 1 /\ sumn N y = 1 /\
     (forall i, (i < N)%nat -> x i = z i / sumn N z) /\
     (exists c, forall i, (i < N)%nat -> y i = c * (k i * x i)) /\ sumn N (fun i => k i * x i) < 1) /\
  forall F P T beta0 maxiter atol rtol r, 0 <= rtol <= 1 / 10 ->
    flash2_PT Kcalc N F z P T None None beta0 maxiter atol rtol 1 = Ok r -> fr_success r = false.
Proof.
  exists K79, 2%nat, half2. split.
  - exists (fun i => match i with O => 1 | _ => 0 end), half2, (fun i => match i with O => 1 | _ => 0 end).
    split; [|split; [|split; [|split; [|split]]]].
    + intros T P [|[|i]] Hi; try lia; reflexivity.
    + cbn. lra.
    + cbn. lra.
    + intros i Hi. change (half2 i / sumn 2 half2) with (normalise 2 half2 i). rewrite norm_half by auto. destruct i as [|[|i]]; reflexivity || lia.
    + exists 2. intros [|[|i]] Hi; try lia; cbn; lra.
    + cbn. lra.
  - intros F P T beta0 maxiter atol rtol r Hr E. destruct (fr_success r) eqn:SU; auto. exfalso.
    assert (S' := SU).
    pose proof (C79_nonvolatile K79 2 1 F half2 P T None None beta0 maxiter atol rtol r
      ltac:(intros [|[|i]] Hi; cbn; lra) ltac:(cbn; lra) ltac:(lia) ltac:(reflexivity) E S') as HKr.
    unfold flash2_PT in E. cbv zeta in E. cbn [guess] in E.
    set (z := normalise 2 half2) in *. assert (Z : forall i, (i < 2)%nat -> z i = 1 / 2) by exact norm_half.
    assert (HF : feed 2 z). { split; [intros i Hi; rewrite Z by auto; lra|cbn; rewrite !Z by lia; lra]. }
    set (K := fun i => Fin (K79 T P z z i)) in *.
    set (k := fun i : nat => match i with O => 1 / 2 | _ => 0 end).
    assert (HK : forall i, (i < 2)%nat -> K i = Fin (k i)).
    { intros [|[|i]] Hi; try lia; unfold K, K79, k; [|reflexivity]. rewrite Z by lia. reflexivity. }
    destruct maxiter as [|n]; [cbn in E; injection E as <-; discriminate SU|].
    set (x2 := normalise 2 (fun i => z i / (1 + 0 * (kfin (K i) - 1)))).
    set (y2 := normalise 2 (fun i => kfin (K i) * (z i / (1 + 0 * (kfin (K i) - 1))))).
    assert (Y0 : y2 0%nat = 1).
    { unfold y2, normalise. cbn [sumn]. rewrite !HK by lia. rewrite !Z by lia. cbn [kfin k]. field. }
    assert (EM : min_pos 2 (K79 T P x2 y2) = Ok 1).
    { unfold min_pos. cbn [min_pos_opt K79]. rewrite Y0. destruct (Rltb 0 0) eqn:Q; [rdec; lra|].
      destruct (Rltb 0 1) eqn:Q1; [reflexivity|rdec; lra]. }
    rewrite (pt_first_sub K79 2 z T P (S n) atol rtol 1 n K k z z _ 1 HF HK) in E; [| |exact EM].
    2:{ cbn [sumn]. rewrite !Z by lia. cbn [k]. lra. }
    fold x2 y2 in E.
    destruct (allclose 2 (K79 T P x2 y2) (fun i => kfin (K i)) (1 * rtol)) eqn:AC.
    + pose proof (proj1 (allclose_spec _ _ _ _) AC 0%nat ltac:(lia)) as Q. cbv beta in Q. rewrite HK in Q by lia. cbn [K79 kfin k] in Q. rewrite Y0 in Q.
      rewrite (Rabs_pos_eq (1 - 1 / 2)), (Rabs_pos_eq (1 / 2)) in Q by lra. lra.
    + destruct n as [|n]; cbn [pt_loop] in E; [cbn in E; injection E as <-; discriminate SU|].
      match type of E with context [solve_RR ?a ?b ?c ?d ?e ?f] => destruct (solve_RR a b c d e f) as [sol'|] eqn:ES; [|discriminate] end.
      cbn [bind] in E. apply (solve_nan _ _ _ _ _ _ _ 1%nat) in ES; auto.
      * rewrite ES in E. cbn in E. injection E as <-. discriminate SU.
      * rewrite HK by lia. apply k_update_nonvolatile.
Qed.

(* ------------------------------------------------------------------ *)
(** * PV and TV flash                                                 *)
(* ------------------------------------------------------------------ *)

(** Phase compositions from the inner variable r, with c_i = Kb0 e^{u_i}; the balance error
    is the residual of the inner equation times x_i - y_i. *)
Lemma Rabs_zero t : Rabs t = 0 -> t = 0.
Proof. intros H. destruct (Req_dec t 0); auto. now apply Rabs_no_R0 in H. Qed.
Lemma eps_pos' : 0 < eps.
Proof. unfold eps. apply Rinv_0_lt_compat. apply pow_lt. lra. Qed.
Section Phase.
  Variables (N : nat) (u : nat -> R) (Kb0 beta : R) (z : nat -> R) (r : R).
  Hypothesis HF : feed N z.
  Hypothesis HKb : 0 < Kb0.
  Hypothesis Hr : 0 <= r <= 1.
  Let den i := 1 - r + Kb0 * r * exp (u i).
  Let p i := z i / den i.
  Let e := Rloop N u Kb0 beta z r.

  Lemma den_pos' i : 0 < den i.
  Proof.
    unfold den. pose proof (exp_pos (u i)). destruct (Req_dec r 0) as [->|]; [lra|].
    assert (0 < Kb0 * r * exp (u i)) by (apply Rmult_lt_0_compat; auto; apply Rmult_lt_0_compat; lra). lra.
  Qed.
  Lemma p_nonneg i : (i < N)%nat -> 0 <= p i.
  Proof. intros Hi. apply Rmult_le_pos; [now apply HF|]. left. apply Rinv_0_lt_compat. apply den_pos'. Qed.
  Lemma some_z : exists i, (i < N)%nat /\ 0 < z i.
  Proof.
    destruct HF as (HZ & HS). apply Classical_Prop.NNPP. intros NE.
    assert (sumn N z = 0); [|lra]. apply sumn_zero'. intros i Hi. destruct (HZ i Hi); auto. exfalso. apply NE. eauto.
  Qed.
  Lemma sum_p_pos : 0 < sumn N p.
  Proof.
    destruct some_z as (i & Hi & Pi). apply (sumn_pos N p i); auto; [intros; now apply p_nonneg|].
    apply Rdiv_lt_0_compat; auto. apply den_pos'.
  Qed.
  Lemma sum_eup_pos : 0 < sumn N (fun i => exp (u i) * p i).
  Proof.
    destruct some_z as (i & Hi & Pi). apply (sumn_pos N _ i); auto.
    - intros j Hj. apply Rmult_le_pos; [left; apply exp_pos|now apply p_nonneg].
    - apply Rmult_lt_0_compat; [apply exp_pos|]. apply Rdiv_lt_0_compat; auto. apply den_pos'.
  Qed.

  Lemma phase_balance :
    sumn N (phase_x N u Kb0 z r) = 1 /\ sumn N (phase_y N u Kb0 z r) = 1 /\
    forall i, (i < N)%nat -> 0 <= phase_x N u Kb0 z r i /\ 0 <= phase_y N u Kb0 z r i /\
      phase_y N u Kb0 z r i = phase_Kb N u Kb0 z r * exp (u i) * phase_x N u Kb0 z r i /\
      z i = (1 - beta) * phase_x N u Kb0 z r i + beta * phase_y N u Kb0 z r i
            - e * (phase_x N u Kb0 z r i - phase_y N u Kb0 z r i).
  Proof.
    pose proof sum_p_pos as SP. pose proof sum_eup_pos as SE.
    change (phase_x N u Kb0 z r) with (normalise N p). change (phase_y N u Kb0 z r) with (normalise N (fun i => exp (u i) * p i)).
    change (phase_Kb N u Kb0 z r) with (sumn N p / sumn N (fun i => exp (u i) * p i)).
    split; [apply normalise_sum; lra|]. split; [apply normalise_sum; lra|].
    intros i Hi. unfold normalise.
    split; [apply Rmult_le_pos; [now apply p_nonneg|left; now apply Rinv_0_lt_compat]|].
    split; [apply Rmult_le_pos; [apply Rmult_le_pos; [left; apply exp_pos|now apply p_nonneg]|left; now apply Rinv_0_lt_compat]|].
    split; [field; lra|].
    assert (E1 : (1 - r) * sumn N p = 1 - beta - e) by (unfold e, Rloop; fold den; change (sumn N (fun i => z i / _)) with (sumn N p); ring).
    assert (E2 : Kb0 * r * sumn N (fun i => exp (u i) * p i) = beta + e).
    { assert (E3 : (1 - r) * sumn N p + Kb0 * r * sumn N (fun i => exp (u i) * p i) = 1); [|lra].
      transitivity (sumn N z); [|apply HF]. rewrite <- !sumn_scal, <- sumn_plus. apply sumn_ext. intros j Hj.
      unfold p, den. field. pose proof (den_pos' j) as Q. unfold den in Q. lra. }
    set (P := sumn N p) in *. set (Q := sumn N (fun i => exp (u i) * p i)) in *.
    assert (Zi : z i = (1 - r) * p i + Kb0 * r * (exp (u i) * p i)).
    { unfold p, den. field. pose proof (den_pos' i) as D. unfold den in D. lra. }
    transitivity ((1 - beta - e) * (p i / P) + (beta + e) * (exp (u i) * p i / Q)); [|ring].
    rewrite <- E1, <- E2, Zi. field. lra.
  Qed.
End Phase.
Lemma den_pos2 (u : nat -> R) Kb0 r i : 0 < Kb0 -> 0 <= r <= 1 -> 0 < 1 - r + Kb0 * r * exp (u i).
Proof. intros H1 H2. exact (den_pos' 0 u Kb0 0 (fun _ => 0) r H1 H2 i). Qed.


(** The inner function is Lipschitz on [0,1]. *)
Definition Rlip (N : nat) (u : nat -> R) (Kb0 : R) (z : nat -> R) : R :=
  sumn N (fun i => z i * (Kb0 * exp (u i)) / (Rmin 1 (Kb0 * exp (u i))) ^ 2).
Lemma Rloop_lip N u Kb0 beta z r s : feed N z -> 0 < Kb0 -> 0 <= r <= 1 -> 0 <= s <= 1 ->
  Rabs (Rloop N u Kb0 beta z r - Rloop N u Kb0 beta z s) <= Rlip N u Kb0 z * Rabs (r - s).
Proof.
  intros HF HK Hr Hs.
  assert (E : Rloop N u Kb0 beta z r - Rloop N u Kb0 beta z s =
    (r - s) * sumn N (fun i => z i * (Kb0 * exp (u i)) / ((1 - r + Kb0 * r * exp (u i)) * (1 - s + Kb0 * s * exp (u i))))).
  { unfold Rloop. rewrite <- sumn_scal. rewrite <- !sumn_scal.
    transitivity (sumn N (fun i => (1 - s) * (z i / (1 - s + Kb0 * s * exp (u i)))) - sumn N (fun i => (1 - r) * (z i / (1 - r + Kb0 * r * exp (u i))))); [ring|].
    rewrite <- sumn_minus. apply sumn_ext. intros i Hi.
    pose proof (den_pos2 u Kb0 r i HK Hr). pose proof (den_pos2 u Kb0 s i HK Hs). field. lra. }
  rewrite E, Rabs_mult, Rmult_comm. apply Rmult_le_compat_r; [apply Rabs_pos|].
  assert (ML : forall i t, 0 <= t <= 1 -> Rmin 1 (Kb0 * exp (u i)) <= 1 - t + Kb0 * t * exp (u i)).
  { intros i t Ht. pose proof (den_ge t (Kb0 * exp (u i)) Ht). lra. }
  assert (MP : forall i, 0 < Rmin 1 (Kb0 * exp (u i))).
  { intros i. apply Rmin_glb_lt; [lra|]. apply Rmult_lt_0_compat; auto. apply exp_pos. }
  rewrite Rabs_pos_eq.
  - apply sumn_le. intros i Hi. apply frac_le.
    + apply Rmult_le_pos; [now apply HF|]. left. apply Rmult_lt_0_compat; auto. apply exp_pos.
    + apply pow_lt. apply MP.
    + simpl. rewrite Rmult_1_r. apply Rmult_le_compat; try (left; apply MP); apply ML; auto.
  - apply sumn_nonneg. intros i Hi. apply Rmult_le_pos.
    + apply Rmult_le_pos; [now apply HF|]. left. apply Rmult_lt_0_compat; auto. apply exp_pos.
    + left. apply Rinv_0_lt_compat. apply Rmult_lt_0_compat; [apply (den_pos2 u Kb0 r)|apply (den_pos2 u Kb0 s)]; auto.
Qed.
Lemma Rlip_nonneg N u Kb0 z : feed N z -> 0 < Kb0 -> 0 <= Rlip N u Kb0 z.
Proof.
  intros HF HK. apply sumn_nonneg. intros i Hi.
  assert (0 < Kb0 * exp (u i)) by (apply Rmult_lt_0_compat; auto; apply exp_pos).
  apply Rmult_le_pos; [apply Rmult_le_pos; [now apply HF|lra]|].
  left. apply Rinv_0_lt_compat. apply pow_lt. apply Rmin_glb_lt; lra.
Qed.

(** What the inner R-loop delivers. *)
Lemma inner_R_ok N u Kb0 beta z maxiter atol r : feed N z -> 0 < Kb0 -> 0 <= atol ->
  inner_R N u Kb0 beta z maxiter atol = Ok (Some r) ->
  0 <= r <= 1 /\ Rabs (Rloop N u Kb0 beta z r) <= (atol + 4 * eps) * (1 + Rlip N u Kb0 z).
Proof.
  intros HF HK Ha E. unfold inner_R in E. assert (EP : 0 < eps) by (unfold eps; apply Rinv_0_lt_compat; apply pow_lt; lra).
  pose proof (Rlip_nonneg N u Kb0 z HF HK) as LN. set (L := Rlip N u Kb0 z) in *.
  assert (LL : 0 <= (atol + 4 * eps) * L) by (apply Rmult_le_pos; lra).
  destruct (Rleb (Rabs (beta - 0)) eps) eqn:E0.
  - injection E as <-. rdec. split; [lra|].
    replace (Rloop N u Kb0 beta z 0) with (- (beta - 0)); [rewrite Rabs_Ropp; lra|].
    unfold Rloop. rewrite (sumn_ext N _ z); [rewrite (proj2 HF); ring|]. intros i Hi. field.
  - destruct (Rleb (Rabs (beta - 1)) eps) eqn:E1.
    + injection E as <-. rdec. split; [lra|]. replace (Rloop N u Kb0 beta z 1) with (- (beta - 1)); [rewrite Rabs_Ropp; lra|].
      unfold Rloop. ring.
    + destruct (root_brent (Rloop N u Kb0 beta z) 0 1 atol atol maxiter) as (tr & [sol|]) eqn:EB; [|discriminate].
      cbn [snd bind] in E. destruct (rr_success sol) eqn:ES; [|discriminate]. injection E as <-.
      assert (RG : 0 <= rr_x sol <= 1).
      { destruct maxiter as [|n].
        - unfold root_brent in EB. cbv zeta in EB.
          destruct (Rleb (Rabs (Rloop N u Kb0 beta z 0)) atol); [injection EB as <- <-; cbn; lra|].
          destruct (Rleb (Rabs (Rloop N u Kb0 beta z 1)) atol); [injection EB as <- <-; cbn; lra|].
          destruct (Rltb 0 _); [discriminate|]. cbn in EB. discriminate.
        - destruct (C04_brent_total_and_counted (Rloop N u Kb0 beta z) 0 1 atol atol (S n) Ha Ha ltac:(lia)) as [(_ & _ & _ & Q)|(_ & tr' & r' & Q & _ & _ & I & _)].
          + rewrite EB in Q. discriminate.
          + rewrite EB in Q. injection Q as <- <-.
            pose proof (C04_brent_stays_in_bracket (Rloop N u Kb0 beta z) 0 1 atol atol (S n) Ha Ha (rr_x sol)) as B.
            rewrite EB in B. cbn [fst] in B. specialize (B I). rewrite Rmin_left, Rmax_right in B by lra. lra. }
      split; auto.
      destruct (C03_brent_success_is_enclosure _ _ _ _ _ _ _ _ Ha Ha EB) as (_ & SC). destruct (SC ES) as [S1|(c & Hc & Dc & Sg)].
      * lra.
      * rewrite Rmin_left, Rmax_right in Hc by lra.
        pose proof (Rloop_lip N u Kb0 beta z (rr_x sol) c HF HK RG Hc) as LP. fold L in LP.
        set (a := Rloop N u Kb0 beta z (rr_x sol)) in *. set (b := Rloop N u Kb0 beta z c) in *.
        assert (AB : Rabs a <= Rabs (a - b)).
        { destruct (Rle_dec 0 a).
          - rewrite (Rabs_pos_eq a) by auto. destruct (Req_dec a 0) as [->|]; [apply Rabs_pos|].
            assert (b <= 0) by (apply Ropp_le_cancel; rewrite Ropp_0; apply (Rmult_le_reg_l a); lra).
            rewrite Rabs_pos_eq; lra.
          - rewrite (Rabs_left a) by lra. assert (0 <= b) by (apply (Rmult_le_reg_l (- a)); lra).
            rewrite Rabs_left1; lra. }
        rewrite Rabs_minus_sym in Dc.
        assert (Rabs (rr_x sol - c) <= atol + 4 * eps).
        { apply (Rle_trans _ _ _ Dc). rewrite (Rabs_pos_eq (rr_x sol)) by lra.
          assert (4 * eps * rr_x sol <= 4 * eps * 1) by (apply Rmult_le_compat_l; lra). lra. }
        assert (L * Rabs (rr_x sol - c) <= L * (atol + 4 * eps)) by (apply Rmult_le_compat_l; lra). lra.
Qed.

(** A successful PV / TV outer loop: phase compositions, balance and consistency. *)
Definition vl_good (N : nat) (z : nat -> R) (Kb0 beta atol rtol : R) (x y K : nat -> R) (dA : R -> R -> R -> Prop) : Prop :=
  exists u e Kb A A' v0, 
    Rabs e <= (atol + 4 * eps) * (1 + Rlip N u Kb0 z) /\
    sumn N x = 1 /\ sumn N y = 1 /\
    (forall i, (i < N)%nat -> 0 <= x i /\ 0 <= y i /\ y i = Kb * exp (u i) * x i /\
       z i = (1 - beta) * x i + beta * y i - e * (x i - y i)) /\
    0 < Kb /\ 0 < v0 /\
    (forall i, (i < N)%nat -> 0 < ln (K i) - lnKb N (weights N beta K y) K -> v0 <= ln (K i) - lnKb N (weights N beta K y) K) /\
    (0 < A' -> v0 <= A') /\
    (forall i, (i < N)%nat -> Rabs (ln (K i) - lnKb N (weights N beta K y) K - u i) <= v0 * rtol + 1 / 10 ^ 5 * Rabs (u i)) /\
    Rabs (A' - A) <= v0 * rtol + 1 / 10 ^ 5 * Rabs A /\ dA A A' Kb.

Lemma snoc_lt N u A i : (i < N)%nat -> snoc N u A i = u i.
Proof. intros H. unfold snoc. apply Nat.ltb_lt in H. now rewrite H. Qed.
Lemma snoc_N N u A : snoc N u A N = A.
Proof. unfold snoc. now rewrite Nat.ltb_irrefl. Qed.

Lemma phase_Kb_pos N u Kb0 z r : feed N z -> 0 < Kb0 -> 0 <= r <= 1 -> 0 < phase_Kb N u Kb0 z r.
Proof. intros. apply Rdiv_lt_0_compat; [now apply sum_p_pos|now apply sum_eup_pos]. Qed.

Lemma pv_loop_good Kcalc N z P beta Kb0 B Tref maxiter atol rtol : feed N z -> 0 < Kb0 -> 0 <= atol ->
  forall n u A T x y K s, pv_loop Kcalc N z P beta Kb0 B Tref maxiter atol rtol n u A T x y K = Ok s -> pv_ok s = true ->
  pv_K s = Kcalc (pv_v s) P (pv_x s) (pv_y s) /\
  vl_good N z Kb0 beta atol rtol (pv_x s) (pv_y s) (pv_K s)
    (fun A A' Kb => 1 / pv_v s = 1 / Tref + (ln Kb - A) / B /\
       A' = lnKb N (weights N beta (pv_K s) (pv_y s)) (pv_K s) - B * (1 / pv_v s - 1 / Tref)).
Proof.
  intros HF HK Ha. induction n as [|n IH]; intros u A T x y K s E S; cbn [pv_loop] in E.
  - injection E as <-. discriminate S.
  - destruct (inner_R N u Kb0 beta z maxiter atol) as [[r|]|] eqn:ER; cbn [bind] in E; try discriminate.
    2:{ injection E as <-. discriminate S. }
    destruct (inner_R_ok _ _ _ _ _ _ _ _ HF HK Ha ER) as (Hr & He).
    unfold par_PV in E. cbv zeta in E.
    set (x2 := phase_x N u Kb0 z r) in *. set (y2 := phase_y N u Kb0 z r) in *. set (Kb := phase_Kb N u Kb0 z r) in *.
    set (T2 := 1 / (1 / Tref + (ln Kb - A) / B)) in *. set (K2 := Kcalc T2 P x2 y2) in *.
    set (l := lnKb N (weights N beta K2 y2) K2) in *.
    set (A2 := l - B * (1 / T2 - 1 / Tref)) in *.
    destruct (min_pos (Datatypes.S N) (snoc N (fun i => ln (K2 i) - l) A2)) as [v0|] eqn:EM; cbn [bind] in E; [|discriminate].
    destruct (allclose _ _ _ _) eqn:EC; [|now apply IH in E].
    injection E as <-. cbn [pv_K pv_v pv_x pv_y]. split; [reflexivity|].
    destruct (phase_balance N u Kb0 beta z r HF HK Hr) as (B1 & B2 & B3).
    pose proof (proj1 (allclose_spec _ _ _ _) EC) as AC.
    exists u, (Rloop N u Kb0 beta z r), Kb, A, A2, v0.
    split; [exact He|]. split; [exact B1|]. split; [exact B2|]. split; [exact B3|].
    split; [now apply phase_Kb_pos|]. destruct (min_pos_spec _ _ _ EM) as (V1 & V2 & _). split; [exact V1|].
    split; [|split; [|split; [|split; [|split]]]].
    + intros i Hi. specialize (V2 i ltac:(lia)). rewrite !snoc_lt in V2 by auto. exact V2.
    + specialize (V2 N ltac:(lia)). rewrite !snoc_N in V2. exact V2.
    + intros i Hi. specialize (AC i ltac:(lia)). rewrite !snoc_lt in AC by auto. exact AC.
    + specialize (AC N ltac:(lia)). rewrite !snoc_N in AC. exact AC.
    + unfold T2. unfold Rdiv. rewrite !Rmult_1_l. apply Rinv_inv.
    + reflexivity.
Qed.

Lemma tv_loop_good Kcalc N z T beta Kb0 B Pref maxiter atol rtol : feed N z -> 0 < Kb0 -> 0 <= atol ->
  forall n u A P x y K m s, tv_loop Kcalc N z T beta Kb0 B Pref maxiter atol rtol n u A P x y K m = Ok s -> pv_ok s = true ->
  pv_K s = Kcalc T (pv_v s) (pv_x s) (pv_y s) /\
  vl_good N z Kb0 beta atol rtol (pv_x s) (pv_y s) (pv_K s)
    (fun A A' Kb => Rabs (ln (Kb * sqrt (pv_v s ^ 2 + eps ^ 2)) - A - B * (pv_v s / Pref)) <= 1 / 10 ^ 10 /\
       A' = lnKb N (weights N beta (pv_K s) (pv_y s)) (pv_K s) + ln (pv_v s) - B * (pv_v s / Pref)).
Proof.
  intros HF HK Ha. induction n as [|n IH]; intros u A P x y K m s E S; cbn [tv_loop] in E.
  - injection E as <-. discriminate S.
  - destruct (inner_R N u Kb0 beta z maxiter atol) as [[r|]|] eqn:ER; cbn [bind] in E; try discriminate.
    2:{ injection E as <-. discriminate S. }
    destruct (inner_R_ok _ _ _ _ _ _ _ _ HF HK Ha ER) as (Hr & He).
    unfold par_TV in E. cbv zeta in E.
    set (x2 := phase_x N u Kb0 z r) in *. set (y2 := phase_y N u Kb0 z r) in *. set (Kb := phase_Kb N u Kb0 z r) in *.
    destruct (C05_newton (logP_re Kb A B Pref) (logP_im Kb A B Pref) (exp A / Kb) 0 (1 / 10 ^ 10) 50 ltac:(lia))
      as (pre & sol & EN & _ & _ & _ & _ & _ & EF & SC & _).
    rewrite EN in E. cbn [snd bind] in E.
    destruct (rr_success sol) eqn:ES; [|injection E as <-; discriminate S].
    set (P2 := rr_x sol) in *. set (K2 := Kcalc T P2 x2 y2) in *.
    set (l := lnKb N (weights N beta K2 y2) K2) in *.
    set (A2 := l + ln P2 - B * (P2 / Pref)) in *.
    destruct (min_pos (Datatypes.S N) (snoc N (fun i => ln (K2 i) - l) A2)) as [v0|] eqn:EM; cbn [bind] in E; [|discriminate].
    destruct (allclose _ _ _ _) eqn:EC; [|now apply IH in E].
    injection E as <-. cbn [pv_K pv_v pv_x pv_y]. split; [reflexivity|].
    destruct (phase_balance N u Kb0 beta z r HF HK Hr) as (B1 & B2 & B3).
    pose proof (proj1 (allclose_spec _ _ _ _) EC) as AC.
    exists u, (Rloop N u Kb0 beta z r), Kb, A, A2, v0.
    split; [exact He|]. split; [exact B1|]. split; [exact B2|]. split; [exact B3|].
    split; [now apply phase_Kb_pos|]. destruct (min_pos_spec _ _ _ EM) as (V1 & V2 & _). split; [exact V1|].
    split; [|split; [|split; [|split; [|split]]]].
    + intros i Hi. specialize (V2 i ltac:(lia)). rewrite !snoc_lt in V2 by auto. exact V2.
    + specialize (V2 N ltac:(lia)). rewrite !snoc_N in V2. exact V2.
    + intros i Hi. specialize (AC i ltac:(lia)). rewrite !snoc_lt in AC by auto. exact AC.
    + specialize (AC N ltac:(lia)). rewrite !snoc_N in AC. exact AC.
    + change (ln (Kb * sqrt (P2 ^ 2 + eps ^ 2)) - A - B * (P2 / Pref)) with (logP_re Kb A B Pref P2 eps).
      rewrite <- EF. destruct (SC eq_refl) as [Q|(Q1 & Q2)]; auto.
      assert (D0 : logP_im Kb A B Pref P2 eps / eps <> 0) by (intros Z0; rewrite Z0, Rabs_R0 in Q1; pose proof eps_pos'; lra).
      assert (F0 : rr_f sol / (logP_im Kb A B Pref P2 eps / eps) = 0).
      { apply Rabs_zero. pose proof (Rabs_pos (rr_f sol / (logP_im Kb A B Pref P2 eps / eps))). lra. }
      apply Rmult_integral in F0. destruct F0 as [F0|F0]; [rewrite F0, Rabs_R0; lra|]. exfalso. now apply (Rinv_neq_0_compat _ D0).
    + reflexivity.
Qed.

(** The starting weights are a probability vector. *)
Lemma weights_prob N beta K y : 0 <= beta <= 1 -> (forall i, (i < N)%nat -> 0 < K i) ->
  (forall i, (i < N)%nat -> 0 <= y i) -> sumn N y = 1 ->
  (forall i, (i < N)%nat -> 0 <= weights N beta K y i) /\ sumn N (weights N beta K y) = 1.
Proof.
  intros Hb HK HY SY.
  assert (D : forall i, (i < N)%nat -> 0 < 1 + beta * (K i - 1)).
  { intros i Hi. pose proof (den_ge beta (K i) Hb). assert (0 < Rmin 1 (K i)) by (apply Rmin_glb_lt; [lra|auto]). lra. }
  assert (NN : forall i, (i < N)%nat -> 0 <= y i / (1 + beta * (K i - 1))).
  { intros i Hi. apply Rmult_le_pos; auto. left. apply Rinv_0_lt_compat. auto. }
  assert (SP : 0 < sumn N (fun i => y i / (1 + beta * (K i - 1)))).
  { assert (HF : feed N y) by (split; auto). destruct (some_z N y HF) as (i & Hi & Pi).
    apply (sumn_pos N _ i); auto. apply Rdiv_lt_0_compat; auto. }
  unfold weights. split; [|apply normalise_sum; lra].
  intros i Hi. unfold normalise. apply Rmult_le_pos; auto. left. now apply Rinv_0_lt_compat.
Qed.

Lemma start_prob N beta K z : 0 <= beta <= 1 -> (forall i, (i < N)%nat -> 0 < K i) -> feed N z ->
  let y := normalise N (fun i => K i * (z i / (1 + beta * (K i - 1)))) in
  (forall i, (i < N)%nat -> 0 <= y i) /\ sumn N y = 1.
Proof.
  intros Hb HK HF y. 
  assert (D : forall i, (i < N)%nat -> 0 < 1 + beta * (K i - 1)).
  { intros i Hi. pose proof (den_ge beta (K i) Hb). assert (0 < Rmin 1 (K i)) by (apply Rmin_glb_lt; [lra|auto]). lra. }
  assert (NN : forall i, (i < N)%nat -> 0 <= K i * (z i / (1 + beta * (K i - 1)))).
  { intros i Hi. apply Rmult_le_pos; [left; auto|]. apply Rmult_le_pos; [now apply HF|]. left. apply Rinv_0_lt_compat. auto. }
  assert (SP : 0 < sumn N (fun i => K i * (z i / (1 + beta * (K i - 1))))).
  { destruct (some_z N z HF) as (i & Hi & Pi).
    apply (sumn_pos N _ i); auto. apply Rmult_lt_0_compat; auto. apply Rdiv_lt_0_compat; auto. }
  split; [|apply normalise_sum; lra].
  intros i Hi. unfold y, normalise. apply Rmult_le_pos; auto. left. now apply Rinv_0_lt_compat.
Qed.

(** C41, flash2_PV and flash2_TV: what a result flagged as converged guarantees.  [c] is the
    scaled relative volatility Kb0 e^{u_i}; [l] the reference ln Kb; the start point enters
    through one probability vector [w] (weights) and one pair of trial compositions. *)
Theorem C41_PV Kcalc N F z P beta x0 y0 T0 maxiter atol rtol r :
  (forall i, (i < N)%nat -> 0 <= z i) -> 0 < sumn N z -> 0 <= beta <= 1 -> 0 < T0 -> 0 <= atol ->
  (forall T x y i, 0 < T -> (i < N)%nat -> 0 < Kcalc T P x y i) ->
  (forall T T' x y i, (i < N)%nat -> 0 < T < T' -> Kcalc T P x y i < Kcalc T' P x y i) ->
  flash2_PV Kcalc N F z P beta x0 y0 T0 maxiter atol rtol = Ok r -> fr_success r = true -> 0 < fr_T r ->
  fr_V r = Fin (F * beta) /\ fr_L r = Fin (F - F * beta) /\ fr_P r = P /\
  sumn N (fr_x r) = 1 /\ sumn N (fr_y r) = 1 /\
  (forall i, (i < N)%nat -> 0 <= fr_x r i /\ 0 <= fr_y r i /\ fr_K r i = Fin (Kcalc (fr_T r) P (fr_x r) (fr_y r) i)) /\
  exists w xs ys Kb0 B u e v0 l,
    (forall i, (i < N)%nat -> 0 <= w i) /\ sumn N w = 1 /\
    Kb0 = exp (sumn N (fun i => w i * ln (Kcalc T0 P xs ys i))) /\
    B = (sumn N (fun i => w i * ln (Kcalc (T0 + 1) P xs ys i)) - sumn N (fun i => w i * ln (Kcalc T0 P xs ys i)))
        / (1 / (T0 + 1) - 1 / T0) /\
    Rabs e <= (atol + 4 * eps) * (1 + sumn N (fun i => z i / sumn N z * (Kb0 * exp (u i)) / (Rmin 1 (Kb0 * exp (u i))) ^ 2)) /\
    (forall i, (i < N)%nat ->
       z i / sumn N z = (1 - beta) * fr_x r i + beta * fr_y r i - e * (fr_x r i - fr_y r i)) /\
    0 < v0 /\ (forall i, (i < N)%nat -> 0 < ln (Kcalc (fr_T r) P (fr_x r) (fr_y r) i) - l ->
                 v0 <= ln (Kcalc (fr_T r) P (fr_x r) (fr_y r) i) - l) /\
    (0 < l - B * (1 / fr_T r - 1 / 300) -> v0 <= l - B * (1 / fr_T r - 1 / 300)) /\
    (forall i, (i < N)%nat -> Rabs (ln (Kcalc (fr_T r) P (fr_x r) (fr_y r) i) - l - u i) <= v0 * rtol + 1 / 10 ^ 5 * Rabs (u i)) /\
    exists A, Rabs (l - B * (1 / fr_T r - 1 / 300) - A) <= v0 * rtol + 1 / 10 ^ 5 * Rabs A /\
    forall i, (i < N)%nat -> exists d,
       fr_y r i = Kcalc (fr_T r) P (fr_x r) (fr_y r) i * fr_x r i * exp d /\
       Rabs d <= 2 * (v0 * rtol) + 1 / 10 ^ 5 * (Rabs (u i) + Rabs A).
Proof.
  intros HZ SZ Hb HT Ha HK HI E S PP. unfold flash2_PV in E. cbv zeta in E. unfold par_PV in E. cbv zeta in E.
  assert (HF := normalise_feed N z HZ SZ).
  set (zz := normalise N z) in *.
  set (K := Kcalc T0 P (guess N x0 zz) (guess N y0 zz)) in *.
  set (xs := normalise N (fun i => zz i / (1 + beta * (K i - 1)))) in *.
  set (ys := normalise N (fun i => K i * (zz i / (1 + beta * (K i - 1))))) in *.
  destruct (start_prob N beta K zz Hb ltac:(intros; apply HK; auto) HF) as (Y1 & Y2). fold ys in Y1, Y2.
  destruct (weights_prob N beta (Kcalc T0 P xs ys) ys Hb ltac:(intros; apply HK; auto) Y1 Y2) as (W1 & W2).
  set (w := weights N beta (Kcalc T0 P xs ys) ys) in *.
  destruct (pv_loop _ _ _ _ _ _ _ _ _ _ _ _ _ _ _ _ _ _) as [s|] eqn:EL; [|discriminate]. cbn [bind] in E. injection E as <-.
  cbn [fr_success fr_P fr_T fr_V fr_L fr_K fr_x fr_y] in *.
  apply pv_loop_good in EL; auto; [|apply exp_pos].
  destruct EL as (EK & u & e & Kb & A & A' & v0 & He & SX & SY & BAL & PKb & V0 & V1 & V2 & CU & CA & ET & EA).
  rewrite EK in *.
  set (KK := Kcalc (pv_v s) P (pv_x s) (pv_y s)) in *.
  set (l := lnKb N (weights N beta KK (pv_y s)) KK) in *.
  change (par_PV_B Kcalc N T0 P xs ys beta) with
    ((lnKb N w (Kcalc (T0 + 1) P xs ys) - lnKb N w (Kcalc T0 P xs ys)) / (1 / (T0 + 1) - 1 / T0)) in *.
  set (B := (lnKb N w (Kcalc (T0 + 1) P xs ys) - lnKb N w (Kcalc T0 P xs ys)) / (1 / (T0 + 1) - 1 / T0)) in *.
  assert (HB : B <> 0).
  { assert (lnKb N w (Kcalc T0 P xs ys) < lnKb N w (Kcalc (T0 + 1) P xs ys)).
    { unfold lnKb. destruct (some_z N w (conj W1 W2)) as (i & Hi & Pi).
      apply Rminus_gt_0_lt. rewrite <- sumn_minus.
      assert (LL : forall j, (j < N)%nat -> 0 < ln (Kcalc (T0 + 1) P xs ys j) - ln (Kcalc T0 P xs ys j)).
      { intros j Hj. apply Rlt_Rminus. apply ln_increasing; [now apply HK|]. apply HI; auto. lra. }
      apply (sumn_pos N _ i); auto.
      - intros j Hj. rewrite <- Rmult_minus_distr_l. apply Rmult_le_pos; auto. left. auto.
      - rewrite <- Rmult_minus_distr_l. apply Rmult_lt_0_compat; auto. }
    assert (1 / (T0 + 1) < 1 / T0).
    { unfold Rdiv. rewrite !Rmult_1_l. apply Rinv_lt_contravar; [|lra]. apply Rmult_lt_0_compat; lra. }
    unfold B, Rdiv. apply Rmult_integral_contrapositive_currified; [lra|]. apply Rinv_neq_0_compat. lra. }
  split; [reflexivity|]. split; [reflexivity|]. split; [reflexivity|]. split; [exact SX|]. split; [exact SY|].
  split. { intros i Hi. destruct (BAL i Hi) as (B1 & B2 & _). auto. }
  exists w, xs, ys, (exp (lnKb N w (Kcalc T0 P xs ys))), B, u, e, v0, l.
  split; [exact W1|]. split; [exact W2|]. split; [reflexivity|]. split; [reflexivity|]. split; [exact He|].
  split. { intros i Hi. now destruct (BAL i Hi) as (_ & _ & _ & Q). }
  split; [exact V0|]. split; [exact V1|]. rewrite <- EA. split; [exact V2|]. split; [exact CU|].
  exists A. split; [exact CA|].
  intros i Hi. destruct (BAL i Hi) as (_ & _ & Q & _).
  exists (ln Kb + u i - ln (KK i)). split.
  - unfold Rminus. rewrite !exp_plus, exp_Ropp, !exp_ln by (auto; now apply HK). rewrite Q. field. pose proof (HK (pv_v s) (pv_x s) (pv_y s) i PP Hi). fold KK in H. lra.
  - assert (EB : B * (1 / pv_v s - 1 / 300) = ln Kb - A) by (rewrite ET; field; auto).
    replace (ln Kb + u i - ln (KK i)) with (- ((ln (KK i) - l - u i) + (A' - A))) by (rewrite EA, EB; ring).
    rewrite Rabs_Ropp. eapply Rle_trans; [apply Rabs_triang|]. specialize (CU i Hi). lra.
Qed.

Lemma ln_sqrt_bound p : 0 < p -> 0 <= ln (sqrt (p ^ 2 + eps ^ 2)) - ln p <= (eps / p) ^ 2 / 2.
Proof.
  intros Hp. assert (P2 : 0 < p ^ 2) by (apply pow_lt; auto). assert (0 <= (eps / p) ^ 2) by apply pow2_ge_0.
  pose proof (pow2_ge_0 eps).
  assert (E : ln (sqrt (p ^ 2 + eps ^ 2)) - ln p = / 2 * ln (1 + (eps / p) ^ 2)).
  { rewrite <- Rpower_sqrt by lra. unfold Rpower. rewrite ln_exp.
    replace (p ^ 2 + eps ^ 2) with (p * p * (1 + (eps / p) ^ 2)) by (field; lra).
    rewrite ln_mult by (try apply Rmult_lt_0_compat; lra). rewrite ln_mult by lra. field. }
  rewrite E. assert (0 <= ln (1 + (eps / p) ^ 2) <= (eps / p) ^ 2); [|lra]. split.
  - rewrite <- ln_1. destruct (Req_dec ((eps / p) ^ 2) 0) as [->|]; [rewrite Rplus_0_r; lra|]. left. apply ln_increasing; lra.
  - set (t := (eps / p) ^ 2) in *. rewrite <- (ln_exp t) at 2.
    destruct (exp_ineq1_le t) as [Q|Q]; [left; apply ln_increasing; lra|right; now rewrite Q].
Qed.

Theorem C41_TV Kcalc N F z T beta x0 y0 P0 maxiter atol rtol r :
  (forall i, (i < N)%nat -> 0 <= z i) -> 0 < sumn N z -> 0 <= beta <= 1 -> 0 < P0 -> 0 <= atol ->
  (forall P x y i, 0 < P -> (i < N)%nat -> 0 < Kcalc T P x y i) ->
  flash2_TV Kcalc N F z T beta x0 y0 P0 maxiter atol rtol = Ok r -> fr_success r = true -> 0 < fr_P r ->
  fr_V r = Fin (F * beta) /\ fr_L r = Fin (F - F * beta) /\ fr_T r = T /\
  sumn N (fr_x r) = 1 /\ sumn N (fr_y r) = 1 /\
  (forall i, (i < N)%nat -> 0 <= fr_x r i /\ 0 <= fr_y r i /\ fr_K r i = Fin (Kcalc T (fr_P r) (fr_x r) (fr_y r) i)) /\
  exists w xs ys Kb0 B u e v0 l,
    (forall i, (i < N)%nat -> 0 <= w i) /\ sumn N w = 1 /\
    Kb0 = exp (sumn N (fun i => w i * ln (Kcalc T P0 xs ys i))) /\
    B = (sumn N (fun i => w i * ln (Kcalc T (P0 + 1000) xs ys i)) - sumn N (fun i => w i * ln (Kcalc T P0 xs ys i))
         + ln ((P0 + 1000) / P0)) * 10 ^ 5 / 1000 /\
    Rabs e <= (atol + 4 * eps) * (1 + sumn N (fun i => z i / sumn N z * (Kb0 * exp (u i)) / (Rmin 1 (Kb0 * exp (u i))) ^ 2)) /\
    (forall i, (i < N)%nat ->
       z i / sumn N z = (1 - beta) * fr_x r i + beta * fr_y r i - e * (fr_x r i - fr_y r i)) /\
    0 < v0 /\ (forall i, (i < N)%nat -> 0 < ln (Kcalc T (fr_P r) (fr_x r) (fr_y r) i) - l ->
                 v0 <= ln (Kcalc T (fr_P r) (fr_x r) (fr_y r) i) - l) /\
    (0 < l + ln (fr_P r) - B * (fr_P r / 10 ^ 5) -> v0 <= l + ln (fr_P r) - B * (fr_P r / 10 ^ 5)) /\
    (forall i, (i < N)%nat -> Rabs (ln (Kcalc T (fr_P r) (fr_x r) (fr_y r) i) - l - u i) <= v0 * rtol + 1 / 10 ^ 5 * Rabs (u i)) /\
    exists A, Rabs (l + ln (fr_P r) - B * (fr_P r / 10 ^ 5) - A) <= v0 * rtol + 1 / 10 ^ 5 * Rabs A /\
    forall i, (i < N)%nat -> exists d,
       fr_y r i = Kcalc T (fr_P r) (fr_x r) (fr_y r) i * fr_x r i * exp d /\
       Rabs d <= 2 * (v0 * rtol) + 1 / 10 ^ 5 * (Rabs (u i) + Rabs A) + 1 / 10 ^ 10 + (eps / fr_P r) ^ 2 / 2.
Proof.
  intros HZ SZ Hb HP Ha HK E S PP. unfold flash2_TV in E. cbv zeta in E. unfold par_TV in E. cbv zeta in E.
  assert (HF := normalise_feed N z HZ SZ).
  set (zz := normalise N z) in *.
  set (K := Kcalc T P0 (guess N x0 zz) (guess N y0 zz)) in *.
  set (xs := normalise N (fun i => zz i / (1 + beta * (K i - 1)))) in *.
  set (ys := normalise N (fun i => K i * (zz i / (1 + beta * (K i - 1))))) in *.
  destruct (start_prob N beta K zz Hb ltac:(intros; apply HK; auto) HF) as (Y1 & Y2). fold ys in Y1, Y2.
  destruct (weights_prob N beta (Kcalc T P0 xs ys) ys Hb ltac:(intros; apply HK; auto) Y1 Y2) as (W1 & W2).
  set (w := weights N beta (Kcalc T P0 xs ys) ys) in *.
  destruct (tv_loop _ _ _ _ _ _ _ _ _ _ _ _ _ _ _ _ _ _ _) as [s|] eqn:EL; [|discriminate]. cbn [bind] in E. injection E as <-.
  cbn [fr_success fr_P fr_T fr_V fr_L fr_K fr_x fr_y] in *.
  apply tv_loop_good in EL; auto; [|apply exp_pos].
  destruct EL as (EK & u & e & Kb & A & A' & v0 & He & SX & SY & BAL & PKb & V0 & V1 & V2 & CU & CA & ET & EA).
  rewrite EK in *.
  set (KK := Kcalc T (pv_v s) (pv_x s) (pv_y s)) in *.
  set (l := lnKb N (weights N beta KK (pv_y s)) KK) in *.
  change (par_TV_B Kcalc N T P0 xs ys beta (10 ^ 5)) with
    ((lnKb N w (Kcalc T (P0 + 1000) xs ys) - lnKb N w (Kcalc T P0 xs ys) + ln ((P0 + 1000) / P0)) * 10 ^ 5 / 1000) in *.
  set (B := (lnKb N w (Kcalc T (P0 + 1000) xs ys) - lnKb N w (Kcalc T P0 xs ys) + ln ((P0 + 1000) / P0)) * 10 ^ 5 / 1000) in *.
  split; [reflexivity|]. split; [reflexivity|]. split; [reflexivity|]. split; [exact SX|]. split; [exact SY|].
  split. { intros i Hi. destruct (BAL i Hi) as (B1 & B2 & _). auto. }
  exists w, xs, ys, (exp (lnKb N w (Kcalc T P0 xs ys))), B, u, e, v0, l.
  split; [exact W1|]. split; [exact W2|]. split; [reflexivity|]. split; [reflexivity|]. split; [exact He|].
  split. { intros i Hi. now destruct (BAL i Hi) as (_ & _ & _ & Q). }
  split; [exact V0|]. split; [exact V1|]. rewrite <- EA. split; [exact V2|]. split; [exact CU|].
  exists A. split; [exact CA|].
  intros i Hi. destruct (BAL i Hi) as (_ & _ & Q & _).
  exists (ln Kb + u i - ln (KK i)). split.
  - unfold Rminus. rewrite !exp_plus, exp_Ropp, !exp_ln by (auto; now apply HK). rewrite Q. field. pose proof (HK (pv_v s) (pv_x s) (pv_y s) i PP Hi). fold KK in H. lra.
  - pose proof (ln_sqrt_bound (pv_v s) PP) as SB.
    assert (SQ : 0 < sqrt (pv_v s ^ 2 + eps ^ 2)).
    { apply sqrt_lt_R0. assert (0 < pv_v s ^ 2) by (apply pow_lt; auto). pose proof (pow2_ge_0 eps). lra. }
    rewrite ln_mult in ET by auto.
    set (q := ln Kb + ln (sqrt (pv_v s ^ 2 + eps ^ 2)) - A - B * (pv_v s / 10 ^ 5)) in *.
    replace (ln Kb + u i - ln (KK i)) with (- ((ln (KK i) - l - u i) + (A' - A)) + (q - (ln (sqrt (pv_v s ^ 2 + eps ^ 2)) - ln (pv_v s)))) by (rewrite EA; unfold q; ring).
    eapply Rle_trans; [apply Rabs_triang|]. rewrite Rabs_Ropp.
    assert (Q1 : Rabs (ln (KK i) - l - u i + (A' - A)) <= 2 * (v0 * rtol) + 1 / 10 ^ 5 * (Rabs (u i) + Rabs A)).
    { eapply Rle_trans; [apply Rabs_triang|]. specialize (CU i Hi). lra. }
    assert (Q2 : Rabs (q - (ln (sqrt (pv_v s ^ 2 + eps ^ 2)) - ln (pv_v s))) <= 1 / 10 ^ 10 + (eps / pv_v s) ^ 2 / 2).
    { eapply Rle_trans; [apply Rabs_triang|]. rewrite Rabs_Ropp. rewrite (Rabs_pos_eq (_ - _)) by lra. lra. }
    lra.
Qed.

(* ------------------------------------------------------------------ *)
(** * C80: boiling point of a pure component                          *)
(* ------------------------------------------------------------------ *)

(** Clausius-Clapeyron: ln K = a + b (1/T - 1/300); the boiling point is K = 1. *)
Definition Kcc (a b : R) : kmodel := fun T _ _ _ _ => exp (a + b * (1 / T - 1 / 300)).

Section Pure.
  Variables (a b F z0 P T0 atol rtol : R) (n : nat).
  Hypothesis Hb : b <> 0.
  Hypothesis HT : 0 < T0.
  Hypothesis Hz : 0 < z0.

  Lemma one_div t : t <> 0 -> t / t = 1.
  Proof. intros. field. auto. Qed.

  Lemma pure_first (res1 : res flash) :
    flash2_PV (Kcc a b) 1 F (fun _ => z0) P 0 None None T0 (S n) atol rtol = res1 ->
    (a <= 0 -> res1 = Err ValueError) /\
    (0 < a -> 0 <= rtol -> 1 / 300 <> a / b -> exists r, res1 = Ok r /\ fr_success r = true /\ fr_T r = 1 / (1 / 300 - a / b)).
  Proof.
    intros E. unfold flash2_PV in E. cbv zeta in E. unfold par_PV in E. cbv zeta in E.
    set (zz := normalise 1 (fun _ => z0)) in *.
    set (x := normalise 1 (fun i => zz i / _)) in *.
    set (y := normalise 1 (fun i => Kcc a b T0 P _ _ i * _)) in *.
    assert (Z : zz 0%nat = 1) by (unfold zz, normalise; cbn [sumn]; field; lra).
    assert (Y : y 0%nat = 1).
    { unfold y, normalise. cbn [sumn]. rewrite Z. unfold Kcc. pose proof (exp_pos (a + b * (1 / T0 - 1 / 300))). field. lra. }
    assert (W : forall K y', y' 0%nat = 1 -> weights 1 0 K y' 0%nat = 1).
    { intros K y' Hy. unfold weights, normalise. cbn [sumn]. rewrite Hy. field. }
    assert (L : forall w T x' y', w 0%nat = 1 -> lnKb 1 w (Kcc a b T P x' y') = a + b * (1 / T - 1 / 300)).
    { intros w T x' y' Hw. unfold lnKb. cbn [sumn]. rewrite Hw. unfold Kcc. rewrite ln_exp. ring. }
    assert (EB : par_PV_B (Kcc a b) 1 T0 P x y 0 = b).
    { unfold par_PV_B. cbv zeta. rewrite !L by (apply W; auto). field. split; [lra|]. split; [lra|].
      intros Q. lra. }
    rewrite EB in E.
    set (Kb0 := exp (lnKb _ _ _)) in *. set (A := lnKb _ _ _ - _) in *.
    assert (EA : A = a) by (unfold A; rewrite L by (apply W; auto); ring).
    clearbody A Kb0. subst A. cbn [pv_loop] in E.
    unfold inner_R in E. rewrite Rminus_0_r, Rabs_R0 in E.
    destruct (Rleb 0 eps) eqn:E0; [|rdec; pose proof eps_pos'; lra]. cbn [bind] in E. unfold par_PV in E. cbv zeta in E.
    set (u := fun i => ln (Kcc a b T0 P x y i) - _) in *.
    assert (U : u 0%nat = 0).
    { unfold u. rewrite L by (apply W; auto). unfold Kcc. rewrite ln_exp. ring. }
    set (x2 := phase_x 1 u Kb0 zz 0) in *. set (y2 := phase_y 1 u Kb0 zz 0) in *.
    assert (Y2 : y2 0%nat = 1).
    { unfold y2, phase_y, normalise. cbn [sumn]. rewrite Z, U, exp_0. field. }
    assert (KB : phase_Kb 1 u Kb0 zz 0 = 1).
    { unfold phase_Kb. cbn [sumn]. rewrite Z, U, exp_0. field. }
    rewrite KB, ln_1 in E.
    set (T2 := 1 / (1 / 300 + (0 - a) / b)) in *.
    set (l := lnKb 1 (weights 1 0 (Kcc a b T2 P x2 y2) y2) _) in *.
    assert (EL : l = a + b * (1 / T2 - 1 / 300)) by (unfold l; apply L; apply W; auto).
    set (v := snoc 1 _ (l - _)) in *.
    assert (V0 : v 0%nat = 0).
    { unfold v. rewrite snoc_lt by lia. rewrite EL. unfold Kcc. rewrite ln_exp. ring. }
    assert (V1 : v 1%nat = a).
    { unfold v. change (snoc 1 ?f ?g 1%nat) with (snoc 1 f g 1%nat). rewrite snoc_N. rewrite EL. ring. }
    assert (V0' : snoc 1 u a 0%nat = 0) by (rewrite snoc_lt by lia; exact U).
    assert (V1' : snoc 1 u a 1%nat = a) by apply snoc_N.
    clearbody v. unfold min_pos in E. cbn [min_pos_opt] in E. rewrite V0, V1 in E.
    destruct (Rltb 0 0) eqn:Q0; [rdec; lra|].
    destruct (Rltb 0 a) eqn:Q1; cbn [bind] in E; rdec.
    - split; [lra|]. intros _ Hr HD.
      match type of E with context [allclose ?p ?q ?r ?t] => assert (AC : allclose p q r t = true) end.
      { apply allclose_spec. intros [|[|i]] Hi; [| |lia].
        - rewrite V0, V0'. rewrite Rminus_0_r, Rabs_R0. assert (0 <= a * rtol) by (apply Rmult_le_pos; lra). lra.
        - rewrite V1, V1'. rewrite Rminus_diag_eq, Rabs_R0 by reflexivity. assert (0 <= a * rtol) by (apply Rmult_le_pos; lra).
          pose proof (Rabs_pos a). lra. }
      rewrite AC in E. cbn [bind] in E. subst res1. eexists. split; [reflexivity|]. cbn [fr_success fr_T pv_ok pv_v]. split; [reflexivity|].
      unfold T2. f_equal. field. auto.
    - split; [auto|lra].
  Qed.
End Pure.

(** A boiling point below the reference temperature 300 K (K > 1 at 300 K) is found exactly,
    in one outer iteration ... *)
Theorem C80_pure_component a b F z P T0 maxiter atol rtol : b <> 0 -> 0 < T0 -> 0 < z -> (1 <= maxiter)%nat -> 0 <= rtol ->
  0 < a -> 1 / 300 <> a / b ->
  exists r, flash2_PV (Kcc a b) 1 F (fun _ => z) P 0 None None T0 maxiter atol rtol = Ok r /\ fr_success r = true /\
    Kcc a b (fr_T r) P (fr_x r) (fr_y r) 0%nat = 1.
Proof.
  intros Hb HT Hz Hm Hr Ha Hd. destruct maxiter as [|n]; [lia|].
  destruct (proj2 (pure_first a b F z P T0 atol rtol n Hb HT Hz _ eq_refl) Ha Hr Hd) as (r & E & S & ET).
  exists r. split; [exact E|]. split; [exact S|]. rewrite ET. unfold Kcc.
  replace (a + b * (1 / (1 / (1 / 300 - a / b)) - 1 / 300)) with 0; [apply exp_0|]. field. split; auto.
  intros Q. apply Hd. apply (Rmult_eq_reg_l (300 * b)); [|lra]. replace (300 * b * (1 / 300)) with b by field. replace (300 * b * (a / b)) with (300 * a) by (field; auto). lra.
Qed.

(** ... Finding: a boiling point at or above 300 K is rejected with ValueError (minimum of an
    empty selection), for every start and tolerance, although it exists. *)
Theorem C80_pure_component_refuted : exists a b T,
  (0 < T /\ forall P x y, Kcc a b T P x y 0%nat = 1) /\
  forall F z P T0 maxiter atol rtol, 0 < T0 -> 0 < z -> (1 <= maxiter)%nat ->
    flash2_PV (Kcc a b) 1 F (fun _ => z) P 0 None None T0 maxiter atol rtol = Err ValueError.
Proof.
  exists (-(3000 / 300 - 3000 / 373)), (-3000), 373. split.
  - split; [lra|]. intros P x y. unfold Kcc. replace (_ + _) with 0 by field. apply exp_0.
  - intros F z P T0 [|n] atol rtol HT Hz Hm; [lia|].
    apply (proj1 (pure_first _ (-3000) F z P T0 atol rtol n ltac:(lra) HT Hz _ eq_refl)). lra.
Qed.
Theorem C80_pure_component_above_300 a b F z P T0 maxiter atol rtol : b < 0 -> 0 < T0 -> 0 < z -> (1 <= maxiter)%nat -> a <= 0 ->
  flash2_PV (Kcc a b) 1 F (fun _ => z) P 0 None None T0 maxiter atol rtol = Err ValueError.
Proof.
  intros Hb HT Hz Hm Ha. destruct maxiter as [|n]; [lia|].
  apply (proj1 (pure_first a b F z P T0 atol rtol n ltac:(lra) HT Hz _ eq_refl)). auto.
Qed.

(** Non-vacuity of C41_PV: the hypotheses hold and a converged result exists for a pure
    component boiling at 3000/11 K. *)
Example C41_PV_case :
  (forall T T' P x y i, (i < 1)%nat -> 0 < T < T' -> Kcc 1 (-3000) T P x y i < Kcc 1 (-3000) T' P x y i) /\
  exists r, flash2_PV (Kcc 1 (-3000)) 1 1 (fun _ => 1) 1 0 None None 350 50 0 0 = Ok r /\ fr_success r = true.
Proof.
  split.
  - intros T T' P x y i _ HT. apply exp_increasing.
    assert (1 / T' < 1 / T). { unfold Rdiv. rewrite !Rmult_1_l. apply Rinv_lt_contravar; [|lra]. apply Rmult_lt_0_compat; lra. }
    lra.
  - destruct (C80_pure_component 1 (-3000) 1 1 1 350 50 0 0) as (r & E & S & _); try lra; try lia. eauto.
Qed.

Lemma lndiv a b : 0 < a -> 0 < b -> ln (a / b) = ln a - ln b.
Proof. intros. unfold Rdiv. rewrite ln_mult by (auto; now apply Rinv_0_lt_compat). rewrite ln_Rinv by auto. ring. Qed.

(** Non-vacuity of C41_TV: for a pure component with K = c/P, c > 1, the vapour pressure c is
    found exactly. *)
Definition Kvp (c : R) : kmodel := fun _ P _ _ _ => c / P.
Example C41_TV_case c F P0 maxiter atol rtol : 1 < c -> 0 < P0 -> (1 <= maxiter)%nat -> 0 <= rtol ->
  exists r, flash2_TV (Kvp c) 1 F (fun _ => 1) 300 0 None None P0 maxiter atol rtol = Ok r /\
    fr_success r = true /\ fr_P r = c.
Proof.
  intros Hc HP Hm Hr. destruct maxiter as [|n]; [lia|].
  unfold flash2_TV. cbv zeta. unfold par_TV. cbv zeta.
  set (zz := normalise 1 (fun _ => 1)).
  set (x := normalise 1 (fun i => zz i / _)).
  set (y := normalise 1 (fun i => Kvp c 300 P0 _ _ i * _)).
  assert (Z : zz 0%nat = 1) by (unfold zz, normalise; cbn [sumn]; field).
  assert (Y : y 0%nat = 1) by (unfold y, normalise; cbn [sumn]; rewrite Z; unfold Kvp; field; lra).
  assert (W : forall K y', y' 0%nat = 1 -> weights 1 0 K y' 0%nat = 1).
  { intros K y' Hy. unfold weights, normalise. cbn [sumn]. rewrite Hy. field. }
  assert (L : forall w P x' y', 0 < P -> w 0%nat = 1 -> lnKb 1 w (Kvp c 300 P x' y') = ln c - ln P).
  { intros w P x' y' HP' Hw. unfold lnKb. cbn [sumn]. rewrite Hw. unfold Kvp. rewrite lndiv by lra. ring. }
  assert (EB : par_TV_B (Kvp c) 1 300 P0 x y 0 (10 ^ 5) = 0).
  { unfold par_TV_B. cbv zeta. rewrite !L by (try apply W; auto; lra). rewrite lndiv by lra. field. }
  rewrite EB. set (Kb0 := exp (lnKb _ _ _)). set (A := lnKb _ _ _ + _ - _).
  assert (EA : A = ln c) by (unfold A; rewrite L by (try apply W; auto); unfold Rdiv; ring).
  clearbody A Kb0. subst A. cbn [tv_loop].
  unfold inner_R. rewrite Rminus_0_r, Rabs_R0.
  destruct (Rleb 0 eps) eqn:E0; [|rdec; pose proof eps_pos'; lra]. cbn [bind]. unfold par_TV. cbv zeta.
  set (u := fun i => ln (Kvp c 300 P0 x y i) - _).
  assert (U : u 0%nat = 0).
  { unfold u. rewrite L by (try apply W; auto). unfold Kvp. rewrite lndiv by lra. ring. }
  set (x2 := phase_x 1 u Kb0 zz 0). set (y2 := phase_y 1 u Kb0 zz 0).
  assert (Y2 : y2 0%nat = 1) by (unfold y2, phase_y, normalise; cbn [sumn]; rewrite Z, U, exp_0; field).
  assert (KB : phase_Kb 1 u Kb0 zz 0 = 1) by (unfold phase_Kb; cbn [sumn]; rewrite Z, U, exp_0; field).
  rewrite KB. rewrite exp_ln by lra. replace (c / 1) with c by field.
  assert (EN : exists tr r0, root_newton (logP_re 1 (ln c) 0 (10 ^ 5)) (logP_im 1 (ln c) 0 (10 ^ 5)) c 0 (1 / 10 ^ 10) 50 = (tr, Ok r0) /\
    rr_success r0 = true /\ rr_x r0 = c).
  { change 50%nat with (S 49). generalize 49%nat. intros m. unfold root_newton. cbn [newton_loop]. unfold derivative_complex.
    assert (SM : Rabs (logP_re 1 (ln c) 0 (10 ^ 5) c eps) <= 1 / 10 ^ 10).
    { unfold logP_re. rewrite Rmult_1_l.
      pose proof (ln_sqrt_bound c ltac:(lra)) as Q.
      replace (ln (sqrt (c ^ 2 + eps ^ 2)) - ln c - 0 * (c / 10 ^ 5)) with (ln (sqrt (c ^ 2 + eps ^ 2)) - ln c) by ring.
      rewrite Rabs_pos_eq by lra. apply (Rle_trans _ _ _ (proj2 Q)).
      assert (E1 : 0 <= eps / c <= eps).
      { split; [apply Rmult_le_pos; [left; apply eps_pos'|left; apply Rinv_0_lt_compat; lra]|].
        apply (Rmult_le_reg_r c); [lra|]. unfold Rdiv. rewrite Rmult_assoc, Rinv_l by lra. pose proof eps_pos'.
        apply Rmult_le_compat_l; lra. }
      assert (E2 : eps <= 1 / 10 ^ 10).
      { unfold eps. replace (1 / 10 ^ 10) with (/ 10 ^ 10) by (field; lra). apply Rinv_le_contravar; lra. }
      assert ((eps / c) ^ 2 <= (1 / 10 ^ 10) ^ 2) by (apply pow_incr; lra).
      assert ((1 / 10 ^ 10) ^ 2 <= 1 / 10 ^ 10) by lra. lra. }
    apply Rleb_true in SM. rewrite SM. do 2 eexists. split; [reflexivity|]. split; reflexivity. }
  destruct EN as (tr & r0 & EN & SU & XC). rewrite EN. cbn [snd bind]. rewrite SU, XC.
  set (l := lnKb 1 (weights 1 0 (Kvp c 300 c x2 y2) y2) _).
  assert (EL : l = 0) by (unfold l; rewrite L by (try apply W; auto; lra); ring).
  set (v := snoc 1 _ (l + _ - _)).
  assert (LC : 0 < ln c) by (rewrite <- ln_1; apply ln_increasing; lra).
  assert (V0 : v 0%nat = 0).
  { unfold v. rewrite snoc_lt by lia. rewrite EL. unfold Kvp. rewrite (one_div c) by lra. rewrite ln_1. ring. }
  assert (V1 : v 1%nat = ln c) by (unfold v; rewrite snoc_N; rewrite EL; unfold Rdiv; ring).
  assert (V0' : snoc 1 u (ln c) 0%nat = 0) by (rewrite snoc_lt by lia; exact U).
  assert (V1' : snoc 1 u (ln c) 1%nat = ln c) by apply snoc_N.
  clearbody v. unfold min_pos. cbn [min_pos_opt]. rewrite V0, V1.
  destruct (Rltb 0 0) eqn:Q0; [rdec; lra|].
  destruct (Rltb 0 (ln c)) eqn:Q1; [|rdec; lra]. cbn [bind].
  assert (0 <= ln c * rtol) by (apply Rmult_le_pos; lra).
  match goal with |- context [allclose ?p ?q ?r ?t] => assert (AC : allclose p q r t = true) end.
  { apply allclose_spec. intros [|[|i]] Hi; [| |lia].
    - rewrite V0, V0'. rewrite Rminus_0_r, Rabs_R0. lra.
    - rewrite V1, V1'. rewrite Rminus_diag_eq, Rabs_R0 by reflexivity. pose proof (Rabs_pos (ln c)). lra. }
  rewrite AC. cbn [bind]. eexists. split; [reflexivity|]. cbn [fr_success fr_P pv_ok pv_v]. split; reflexivity.
Qed.

(** the function of the pressure update at a complex pressure: with re and im its parts at p + i q, q > 0, the complex number
    Kb (p + i q) is exp(A + B P/Pref + re + i im), on the principal branch *)
Theorem C41_TV_log Kb A B Pref p q : 0 < Kb -> 0 < q ->
  let re := logP_re Kb A B Pref p q in let im := logP_im Kb A B Pref p q in
  Kb * p = exp (A + B * p / Pref + re) * cos (B * q / Pref + im) /\ Kb * q = exp (A + B * p / Pref + re) * sin (B * q / Pref + im) /\ 0 < B * q / Pref + im < PI.
Proof.
  intros HK Hq. cbv zeta. unfold logP_re, logP_im. set (m := sqrt (p ^ 2 + q ^ 2)).
  assert (M2 : 0 < p ^ 2 + q ^ 2) by nra. assert (M : 0 < m) by (apply sqrt_lt_R0; exact M2).
  assert (MM : m * m = p ^ 2 + q ^ 2) by (apply sqrt_sqrt; lra).
  replace (A + B * p / Pref + (ln (Kb * m) - A - B * (p / Pref))) with (ln (Kb * m)) by (unfold Rdiv; ring). rewrite exp_ln by (apply Rmult_lt_0_compat; lra).
  replace (B * q / Pref + (carg p q - B * (q / Pref))) with (carg p q) by (unfold Rdiv; ring).
  assert (C : cos (carg p q) = p / m /\ sin (carg p q) = q / m /\ 0 < carg p q < PI).
  { pose proof PI_RGT_0 as HPI. unfold carg. destruct (Rltb 0 p) eqn:E1; [apply Rltb_true in E1|apply Rltb_false in E1; destruct (Rltb p 0) eqn:E2; [apply Rltb_true in E2|apply Rltb_false in E2]].
    - pose proof (atan_bound (q / p)) as AB. assert (0 < atan (q / p)) by (rewrite <- atan_0; apply atan_increasing, Rdiv_lt_0_compat; lra).
      assert (HC : 0 < cos (atan (q / p))) by (apply cos_gt_0; lra). assert (T : sin (atan (q / p)) = q / p * cos (atan (q / p))) by (rewrite <- (tan_atan (q / p)) at 2; unfold tan; field; lra).
      pose proof (sin2_cos2 (atan (q / p))) as SC. unfold Rsqr in SC. set (c := cos (atan (q / p))) in *. rewrite T in SC.
      assert (EC : c = p / m). { assert (S2 : (c * m) * (c * m) = p * p) by (replace (c * m * (c * m)) with (c * c * (m * m)) by ring; rewrite MM; replace (p * p) with (p * p * (q / p * c * (q / p * c) + c * c)) by (rewrite SC; ring); field; lra). assert (0 < c * m) by (apply Rmult_lt_0_compat; lra). assert (c * m = p) by nra. apply (Rmult_eq_reg_r m); [|lra]. rewrite H1. field. lra. }
      split; [exact EC|]. split; [rewrite T, EC; field; lra|lra].
    - pose proof (atan_bound (q / p)) as AB. assert (N : q / p < 0) by (apply (Rmult_lt_reg_r (- p)); [lra|]; replace (q / p * - p) with (- q) by (field; lra); lra). assert (atan (q / p) < 0) by (rewrite <- atan_0; apply atan_increasing, N).
      assert (HC : 0 < cos (atan (q / p))) by (apply cos_gt_0; lra). assert (T : sin (atan (q / p)) = q / p * cos (atan (q / p))) by (rewrite <- (tan_atan (q / p)) at 2; unfold tan; field; lra).
      pose proof (sin2_cos2 (atan (q / p))) as SC. unfold Rsqr in SC. rewrite (Rplus_comm PI), neg_cos, neg_sin. set (c := cos (atan (q / p))) in *. rewrite T in SC |- *.
      assert (EC : c = - p / m). { assert (S2 : (c * m) * (c * m) = p * p) by (replace (c * m * (c * m)) with (c * c * (m * m)) by ring; rewrite MM; replace (p * p) with (p * p * (q / p * c * (q / p * c) + c * c)) by (rewrite SC; ring); field; lra). assert (0 < c * m) by (apply Rmult_lt_0_compat; lra). assert (c * m = - p) by nra. apply (Rmult_eq_reg_r m); [|lra]. rewrite H1. field. lra. }
      rewrite EC. split; [field; lra|]. split; [field; lra|lra].
    - assert (p = 0) by lra. subst p. assert (EM : m = q) by (unfold m; replace (0 ^ 2 + q ^ 2) with (q ^ 2) by ring; apply sqrt_pow2; lra). rewrite cos_PI2, sin_PI2, EM. split; [unfold Rdiv; ring|]. split; [field; lra|lra]. }
  destruct C as (C1 & C2 & C3). rewrite C1, C2. split; [field; lra|]. split; [field; lra|exact C3].
Qed.
Example C41_TV_log_case : logP_im 1 0 1 2 0 1 = PI / 2 - 1 / 2.
Proof. unfold logP_im, carg. assert (Rltb 0 0 = false) as -> by (apply Rltb_false; lra). field. Qed.

Print Assumptions C40_result.
Print Assumptions C40_converges.
Print Assumptions C40_residual.
Print Assumptions C40_maxiter_zero.
Print Assumptions C40_absent_nonvolatile_refuted.
Print Assumptions C40_reported_residual_refuted.
Print Assumptions C41_PT.
Print Assumptions C41_PT_ideal.
Print Assumptions C41_PV.
Print Assumptions C41_TV.
Print Assumptions C78_outer_tolerance_refuted.
Print Assumptions C79_nonvolatile.
Print Assumptions C79_nonvolatile_refuted.
Print Assumptions C80_pure_component.
Print Assumptions C80_pure_component_refuted.
Print Assumptions C80_pure_component_above_300.
Print Assumptions C41_TV_log.
