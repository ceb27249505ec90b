(** Rachford-Rice solver: C40. *)
From Coq Require Import Reals Lra Lia List Bool Arith Psatz.
From Coq Require Import Ranalysis5.
From Coquelicot Require Import Coquelicot.
From Verif Require Import Prelude RootsModel CopoModel FlashModel.
Import ListNotations.
Open Scope R_scope.

(** The Rachford-Rice function, sum z (K-1)/(1 + beta (K-1)), written over the reals. *)
Definition RR (N : nat) (k z : nat -> R) (b : R) : R := sumn N (fun i => z i * (k i - 1) / (1 + b * (k i - 1))).
Definition dRR (N : nat) (k z : nat -> R) (b : R) : R := - sumn N (fun i => z i * (k i - 1) ^ 2 / (1 + b * (k i - 1)) ^ 2).
(** All denominators are positive. *)
Definition dom (N : nat) (k : nat -> R) (b : R) : Prop := forall i, (i < N)%nat -> 0 < 1 + b * (k i - 1).
Definition fin (k : nat -> R) : nat -> fl := fun i => Fin (k i).

(** A feed: nonnegative mole fractions adding to one. *)
Definition feed (N : nat) (z : nat -> R) : Prop := (forall i, (i < N)%nat -> 0 <= z i) /\ sumn N z = 1.
Definition nonneg (N : nat) (k : nat -> R) : Prop := forall i, (i < N)%nat -> 0 <= k i.
Definition positive (N : nat) (k : nat -> R) : Prop := forall i, (i < N)%nat -> 0 < k i.

(* ------------------------------------------------------------------ *)
(** * Floats                                                          *)
(* ------------------------------------------------------------------ *)

Lemma fl_sumn_fin n f g : (forall i, (i < n)%nat -> f i = Fin (g i)) -> fl_sumn n f = Fin (sumn n g).
Proof. intros H. induction n; cbn; [reflexivity|]. rewrite IHn by (intros; apply H; lia). rewrite H by lia. reflexivity. Qed.
Lemma fl_sumn_isfin n f r : fl_sumn n f = Fin r -> forall i, (i < n)%nat -> exists a, f i = Fin a.
Proof.
  revert r. induction n; intros r H i Hi; [lia|]. cbn in H. destruct (fl_sumn n f) eqn:E, (f n) eqn:E'; try discriminate.
  destruct (Nat.eq_dec i n) as [->|]; [eauto|]. apply (IHn r0); auto. lia.
Qed.
Lemma fl_sumn_nan n f i : (i < n)%nat -> f i = NaN -> fl_sumn n f = NaN.
Proof.
  intros Hi E. induction n; [lia|]. cbn. destruct (Nat.eq_dec i n) as [<-|].
  - rewrite E. destruct (fl_sumn i f); reflexivity.
  - rewrite IHn by lia. reflexivity.
Qed.
Lemma np_div_fin a b : b <> 0 -> np_div a b = Fin (a / b).
Proof. intros H. unfold np_div. destruct (Reqb b 0) eqn:E; auto. rdec. tauto. Qed.

Lemma resid_fin N b k z : dom N k b -> residual_RR N b (fin k) z = Fin (RR N k z b).
Proof.
  intros H. apply fl_sumn_fin. intros i Hi. unfold rr_term, fin. specialize (H i Hi). apply np_div_fin. lra.
Qed.
Lemma deriv_fin N b k z : dom N k b -> residual_RR_deriv N b (fin k) z = Fin (dRR N k z b).
Proof.
  intros H. unfold residual_RR_deriv, dRR. rewrite (fl_sumn_fin N _ (fun i => z i * (k i - 1) ^ 2 / (1 + b * (k i - 1)) ^ 2)); [reflexivity|].
  intros i Hi. unfold rr_dterm, fin. specialize (H i Hi). apply np_div_fin. apply pow_nonzero. lra.
Qed.

Lemma dom_lt1 N k b : nonneg N k -> 0 <= b < 1 -> dom N k b.
Proof. intros H Hb i Hi. specialize (H i Hi). assert (0 <= b * k i) by (apply Rmult_le_pos; lra). lra. Qed.
Lemma dom_pos N k b : positive N k -> 0 <= b <= 1 -> dom N k b.
Proof.
  intros H Hb i Hi. specialize (H i Hi). destruct (Req_dec b 1) as [->|]; [lra|].
  assert (0 <= b * k i) by (apply Rmult_le_pos; lra). lra.
Qed.

(** A finite residual at beta in [0,1] means that no denominator vanishes. *)
Lemma resid_isfin N b k z r : nonneg N k -> 0 <= b <= 1 -> residual_RR N b (fin k) z = Fin r -> dom N k b /\ r = RR N k z b.
Proof.
  intros HK Hb E.
  assert (D : dom N k b).
  { intros i Hi. destruct (fl_sumn_isfin _ _ _ E i Hi) as (a & Ha). unfold rr_term, fin, np_div in Ha.
    destruct (Reqb (1 + b * (k i - 1)) 0) eqn:E0.
    - destruct (Reqb (z i * (k i - 1)) 0); [discriminate|]. destruct (Rltb 0 _); discriminate.
    - rdec. specialize (HK i Hi). assert (0 <= b * k i) by (apply Rmult_le_pos; lra). lra. }
  split; auto. rewrite resid_fin in E by auto. now injection E.
Qed.
(** ... and a residual in [0,1] is never +inf. *)
Lemma resid_not_pinf N b k z : nonneg N k -> (forall i, (i < N)%nat -> 0 <= z i) -> 0 <= b <= 1 -> residual_RR N b (fin k) z <> PInf.
Proof.
  intros HK HZ Hb. unfold residual_RR. induction N; cbn [fl_sumn]; [discriminate|].
  assert (H1 : rr_term b (fin k N) (z N) <> PInf).
  { unfold rr_term, fin, np_div. specialize (HK N ltac:(lia)). specialize (HZ N ltac:(lia)).
    destruct (Reqb (1 + b * (k N - 1)) 0) eqn:E0; [|discriminate]. rdec.
    destruct (Reqb _ 0); [discriminate|]. destruct (Rltb 0 (z N * (k N - 1))) eqn:E1; [|discriminate]. rdec.
    exfalso. assert (0 < k N - 1).
    { destruct (Rlt_dec 0 (k N - 1)); auto. assert (z N * (k N - 1) <= 0); [|lra].
      rewrite <- (Rmult_0_r (z N)). apply Rmult_le_compat_l; lra. }
    assert (0 <= b * (k N - 1)) by (apply Rmult_le_pos; lra). lra. }
  specialize (IHN ltac:(intros i Hi; apply HK; lia) ltac:(intros i Hi; apply HZ; lia)).
  set (q := fl_sumn N _) in *. destruct q, (rr_term b (fin k N) (z N)); cbn; congruence.
Qed.

(* ------------------------------------------------------------------ *)
(** * The Rachford-Rice function                                      *)
(* ------------------------------------------------------------------ *)

Lemma RR_derive N k z b : dom N k b -> is_derive (RR N k z) b (dRR N k z b).
Proof.
  intros H. unfold RR, dRR. rewrite <- sumn_opp.
  apply (is_derive_sumn N (fun i t => z i * (k i - 1) / (1 + t * (k i - 1)))).
  intros i Hi. specialize (H i Hi). auto_derive; [lra|]. field. lra.
Qed.

(** Chord formula. *)
Lemma RR_chord N k z a c : dom N k a -> dom N k c ->
  RR N k z a - RR N k z c = (c - a) * sumn N (fun i => z i * (k i - 1) ^ 2 / ((1 + a * (k i - 1)) * (1 + c * (k i - 1)))).
Proof.
  intros Ha Hc. unfold RR. rewrite <- sumn_minus, <- sumn_scal. apply sumn_ext. intros i Hi.
  specialize (Ha i Hi). specialize (Hc i Hi). field. lra.
Qed.

Definition slope_min (N : nat) (k z : nat -> R) : R := sumn N (fun i => z i * (k i - 1) ^ 2 / (Rmax 1 (k i)) ^ 2).
Definition slope_max (N : nat) (k z : nat -> R) : R := sumn N (fun i => z i * (k i - 1) ^ 2 / (Rmin 1 (k i)) ^ 2).

Lemma den_le b k : 0 <= b <= 1 -> 1 + b * (k - 1) <= Rmax 1 k.
Proof.
  intros Hb. unfold Rmax. destruct (Rle_dec 1 k).
  - assert (b * (k - 1) <= 1 * (k - 1)) by (apply Rmult_le_compat_r; lra). lra.
  - assert (0 <= b * (1 - k)) by (apply Rmult_le_pos; lra). lra.
Qed.
Lemma den_ge b k : 0 <= b <= 1 -> Rmin 1 k <= 1 + b * (k - 1).
Proof.
  intros Hb. unfold Rmin. destruct (Rle_dec 1 k).
  - assert (0 <= b * (k - 1)) by (apply Rmult_le_pos; lra). lra.
  - assert (b * (1 - k) <= 1 * (1 - k)) by (apply Rmult_le_compat_r; lra). lra.
Qed.

Lemma frac_le w p q : 0 <= w -> 0 < p -> p <= q -> w / q <= w / p.
Proof. intros. unfold Rdiv. apply Rmult_le_compat_l; auto. apply Rinv_le_contravar; auto. Qed.

Lemma chord_lower N k z a c : feed N z -> 0 <= a <= 1 -> 0 <= c <= 1 -> dom N k a -> dom N k c ->
  slope_min N k z <= sumn N (fun i => z i * (k i - 1) ^ 2 / ((1 + a * (k i - 1)) * (1 + c * (k i - 1)))).
Proof.
  intros (HZ & _) Ha Hc Da Dc. apply sumn_le. intros i Hi. specialize (Da i Hi). specialize (Dc i Hi).
  apply frac_le.
  - apply Rmult_le_pos; auto. apply pow2_ge_0.
  - apply Rmult_lt_0_compat; auto.
  - simpl. rewrite Rmult_1_r. apply Rmult_le_compat; try lra; apply den_le; lra.
Qed.
Lemma chord_upper N k z a c : feed N z -> positive N k -> 0 <= a <= 1 -> 0 <= c <= 1 ->
  sumn N (fun i => z i * (k i - 1) ^ 2 / ((1 + a * (k i - 1)) * (1 + c * (k i - 1)))) <= slope_max N k z.
Proof.
  intros (HZ & _) HK Ha Hc. apply sumn_le. intros i Hi. specialize (HK i Hi).
  assert (M : 0 < Rmin 1 (k i)) by (apply Rmin_glb_lt; lra).
  apply frac_le.
  - apply Rmult_le_pos; auto. apply pow2_ge_0.
  - simpl. rewrite Rmult_1_r. apply Rmult_lt_0_compat; auto.
  - simpl. rewrite Rmult_1_r. apply Rmult_le_compat; try lra; apply den_ge; lra.
Qed.

Lemma RR_antitone N k z a c : feed N z -> dom N k a -> dom N k c -> a <= c -> RR N k z c <= RR N k z a.
Proof.
  intros (HZ & _) Da Dc Hac. pose proof (RR_chord N k z a c Da Dc).
  assert (0 <= sumn N (fun i => z i * (k i - 1) ^ 2 / ((1 + a * (k i - 1)) * (1 + c * (k i - 1))))).
  { apply sumn_nonneg. intros i Hi. apply Rmult_le_pos; [apply Rmult_le_pos; auto; apply pow2_ge_0|].
    left. apply Rinv_0_lt_compat. apply Rmult_lt_0_compat; auto. }
  assert (0 <= (c - a) * sumn N (fun i => z i * (k i - 1) ^ 2 / ((1 + a * (k i - 1)) * (1 + c * (k i - 1))))) by (apply Rmult_le_pos; lra).
  lra.
Qed.
Lemma slope_min_pos N k z : feed N z -> nonneg N k -> (exists i, (i < N)%nat /\ 0 < z i /\ k i <> 1) -> 0 < slope_min N k z.
Proof.
  intros (HZ & _) HK (i & Hi & Pz & Pk).
  assert (M : forall j, 0 < Rmax 1 (k j) ^ 2) by (intros j; apply pow_lt; pose proof (Rmax_l 1 (k j)); lra).
  apply (sumn_pos N _ i); auto.
  - intros j Hj. apply Rmult_le_pos; [apply Rmult_le_pos; auto; apply pow2_ge_0|]. left. now apply Rinv_0_lt_compat.
  - apply Rdiv_lt_0_compat; auto. apply Rmult_lt_0_compat; auto. apply pow2_gt_0. lra.
Qed.

(** The unnormalised phase compositions. *)
Lemma phases N k z b : feed N z -> dom N k b ->
  sumn N (fun i => z i / (1 + b * (k i - 1))) = 1 - b * RR N k z b /\
  sumn N (fun i => k i * (z i / (1 + b * (k i - 1)))) = 1 + (1 - b) * RR N k z b.
Proof.
  intros (_ & HS) HD. split.
  - rewrite <- HS at 1. unfold RR. rewrite <- sumn_scal, <- sumn_minus. apply sumn_ext. intros i Hi. specialize (HD i Hi). field. lra.
  - rewrite <- HS at 1. unfold RR. rewrite <- sumn_scal, <- sumn_plus. apply sumn_ext. intros i Hi. specialize (HD i Hi). field. lra.
Qed.

(** At a root, mole fractions are at most one: the window of Leibovici-Neoschil. *)
Lemma root_window N k z b : feed N z -> nonneg N k -> 0 <= b <= 1 -> dom N k b -> RR N k z b = 0 ->
  rr_bmin N (fin k) z <= b <= rr_bmax N (fin k) z.
Proof.
  intros HF HK Hb HD H0. destruct (phases N k z b HF HD) as (SX & SY). rewrite H0, Rmult_0_r in SX, SY.
  destruct HF as (HZ & HS).
  assert (X0 : forall i, (i < N)%nat -> 0 <= z i / (1 + b * (k i - 1))).
  { intros i Hi. apply Rmult_le_pos; auto. left. apply Rinv_0_lt_compat. auto. }
  assert (X : forall i, (i < N)%nat -> z i <= 1 + b * (k i - 1)).
  { intros i Hi. pose proof (sumn_ge_term N _ i X0 Hi). cbv beta in H. rewrite SX in H. specialize (HD i Hi).
    apply (Rmult_le_reg_r (/ (1 + b * (k i - 1)))); [now apply Rinv_0_lt_compat|]. rewrite Rinv_r by lra.
    change (z i / (1 + b * (k i - 1)) <= 1). lra. }
  assert (Y : forall i, (i < N)%nat -> k i * z i <= 1 + b * (k i - 1)).
  { intros i Hi. pose proof (sumn_ge_term N (fun i => k i * (z i / (1 + b * (k i - 1)))) i
      ltac:(intros j Hj; apply Rmult_le_pos; auto) Hi). cbv beta in H. rewrite SY in H. specialize (HD i Hi).
    apply (Rmult_le_reg_r (/ (1 + b * (k i - 1)))); [now apply Rinv_0_lt_compat|]. rewrite Rinv_r by lra.
    replace (k i * z i * / (1 + b * (k i - 1))) with (k i * (z i / (1 + b * (k i - 1)))) by (unfold Rdiv; ring). lra. }
  clear - X Y Hb. split; induction N; cbn [rr_bmin rr_bmax fin]; try lra.
  - specialize (IHN ltac:(intros; apply X; lia) ltac:(intros; apply Y; lia)).
    destruct (Rltb 1 (k N)) eqn:E; [|auto]. destruct (_ && _); [|auto]. rdec. apply Rmax_lub; auto.
    specialize (Y N ltac:(lia)). apply (Rmult_le_reg_r (k N - 1)); [lra|]. unfold Rdiv. rewrite Rmult_assoc, Rinv_l by lra. lra.
  - specialize (IHN ltac:(intros; apply X; lia) ltac:(intros; apply Y; lia)).
    destruct (Rltb (k N) 1) eqn:E; [|auto]. destruct (_ && _); [|auto]. rdec. apply Rmin_glb; auto.
    specialize (X N ltac:(lia)). apply (Rmult_le_reg_r (1 - k N)); [lra|]. unfold Rdiv. rewrite Rmult_assoc, Rinv_l by lra. lra.
Qed.

Lemma bmin_range N K z : 0 <= rr_bmin N K z < 1.
Proof.
  induction N; cbn [rr_bmin]; [lra|]. destruct (K N); auto. destruct (Rltb 1 r); auto. destruct (_ && _) eqn:E; auto.
  apply andb_prop in E. destruct E. rdec. split; [apply (Rle_trans _ (rr_bmin N K z)); [lra|apply Rmax_l]|apply Rmax_lub_lt; lra].
Qed.
Lemma bmax_range N K z : 0 < rr_bmax N K z <= 1.
Proof.
  induction N; cbn [rr_bmax]; [lra|]. destruct (K N); auto. destruct (Rltb r 1); auto. destruct (_ && _) eqn:E; auto.
  apply andb_prop in E. destruct E. rdec. split; [apply Rmin_glb_lt; lra|apply (Rle_trans _ (rr_bmax N K z)); [apply Rmin_l|lra]].
Qed.

(** Existence of the two-phase solution. *)
Lemma RR_continuous N k z b : dom N k b -> continuity_pt (RR N k z) b.
Proof. intros H. apply continuity_pt_filterlim. apply (ex_derive_continuous (RR N k z)). eexists. now apply RR_derive. Qed.

Lemma RR_ivt N k z c : feed N z -> nonneg N k -> 0 < c <= 1 -> dom N k c -> 0 <= RR N k z 0 -> RR N k z c <= 0 ->
  exists b, 0 <= b <= c /\ dom N k b /\ RR N k z b = 0.
Proof.
  intros HF HK Hc HD H0 H1.
  assert (DD : forall b, 0 <= b <= c -> dom N k b).
  { intros b Hb. destruct (Req_dec b 1) as [->|]; [|apply dom_lt1; auto; lra]. replace 1 with c by lra. auto. }
  destruct H0 as [H0|H0]; [|exists 0; repeat split; try lra; auto; apply DD; lra].
  destruct H1 as [H1|H1]; [|exists c; repeat split; try lra; auto].
  destruct (IVT_interv (fun b => - RR N k z b) 0 c) as (b & Hb & E).
  - intros a Ha. apply continuity_pt_opp. apply RR_continuous. now apply DD.
  - lra.
  - lra.
  - lra.
  - exists b. repeat split; try lra. now apply DD.
Qed.

(** K-values >= 0; a nonvolatile component (K = 0) is present in the feed. *)
Definition kvals (N : nat) (k z : nat -> R) : Prop := forall i, (i < N)%nat -> 0 < k i \/ (k i = 0 /\ 0 < z i).
Lemma kvals_nonneg N k z : kvals N k z -> nonneg N k.
Proof. intros H i Hi. destruct (H i Hi); lra. Qed.

Lemma RR_root N k z : feed N z -> kvals N k z -> 0 <= RR N k z 0 ->
  (dom N k 1 -> RR N k z 1 <= 0) -> exists b, 0 <= b <= 1 /\ RR N k z b = 0 /\ dom N k b.
Proof.
  intros HF HKZ H0 H1. assert (HK := kvals_nonneg N k z HKZ).
  destruct (Classical_Prop.classic (exists i, (i < N)%nat /\ k i = 0)) as [(j & Hj & Ej)|NE].
  - assert (Pz : 0 < z j) by (destruct (HKZ j Hj); lra).
    set (S := sumn N (fun i => z i * Rabs (k i - 1))).
    assert (S0 : 0 <= S) by (apply sumn_nonneg; intros i Hi; apply Rmult_le_pos; [apply HF; auto|apply Rabs_pos]).
    set (c := 1 - z j / (S + z j)).
    assert (C : 0 <= c < 1).
    { unfold c. assert (0 < z j / (S + z j)) by (apply Rdiv_lt_0_compat; lra).
      assert (z j / (S + z j) <= 1); [|lra]. apply (Rmult_le_reg_r (S + z j)); [lra|]. unfold Rdiv. rewrite Rmult_assoc, Rinv_l by lra. lra. }
    assert (D : dom N k c) by (apply dom_lt1; auto).
    assert (NEG : RR N k z c <= 0).
    { unfold RR. apply (Rle_trans _ (sumn N (fun i => z i * Rabs (k i - 1) - delta i j * (z j + S)))).
      - apply sumn_le. intros i Hi. destruct (Nat.eq_dec i j) as [->|Hne].
        + rewrite delta_eq, Ej. replace (1 + c * (0 - 1)) with (z j / (S + z j)) by (unfold c; ring).
          replace (Rabs (0 - 1)) with 1 by (rewrite Rabs_left; lra).
          replace (z j * (0 - 1) / (z j / (S + z j))) with (- (S + z j)) by (field; lra). lra.
        + rewrite delta_neq by auto. rewrite Rmult_0_l, Rminus_0_r. specialize (D i Hi). pose proof (HK i Hi) as Ki.
          unfold Rdiv. rewrite Rmult_assoc. apply Rmult_le_compat_l; [apply HF; auto|].
          destruct (Rle_dec 1 (k i)).
          * rewrite Rabs_pos_eq by lra. rewrite <- (Rmult_1_r (k i - 1)) at 3. apply Rmult_le_compat_l; [lra|].
            rewrite <- Rinv_1. apply Rinv_le_contravar; [lra|]. assert (0 <= c * (k i - 1)) by (apply Rmult_le_pos; lra). lra.
          * apply (Rle_trans _ 0); [|apply Rabs_pos]. assert (0 < / (1 + c * (k i - 1))) by now apply Rinv_0_lt_compat.
            assert (0 <= (1 - k i) * / (1 + c * (k i - 1))) by (apply Rmult_le_pos; lra). lra.
      - rewrite sumn_minus, (sumn_delta N j (fun _ => z j + S)) by auto. fold S. lra. }
    destruct (proj1 C) as [C0|C0].
    + destruct (RR_ivt N k z c HF HK ltac:(lra) D H0 NEG) as (b & Hb & Db & Eb). exists b. split; [lra|auto].
    + exists 0. split; [lra|]. rewrite <- C0 in NEG. split; [lra|]. apply dom_lt1; auto. lra.
  - assert (HP : positive N k).
    { intros i Hi. destruct (HK i Hi); auto. exfalso. apply NE. exists i. auto. }
    assert (D1 : dom N k 1) by (apply dom_pos; auto; lra).
    destruct (RR_ivt N k z 1 HF HK ltac:(lra) D1 H0 (H1 D1)) as (b & Hb & Db & Eb). exists b. split; [lra|auto].
Qed.

(* ------------------------------------------------------------------ *)
(** * The iteration                                                   *)
(* ------------------------------------------------------------------ *)

Lemma rr_next_range a b p F dF : a <= b -> a <= rr_next a b p F dF <= b.
Proof.
  intros H. unfold rr_next. assert (a <= (a + b) / 2 <= b) by lra.
  destruct (fl_plus _ _); auto. destruct (_ && _) eqn:E; auto. apply andb_prop in E. destruct E. rdec. lra.
Qed.
Lemma rr_next_val a b p F dF : dF <> 0 ->
  rr_next a b p (Fin F) (Fin dF) = (if Rltb a (p + - (F / dF)) && Rltb (p + - (F / dF)) b then p + - (F / dF) else (a + b) / 2).
Proof. intros H. unfold rr_next. cbn [fl_quot]. rewrite np_div_fin by auto. reflexivity. Qed.

(** One iteration keeps the root inside the bracket. *)
Lemma rr_loop_spec N k z atol bs : feed N z -> nonneg N k -> 0 <= atol ->
  dom N k bs -> RR N k z bs = 0 -> forall n i bmin bmax b last,
  0 <= bmin -> bmax <= 1 -> bmin <= b <= bmax -> bmin <= bs <= bmax -> (n + i > 0)%nat ->
  exists r, rr_loop N (fin k) z atol n i bmin bmax b last = Ok r /\ 0 <= rs_beta r <= 1 /\ (i <= rs_niter r <= i + n)%nat /\
    (rs_success r = true -> rs_F r = Fin (RR N k z (rs_beta r)) /\ dom N k (rs_beta r) /\ Rabs (RR N k z (rs_beta r)) <= atol).
Proof.
  intros HF HK Ha Ds Es. induction n as [|n IH]; intros i bmin bmax b last H0 H1 Hb Hs Hn.
  - cbn [rr_loop]. destruct (Nat.eqb i 0) eqn:E; [apply Nat.eqb_eq in E; lia|].
    eexists. split; [reflexivity|]. cbn. repeat split; try lia; try lra; discriminate.
  - cbn [rr_loop]. destruct (residual_RR N b (fin k) z) as [r| | |] eqn:EF.
    + destruct (resid_isfin N b k z r HK ltac:(lra) EF) as (D & Er). cbn [fl_abs_le].
      destruct (Rleb (Rabs r) atol) eqn:EA.
      * eexists. split; [reflexivity|]. cbn. subst r. rdec. repeat split; auto; try lia; lra.
      * rdec.
        assert (NB : 0 < r -> b <= bs).
        { intros Hr. destruct (Rle_dec b bs); auto. assert (RR N k z b <= RR N k z bs) by (apply RR_antitone; auto; lra). lra. }
        assert (NA : r <= 0 -> bs <= b).
        { intros Hr. destruct (Rle_dec bs b); auto. assert (RR N k z bs <= RR N k z b) by (apply RR_antitone; auto; lra).
          assert (r = 0) by lra. exfalso. rewrite H2, Rabs_R0 in EA. lra. }
        cbn [fl_gt0]. destruct (Rltb 0 r) eqn:EP; rdec.
        -- edestruct (IH (i + 1)%nat b bmax) as (q & Eq & A & B & C); [lra|lra| |split; [now apply NB|lra]|lia|].
           2:{ exists q. split; [exact Eq|]. repeat split; try lra; try lia; apply C; auto. }
           apply rr_next_range. lra.
        -- edestruct (IH (i + 1)%nat bmin b) as (q & Eq & A & B & C); [lra|lra| |split; [lra|now apply NA]|lia|].
           2:{ exists q. split; [exact Eq|]. repeat split; try lra; try lia; apply C; auto. }
           apply rr_next_range. lra.
    + exfalso. apply (resid_not_pinf N b k z); auto; [apply HF|lra].
    + assert (B1 : b = 1).
      { destruct (Req_dec b 1); auto. rewrite resid_fin in EF by (apply dom_lt1; auto; lra). discriminate. }
      cbn [fl_abs_le fl_gt0]. edestruct (IH (i + 1)%nat bmin b) as (q & Eq & A & B & C); [lra|lra| |lra|lia|].
      2:{ exists q. split; [exact Eq|]. repeat split; try lra; try lia; apply C; auto. }
      apply rr_next_range. lra.
    + assert (B1 : b = 1).
      { destruct (Req_dec b 1); auto. rewrite resid_fin in EF by (apply dom_lt1; auto; lra). discriminate. }
      cbn [fl_abs_le fl_gt0]. edestruct (IH (i + 1)%nat bmin b) as (q & Eq & A & B & C); [lra|lra| |lra|lia|].
      2:{ exists q. split; [exact Eq|]. repeat split; try lra; try lia; apply C; auto. }
      apply rr_next_range. lra.
Qed.

(** Newton steps: facts about F and its slope. *)
Section Converge.
  Variables (N : nat) (k z : nat -> R) (atol bs : R).
  Hypothesis HF : feed N z.
  Hypothesis HK : positive N k.
  Hypothesis Hat : 0 < atol.
  Hypothesis Hbs : 0 <= bs <= 1.
  Hypothesis Ebs : RR N k z bs = 0.
  Let M := slope_max N k z.
  Let f := RR N k z.
  Let g := fun b => - dRR N k z b.

  Lemma D01 b : 0 <= b <= 1 -> dom N k b.
  Proof. intros. apply dom_pos; auto. Qed.

  Lemma lipM a c : 0 <= a -> a <= c -> c <= 1 -> f a - f c <= M * (c - a).
  Proof.
    intros. unfold f. rewrite RR_chord by (apply D01; lra). rewrite Rmult_comm. apply Rmult_le_compat_r; [lra|].
    apply chord_upper; auto; lra.
  Qed.
  Lemma g_le b : 0 <= b <= 1 -> g b <= M.
  Proof.
    intros H. unfold g, dRR. rewrite Ropp_involutive.
    rewrite (sumn_ext N _ (fun i => z i * (k i - 1) ^ 2 / ((1 + b * (k i - 1)) * (1 + b * (k i - 1))))).
    - apply chord_upper; auto.
    - intros i Hi. f_equal. ring.
  Qed.
  Lemma g_nonneg b : 0 <= b <= 1 -> 0 <= g b.
  Proof.
    intros H. unfold g, dRR. rewrite Ropp_involutive. apply sumn_nonneg. intros i Hi. pose proof (D01 b H i Hi).
    apply Rmult_le_pos; [apply Rmult_le_pos; [now apply HF|apply pow2_ge_0]|]. left. apply Rinv_0_lt_compat. now apply pow_lt.
  Qed.
  Lemma g_pos b : 0 <= b <= 1 -> f b <> 0 -> 0 < g b.
  Proof.
    intros H Hn. destruct (g_nonneg b H) as [|E]; auto. exfalso. apply Hn. unfold f, RR. apply sumn_zero'. intros i Hi.
    symmetry in E. unfold g, dRR in E. rewrite Ropp_involutive in E.
    pose proof (sumn_nonneg_zero N (fun i => z i * (k i - 1) ^ 2 / (1 + b * (k i - 1)) ^ 2)) as K.
    pose proof (D01 b H) as D. specialize (K).
    assert (K' : z i * (k i - 1) ^ 2 / (1 + b * (k i - 1)) ^ 2 = 0).
    { apply (K ltac:(intros j Hj; specialize (D j Hj); apply Rmult_le_pos; [apply Rmult_le_pos; [now apply HF|apply pow2_ge_0]|left; apply Rinv_0_lt_compat; now apply pow_lt]) E i Hi). }
    assert (P : (1 + b * (k i - 1)) ^ 2 <> 0) by (apply pow_nonzero; specialize (D i Hi); lra).
    apply Rmult_integral in K'. destruct K' as [K'|K']; [|exfalso; now apply (Rinv_neq_0_compat _ P)].
    apply Rmult_integral in K'. destruct K' as [K'|K']; [rewrite K'; unfold Rdiv; ring|].
    assert (k i - 1 = 0). { destruct (Req_dec (k i - 1) 0); auto. exfalso. now apply (pow_nonzero _ 2) in H0. }
    rewrite H0. unfold Rdiv. ring.
  Qed.

  (** The slope |F'| is convex: the chord is at most the mean of the end slopes. *)
  Lemma trapezoid a c : 0 <= a -> a <= c -> c <= 1 -> f a - f c <= (c - a) * ((g a + g c) / 2).
  Proof.
    intros H1 H2 H3. unfold f. rewrite RR_chord by (apply D01; lra). apply Rmult_le_compat_l; [lra|].
    unfold g, dRR. rewrite !Ropp_involutive, <- sumn_plus. unfold Rdiv at 2. rewrite <- sumn_scal_r. apply sumn_le. intros i Hi.
    pose proof (D01 a ltac:(lra) i Hi) as Pa. pose proof (D01 c ltac:(lra) i Hi) as Pc.
    set (p := 1 + a * (k i - 1)) in *. set (q := 1 + c * (k i - 1)) in *.
    assert (0 <= z i * (k i - 1) ^ 2) by (apply Rmult_le_pos; [now apply HF|apply pow2_ge_0]).
    set (w := z i * (k i - 1) ^ 2) in *.
    replace ((w / p ^ 2 + w / q ^ 2) * / 2) with (w * ((/ p) ^ 2 + (/ q) ^ 2) / 2) by (field; lra).
    replace (w / (p * q)) with (w * (/ p * / q)) by (field; lra).
    assert (0 <= (/ p - / q) ^ 2) by apply pow2_ge_0.
    assert (w * (/ p * / q) <= w * (((/ p) ^ 2 + (/ q) ^ 2) / 2)) by (apply Rmult_le_compat_l; auto; lra). lra.
  Qed.

  Lemma M_pos b : 0 <= b <= 1 -> f b <> 0 -> 0 < M.
  Proof. intros H Hn. pose proof (g_pos b H Hn). pose proof (g_le b H). lra. Qed.

  (** Distance to the root. *)
  Lemma left_dist a b : 0 <= a -> a <= bs <= b -> atol < f a -> atol < M * (b - a).
  Proof.
    intros H1 H2 H3. pose proof (lipM a bs ltac:(lra) ltac:(lra) ltac:(lra)). unfold f in *. rewrite Ebs in H.
    pose proof (M_pos a ltac:(lra) ltac:(unfold f; lra)) as MP.
    assert (M * (bs - a) <= M * (b - a)) by (apply Rmult_le_compat_l; lra). lra.
  Qed.
  Lemma right_dist a b : b <= 1 -> a <= bs <= b -> f b < - atol -> atol < M * (b - a).
  Proof.
    intros H1 H2 H3. pose proof (lipM bs b ltac:(lra) ltac:(lra) ltac:(lra)). unfold f in *. rewrite Ebs in H.
    pose proof (M_pos b ltac:(lra) ltac:(unfold f; lra)) as MP.
    assert (M * (b - bs) <= M * (b - a)) by (apply Rmult_le_compat_l; lra). lra.
  Qed.

  (** Newton displacement. *)
  Lemma newt_q p : f p <> 0 -> dRR N k z p <> 0 -> p + - (f p / dRR N k z p) = p + f p / g p.
  Proof. intros H1 H2. unfold g. field. auto. Qed.
  Lemma newt_size t p : 0 <= p <= 1 -> atol < t -> 0 < g p -> atol < M * (t / g p).
  Proof.
    intros Hp Ht Hg. pose proof (g_le p Hp). apply (Rlt_le_trans _ t); auto.
    apply (Rmult_le_reg_r (g p)); auto. replace (M * (t / g p) * g p) with (t * M) by (field; lra).
    apply Rmult_le_compat_l; lra.
  Qed.

  Definition nxt a b p := rr_next a b p (Fin (f p)) (Fin (dRR N k z p)).

  Lemma next_left a b : 0 <= a -> a <= bs <= b -> b <= 1 -> atol < f a ->
    let c := nxt a b a in
    a <= c <= b /\ atol <= 2 * M * (c - a) /\ (atol <= 2 * M * (b - c) \/ c = a + f a / g a).
  Proof.
    intros Ha Hs Hb Hf c. pose proof (left_dist a b Ha Hs Hf) as LD.
    pose proof (g_pos a ltac:(lra) ltac:(lra)) as GP.
    assert (DN : dRR N k z a <> 0) by (unfold g in GP; lra).
    assert (R : a <= c <= b) by (unfold c, nxt; apply rr_next_range; lra).
    split; auto. unfold c, nxt in *. rewrite rr_next_val in * by auto.
    rewrite (newt_q a) in * by (auto; lra).
    pose proof (newt_size (f a) a ltac:(lra) Hf GP) as NS.
    destruct (_ && _).
    - split; [|now right]. replace (a + f a / g a - a) with (f a / g a) by ring. lra.
    - split; [|left]; lra.
  Qed.
  Lemma next_right a b : 0 <= a -> a <= bs <= b -> b <= 1 -> f b < - atol ->
    let c := nxt a b b in
    a <= c <= b /\ atol <= 2 * M * (b - c) /\ (atol <= 2 * M * (c - a) \/ c = b + f b / g b).
  Proof.
    intros Ha Hs Hb Hf c. pose proof (right_dist a b Hb Hs Hf) as LD.
    pose proof (g_pos b ltac:(lra) ltac:(lra)) as GP.
    assert (DN : dRR N k z b <> 0) by (unfold g in GP; lra).
    assert (R : a <= c <= b) by (unfold c, nxt; apply rr_next_range; lra).
    split; auto. unfold c, nxt in *. rewrite rr_next_val in * by auto.
    rewrite (newt_q b) in * by (auto; lra).
    pose proof (newt_size (- f b) b ltac:(lra) ltac:(lra) GP) as NS.
    destruct (_ && _).
    - split; [|now right]. replace (b - (b + f b / g b)) with (- f b / g b) by (field; lra). lra.
    - split; [|left]; lra.
  Qed.

  (** After an overshooting Newton step the next iterate cuts off a substantial part on
      either side. *)
  Lemma second_left a c : 0 <= a -> a <= bs <= c -> c <= 1 -> atol < f a -> f c < - atol -> c = a + f a / g a ->
    let d := nxt a c c in a <= d <= c /\ atol <= 2 * M * (d - a) /\ atol <= 2 * M * (c - d).
  Proof.
    intros Ha Hs Hc Hfa Hfc Ec d. destruct (next_right a c Ha Hs Hc Hfc) as (R & S1 & S2).
    cbv zeta in R, S1, S2. fold d in R, S1, S2.
    split; auto. split; auto. destruct S2 as [S2|S2]; auto.
    pose proof (g_pos a ltac:(lra) ltac:(lra)) as Ga. pose proof (g_pos c ltac:(lra) ltac:(lra)) as Gc.
    pose proof (trapezoid a c ltac:(lra) ltac:(lra) ltac:(lra)) as TZ.
    assert (FA : f a = (c - a) * g a) by (rewrite Ec at 1; field; lra).
    pose proof (newt_size (f a) a ltac:(lra) Hfa Ga) as NS.
    replace (f a / g a) with (c - a) in NS by (rewrite Ec at 1; ring).
    assert (Q : - f c / g c <= (c - a) / 2).
    { apply (Rmult_le_reg_r (g c)); auto. replace (- f c / g c * g c) with (- f c) by (field; lra).
      assert (0 <= (c - a) * g a) by (apply Rmult_le_pos; lra). lra. }
    pose proof (M_pos a ltac:(lra) ltac:(lra)) as MP.
    assert (M * ((c - a) / 2) <= M * (d - a)).
    { apply Rmult_le_compat_l; [lra|]. rewrite S2. replace (- f c / g c) with (- (f c / g c)) in Q by (field; lra). lra. }
    lra.
  Qed.
  Lemma second_right c b : 0 <= c -> c <= bs <= b -> b <= 1 -> f b < - atol -> atol < f c -> c = b + f b / g b ->
    let d := nxt c b c in c <= d <= b /\ atol <= 2 * M * (d - c) /\ atol <= 2 * M * (b - d).
  Proof.
    intros Ha Hs Hc Hfb Hfc Ec d. destruct (next_left c b Ha Hs Hc Hfc) as (R & S1 & S2).
    cbv zeta in R, S1, S2. fold d in R, S1, S2.
    split; auto. split; auto. destruct S2 as [S2|S2]; auto.
    pose proof (g_pos b ltac:(lra) ltac:(lra)) as Gb. pose proof (g_pos c ltac:(lra) ltac:(lra)) as Gc.
    pose proof (trapezoid c b ltac:(lra) ltac:(lra) ltac:(lra)) as TZ.
    assert (FB : - f b = (b - c) * g b) by (rewrite Ec at 1; field; lra).
    pose proof (newt_size (- f b) b ltac:(lra) ltac:(lra) Gb) as NS.
    replace (- f b / g b) with (b - c) in NS by (rewrite Ec at 1; field; lra).
    assert (Q : f c / g c <= (b - c) / 2).
    { apply (Rmult_le_reg_r (g c)); auto. replace (f c / g c * g c) with (f c) by (field; lra).
      assert (0 <= (b - c) * g b) by (apply Rmult_le_pos; lra). lra. }
    pose proof (M_pos b ltac:(lra) ltac:(lra)) as MP.
    assert (M * ((b - c) / 2) <= M * (b - d)) by (apply Rmult_le_compat_l; lra).
    lra.
  Qed.

  (** One loop iteration at an interior point. *)
  Lemma loop_S n i a b c last : 0 <= a -> a <= c <= b -> b <= 1 -> a <= bs <= b ->
    (exists r, rr_loop N (fin k) z atol (S n) i a b c last = Ok r /\ rs_success r = true) \/
    (atol < f c /\ c <= bs /\ rr_loop N (fin k) z atol (S n) i a b c last = rr_loop N (fin k) z atol n (i + 1) c b (nxt c b c) (Fin (f c))) \/
    (f c < - atol /\ bs <= c /\ rr_loop N (fin k) z atol (S n) i a b c last = rr_loop N (fin k) z atol n (i + 1) a c (nxt a c c) (Fin (f c))).
  Proof.
    intros Ha Hc Hb Hs. assert (D : dom N k c) by (apply D01; lra). cbn [rr_loop].
    rewrite resid_fin, deriv_fin by auto. fold f. cbn [fl_abs_le fl_gt0].
    destruct (Rleb (Rabs (f c)) atol) eqn:E; [left; eexists; split; [reflexivity|reflexivity]|]. rdec. right.
    destruct (Rltb 0 (f c)) eqn:E2; rdec.
    - left. rewrite Rabs_pos_eq in E by lra. repeat split; auto.
      destruct (Rle_dec c bs); auto. assert (f c <= f bs) by (apply RR_antitone; auto; [apply D01; lra|lra]). unfold f in *. lra.
    - right. rewrite Rabs_left1 in E by lra. repeat split; auto; try lra.
      destruct (Rle_dec bs c); auto. assert (f bs <= f c) by (apply RR_antitone; auto; [apply D01; lra|lra]). unfold f in *. lra.
  Qed.

  Lemma loop_converges : forall j n i a b p last, 0 <= a -> a <= bs <= b -> b <= 1 ->
    (p = a /\ atol < f a \/ p = b /\ f b < - atol) -> 2 * M * (b - a) <= INR j * atol -> (2 * j <= n)%nat ->
    exists r, rr_loop N (fin k) z atol n i a b (nxt a b p) last = Ok r /\ rs_success r = true.
  Proof.
    induction j as [|j IH]; intros n i a b p last Ha Hs Hb Hp HL Hn.
    - exfalso. cbn in HL. destruct Hp as [(-> & Hf)|(-> & Hf)];
        [pose proof (left_dist a b Ha Hs Hf)|pose proof (right_dist a b Hb Hs Hf)]; lra.
    - destruct n as [|[|n]]; try lia. rewrite S_INR in HL.
      assert (SH : forall a' b', atol <= 2 * M * (b - a - (b' - a')) -> 2 * M * (b' - a') <= INR j * atol) by (intros; lra).
      destruct Hp as [(-> & Hf)|(-> & Hf)].
      + destruct (next_left a b Ha Hs Hb Hf) as (R & S1 & S2).
        destruct (loop_S (S n) i a b (nxt a b a) last Ha R Hb Hs) as [OK|[(Fc & Bc & E)|(Fc & Bc & E)]]; auto; rewrite E.
        * apply IH; try lra; auto; try lia; apply SH; lra.
        * destruct S2 as [S2|S2].
          -- apply IH; try lra; auto; try lia; apply SH; lra.
          -- set (c := nxt a b a) in *.
             destruct (second_left a c Ha ltac:(lra) ltac:(lra) Hf Fc S2) as (R' & T1 & T2).
             destruct (loop_S n (i + 1) a c (nxt a c c) (Fin (f c)) Ha R' ltac:(lra) ltac:(lra)) as [OK|[(Fd & Bd & E')|(Fd & Bd & E')]]; auto; rewrite E'.
             ++ pose proof (M_pos a ltac:(lra) ltac:(lra)) as MP.
                assert (0 <= M * (b - c)) by (apply Rmult_le_pos; lra).
                apply IH; try lra; auto; try lia; apply SH; lra.
             ++ pose proof (M_pos a ltac:(lra) ltac:(lra)) as MP.
                assert (0 <= M * (b - c)) by (apply Rmult_le_pos; lra).
                apply IH; try lra; auto; try lia; apply SH; lra.
      + destruct (next_right a b Ha Hs Hb Hf) as (R & S1 & S2).
        destruct (loop_S (S n) i a b (nxt a b b) last Ha R Hb Hs) as [OK|[(Fc & Bc & E)|(Fc & Bc & E)]]; auto; rewrite E.
        * destruct S2 as [S2|S2].
          -- apply IH; try lra; auto; try lia; apply SH; lra.
          -- set (c := nxt a b b) in *.
             destruct (second_right c b ltac:(lra) ltac:(lra) Hb Hf Fc S2) as (R' & T1 & T2).
             destruct (loop_S n (i + 1) c b (nxt c b c) (Fin (f c)) ltac:(lra) R' Hb ltac:(lra)) as [OK|[(Fd & Bd & E')|(Fd & Bd & E')]]; auto; rewrite E'.
             ++ pose proof (M_pos b ltac:(lra) ltac:(lra)) as MP.
                assert (0 <= M * (c - a)) by (apply Rmult_le_pos; lra).
                apply IH; try lra; auto; try lia; apply SH; lra.
             ++ pose proof (M_pos b ltac:(lra) ltac:(lra)) as MP.
                assert (0 <= M * (c - a)) by (apply Rmult_le_pos; lra).
                apply IH; try lra; auto; try lia; apply SH; lra.
        * apply IH; try lra; auto; try lia; apply SH; lra.
  Qed.
End Converge.

(* ------------------------------------------------------------------ *)
(** * C40                                                             *)
(* ------------------------------------------------------------------ *)

Lemma RR_at0 N k z : feed N z -> RR N k z 0 = sumn N (fun i => k i * z i) - 1.
Proof.
  intros (_ & HS). transitivity (sumn N (fun i => k i * z i) - sumn N z); [|now rewrite HS].
  unfold RR. rewrite <- sumn_minus. apply sumn_ext. intros i Hi. field.
Qed.
Lemma RR_at1 N k z : feed N z -> positive N k -> RR N k z 1 = 1 - sumn N (fun i => z i / k i).
Proof.
  intros (_ & HS) HK. transitivity (sumn N z - sumn N (fun i => z i / k i)); [|now rewrite HS]. unfold RR. rewrite <- sumn_minus. apply sumn_ext. intros i Hi. specialize (HK i Hi).
  replace (1 + 1 * (k i - 1)) with (k i) by ring. field. lra.
Qed.
Lemma dom0 N k : dom N k 0.
Proof. intros i Hi. lra. Qed.

(** The window and the start point are inside [0,1] and contain the root. *)
Lemma solve_start N k z beta0 bs : feed N z -> nonneg N k -> 0 <= bs <= 1 -> dom N k bs -> RR N k z bs = 0 ->
  let a := rr_bmin N (fin k) z in let b := rr_bmax N (fin k) z in
  0 <= a /\ b <= 1 /\ a <= bs <= b /\
  a <= match beta0 with Some c => clip c a b | None => (a + b) / 2 end <= b.
Proof.
  intros HF HK Hb HD H0 a b. pose proof (root_window N k z bs HF HK Hb HD H0) as W. fold a b in W.
  pose proof (bmin_range N (fin k) z). pose proof (bmax_range N (fin k) z). fold a b in H, H1.
  repeat split; try lra; destruct beta0; try lra; unfold clip.
  - apply Rmin_glb; [apply Rmax_r|lra].
  - apply Rmin_r.
Qed.

(** For every feed, every K >= 0 (nonvolatile components being present in the feed), start,
    tolerance and maxiter >= 1: a result is returned with 0 <= beta <= 1.  beta = 0 for a
    subcooled feed (sum K z < 1), beta = 1 for a superheated one (sum z/K < 1), and otherwise
    success means |F(beta)| <= atol, where the exact equation has a solution; the distance to
    every solution is then at most atol/min|F'|. *)
Theorem C40_result N k z beta0 maxiter atol : feed N z -> kvals N k z -> 0 <= atol -> (1 <= maxiter)%nat ->
  exists r, solve_RR N (fin k) z beta0 maxiter atol = Ok r /\ 0 <= rs_beta r <= 1 /\ (rs_niter r <= maxiter)%nat /\
   (sumn N (fun i => k i * z i) < 1 -> rs_success r = true /\ rs_beta r = 0) /\
   (positive N k -> sumn N (fun i => z i / k i) < 1 -> rs_success r = true /\ rs_beta r = 1) /\
   (1 <= sumn N (fun i => k i * z i) -> (positive N k -> 1 <= sumn N (fun i => z i / k i)) ->
     (exists bs, 0 <= bs <= 1 /\ dom N k bs /\ RR N k z bs = 0) /\
     (rs_success r = true -> dom N k (rs_beta r) /\ rs_F r = Fin (RR N k z (rs_beta r)) /\ Rabs (RR N k z (rs_beta r)) <= atol /\
        forall bs, 0 <= bs <= 1 -> dom N k bs -> RR N k z bs = 0 ->
          slope_min N k z * Rabs (rs_beta r - bs) <= atol)).
Proof.
  intros HF HKZ Ha Hm. assert (HK := kvals_nonneg N k z HKZ). unfold solve_RR. cbv zeta.
  rewrite (resid_fin N 0) by apply dom0. cbn [fl_lt0].
  destruct (Rltb (RR N k z 0) 0) eqn:E0.
  - rdec. eexists. split; [reflexivity|]. cbn. rewrite RR_at0 in E0 by auto.
    split; [lra|]. split; [lia|]. split; [auto|]. split.
    + intros HP HS. exfalso.
      assert (X : RR N k z 1 <= RR N k z 0) by (apply RR_antitone; auto; [apply dom0|apply dom_pos; auto; lra|lra]).
      rewrite RR_at0, RR_at1 in X by auto. lra.
    + intros. exfalso. lra.
  - rdec.
    assert (NSUB : ~ sumn N (fun i => k i * z i) < 1) by (rewrite RR_at0 in E0 by auto; lra).
    destruct (fl_gt0 (residual_RR N 1 (fin k) z)) eqn:E1.
    + destruct (residual_RR N 1 (fin k) z) as [r1| | |] eqn:ER; try discriminate E1.
      2:{ exfalso. apply (resid_not_pinf N 1 k z); auto; [apply HF|lra]. }
      destruct (resid_isfin N 1 k z r1 HK ltac:(lra) ER) as (D1 & Er). cbn in E1. rdec.
      assert (HP : positive N k) by (intros i Hi; specialize (D1 i Hi); lra).
      rewrite Er, RR_at1 in E1 by auto.
      eexists. split; [reflexivity|]. cbn. split; [lra|]. split; [lia|]. split; [intros; exfalso; lra|]. split; [auto|].
      intros _ HH. exfalso. specialize (HH HP). lra.
    + assert (ROOT : exists bs, 0 <= bs <= 1 /\ RR N k z bs = 0 /\ dom N k bs).
      { apply RR_root; auto. intros D1. rewrite resid_fin in E1 by auto. cbn in E1. rdec. auto. }
      destruct ROOT as (bs & Hbs & Ebs & Dbs).
      destruct (solve_start N k z beta0 bs HF HK Hbs Dbs Ebs) as (S1 & S2 & S3 & S4). cbv zeta in S4.
      destruct (rr_loop_spec N k z atol bs HF HK Ha Dbs Ebs maxiter 0 _ _ _ NaN S1 S2 S4 S3 ltac:(lia)) as (r & Er & R1 & R2 & R3).
      exists r. rewrite Er. split; [auto|]. split; [auto|]. split; [lia|]. split; [intros; exfalso; lra|]. split.
      * intros HP HS. exfalso. assert (D1 : dom N k 1) by (apply dom_pos; auto; lra).
        rewrite resid_fin in E1 by auto. cbn in E1. rdec. rewrite RR_at1 in E1 by auto. lra.
      * intros _ _. split; [exists bs; auto|]. intros OK. destruct (R3 OK) as (A & B & C). repeat split; auto.
        intros b' Hb' Db' Eb'. apply (Rle_trans _ (Rabs (RR N k z (rs_beta r)))); auto.
        replace (RR N k z (rs_beta r)) with (RR N k z (rs_beta r) - RR N k z b') by lra.
        rewrite RR_chord by auto. rewrite Rabs_mult, (Rabs_minus_sym b').
        pose proof (chord_lower N k z (rs_beta r) b' HF R1 Hb' B Db') as CL.
        set (s := sumn N (fun i => z i * (k i - 1) ^ 2 / ((1 + rs_beta r * (k i - 1)) * (1 + b' * (k i - 1))))) in *.
        rewrite Rmult_comm. apply Rmult_le_compat_l; [apply Rabs_pos|]. apply (Rle_trans _ s); auto. apply Rle_abs.
Qed.

(** The iteration always succeeds (all K > 0, atol > 0), with an explicit bound on the number
    of iterations: 1 + 2 ceil(2 max|F'| / atol). *)
Theorem C40_converges N k z beta0 maxiter atol J : feed N z -> positive N k -> 0 < atol ->
  2 * slope_max N k z <= INR J * atol -> (2 * J + 1 <= maxiter)%nat ->
  exists r, solve_RR N (fin k) z beta0 maxiter atol = Ok r /\ rs_success r = true.
Proof.
  intros HF HP Ha HJ Hm.
  assert (HK : nonneg N k) by (intros i Hi; specialize (HP i Hi); lra). unfold solve_RR. cbv zeta.
  rewrite (resid_fin N 0) by apply dom0. rewrite (resid_fin N 1) by (apply dom_pos; auto; lra). cbn [fl_lt0 fl_gt0].
  destruct (Rltb (RR N k z 0) 0) eqn:E0; [eexists; split; [reflexivity|reflexivity]|].
  destruct (Rltb 0 (RR N k z 1)) eqn:E1; [eexists; split; [reflexivity|reflexivity]|]. rdec.
  destruct (RR_root N k z HF ltac:(intros i Hi; left; auto) E0 ltac:(auto)) as (bs & Hbs & Ebs & Dbs).
  destruct (solve_start N k z beta0 bs HF HK Hbs Dbs Ebs) as (S1 & S2 & S3 & S4). cbv zeta in S4.
  set (a := rr_bmin N (fin k) z) in *. set (b := rr_bmax N (fin k) z) in *.
  set (c := match beta0 with Some c => clip c a b | None => (a + b) / 2 end) in *.
  destruct maxiter as [|n]; [lia|].
  assert (MN : 0 <= slope_max N k z).
  { apply sumn_nonneg. intros i Hi. apply Rmult_le_pos; [apply Rmult_le_pos; [now apply HF|apply pow2_ge_0]|].
    left. apply Rinv_0_lt_compat. apply pow_lt. apply Rmin_glb_lt; [lra|auto]. }
  assert (L : forall p q, 0 <= q - p <= 1 -> 2 * slope_max N k z * (q - p) <= INR J * atol).
  { intros p q Hpq. apply (Rle_trans _ (2 * slope_max N k z * 1)); [apply Rmult_le_compat_l; lra|lra]. }
  destruct (loop_S N k z atol bs HF HP Ha Hbs Ebs n 0 a b c NaN S1 S4 S2 S3) as [OK|[(Fc & Bc & E)|(Fc & Bc & E)]]; auto.
  - rewrite E. apply (loop_converges N k z atol bs HF HP Ha Hbs Ebs J); try lra; auto; try lia. apply L. lra.
  - rewrite E. apply (loop_converges N k z atol bs HF HP Ha Hbs Ebs J); try lra; auto; try lia. apply L. lra.
Qed.

(** residual_Rachford_Rice: value, derivative and monotonicity. *)
Theorem C40_residual N k z b : feed N z -> nonneg N k -> 0 <= b < 1 ->
  residual_RR N b (fin k) z = Fin (RR N k z b) /\
  (exists d, residual_RR_deriv N b (fin k) z = Fin d /\ is_derive (RR N k z) b d /\ d <= 0) /\
  (forall c, b < c < 1 -> RR N k z c <= RR N k z b /\
     ((exists i, (i < N)%nat /\ 0 < z i /\ k i <> 1) -> RR N k z c < RR N k z b)).
Proof.
  intros HF HK Hb. assert (D : dom N k b) by (apply dom_lt1; auto). repeat split.
  - now apply resid_fin.
  - exists (dRR N k z b). split; [now apply deriv_fin|]. split; [now apply RR_derive|].
    unfold dRR. apply Ropp_le_cancel. rewrite Ropp_0, Ropp_involutive. apply sumn_nonneg. intros i Hi. specialize (D i Hi).
    apply Rmult_le_pos; [apply Rmult_le_pos; [now apply HF|apply pow2_ge_0]|]. left. apply Rinv_0_lt_compat. now apply pow_lt.
  - apply RR_antitone; auto; [apply dom_lt1; auto; lra|lra].
  - intros EX. assert (Dc : dom N k c) by (apply dom_lt1; auto; lra).
    pose proof (RR_chord N k z b c D Dc). pose proof (slope_min_pos N k z HF HK EX).
    pose proof (chord_lower N k z b c HF ltac:(lra) ltac:(lra) D Dc).
    set (s := sumn N (fun i => z i * (k i - 1) ^ 2 / ((1 + b * (k i - 1)) * (1 + c * (k i - 1))))) in *.
    assert (0 < (c - b) * s) by (apply Rmult_lt_0_compat; lra). lra.
Qed.

(** maxiter = 0 in the two-phase region. *)
Theorem C40_maxiter_zero N k z beta0 atol : feed N z -> positive N k ->
  1 <= sumn N (fun i => k i * z i) -> 1 <= sumn N (fun i => z i / k i) ->
  solve_RR N (fin k) z beta0 0 atol = Err UnboundLocalError.
Proof.
  intros HF HP H0 H1. unfold solve_RR. cbv zeta. rewrite (resid_fin N 0) by apply dom0.
  rewrite (resid_fin N 1) by (apply dom_pos; auto; lra). cbn [fl_lt0 fl_gt0]. rewrite RR_at0, RR_at1 by auto.
  destruct (Rltb _ 0) eqn:E; [rdec; lra|]. destruct (Rltb 0 _) eqn:E'; [rdec; lra|]. reflexivity.
Qed.

(** Finding: a component absent from the feed (z = 0) with K = 0 turns a superheated feed
    into a failure, whatever the number of iterations: 0 * (-1)/0 = nan at beta = 1. *)
Definition kA : nat -> R := fun i => match i with O => 2 | _ => 0 end.
Definition zA : nat -> R := fun i => match i with O => 1 | _ => 0 end.
Lemma RR_A b : 0 <= b < 1 -> 1 / 2 < RR 2 kA zA b.
Proof.
  intros Hb. unfold RR, kA, zA. cbn [sumn]. replace (0 + 1 * (2 - 1) / (1 + b * (2 - 1)) + 0 * (0 - 1) / (1 + b * (0 - 1))) with (/ (1 + b)) by (field; lra).
  unfold Rdiv. rewrite Rmult_1_l. apply Rinv_lt_contravar; lra.
Qed.
Lemma resid_A1 : residual_RR 2 1 (fin kA) zA = NaN.
Proof.
  apply (fl_sumn_nan 2 _ 1%nat); [lia|]. cbn. unfold np_div.
  destruct (Reqb (1 + 1 * (0 - 1)) 0) eqn:E; [|rdec; lra]. destruct (Reqb (0 * (0 - 1)) 0) eqn:E'; [auto|rdec; lra].
Qed.
Theorem C40_absent_nonvolatile_refuted : exists N k z, feed N z /\ nonneg N k /\
  sumn 1 (fun i => z i / k i) < 1 /\ sumn 1 z = 1 /\
  (forall beta0 maxiter atol r, (1 <= maxiter)%nat -> 0 <= atol <= 1 / 2 ->
     solve_RR N (fin k) z beta0 maxiter atol = Ok r -> rs_success r = false) /\
  (forall beta0 maxiter atol, solve_RR 1 (fin k) z beta0 maxiter atol = Ok (mkRRR true 0 1 (Fin (1 / 2)))).
Proof.
  exists 2%nat, kA, zA. repeat split.
  - intros [|[|i]] Hi; cbn; try lra; lia.
  - cbn. lra.
  - intros [|[|i]] Hi; cbn; try lra; lia.
  - cbn. lra.
  - cbn. lra.
  - intros beta0 maxiter atol r Hm Ha E. unfold solve_RR in E. cbv zeta in E.
    rewrite (resid_fin 2 0) in E by apply dom0. rewrite resid_A1 in E. cbn [fl_lt0 fl_gt0] in E.
    destruct (Rltb (RR 2 kA zA 0) 0) eqn:E0; [rdec; pose proof (RR_A 0); lra|].
    assert (G : forall n i a b c last r, 0 <= a -> a <= c <= b -> b <= 1 -> rr_loop 2 (fin kA) zA atol n i a b c last = Ok r -> rs_success r = false).
    { clear - Ha. induction n as [|n IH]; intros i a b c last r Ha' Hc Hb E; cbn [rr_loop] in E.
      - destruct (Nat.eqb i 0); [discriminate|]. injection E as <-. reflexivity.
      - destruct (Req_dec c 1) as [->|Hc1].
        + rewrite resid_A1 in E. cbn [fl_abs_le fl_gt0] in E. apply IH in E; auto; try lra. apply rr_next_range. lra.
        + rewrite resid_fin in E by (apply dom_lt1; [intros [|[|j]] Hj; cbn; try lra; lia|lra]).
          pose proof (RR_A c ltac:(lra)) as P. cbn [fl_abs_le fl_gt0] in E.
          destruct (Rleb (Rabs (RR 2 kA zA c)) atol) eqn:EA.
          { rdec. rewrite Rabs_pos_eq in EA by lra. lra. }
          destruct (Rltb 0 (RR 2 kA zA c)) eqn:EG; [|rdec; lra].
          apply IH in E; auto; try lra. apply rr_next_range. lra. }
    pose proof (bmin_range 2 (fin kA) zA) as B1. pose proof (bmax_range 2 (fin kA) zA) as B2.
    assert (BB : rr_bmin 2 (fin kA) zA <= rr_bmax 2 (fin kA) zA).
    { pose proof (bmax_range 2 (fin kA) zA).
      cbn [rr_bmin rr_bmax fin kA zA]. destruct (Rltb 1 0) eqn:X; [rdec; lra|]. destruct (Rltb 1 2) eqn:X1; [|rdec; lra].
      destruct (Rltb 2 1) eqn:X2; [rdec; lra|]. destruct (Rltb 0 1) eqn:X3; [|rdec; lra].
      replace ((2 * 1 - 1) / (2 - 1)) with 1 by field. replace ((1 - 0) / (1 - 0)) with 1 by field.
      destruct (Rltb 1 1) eqn:X4; [rdec; lra|]. rewrite andb_false_r. lra. }
    apply G in E; auto; try lra.
    destruct beta0; [|lra]. unfold clip. split; [apply Rmin_glb; [apply Rmax_r|lra]|apply Rmin_r].
  - intros beta0 maxiter atol. unfold solve_RR. cbv zeta.
    assert (D1 : dom 1 kA 1) by (intros [|i] Hi; [cbn; lra|lia]).
    rewrite (resid_fin 1 0) by apply dom0. rewrite (resid_fin 1 1) by auto. cbn [fl_lt0 fl_gt0].
    replace (RR 1 kA zA 0) with 1 by (unfold RR, kA, zA; cbn; field).
    replace (RR 1 kA zA 1) with (1 / 2) by (unfold RR, kA, zA; cbn; field).
    destruct (Rltb 1 0) eqn:X; [rdec; lra|]. destruct (Rltb 0 (1 / 2)) eqn:X1; [|rdec; lra]. reflexivity.
Qed.

(** Finding: when the iteration limit is reached, the reported residual belongs to the
    previous iterate, not to the reported beta. *)
Definition kB : nat -> R := fun i => match i with O => 2 | _ => 1 / 2 end.
Definition zB : nat -> R := fun i => match i with O => 3 / 5 | _ => 2 / 5 end.
Theorem C40_reported_residual_refuted : exists r, solve_RR 2 (fin kB) zB (Some (1 / 2)) 1 (1 / 10 ^ 9) = Ok r /\
  rs_success r = false /\ rs_F r <> residual_RR 2 (rs_beta r) (fin kB) zB.
Proof.
  assert (HP : positive 2 kB) by (intros [|[|i]] Hi; cbn; try lra; lia).
  assert (D : dom 2 kB (1 / 2)) by (apply dom_pos; auto; lra).
  unfold solve_RR. cbv zeta. rewrite (resid_fin 2 0) by apply dom0. rewrite (resid_fin 2 1) by (apply dom_pos; auto; lra).
  cbn [fl_lt0 fl_gt0].
  replace (RR 2 kB zB 0) with (2 / 5) by (unfold RR, kB, zB; cbn; field).
  replace (RR 2 kB zB 1) with (- 1 / 10) by (unfold RR, kB, zB; cbn; field).
  destruct (Rltb (2 / 5) 0) eqn:X; [rdec; lra|]. destruct (Rltb 0 (- 1 / 10)) eqn:X1; [rdec; lra|]. clear X X1.
  assert (A : rr_bmin 2 (fin kB) zB = 1 / 5).
  { cbn [rr_bmin fin kB zB]. destruct (Rltb 1 (1 / 2)) eqn:Y; [rdec; lra|]. destruct (Rltb 1 2) eqn:Y1; [|rdec; lra].
    replace ((2 * (3 / 5) - 1) / (2 - 1)) with (1 / 5) by field.
    destruct (Rltb 0 (1 / 5)) eqn:Y2; [|rdec; lra]. destruct (Rltb (1 / 5) 1) eqn:Y3; [|rdec; lra]. cbn.
    unfold Rmax. destruct (Rle_dec 0 (1 / 5)); lra. }
  assert (B : rr_bmax 2 (fin kB) zB = 1).
  { cbn [rr_bmax fin kB zB]. destruct (Rltb (1 / 2) 1) eqn:Y; [|rdec; lra]. destruct (Rltb 2 1) eqn:Y1; [rdec; lra|].
    replace ((1 - 2 / 5) / (1 - 1 / 2)) with (6 / 5) by field.
    destruct (Rltb (6 / 5) 1) eqn:Y3; [rdec; lra|]. now rewrite andb_false_r. }
  rewrite A, B.
  assert (C : clip (1 / 2) (1 / 5) 1 = 1 / 2).
  { unfold clip, Rmax, Rmin. destruct (Rle_dec (1 / 2) (1 / 5)); [lra|]. destruct (Rle_dec (1 / 2) 1); lra. }
  rewrite C. cbn [rr_loop]. rewrite resid_fin, deriv_fin by auto. cbn [fl_abs_le fl_gt0].
  assert (F : RR 2 kB zB (1 / 2) = 2 / 15) by (unfold RR, kB, zB; cbn; field).
  assert (dF : dRR 2 kB zB (1 / 2) = - (4 / 9)) by (unfold dRR, kB, zB; cbn; field).
  rewrite F, dF. destruct (Rleb (Rabs (2 / 15)) (1 / 10 ^ 9)) eqn:Z; [rdec; rewrite Rabs_pos_eq in Z by lra; lra|].
  destruct (Rltb 0 (2 / 15)) eqn:Z1; [|rdec; lra]. cbn [Nat.eqb Nat.add].
  rewrite rr_next_val by lra.
  replace (1 / 2 + - (2 / 15 / - (4 / 9))) with (4 / 5) by field.
  destruct (Rltb (1 / 2) (4 / 5)) eqn:Z2; [|rdec; lra]. destruct (Rltb (4 / 5) 1) eqn:Z3; [|rdec; lra]. cbn [andb].
  eexists. split; [reflexivity|]. cbn [rs_success rs_F rs_beta]. split; [reflexivity|].
  rewrite resid_fin by (apply dom_pos; auto; lra). intros E. injection E. unfold RR, kB, zB. cbn. lra.
Qed.

(** Non-trivial case: a two-component feed in the two-phase region. *)
Example C40_case : exists r, solve_RR 2 (fin kB) zB None 9 1 = Ok r /\ rs_success r = true.
Proof.
  apply (C40_converges 2 kB zB None 9 1 4).
  - split; [intros [|[|i]] Hi; cbn; try lra; lia|cbn; lra].
  - intros [|[|i]] Hi; cbn; try lra; lia.
  - lra.
  - unfold slope_max, kB, zB. cbn [sumn]. rewrite Rmin_left, Rmin_right by lra.
    replace (INR 4) with 4 by (simpl; ring). lra.
  - lia.
Qed.

Print Assumptions C40_result.
Print Assumptions C40_converges.
Print Assumptions C40_residual.
Print Assumptions C40_maxiter_zero.
Print Assumptions C40_absent_nonvolatile_refuted.
Print Assumptions C40_reported_residual_refuted.
