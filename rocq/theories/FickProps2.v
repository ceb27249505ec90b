(** C121, continued: the uptakes increase with time, the two series agree where they meet, and the uptake is
    complete at long times. *)
From Coq Require Import Reals Lra Lia List Bool Arith Psatz.
From Coquelicot Require Import Coquelicot.
From Verif Require Import Prelude RootsModel KinModel CopoModel Deriv NumBounds Erf HmtModel HmtProps RtdProps IvTac ErfcProps FickProps.
Open Scope R_scope.

(** * The error function by its series *)
Fixpoint gt (u : R) (n : nat) : R := match n with O => 1 | S m => gt u m * (- u) / IZR (Z.of_nat n) end.
Definition gP (n : nat) (u : R) : R := sumn n (gt u).
Definition gT (n : nat) (x : R) : R := sumn n (fun k => x * gt (x ^ 2) k / IZR (Z.of_nat (2 * k + 1))).
Lemma mono0 f df : (forall t, 0 <= t -> D f t (df t)) -> (forall t, 0 <= t -> 0 <= df t) -> forall u, 0 <= u -> f 0 <= f u.
Proof.
  intros Hf Hp u [Hu| <-]; [|lra]. destruct (MVT_gen f 0 u df) as (c & Hc & Ec).
  - intros t Ht. rewrite Rmin_left in Ht by lra. apply Hf. lra.
  - intros t Ht. rewrite Rmin_left, Rmax_right in Ht by lra. apply continuity_pt_filterlim. eapply D_cont. apply Hf. lra.
  - rewrite Rmin_left, Rmax_right in Hc by lra. pose proof (Hp c ltac:(lra)). assert (0 <= df c * (u - 0)) by (apply Rmult_le_pos; lra). lra.
Qed.
Lemma IZR_S n : IZR (Z.of_nat (S n)) = INR n + 1.
Proof. rewrite <- INR_IZR_INZ. apply S_INR. Qed.
Lemma gt_form u k : exists c, gt u k = c * u ^ k /\ forall x, gt x k = c * x ^ k.
Proof.
  revert u. induction k as [|k IH]; intros u.
  - exists 1. split; intros; cbn; ring.
  - destruct (IH u) as (c & E & F). exists (- c / IZR (Z.of_nat (S k))). assert (IZR (Z.of_nat (S k)) <> 0) by (rewrite IZR_S; pose proof (pos_INR k); lra).
    split; intros; cbn [gt pow]; rewrite ?E, ?F; field; auto.
Qed.
Lemma gt_D k u : D (fun u => gt u (S k)) u (- gt u k).
Proof.
  destruct (gt_form 0 k) as (c & _ & F). assert (N : IZR (Z.of_nat (S k)) = INR (S k)) by (rewrite <- INR_IZR_INZ; reflexivity). assert (INR (S k) <> 0) by (apply not_0_INR; lia).
  apply (D_ext (fun u => - c / INR (S k) * u ^ S k)). { intros t. cbn [gt]. rewrite F, N. cbn [pow]. field. auto. }
  rewrite F. unfold D. auto_derive; auto. cbn [Init.Nat.pred]. change (match k with 0%nat => 1 | S _ => INR k + 1 end) with (INR (S k)). field. auto.
Qed.
Lemma gP_D n u : D (gP (S n)) u (- gP n u).
Proof.
  induction n as [|n IH].
  - apply (D_ext (fun _ => 1)); [intros; unfold gP; cbn; ring|]. eapply D_eq; [apply D_const|unfold gP; cbn; ring].
  - apply (D_ext (fun u => gP (S n) u + gt u (S n))); [reflexivity|]. eapply D_eq; [apply (D_plus (gP (S n)) (fun u => gt u (S n))); [apply IH|apply gt_D]|]. unfold gP. cbn [sumn]. ring.
Qed.
Lemma gP_0 n : gP (S n) 0 = 1.
Proof. unfold gP. induction n as [|n IH]; [cbn; ring|]. change (sumn (S (S n)) (gt 0)) with (sumn (S n) (gt 0) + gt 0 (S n)). rewrite IH. cbn [gt]. unfold Rdiv. ring. Qed.
Lemma gP_alt n : forall u, 0 <= u -> 0 <= (-1) ^ n * (exp (- u) - gP n u).
Proof.
  induction n as [|n IH]; intros u Hu.
  - unfold gP. cbn. pose proof (exp_pos (- u)). lra.
  - pose proof (mono0 (fun u => (-1) ^ S n * (exp (- u) - gP (S n) u)) (fun u => (-1) ^ n * (exp (- u) - gP n u))) as M.
    apply Rle_trans with ((-1) ^ S n * (exp (- 0) - gP (S n) 0)); [rewrite gP_0, Ropp_0, exp_0; apply Req_le; ring|]. apply M; auto.
    intros t _. eapply D_eq; [apply (D_scal ((-1) ^ S n) (fun u => exp (- u) - gP (S n) u)); apply (D_minus (fun u => exp (- u)) (gP (S n))); [apply (D_exp (fun u => - u) t (-1)); eapply D_eq; [apply (D_opp (fun u => u)); apply D_id|ring]|apply gP_D]|]. cbn [pow]. ring.
Qed.
Lemma gT_D n x : D (gT n) x (gP n (x ^ 2)).
Proof.
  unfold gT, gP. apply (D_sumn n (fun k x => x * gt (x ^ 2) k / IZR (Z.of_nat (2 * k + 1))) (gt (x ^ 2))). intros k _. destruct (gt_form 0 k) as (c & _ & F). rewrite F.
  assert (N : IZR (Z.of_nat (2 * k + 1)) = INR (2 * k + 1)) by (rewrite <- INR_IZR_INZ; reflexivity). assert (INR (2 * k + 1) <> 0) by (apply not_0_INR; lia).
  apply (D_ext (fun x => c / INR (2 * k + 1) * x ^ S (2 * k))). { intros t. rewrite F, N, <- pow_mult. cbn [pow]. field. auto. }
  eapply D_eq; [apply (D_scal (c / INR (2 * k + 1)) (fun x => x ^ S (2 * k))); unfold D; apply (is_derive_pow (fun x => x) (S (2 * k)) x 1); apply D_id|].
  rewrite <- pow_mult. cbn [Init.Nat.pred]. rewrite Nat.add_1_r in *. field. auto.
Qed.
Lemma gT_alt n x : 0 <= x -> 0 <= (-1) ^ n * (Gint x - gT n x).
Proof.
  intros Hx. apply Rle_trans with ((-1) ^ n * (Gint 0 - gT n 0)).
  { rewrite Gint_0. replace (gT n 0) with 0; [lra|]. unfold gT. induction n as [|n IH]; [reflexivity|]. cbn [sumn]. rewrite <- IH. unfold Rdiv. ring. }
  apply (mono0 (fun x => (-1) ^ n * (Gint x - gT n x)) (fun x => (-1) ^ n * (exp (- x ^ 2) - gP n (x ^ 2)))); auto.
  - intros t _. apply (D_scal ((-1) ^ n) (fun x => Gint x - gT n x)). apply (D_minus Gint (gT n)); [apply Gint_D|apply gT_D].
  - intros t _. apply gP_alt. nra.
Qed.
Lemma Gint_2 : 882081390 / 1000000000 < Gint 2 < 882081392 / 1000000000.
Proof.
  pose proof (gT_alt 25 2 ltac:(lra)) as A. pose proof (gT_alt 26 2 ltac:(lra)) as B.
  replace ((-1) ^ 25) with (-1) in A by (cbn; ring). replace ((-1) ^ 26) with 1 in B by (cbn; ring).
  assert (C : gT 25 2 < 882081392 / 1000000000) by (unfold gT; cbn [sumn gt Nat.mul Nat.add Z.of_nat Pos.of_succ_nat Pos.succ]; iv_num 80%Z 6%nat).
  assert (E : 882081390 / 1000000000 < gT 26 2) by (unfold gT; cbn [sumn gt Nat.mul Nat.add Z.of_nat Pos.of_succ_nat Pos.succ]; iv_num 80%Z 6%nat). lra.
Qed.

(** * The short-time expressions *)
Definition hs (q : R) : R := 2 * q * (1 / sqrt PI + 2 * (- gi (1 / q) + gi (2 / q) - gi (3 / q))).
Definition hb (q : R) : R := 6 * q * (1 / sqrt PI + 2 * (gi (1 / q) + gi (2 / q) + gi (3 / q))) - 3 * q ^ 2.
Lemma D_qgi k q : q <> 0 -> D (fun q => q * gi (k / q)) q (exp (- (k / q) ^ 2) / sqrt PI).
Proof.
  intros H. pose proof spi_pos. assert (L : D (fun q => k / q) q (- k / q ^ 2)) by (unfold D; auto_derive; auto; field; auto).
  eapply D_eq; [apply (D_mult (fun q => q) (fun q => gi (k / q))); [apply D_id|apply (D_comp gi (fun q => k / q)); [apply L|apply gi_D]]|]. cbv beta. unfold gi. set (e := exp _). field. split; [lra|auto].
Qed.
Lemma hs_D q : q <> 0 -> D hs q (2 / sqrt PI * (1 - 2 * exp (- (1 / q) ^ 2) + 2 * exp (- (2 / q) ^ 2) - 2 * exp (- (3 / q) ^ 2))).
Proof.
  intros H. pose proof spi_pos. apply (D_ext (fun q => 2 / sqrt PI * q + (-4 * (q * gi (1 / q)) + (4 * (q * gi (2 / q)) + -4 * (q * gi (3 / q)))))); [intros; unfold hs; unfold Rdiv; ring|].
  eapply D_eq; [apply (D_plus (fun q => 2 / sqrt PI * q) (fun q => -4 * (q * gi (1 / q)) + (4 * (q * gi (2 / q)) + -4 * (q * gi (3 / q))))); [apply (D_scal (2 / sqrt PI) (fun q => q)); apply D_id|]|].
  - apply (D_plus (fun q => -4 * (q * gi (1 / q))) (fun q => 4 * (q * gi (2 / q)) + -4 * (q * gi (3 / q)))); [apply (D_scal (-4) (fun q => q * gi (1 / q))); now apply D_qgi|].
    apply (D_plus (fun q => 4 * (q * gi (2 / q))) (fun q => -4 * (q * gi (3 / q)))); [apply (D_scal 4 (fun q => q * gi (2 / q))); now apply D_qgi|apply (D_scal (-4) (fun q => q * gi (3 / q))); now apply D_qgi].
  - field. lra.
Qed.
Lemma hb_D q : q <> 0 -> D hb q (6 / sqrt PI * (1 + 2 * exp (- (1 / q) ^ 2) + 2 * exp (- (2 / q) ^ 2) + 2 * exp (- (3 / q) ^ 2)) - 6 * q).
Proof.
  intros H. pose proof spi_pos. apply (D_ext (fun q => (6 / sqrt PI * q - 3 * q ^ 2) + (12 * (q * gi (1 / q)) + (12 * (q * gi (2 / q)) + 12 * (q * gi (3 / q)))))); [intros; unfold hb; unfold Rdiv; ring|].
  eapply D_eq; [apply (D_plus (fun q => 6 / sqrt PI * q - 3 * q ^ 2) (fun q => 12 * (q * gi (1 / q)) + (12 * (q * gi (2 / q)) + 12 * (q * gi (3 / q)))) q (6 / sqrt PI - 6 * q)); [unfold D; auto_derive; auto; ring|]|].
  - apply (D_plus (fun q => 12 * (q * gi (1 / q))) (fun q => 12 * (q * gi (2 / q)) + 12 * (q * gi (3 / q)))); [apply (D_scal 12 (fun q => q * gi (1 / q))); now apply D_qgi|].
    apply (D_plus (fun q => 12 * (q * gi (2 / q))) (fun q => 12 * (q * gi (3 / q)))); [apply (D_scal 12 (fun q => q * gi (2 / q))); now apply D_qgi|apply (D_scal 12 (fun q => q * gi (3 / q))); now apply D_qgi].
  - field. lra.
Qed.
Lemma e4 k q : 0 < q <= 1 / 2 -> 1 <= k -> 0 < exp (- (k / q) ^ 2) <= / 2 ^ 4.
Proof.
  intros H Hk. split; [apply exp_pos|]. eapply Rle_trans; [|apply (exp_m 4)]. apply exp_le. assert (2 <= k / q). { apply Rmult_le_reg_r with q; [lra|]. unfold Rdiv. rewrite Rmult_assoc, Rinv_l by lra. nra. }
  cbn [INR]. nra.
Qed.
Lemma spi_i : 56 / 100 <= / sqrt PI <= 57 / 100.
Proof. replace (/ sqrt PI) with (1 / sqrt PI) by (unfold Rdiv; ring). iv_num 60%Z 6%nat. Qed.
Lemma hs_incr a b : 0 < a -> a < b -> b <= 1 / 2 -> hs a < hs b.
Proof.
  intros Ha Hab Hb. apply (mono_strict hs (fun q => 2 / sqrt PI * (1 - 2 * exp (- (1 / q) ^ 2) + 2 * exp (- (2 / q) ^ 2) - 2 * exp (- (3 / q) ^ 2)))); auto.
  - intros t Ht. apply hs_D. lra.
  - intros t Ht. pose proof spi_i. pose proof (e4 1 t ltac:(lra) ltac:(lra)). pose proof (e4 2 t ltac:(lra) ltac:(lra)). pose proof (e4 3 t ltac:(lra) ltac:(lra)). unfold Rdiv at 1. apply Rmult_lt_0_compat; lra.
Qed.
Lemma hb_incr a b : 0 < a -> a < b -> b <= 1 / 2 -> hb a < hb b.
Proof.
  intros Ha Hab Hb. apply (mono_strict hb (fun q => 6 / sqrt PI * (1 + 2 * exp (- (1 / q) ^ 2) + 2 * exp (- (2 / q) ^ 2) + 2 * exp (- (3 / q) ^ 2)) - 6 * q)); auto.
  - intros t Ht. apply hb_D. lra.
  - intros t Ht. pose proof spi_i. pose proof (e4 1 t ltac:(lra) ltac:(lra)). pose proof (e4 2 t ltac:(lra) ltac:(lra)). pose proof (e4 3 t ltac:(lra) ltac:(lra)). unfold Rdiv at 1. set (s := / sqrt PI) in *. set (x := 1 + 2 * _ + _ + _). assert (1 <= x) by (unfold x; lra). nra.
Qed.
Lemma us_h F : 0 < F < 1 / 4 -> Rabs (uptake_sheet F - hs (sqrt F)) <= 6 * / 2 ^ 64.
Proof.
  intros H. destruct (sq_small F H) as (Q1 & Q2). unfold uptake_sheet. rewrite Reqb_f, Rltb_t by lra. cbv zeta. unfold hs. set (q := sqrt F) in *. cbn [sumn INR].
  replace (sgn_n 1) with (-1) by reflexivity. replace (sgn_n 2) with 1 by reflexivity. replace (sgn_n 3) with (-1) by reflexivity. replace (1 + 1 + 1) with 3 by ring. replace (1 + 1) with 2 by ring.
  pose proof (ierfc_gi (1 / q)). pose proof (ierfc_gi (2 / q)). pose proof (ierfc_gi (3 / q)). pose proof e900. set (d := (gi (1 / q) - ierfc (1 / q)) - (gi (2 / q) - ierfc (2 / q)) + (gi (3 / q) - ierfc (3 / q))).
  replace (_ - _) with (4 * q * d) by (unfold d; ring). assert (- (3 * / 2 ^ 64) <= d <= 3 * / 2 ^ 64) by (unfold d; lra). apply Rabs_le. nra.
Qed.
Lemma ub_h F : 0 < F < 1 / 4 -> Rabs (uptake_sphere F - hb (sqrt F)) <= 18 * / 2 ^ 64.
Proof.
  intros H. destruct (sq_small F H) as (Q1 & Q2). unfold uptake_sphere. rewrite Reqb_f, Rltb_t by lra. cbv zeta. unfold hb. replace (sqrt F ^ 2) with F by (cbn [pow]; rewrite Rmult_1_r, sqrt_sqrt; lra). set (q := sqrt F) in *. cbn [sumn INR].
  replace (1 + 1 + 1) with 3 by ring. replace (1 + 1) with 2 by ring.
  pose proof (ierfc_gi (1 / q)). pose proof (ierfc_gi (2 / q)). pose proof (ierfc_gi (3 / q)). pose proof e900. set (d := (gi (1 / q) - ierfc (1 / q)) + (gi (2 / q) - ierfc (2 / q)) + (gi (3 / q) - ierfc (3 / q))).
  replace (_ - _) with (- (12 * q * d)) by (unfold d; ring). assert (0 <= d <= 3 * / 2 ^ 64) by (unfold d; lra). apply Rabs_le. nra.
Qed.
(** * The long-time expressions *)
Lemma us_l F : 1 / 4 <= F -> uptake_sheet F = 1 - 8 / PI ^ 2 * (exp (- (F * PI ^ 2) / 4 * 1) + 1 / 9 * exp (- (F * PI ^ 2) / 4 * 9) + 1 / 25 * exp (- (F * PI ^ 2) / 4 * 25)).
Proof.
  intros H. unfold uptake_sheet. rewrite Reqb_f, Rltb_f by lra. cbv zeta. destruct odd1_v as (O0 & O1 & O2 & O3). cbn [sumn]. rewrite O0, O1, O2. replace (1 ^ 2) with 1 by ring. replace (3 ^ 2) with 9 by ring. replace (5 ^ 2) with 25 by ring. f_equal. f_equal. field.
Qed.
Lemma ub_l F : 1 / 4 <= F -> uptake_sphere F = 1 - 6 / PI ^ 2 * (exp (- F * PI ^ 2 * 1) + 1 / 4 * exp (- F * PI ^ 2 * 4) + 1 / 9 * exp (- F * PI ^ 2 * 9)).
Proof.
  intros H. unfold uptake_sphere. rewrite Reqb_f, Rltb_f by lra. cbv zeta. cbn [sumn INR]. replace (1 ^ 2) with 1 by ring. replace ((1 + 1) ^ 2) with 4 by ring. replace ((1 + 1 + 1) ^ 2) with 9 by ring. f_equal. f_equal. field.
Qed.
Lemma ip2 : 0 < / PI ^ 2 <= / (98 / 10).
Proof. pose proof PI_tight as (A & B). assert (98 / 10 <= PI ^ 2) by nra. split; [apply Rinv_0_lt_compat; lra|apply Rinv_le_contravar; lra]. Qed.
Lemma us_l_incr a b : 1 / 4 <= a -> a <= b -> uptake_sheet a <= uptake_sheet b.
Proof.
  intros Ha Hab. rewrite !us_l by lra. pose proof ip2. assert (E : forall c, 0 <= c -> exp (- (b * PI ^ 2) / 4 * c) <= exp (- (a * PI ^ 2) / 4 * c)) by (intros c Hc; apply exp_le; assert (0 <= PI ^ 2 * c * (b - a)) by (apply Rmult_le_pos; [apply Rmult_le_pos; [apply pow2_ge_0|auto]|lra]); lra).
  pose proof (E 1 ltac:(lra)). pose proof (E 9 ltac:(lra)). pose proof (E 25 ltac:(lra)). unfold Rdiv at 1 6. assert (0 <= 8 * / PI ^ 2) by lra. apply Rplus_le_compat_l. apply Ropp_le_contravar. apply Rmult_le_compat_l; [unfold Rdiv; auto|lra].
Qed.
Lemma ub_l_incr a b : 1 / 4 <= a -> a <= b -> uptake_sphere a <= uptake_sphere b.
Proof.
  intros Ha Hab. rewrite !ub_l by lra. pose proof ip2. assert (E : forall c, 0 <= c -> exp (- b * PI ^ 2 * c) <= exp (- a * PI ^ 2 * c)) by (intros c Hc; apply exp_le; assert (0 <= PI ^ 2 * c * (b - a)) by (apply Rmult_le_pos; [apply Rmult_le_pos; [apply pow2_ge_0|auto]|lra]); lra).
  pose proof (E 1 ltac:(lra)). pose proof (E 4 ltac:(lra)). pose proof (E 9 ltac:(lra)). assert (0 <= 6 * / PI ^ 2) by lra. apply Rplus_le_compat_l. apply Ropp_le_contravar. apply Rmult_le_compat_l; [unfold Rdiv; auto|lra].
Qed.
(** * The meeting point Fo = 1/4 *)
Lemma gi_2 : Rabs (gi 2 - (exp (- 4) * (1 / sqrt PI) - 2 * (1 - 2 * (1 / sqrt PI) * (882081391 / 1000000000)))) <= 3 / 10 ^ 9.
Proof.
  unfold gi, erfc, erf. replace (- 2 ^ 2) with (-4) by ring. pose proof Gint_2. pose proof spi_i. unfold Rdiv at 1 2 3 4 5. set (s := / sqrt PI) in *. set (g := Gint 2) in *. replace (_ - _) with (4 * s * (g - 882081391 / 1000000000)) by (unfold Rdiv; ring). apply Rabs_le. nra.
Qed.
Lemma gi_46 : 0 < gi 4 <= 2 / 10 ^ 9 /\ 0 < gi 6 <= 1 / 10 ^ 12.
Proof.
  pose proof (gi_pos 4). pose proof (gi_pos 6). pose proof (gi_upper 4 ltac:(lra)) as A. pose proof (gi_upper 6 ltac:(lra)) as B. repeat split; auto.
  - eapply Rle_trans; [apply A|]. replace (- 4 ^ 2) with (-16) by ring. left. iv_num 90%Z 6%nat.
  - eapply Rle_trans; [apply B|]. replace (- 6 ^ 2) with (-36) by ring. left. iv_num 90%Z 6%nat.
Qed.
Lemma sqrt_q : sqrt (1 / 4) = 1 / 2.
Proof. replace (1 / 4) with (1 / 2 * (1 / 2)) by field. apply sqrt_square. lra. Qed.
Lemma jump_s : Rabs (hs (1 / 2) - uptake_sheet (1 / 4)) <= 2 / 10 ^ 8.
Proof.
  rewrite us_l by lra. unfold hs. replace (1 / (1 / 2)) with 2 by field. replace (2 / (1 / 2)) with 4 by field. replace (3 / (1 / 2)) with 6 by field. pose proof gi_2 as G. apply Rabs_le_between in G. destruct gi_46 as (G4 & G6).
  assert (V : - (5 / 10 ^ 9) < 1 / sqrt PI - 2 * (exp (- 4) * (1 / sqrt PI) - 2 * (1 - 2 * (1 / sqrt PI) * (882081391 / 1000000000))) - (1 - 8 / PI ^ 2 * (exp (- (1 / 4 * PI ^ 2) / 4 * 1) + 1 / 9 * exp (- (1 / 4 * PI ^ 2) / 4 * 9) + 1 / 25 * exp (- (1 / 4 * PI ^ 2) / 4 * 25))) < 5 / 10 ^ 9).
  { replace (PI ^ 2) with (PI * PI) by ring. iv_num 80%Z 6%nat. }
  apply Rabs_le. lra.
Qed.
Lemma jump_b : Rabs (hb (1 / 2) - uptake_sphere (1 / 4)) <= 6 / 10 ^ 8.
Proof.
  rewrite ub_l by lra. unfold hb. replace (1 / (1 / 2)) with 2 by field. replace (2 / (1 / 2)) with 4 by field. replace (3 / (1 / 2)) with 6 by field. pose proof gi_2 as G. apply Rabs_le_between in G. destruct gi_46 as (G4 & G6).
  assert (V : - (20 / 10 ^ 9) < 3 * (1 / sqrt PI) + 6 * (exp (- 4) * (1 / sqrt PI) - 2 * (1 - 2 * (1 / sqrt PI) * (882081391 / 1000000000))) - 3 / 4 - (1 - 6 / PI ^ 2 * (exp (- (1 / 4) * PI ^ 2 * 1) + 1 / 4 * exp (- (1 / 4) * PI ^ 2 * 4) + 1 / 9 * exp (- (1 / 4) * PI ^ 2 * 9))) < 20 / 10 ^ 9).
  { replace (PI ^ 2) with (PI * PI) by ring. iv_num 80%Z 6%nat. }
  apply Rabs_le. lra.
Qed.

(** the two series of the uptakes join at Fo = 1/4: the limit from below and the value differ by less than 1e-7 *)
Theorem C121_joint : forall e, 0 < e -> exists d, 0 < d /\ forall Fo, 1 / 4 - d < Fo < 1 / 4 ->
  Rabs (uptake_sheet Fo - uptake_sheet (1 / 4)) < 1 / 10 ^ 7 + e /\ Rabs (uptake_sphere Fo - uptake_sphere (1 / 4)) < 1 / 10 ^ 7 + e.
Proof.
  intros e He. assert (W : 24 * / 2 ^ 64 <= 1 / 10 ^ 8) by lra. pose proof jump_s as Js. pose proof jump_b as Jb.
  assert (Cs : continuity_pt (fun F => hs (sqrt F)) (1 / 4)).
  { apply (continuity_pt_comp sqrt hs); [apply continuity_pt_sqrt; lra|]. apply continuity_pt_filterlim. eapply D_cont. apply hs_D. rewrite sqrt_q. lra. }
  assert (Cb : continuity_pt (fun F => hb (sqrt F)) (1 / 4)).
  { apply (continuity_pt_comp sqrt hb); [apply continuity_pt_sqrt; lra|]. apply continuity_pt_filterlim. eapply D_cont. apply hb_D. rewrite sqrt_q. lra. }
  destruct (Cs e He) as (d1 & D1 & H1). destruct (Cb e He) as (d2 & D2 & H2). exists (Rmin (1 / 8) (Rmin d1 d2)).
  pose proof (Rmin_l (1 / 8) (Rmin d1 d2)). pose proof (Rmin_r (1 / 8) (Rmin d1 d2)). pose proof (Rmin_l d1 d2). pose proof (Rmin_r d1 d2).
  split; [repeat apply Rmin_glb_lt; lra|]. intros F HF.
  assert (DD : forall d, Rmin (1 / 8) (Rmin d1 d2) <= d -> D_x no_cond (1 / 4) F /\ dist R_met F (1 / 4) < d).
  { intros d Hd. split; [split; [exact Logic.I|lra]|]. cbn. unfold R_dist. rewrite Rabs_left; lra. }
  pose proof (H1 F (DD d1 ltac:(lra))) as A. pose proof (H2 F (DD d2 ltac:(lra))) as B. cbn in A, B. unfold R_dist in A, B. rewrite sqrt_q in A, B.
  pose proof (us_h F ltac:(lra)) as Us. pose proof (ub_h F ltac:(lra)) as Ub. split.
  - apply Rabs_le_between in Us, Js. apply Rabs_def2 in A. apply Rabs_def1; lra.
  - apply Rabs_le_between in Ub, Jb. apply Rabs_def2 in B. apply Rabs_def1; lra.
Qed.
(** the uptakes increase with time (up to 1e-7, the joint of the two series and the cut-off of ierfc) *)
Theorem C121_monotone F1 F2 : 0 <= F1 <= F2 -> uptake_sheet F1 <= uptake_sheet F2 + 1 / 10 ^ 7 /\ uptake_sphere F1 <= uptake_sphere F2 + 1 / 10 ^ 7.
Proof.
  intros H. assert (W : 36 * / 2 ^ 64 <= 1 / 10 ^ 8) by lra. destruct (Req_dec F1 0) as [->|N].
  { destruct (C58_uptake_sheet F2 ltac:(lra)) as ((A & _) & B). destruct (C58_uptake_sphere F2 ltac:(lra)) as ((C & _) & E). rewrite B, E. lra. }
  destruct (Rlt_dec F1 (1 / 4)) as [L|L]; [|split; [pose proof (us_l_incr F1 F2 ltac:(lra) ltac:(lra))|pose proof (ub_l_incr F1 F2 ltac:(lra) ltac:(lra))]; lra].
  pose proof (us_h F1 ltac:(lra)) as Us. pose proof (ub_h F1 ltac:(lra)) as Ub. apply Rabs_le_between in Us, Ub. destruct (sq_small F1 ltac:(lra)) as (Q1 & Q2).
  destruct (Rlt_dec F2 (1 / 4)) as [M|M].
  - pose proof (us_h F2 ltac:(lra)) as Us2. pose proof (ub_h F2 ltac:(lra)) as Ub2. apply Rabs_le_between in Us2, Ub2. destruct (sq_small F2 ltac:(lra)) as (Q3 & Q4). assert (sqrt F1 <= sqrt F2) as [S|S] by (apply sqrt_le_1_alt; lra).
    + pose proof (hs_incr _ _ Q1 S ltac:(lra)). pose proof (hb_incr _ _ Q1 S ltac:(lra)). lra.
    + rewrite S in *. lra.
  - pose proof jump_s as Js. pose proof jump_b as Jb. apply Rabs_le_between in Js, Jb. pose proof (hs_incr _ (1 / 2) Q1 Q2 ltac:(lra)). pose proof (hb_incr _ (1 / 2) Q1 Q2 ltac:(lra)).
    pose proof (us_l_incr (1 / 4) F2 ltac:(lra) ltac:(lra)). pose proof (ub_l_incr (1 / 4) F2 ltac:(lra) ltac:(lra)). lra.
Qed.
(** early and late laws: the uptake starts as 2 sqrt(Fo/pi) (sheet) and 6 sqrt(Fo/pi) - 3 Fo (sphere), and the
    remainder to equilibrium is exponentially small *)
Theorem C121_early Fo : 0 < Fo < 1 / 4 -> Rabs (uptake_sheet Fo - 2 * sqrt (Fo / PI)) <= 13 * exp (- (1 / Fo)) + 1 / 10 ^ 17 /\
  Rabs (uptake_sphere Fo - (6 * sqrt (Fo / PI) - 3 * Fo)) <= 19 * exp (- (1 / Fo)) + 1 / 10 ^ 17.
Proof.
  intros H. assert (W : 36 * / 2 ^ 64 <= 1 / 10 ^ 17) by lra. destruct (sq_small Fo H) as (Q1 & Q2). pose proof spi_pos. rewrite sqrt_div by (try apply PI_RGT_0; lra).
  assert (T : forall k, 1 <= k -> 0 < gi (k / sqrt Fo) <= exp (- (1 / Fo))).
  { intros k Hk. split; [apply gi_pos|]. assert (0 < / sqrt Fo) by (apply Rinv_0_lt_compat; auto). assert (0 <= k / sqrt Fo) by (unfold Rdiv; apply Rmult_le_pos; lra). eapply Rle_trans; [apply gi_up1; auto|]. apply exp_le.
    replace ((k / sqrt Fo) ^ 2) with (k ^ 2 * (1 / Fo)); [assert (Y : 0 < 1 / Fo) by (apply Rdiv_lt_0_compat; lra); assert (K2 : 1 <= k ^ 2) by nra; clear - Y K2; apply Ropp_le_contravar; rewrite <- (Rmult_1_l (1 / Fo)) at 1; apply Rmult_le_compat_r; lra|]. replace (1 / Fo) with (1 / (sqrt Fo * sqrt Fo)) by (rewrite sqrt_sqrt; lra). field. lra. }
  pose proof (T 1 ltac:(lra)). pose proof (T 2 ltac:(lra)). pose proof (T 3 ltac:(lra)). pose proof (us_h Fo H) as Us. pose proof (ub_h Fo H) as Ub. apply Rabs_le_between in Us, Ub. unfold hs, hb in *. replace (sqrt Fo ^ 2) with Fo in Ub by (cbn [pow]; rewrite Rmult_1_r, sqrt_sqrt; lra).
  set (q := sqrt Fo) in *. set (x := exp _) in *. set (g1 := gi (1 / q)) in *. set (g2 := gi (2 / q)) in *. set (g3 := gi (3 / q)) in *. change (q / sqrt PI) with (q * / sqrt PI). change (1 / sqrt PI) with (1 * / sqrt PI) in *. set (s := / sqrt PI) in *. clearbody g1 g2 g3 x s.
  split; apply Rabs_le.
  - set (d := - g1 + g2 - g3) in *. assert (- 2 * x <= d <= 2 * x) by (unfold d; lra). assert (- 2 * x <= q * d * 2 <= 2 * x) by (clear - H0 H1 Q1 Q2 H4; nra). replace (2 * q * (1 * s + 2 * d)) with (2 * (q * s) + 2 * (q * d * 2)) in Us by ring. lra.
  - set (d := g1 + g2 + g3) in *. assert (0 <= d <= 3 * x) by (unfold d; lra). assert (0 <= q * d <= 3 / 2 * x) by (clear - H0 H1 Q1 Q2 H4; nra). replace (6 * q * (1 * s + 2 * d)) with (6 * (q * s) + 12 * (q * d)) in Ub by ring. lra.
Qed.
Theorem C121_late Fo : 1 / 4 <= Fo -> 0 <= 1 - uptake_sheet Fo <= exp (- (PI ^ 2 / 4) * Fo) /\ 0 <= 1 - uptake_sphere Fo <= exp (- PI ^ 2 * Fo).
Proof.
  intros H. rewrite us_l, ub_l by auto. pose proof ip2. assert (P : 0 <= PI ^ 2 * Fo) by (apply Rmult_le_pos; [apply pow2_ge_0|lra]). split.
  - replace (- (Fo * PI ^ 2) / 4 * 1) with (- (PI ^ 2 / 4) * Fo) by field. set (e := exp (- (PI ^ 2 / 4) * Fo)).
    assert (0 < exp (- (Fo * PI ^ 2) / 4 * 9) <= e) by (split; [apply exp_pos|apply exp_le; lra]). assert (0 < exp (- (Fo * PI ^ 2) / 4 * 25) <= e) by (split; [apply exp_pos|apply exp_le; lra]). assert (0 < e) by apply exp_pos.
    set (x := exp (_ * 9)) in *. set (y := exp (_ * 25)) in *. change (8 / PI ^ 2) with (8 * / PI ^ 2). set (p := / PI ^ 2) in *. clearbody x y e p. set (w := e + 1 / 9 * x + 1 / 25 * y). assert (0 <= w <= 116 / 100 * e) by (unfold w; lra). assert (0 <= p * w <= / (98 / 10) * (116 / 100 * e)) by (split; [apply Rmult_le_pos; lra|apply Rmult_le_compat; lra]). lra.
  - replace (- Fo * PI ^ 2 * 1) with (- PI ^ 2 * Fo) by ring. set (e := exp (- PI ^ 2 * Fo)).
    assert (0 < exp (- Fo * PI ^ 2 * 4) <= e) by (split; [apply exp_pos|apply exp_le; lra]). assert (0 < exp (- Fo * PI ^ 2 * 9) <= e) by (split; [apply exp_pos|apply exp_le; lra]). assert (0 < e) by apply exp_pos.
    set (x := exp (_ * 4)) in *. set (y := exp (_ * 9)) in *. change (6 / PI ^ 2) with (6 * / PI ^ 2). set (p := / PI ^ 2) in *. clearbody x y e p. set (w := e + 1 / 4 * x + 1 / 9 * y). assert (0 <= w <= 137 / 100 * e) by (unfold w; lra). assert (0 <= p * w <= / (98 / 10) * (137 / 100 * e)) by (split; [apply Rmult_le_pos; lra|apply Rmult_le_compat; lra]). lra.
Qed.
(** at Fo = 1/25 a sheet has taken up 22.57 %, a sphere 55.7 % *)
Example C121_case : Rabs (uptake_sheet (1 / 25) - 2257 / 10000) < 1 / 10000 /\ Rabs (uptake_sphere (1 / 25) - 5570 / 10000) < 2 / 10000.
Proof.
  destruct (C121_early (1 / 25) ltac:(lra)) as (A & B). apply Rabs_le_between in A, B. replace (- (1 / (1 / 25))) with (-25) in * by field.
  assert (X : 0 < exp (- 25) < 1 / 10 ^ 10) by (split; [apply exp_pos|iv_num 80%Z 6%nat]).
  assert (S : 11283 / 100000 < sqrt (1 / 25 / PI) < 11284 / 100000) by iv_num 60%Z 6%nat. split; apply Rabs_def1; lra.
Qed.
Print Assumptions C121_monotone.
Print Assumptions C121_joint.
