(** The quantile functions assumed of scipy and numpy by C101 and C110 exist: least integers for the
    geometric and the Poisson law, the inverse error function for the log-normal law, a logarithm for
    the Schulz-Zimm law with PDI = 2.  The theorems about random lengths and default ranges
    (analyticaldistributions.py:116-122, 214-219, 313-322, 417-426) then hold of these. *)
From Coq Require Import Reals Lra Lia List Bool Arith ZArith Psatz ConstructiveEpsilon.
From Coquelicot Require Import Coquelicot.
From Verif Require Import Prelude Deriv Erf NumBounds HmtProps DistModel DataModel DataProps DistPlotModel DistPlotProps.
Import ListNotations.
Open Scope R_scope.

(** ** Least integer reaching a level *)
Definition reaches (c : nat -> R) : Prop := forall q, q < 1 -> exists n, q <= c n.
Definition least (c : nat -> R) (H : reaches c) (q : R) (Hq : q < 1) : nat :=
  proj1_sig (epsilon_smallest (fun n => q <= c n) (fun n => Rle_dec q (c n)) (H q Hq)).
Lemma least_spec c H q Hq : q <= c (least c H q Hq) /\ forall m, (m < least c H q Hq)%nat -> c m < q.
Proof.
  unfold least. destruct (epsilon_smallest _ _ _) as (n & A & B). cbn [proj1_sig]. split; [exact A|].
  intros m Hm. apply Rnot_le_lt. intros C. apply B in C. lia.
Qed.
Lemma least_iff c H q Hq : (forall m n, (m <= n)%nat -> c m <= c n) -> forall k, (least c H q Hq <= k)%nat <-> q <= c k.
Proof.
  intros M k. destruct (least_spec c H q Hq) as (A & B). split; intros C.
  - apply (Rle_trans _ _ _ A). now apply M.
  - apply Nat.nlt_ge. intros L. apply B in L. lra.
Qed.

(** ** Geometric law *)
Lemma geo_reaches p : 0 < p < 1 -> reaches (fun n => 1 - (1 - p) ^ n).
Proof.
  intros (P0 & P1) q Hq. destruct (pow_lt_1_zero (1 - p)) with (y := 1 - q) as (N & HN); [rewrite Rabs_right; lra|lra|].
  exists N. specialize (HN N (le_n N)). rewrite Rabs_right in HN; [lra|]. apply Rle_ge, pow_le. lra.
Qed.
Definition geo_q (q p : R) : nat :=
  match Rlt_dec q 1, Rlt_dec 0 p, Rlt_dec p 1 with
  | left A, left B, left C => least (fun n => 1 - (1 - p) ^ n) (geo_reaches p (conj B C)) q A
  | _, _, _ => 0%nat
  end.
Lemma geo_q_spec q p : 0 < q < 1 -> 0 < p < 1 -> q <= 1 - (1 - p) ^ geo_q q p /\ forall m, (m < geo_q q p)%nat -> 1 - (1 - p) ^ m < q.
Proof.
  intros (_ & Q1) (P0 & P1). unfold geo_q. destruct (Rlt_dec q 1) as [A|]; [|lra]. destruct (Rlt_dec 0 p) as [B|]; [|lra]. destruct (Rlt_dec p 1) as [C|]; [|lra].
  exact (least_spec _ (geo_reaches p (conj B C)) q A).
Qed.
Lemma geo_q_iff q p : 0 < q < 1 -> 0 < p < 1 -> forall k, (geo_q q p <= k)%nat <-> q <= 1 - (1 - p) ^ k.
Proof.
  intros (_ & Q1) (P0 & P1). unfold geo_q. destruct (Rlt_dec q 1) as [A|]; [|lra]. destruct (Rlt_dec 0 p) as [B|]; [|lra]. destruct (Rlt_dec p 1) as [C|]; [|lra].
  apply (least_iff (fun n => 1 - (1 - p) ^ n) (geo_reaches p (conj B C)) q A). intros m n L.
  replace n with (m + (n - m))%nat by lia. rewrite pow_add. assert (0 < (1 - p) ^ m) by (apply pow_lt; lra).
  pose proof (pow_incr (1 - p) 1 (n - m) ltac:(lra)) as Z. rewrite pow1 in Z. nra.
Qed.

(** ** Poisson law: the regularised upper incomplete gamma function at integers is the sum of the first probabilities *)
Definition gamc (s a : R) : R := exp (- a) * sumn (Z.to_nat (up s - 1)) (fun j => a ^ j / INR (fact j)).
Lemma gamc_int k a : gamc (INR k + 1) a = exp (- a) * sumn (S k) (fun j => a ^ j / INR (fact j)).
Proof.
  unfold gamc. replace (Z.to_nat (up (INR k + 1) - 1)) with (S k); [reflexivity|].
  rewrite <- (tech_up (INR k + 1) (Z.of_nat k + 2)).
  - replace (Z.of_nat k + 2 - 1)%Z with (Z.of_nat (S k)) by lia. now rewrite Nat2Z.id.
  - rewrite plus_IZR, <- INR_IZR_INZ. lra.
  - rewrite plus_IZR, <- INR_IZR_INZ. lra.
Qed.
Lemma sumn_f0 n f : sumn (S n) f = sum_f_R0 f n.
Proof. induction n as [|n IH]; [cbn; ring|]. rewrite tech5, <- IH. reflexivity. Qed.
Lemma poi_reaches a : reaches (fun k => gamc (INR k + 1) a).
Proof.
  intros q Hq. assert (E : infinite_sum (fun n => / INR (fact n) * a ^ n) (exp a)) by (unfold exp; destruct (exist_exp a) as (l & L); exact L).
  destruct (E (exp a * (1 - q))) as (N & HN); [apply Rmult_lt_0_compat; [apply exp_pos|lra]|].
  exists N. rewrite gamc_int, sumn_f0. specialize (HN N (le_n N)). unfold R_dist in HN.
  replace (sum_f_R0 (fun j => a ^ j / INR (fact j)) N) with (sum_f_R0 (fun n => / INR (fact n) * a ^ n) N) by (apply sum_eq; intros; unfold Rdiv; ring).
  apply Rabs_def2 in HN. destruct HN as (_ & HN). rewrite exp_Ropp.
  apply Rmult_le_reg_l with (exp a); [apply exp_pos|]. rewrite <- Rmult_assoc, Rinv_r by (apply Rgt_not_eq, exp_pos). lra.
Qed.
Definition poi_q (q a : R) : nat := match Rlt_dec q 1 with left A => least (fun k => gamc (INR k + 1) a) (poi_reaches a) q A | _ => 0%nat end.
Lemma poi_q_spec q a : 0 < q < 1 -> 0 < a -> q <= gamc (INR (poi_q q a) + 1) a /\ forall m, (m < poi_q q a)%nat -> gamc (INR m + 1) a < q.
Proof. intros (_ & Q1) _. unfold poi_q. destruct (Rlt_dec q 1) as [A|]; [|lra]. exact (least_spec _ (poi_reaches a) q A). Qed.
Lemma poi_q_iff q a : 0 < q < 1 -> 0 < a -> forall k, (poi_q q a <= k)%nat <-> q <= gamc (INR k + 1) a.
Proof.
  intros (_ & Q1) Ha. unfold poi_q. destruct (Rlt_dec q 1) as [A|]; [|lra]. apply (least_iff (fun k => gamc (INR k + 1) a) (poi_reaches a) q A).
  intros m n L. rewrite !gamc_int. apply Rmult_le_compat_l; [left; apply exp_pos|]. induction L as [|n L IH]; [lra|].
  apply (Rle_trans _ _ _ IH). change (sumn (S n) (fun j => a ^ j / INR (fact j)) <= sumn (S n) (fun j => a ^ j / INR (fact j)) + a ^ S n / INR (fact (S n))).
  assert (0 < a ^ S n / INR (fact (S n))) by (apply Rdiv_lt_0_compat; [now apply pow_lt|apply INR_fact_lt_0]). lra.
Qed.

(** ** Log-normal law: the error function takes every value between -1 and 1 *)
Lemma erf_above e : 0 < e <= 1 -> 1 - e < erf (/ e).
Proof.
  intros (E0 & E1). pose proof (Rinv_0_lt_compat e E0) as I. pose proof (erfc_upper (/ e) ltac:(lra)) as U. unfold erfc in U.
  assert (J : 1 <= / e) by (rewrite <- Rinv_1; apply Rinv_le_contravar; lra).
  assert (X : exp (- (/ e) ^ 2) < e).
  { rewrite exp_Ropp. apply Rlt_le_trans with (/ / e); [|right; apply Rinv_inv].
    assert (K : / e < exp ((/ e) ^ 2)) by (pose proof (exp_ineq1_le ((/ e) ^ 2)) as V; set (w := exp ((/ e) ^ 2)) in *; nra).
    apply Rinv_lt_contravar; [apply Rmult_lt_0_compat; [lra|apply exp_pos]|exact K]. }
  lra.
Qed.
Definition erf_onto (s : R) : -1 < s < 1 -> {z : R | erf z = s}.
Proof.
  intros (A & B). set (e := 1 - Rabs s).
  assert (E : 0 < e <= 1) by (unfold e; pose proof (Rabs_pos s); assert (Rabs s < 1) by (apply Rabs_def1; lra); lra).
  assert (EE : e = 1 - Rabs s) by reflexivity. clearbody e.
  pose proof (erf_above e E) as U. pose proof (Rinv_0_lt_compat e (proj1 E)) as I.
  pose proof (Rle_abs s) as S1. pose proof (Rle_abs (- s)) as S2. rewrite Rabs_Ropp in S2.
  destruct (IVT (fun z => erf z - s) (- / e) (/ e)) as (z & _ & Z).
  - intros x. apply continuity_pt_minus; [|apply continuity_pt_const; intros ? ?; reflexivity].
    apply derivable_continuous_pt. exists (2 / sqrt PI * exp (- x ^ 2)). apply is_derive_Reals. exact (erf_D x).
  - lra.
  - rewrite erf_opp. lra.
  - lra.
  - exists z. lra.
Defined.
Definition erf_inv (s : R) : R := match Rlt_dec (-1) s, Rlt_dec s 1 with left A, left B => proj1_sig (erf_onto s (conj A B)) | _, _ => 0 end.
Lemma erf_inv_spec s : -1 < s < 1 -> erf (erf_inv s) = s.
Proof.
  intros (A & B). unfold erf_inv. destruct (Rlt_dec (-1) s); [|lra]. destruct (Rlt_dec s 1); [|lra]. exact (proj2_sig (erf_onto s _)).
Qed.
(** scipy.stats.lognorm.ppf(p, s, scale=e^mu) *)
Definition logn_q (p s scale : R) : R := exp (ln scale + s * sqrt 2 * erf_inv (2 * p - 1)).
Theorem C101_lognormal_quantile DPn PDI : 1 < PDI -> quantile_of (fun x => logn_cdf erf erfc (logn_mu DPn PDI) (logn_sigma DPn PDI) x 0) (fun p => logn_q p (logn_sigma DPn PDI) (exp (logn_mu DPn PDI))).
Proof.
  intros H p Hp. unfold logn_q. split; [apply exp_pos|]. unfold logn_cdf. rewrite !ln_exp.
  assert (S : 0 < logn_sigma DPn PDI) by (apply sqrt_lt_R0; rewrite <- ln_1; apply ln_increasing; lra).
  assert (T : 0 < sqrt 2) by (apply sqrt_lt_R0; lra).
  replace ((logn_mu DPn PDI + logn_sigma DPn PDI * sqrt 2 * erf_inv (2 * p - 1) - logn_mu DPn PDI) / (logn_sigma DPn PDI * sqrt 2)) with (erf_inv (2 * p - 1)) by (field; lra).
  rewrite erf_inv_spec by lra. f_equal. lra.
Qed.
(** ** Schulz-Zimm law with PDI = 2 (exponential): 1 - e^-x *)
Definition gami (k x : R) : R := 1 - exp (- x).
Definition sz_q (p k theta : R) : R := - theta * ln (1 - p).
Lemma sz_quantile gc DPn : 0 < DPn -> quantile_of (fun x => sz_cdf gami gc (sz_k DPn 2) (sz_theta DPn 2) x 0) (fun p => sz_q p (sz_k DPn 2) (sz_theta DPn 2)).
Proof.
  intros H p Hp. unfold sz_q, sz_theta. replace (DPn * (2 - 1)) with DPn by ring.
  assert (L : ln (1 - p) < 0) by (rewrite <- ln_1; apply ln_increasing; lra). split; [nra|].
  unfold sz_cdf, gami. f_equal. replace (- (- DPn * ln (1 - p) / DPn)) with (ln (1 - p)) by (field; lra). rewrite exp_ln; lra.
Qed.

(** ** Cases of the theorems that assume quantile functions *)
Example C101_range_case gl : (exists l h cl ch, flory_range geo_q (flory_a 100) = (INR l, INR h) /\ flory_cdf (flory_a 100) l 0 = Ok cl /\ flory_cdf (flory_a 100) h 0 = Ok ch /\ 1 / 10000 <= cl /\ 9999 / 10000 <= ch) /\
  exists l h cl ch, poisson_range poi_q (poisson_a 100) = (INR l, INR h) /\ (1 <= l)%nat /\ poisson_cdf gamc gl (poisson_a 100) (INR l) 0 = Ok cl /\ poisson_cdf gamc gl (poisson_a 100) (INR h) 0 = Ok ch /\ 1 / 10000 <= cl /\ 9999 / 10000 <= ch.
Proof.
  destruct (C101_range 100 gamc gl geo_q poi_q ltac:(lra) geo_q_spec poi_q_spec) as ((l & h & cl & ch & A1 & A2 & A3 & A4 & A5 & _) & (l' & h' & cl' & ch' & B1 & B2 & B3 & B4 & B5 & B6 & _)).
  split; [exists l, h, cl, ch|exists l', h', cl', ch']; auto 10.
Qed.
Example C101_shift_case : exists lo hi l, logn_range logn_q (logn_mu 100 2) (logn_sigma 100 2) = (lo, hi) /\ logn_cdf erf erfc (logn_mu 100 2) (logn_sigma 100 2) lo 0 = Ok l /\ 1 / 10000 < l.
Proof.
  destruct (C101_shift 100 2 logn_q ltac:(lra) ltac:(lra) (C101_lognormal_quantile 100 2 ltac:(lra))) as (lo & hi & l & h & A & _ & _ & B & _ & C & _). exists lo, hi, l. auto.
Qed.
Example C101_shift_sz_case gc : exists lo hi l, sz_range sz_q (sz_k 100 2) (sz_theta 100 2) = (lo, hi) /\ sz_cdf gami gc (sz_k 100 2) (sz_theta 100 2) lo 0 = Ok l /\ 1 / 10000 < l.
Proof.
  destruct (C101_shift_sz 100 2 gami gc sz_q ltac:(lra) ltac:(lra)) as (lo & hi & l & h & A & _ & _ & B & _ & C & _).
  - intros k x y _ (_ & L). unfold gami. assert (exp (- y) < exp (- x)) by (apply exp_increasing; lra). lra.
  - apply sz_quantile. lra.
  - exists lo, hi, l. auto.
Qed.
Example C110_flory_wide_case : wide (flory_range geo_q (flory_a 200)).
Proof. apply (C110_flory_wide 200 geo_q ltac:(lra) geo_q_spec). Qed.
(** The default range of a narrow log-normal law misses nearly all chains, whatever the quantile function:
    and there is one. *)
Example C101_range_refuted_case : exists DPn PDI ppf c, 1 <= DPn /\ 1000001 / 1000000 <= PDI /\
  logn_cdf erf erfc (logn_mu DPn PDI) (logn_sigma DPn PDI) (fst (logn_range ppf (logn_mu DPn PDI) (logn_sigma DPn PDI))) 0 = Ok c /\ 9999 / 10000 < c.
Proof.
  destruct C101_range_refuted as (DPn & PDI & A & B & H). destruct (H logn_q) as (c & C & D); [apply C101_lognormal_quantile; lra|].
  exists DPn, PDI, logn_q, c. auto.
Qed.
(** Inverse transform sampling: with the variates taken at the same level u, the random length of each
    family is at most k exactly when the cumulative distribution reaches u at k. *)
Definition logn_var (mu s u : R) : R := logn_q u s (exp mu).
Definition sz_var (k theta u : R) : R := sz_q u k theta.
Theorem C101_inverse_transform gl DPn u : 1 < DPn -> 0 < u < 1 ->
  (forall k, (flory_random (fun p => geo_q u p) (flory_a DPn) <= Z.of_nat k)%Z <-> exists p, flory_cdf (flory_a DPn) k 0 = Ok p /\ u <= p) /\
  (forall k, (1 <= k)%nat -> (poisson_random (fun a => poi_q u a) (poisson_a DPn) <= Z.of_nat k)%Z <-> exists p, poisson_cdf gamc gl (poisson_a DPn) (INR k) 0 = Ok p /\ u <= p) /\
  (forall k, Nat.even k = true -> (logn_random (fun mu s => logn_var mu s u) (logn_mu DPn 2) (logn_sigma DPn 2) <= Z.of_nat k)%Z <-> exists p, logn_cdf erf erfc (logn_mu DPn 2) (logn_sigma DPn 2) (INR k + 1 / 2) 0 = Ok p /\ u <= p) /\
  (forall k, Nat.even k = true -> (sz_random (fun a th => sz_var a th u) (sz_k DPn 2) (sz_theta DPn 2) <= Z.of_nat k)%Z <-> exists p, sz_cdf gami gamc (sz_k DPn 2) (sz_theta DPn 2) (INR k + 1 / 2) 0 = Ok p /\ u <= p).
Proof.
  intros HD Hu. apply (C101_law DPn 2 (fun p u => geo_q u p) (fun a u => poi_q u a) logn_var sz_var gamc gl gami u HD ltac:(lra)).
  - apply geo_q_iff; [exact Hu|]. split; [apply Rdiv_lt_0_compat; lra|]. apply Rmult_lt_reg_r with DPn; [lra|]. unfold Rdiv. rewrite Rmult_assoc, Rinv_l; lra.
  - apply poi_q_iff; [exact Hu|lra].
  - intros x Hx. destruct (C101_lognormal_quantile DPn 2 ltac:(lra) u Hu) as (P & Q). unfold logn_var. change (ln (DPn / sqrt 2)) with (logn_mu DPn 2). change (sqrt (ln 2)) with (logn_sigma DPn 2).
    set (q := logn_q u (logn_sigma DPn 2) (exp (logn_mu DPn 2))) in *.
    assert (S : 0 < logn_sigma DPn 2) by (apply sqrt_lt_R0; rewrite <- ln_1; apply ln_increasing; lra).
    split.
    + intros [L|<-]; [|now exists u; split; [exact Q|lra]]. eexists. split; [reflexivity|]. left. exact (logn_cdf_lt _ _ q x _ _ S P L Q eq_refl).
    + intros (p & E & L). apply Rnot_lt_le. intros C. pose proof (logn_cdf_lt _ _ x q _ _ S Hx C E Q). lra.
  - intros x Hx. unfold sz_var, sz_q, gami. replace (DPn * (2 - 1)) with DPn by ring. split; intros L.
    + assert (exp (- (x / DPn)) <= 1 - u); [|lra]. rewrite <- (exp_ln (1 - u)) by lra. 
      destruct L as [L|L].
      * left. apply exp_increasing. apply Rmult_lt_reg_l with DPn; [lra|]. replace (DPn * - (x / DPn)) with (- x) by (field; lra). lra.
      * right. f_equal. apply Rmult_eq_reg_l with DPn; [|lra]. replace (DPn * - (x / DPn)) with (- x) by (field; lra). lra.
    + assert (M : exp (- (x / DPn)) <= exp (ln (1 - u))) by (rewrite exp_ln; lra). assert (M' : - (x / DPn) <= ln (1 - u)) by (apply Rnot_lt_le; intros C; apply exp_increasing in C; lra). clear M. rename M' into M.
      apply (Rmult_le_compat_l DPn) in M; [|lra]. replace (DPn * - (x / DPn)) with (- x) in M by (field; lra). lra.
Qed.
Example C101_inverse_transform_case : (flory_random (fun p => geo_q (1 / 2) p) (flory_a 2) <= 1)%Z.
Proof.
  destruct (C101_inverse_transform (fun _ => 0) 2 (1 / 2)) as (A & _); [lra..|]. apply (A 1%nat). eexists. split; [reflexivity|].
  unfold flory_a, flory_moment. cbn. lra.
Qed.
Print Assumptions C101_lognormal_quantile. Print Assumptions C101_inverse_transform.
