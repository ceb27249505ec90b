(** C122: the Stockmayer-O'Toole formula solves the Smith-Ewart balance; the Li-Brooks formula is within 4 %. *)
From Coq Require Import Reals Lra Lia List Bool Arith Psatz.
From Coquelicot Require Import Coquelicot.
From Verif Require Import Prelude RootsModel KinModel Deriv KinCldProps.
Open Scope R_scope.

(** * The series of the Bessel functions *)
(** rising factorial c (c+1) ... (c+n-1) *)
Fixpoint rf (c : R) (n : nat) : R := match n with O => 1 | S k => rf c k * (c + INR k) end.
Definition hc (c : R) (k : nat) : R := / (INR (fact k) * rf c k).
(** sum over k of z^k / (k! c (c+1) ... (c+k-1)) *)
Definition h (c z : R) : R := PSeries (hc c) z.

Lemma rf_pos c n : 0 < c -> 0 < rf c n.
Proof. intros H. induction n as [|n IH]; cbn [rf]; [lra|]. apply Rmult_lt_0_compat; auto. pose proof (pos_INR n). lra. Qed.
Lemma hc_pos c n : 0 < c -> 0 < hc c n.
Proof. intros H. apply Rinv_0_lt_compat. apply Rmult_lt_0_compat; [apply INR_fact_lt_0|now apply rf_pos]. Qed.
Lemma rf_shift c n : rf c (S n) = c * rf (c + 1) n.
Proof. induction n as [|n IH]; [cbn; ring|]. change (rf c (S (S n))) with (rf c (S n) * (c + INR (S n))). rewrite IH. cbn [rf]. rewrite S_INR. ring. Qed.
Lemma rf_next c n : 0 < c -> rf (c + 1) n = rf c n * (c + INR n) / c.
Proof. intros H. pose proof (rf_shift c n) as E. cbn [rf] in E. rewrite E. field. lra. Qed.
Lemma rf_add c n k : rf c (n + k) = rf c n * rf (c + INR n) k.
Proof. induction k as [|k IH]; [rewrite Nat.add_0_r; cbn; ring|]. rewrite Nat.add_succ_r. cbn [rf]. rewrite IH, plus_INR. ring. Qed.
Lemma hc_ratio c n : 0 < c -> hc c (S n) / hc c n = / ((INR n + 1) * (c + INR n)).
Proof.
  intros H. pose proof (rf_pos c n H). pose proof (INR_fact_lt_0 n). pose proof (pos_INR n). unfold hc. cbn [rf]. rewrite fact_simpl, mult_INR, S_INR. field. repeat split; lra.
Qed.
Lemma hc_radius c : 0 < c -> CV_radius (hc c) = p_infty.
Proof.
  intros H. apply CV_radius_infinite_DAlembert; [intros n; pose proof (hc_pos c n H); lra|].
  apply (is_lim_seq_le_le (fun _ => 0) _ (fun n => / c * / (INR n + 1))).
  - intros n. rewrite hc_ratio by auto. pose proof (pos_INR n). assert (0 < / ((INR n + 1) * (c + INR n))) by (apply Rinv_0_lt_compat; apply Rmult_lt_0_compat; lra). rewrite Rabs_right by lra. split; [lra|].
    rewrite <- Rinv_mult. apply Rinv_le_contravar; [apply Rmult_lt_0_compat; lra|]. rewrite Rmult_comm. apply Rmult_le_compat_l; lra.
  - apply is_lim_seq_const.
  - replace 0 with (/ c * 0) by ring. apply (is_lim_seq_scal_l (fun n => / (INR n + 1)) (/ c) 0). apply (is_lim_seq_ext (fun n => / INR (S n))); [intros; now rewrite S_INR|].
    apply (is_lim_seq_incr_1 (fun n => / INR n)). apply (is_lim_seq_inv INR p_infty); [apply is_lim_seq_INR|discriminate].
Qed.
Lemma h_D c z : 0 < c -> D (h c) z (h (c + 1) z / c).
Proof.
  intros H. eapply D_eq; [unfold D, h; apply is_derive_PSeries; rewrite hc_radius by auto; exact Logic.I|]. unfold h.
  rewrite (PSeries_ext (PS_derive (hc c)) (PS_scal (/ c) (hc (c + 1)))); [rewrite PSeries_scal; unfold Rdiv; ring|].
  intros n. unfold PS_derive, PS_scal, scal, hc. cbn -[fact rf INR]. rewrite rf_shift, fact_simpl, mult_INR. pose proof (rf_pos (c + 1) n ltac:(lra)). pose proof (INR_fact_lt_0 n). pose proof (not_0_INR (S n) ltac:(lia)). change (mult (/ c) ?x) with (/ c * x). field. repeat split; lra.
Qed.
Lemma h_cv c z : 0 < c -> is_lim_seq (fun K => sumn K (fun k => hc c k * z ^ k)) (h c z).
Proof.
  intros H. apply is_lim_seq_incr_1. assert (E : ex_pseries (hc c) z) by (apply CV_radius_inside; rewrite hc_radius by auto; exact Logic.I).
  pose proof (PSeries_correct _ _ E) as SS. unfold is_pseries in SS.
  apply (is_lim_seq_ext (sum_n (fun k => scal (Hierarchy.pow_n z k) (hc c k)))); [|exact SS].
  intros n. induction n as [|n IH].
  - rewrite sum_O. cbn. unfold mult, scal; cbn; unfold mult; cbn; ring.
  - rewrite sum_Sn, IH. change (sumn (S (S n)) ?f) with (sumn (S n) f + f (S n)). rewrite pow_n_pow. unfold plus, scal; cbn -[sumn hc pow]. unfold mult; cbn -[sumn hc pow]. ring.
Qed.
Lemma sumn_mono_le (f : nat -> R) K L : (K <= L)%nat -> (forall k, 0 <= f k) -> sumn K f <= sumn L f.
Proof. intros H Hf. induction H; [lra|]. cbn [sumn]. pose proof (Hf m). lra. Qed.
Lemma lim_ge (u : nat -> R) (l a : R) K : is_lim_seq u l -> (forall n, (K <= n)%nat -> a <= u n) -> a <= l.
Proof. intros H Hu. change (Rbar_le a l) || change (Rbar_le l a). apply (is_lim_seq_le_loc (fun _ => a) u a l); [exists K; intros; now apply Hu|apply is_lim_seq_const|exact H]. Qed.
Lemma lim_le (u : nat -> R) (l a : R) K : is_lim_seq u l -> (forall n, (K <= n)%nat -> u n <= a) -> l <= a.
Proof. intros H Hu. change (Rbar_le a l) || change (Rbar_le l a). apply (is_lim_seq_le_loc u (fun _ => a) l a); [exists K; intros; now apply Hu|exact H|apply is_lim_seq_const]. Qed.
Lemma h_term c z k : 0 < c -> 0 <= z -> 0 <= hc c k * z ^ k.
Proof. intros H Hz. apply Rmult_le_pos; [left; now apply hc_pos|now apply pow_le]. Qed.
Lemma h_ge c z K : 0 < c -> 0 <= z -> sumn K (fun k => hc c k * z ^ k) <= h c z.
Proof. intros H Hz. apply (lim_ge _ _ _ K (h_cv c z H)). intros n Hn. apply sumn_mono_le; auto. intros. now apply h_term. Qed.
Lemma h_ge1 c z : 0 < c -> 0 <= z -> 1 + z / c <= h c z.
Proof. intros H Hz. eapply Rle_trans; [|apply (h_ge c z 2 H Hz)]. cbn. unfold hc. cbn. apply Req_le. field. lra. Qed.
Lemma h_0 c : 0 < c -> h c 0 = 1.
Proof. intros H. unfold h. rewrite PSeries_0. unfold hc. cbn. field. Qed.
Lemma h_pos c z : 0 < c -> 0 <= z -> 0 < h c z.
Proof. intros H Hz. pose proof (h_ge1 c z H Hz). assert (0 <= z / c) by (apply Rmult_le_pos; [auto|left; now apply Rinv_0_lt_compat]). lra. Qed.
(** contiguous relation *)
Lemma h_contig c z : 0 < c -> h c z - h (c + 1) z = z / (c * (c + 1)) * h (c + 2) z.
Proof.
  intros H. assert (L1 : is_lim_seq (fun K => sumn (S K) (fun k => hc c k * z ^ k) - sumn (S K) (fun k => hc (c + 1) k * z ^ k)) (h c z - h (c + 1) z)).
  { apply (is_lim_seq_incr_1 (fun K => sumn K (fun k => hc c k * z ^ k) - sumn K (fun k => hc (c + 1) k * z ^ k))). apply is_lim_seq_minus'; apply h_cv; lra. }
  assert (L2 : is_lim_seq (fun K => z / (c * (c + 1)) * sumn K (fun k => hc (c + 2) k * z ^ k)) (z / (c * (c + 1)) * h (c + 2) z)).
  { apply (is_lim_seq_scal_l _ (z / (c * (c + 1))) (h (c + 2) z)). apply h_cv. lra. }
  assert (E : forall K, sumn (S K) (fun k => hc c k * z ^ k) - sumn (S K) (fun k => hc (c + 1) k * z ^ k) = z / (c * (c + 1)) * sumn K (fun k => hc (c + 2) k * z ^ k)).
  { intros K. rewrite !sumn_S_first. replace (hc c 0 * z ^ 0) with 1 by (unfold hc; cbn; field). replace (hc (c + 1) 0 * z ^ 0) with 1 by (unfold hc; cbn; field). rewrite <- sumn_scal.
    match goal with |- 1 + ?a - (1 + ?b) = _ => replace (1 + a - (1 + b)) with (a - b) by ring end. rewrite <- sumn_minus. apply sumn_ext. intros k _.
    unfold hc. rewrite !rf_shift, fact_simpl, mult_INR. replace (c + 1 + 1) with (c + 2) by ring. assert (ER : rf (c + 2) k = rf (c + 1) k * (c + 1 + INR k) / (c + 1)) by (rewrite <- rf_next by lra; f_equal; ring). rewrite !ER.
    pose proof (rf_pos (c + 1) k ltac:(lra)). pose proof (INR_fact_lt_0 k). pose proof (pos_INR k). rewrite S_INR. cbn [pow]. field. repeat split; lra. }
  apply (is_lim_seq_ext _ _ _ E) in L1. apply is_lim_seq_unique in L1, L2. rewrite L1 in L2. now injection L2.
Qed.
(** * The populations of particles with n radicals *)
Definition coef (alpha m : R) (n : nat) : R := alpha ^ n / (INR (fact n) * rf m n).
Definition pop (alpha m : R) (n : nat) : R := coef alpha m n * h (m + INR n) alpha.
Lemma coef_pos alpha m n : 0 < alpha -> 0 < m -> 0 < coef alpha m n.
Proof. intros Ha Hm. unfold coef. apply Rdiv_lt_0_compat; [now apply pow_lt|]. apply Rmult_lt_0_compat; [apply INR_fact_lt_0|now apply rf_pos]. Qed.
Lemma triangle (a : nat -> nat -> R) K : sumn K (fun j => sumn (S j) (fun n => a n (j - n)%nat)) = sumn K (fun n => sumn (K - n) (a n)).
Proof.
  induction K as [|K IH]; [reflexivity|]. change (sumn (S K) (fun j => sumn (S j) (fun n => a n (j - n)%nat))) with (sumn K (fun j => sumn (S j) (fun n => a n (j - n)%nat)) + sumn (S K) (fun n => a n (K - n)%nat)). rewrite IH.
  change (sumn (S K) (fun n => sumn (S K - n) (a n))) with (sumn K (fun n => sumn (S K - n) (a n)) + sumn (S K - K) (a K)). change (sumn (S K) (fun n => a n (K - n)%nat)) with (sumn K (fun n => a n (K - n)%nat) + a K (K - K)%nat).
  rewrite <- Rplus_assoc, <- sumn_plus. f_equal.
  - apply sumn_ext. intros n Hn. replace (S K - n)%nat with (S (K - n)) by lia. reflexivity.
  - replace (S K - K)%nat with 1%nat by lia. rewrite Nat.sub_diag. cbn. ring.
Qed.
Lemma binom2 j : sumn (S j) (fun n => / (INR (fact n) * INR (fact (j - n)))) = 2 ^ j / INR (fact j).
Proof.
  replace 2 with (1 + 1) by ring. rewrite binomial. rewrite <- (sumn_ext (S j) (fun n => Binomial.C j n * 1 ^ n * 1 ^ (j - n) / INR (fact j))).
  - rewrite sumn_div. f_equal. clear. assert (G : forall f n, sumn (S n) f = sum_f_R0 f n) by (intros f n; induction n as [|n IH]; [cbn; ring|rewrite tech5, <- IH; reflexivity]). apply G.
  - intros n Hn. unfold Binomial.C. rewrite !pow1. pose proof (INR_fact_lt_0 n). pose proof (INR_fact_lt_0 j). pose proof (INR_fact_lt_0 (j - n)). field. repeat split; lra.
Qed.
Lemma pop_sum alpha m : 0 < alpha -> 0 < m -> is_lim_seq (fun K => sumn K (pop alpha m)) (h m (2 * alpha)).
Proof.
  intros Ha Hm. set (a := fun n k => coef alpha m n * (hc (m + INR n) k * alpha ^ k)).
  assert (A0 : forall n k, 0 <= a n k) by (intros n k; unfold a; apply Rmult_le_pos; [left; now apply coef_pos|apply h_term; [pose proof (pos_INR n)|]; lra]).
  assert (AA : forall n k, a n k = alpha ^ (n + k) / rf m (n + k) * / (INR (fact n) * INR (fact k))).
  { intros n k. unfold a, coef, hc. rewrite rf_add, pow_add. pose proof (rf_pos m n Hm). pose proof (rf_pos (m + INR n) k ltac:(pose proof (pos_INR n); lra)). pose proof (INR_fact_lt_0 n). pose proof (INR_fact_lt_0 k). field. repeat split; lra. }
  assert (T : forall j, hc m j * (2 * alpha) ^ j = sumn (S j) (fun n => a n (j - n)%nat)).
  { intros j. rewrite (sumn_ext (S j) _ (fun n => alpha ^ j / rf m j * / (INR (fact n) * INR (fact (j - n))))). 
    - rewrite sumn_scal, binom2, Rpow_mult_distr. unfold hc. pose proof (rf_pos m j Hm). pose proof (INR_fact_lt_0 j). field. split; lra.
    - intros n Hn. rewrite AA. replace (n + (j - n))%nat with j by lia. reflexivity. }
  assert (TS : forall K, sumn K (fun j => hc m j * (2 * alpha) ^ j) = sumn K (fun n => sumn (K - n) (a n))) by (intros K; rewrite <- triangle; apply sumn_ext; intros; apply T).
  assert (PL : forall n, is_lim_seq (fun L => sumn L (a n)) (pop alpha m n)).
  { intros n. unfold pop, a. apply (is_lim_seq_ext (fun L => coef alpha m n * sumn L (fun k => hc (m + INR n) k * alpha ^ k))); [intros; now rewrite sumn_scal|]. apply (is_lim_seq_scal_l _ (coef alpha m n) (h (m + INR n) alpha)). apply h_cv. pose proof (pos_INR n). lra. }
  assert (PG : forall n L, sumn L (a n) <= pop alpha m n) by (intros n L; apply (lim_ge _ _ _ L (PL n)); intros; apply sumn_mono_le; auto).
  apply (is_lim_seq_le_le (fun K => sumn K (fun j => hc m j * (2 * alpha) ^ j)) _ (fun _ => h m (2 * alpha))).
  - intros K. split.
    + rewrite TS. apply sumn_le. intros n _. apply PG.
    + assert (Q : is_lim_seq (fun L => sumn K (fun n => sumn L (a n))) (sumn K (pop alpha m))).
      { clear - PL. induction K as [|K IH]; [apply is_lim_seq_const|]. cbn [sumn]. now apply is_lim_seq_plus'. }
      apply (lim_le _ _ _ 0%nat Q). intros L _. eapply Rle_trans; [|apply (h_ge m (2 * alpha) (K + L) Hm ltac:(lra))]. rewrite TS.
      eapply Rle_trans; [|apply (sumn_mono_le _ K (K + L)); [lia|intros; apply sumn_nonneg; auto]]. apply sumn_le. intros n Hn. apply sumn_mono_le; [lia|auto].
  - now apply h_cv.
  - apply is_lim_seq_const.
Qed.

(** the modified Bessel function I_v(x) = sum (x/2)^(2k+v) / (k! Gamma(v+k+1)), written with G v = 1/Gamma(v+1)
    (scipy.special.iv for real x > 0; order -1 is order 1) *)
Definition bessel (iv : R -> R -> R) : Prop := exists G : R -> R,
  (forall v, -1 < v -> 0 < G v) /\ (forall v, 0 < v -> G (v - 1) = v * G v) /\
  (forall v x, -1 < v -> 0 < x -> is_lim_seq (fun K => G v * Rpower (x / 2) v * sumn K (fun k => ((x / 2) ^ 2) ^ k / (INR (fact k) * rf (v + 1) k))) (iv v x)) /\
  (forall x, 0 < x -> iv (-1) x = iv 1 x).
Lemma bessel_h iv : bessel iv -> exists G : R -> R, (forall v, -1 < v -> 0 < G v) /\ (forall v, 0 < v -> G (v - 1) = v * G v) /\
  (forall v x, -1 < v -> 0 < x -> iv v x = G v * Rpower (x / 2) v * h (v + 1) ((x / 2) ^ 2)) /\ (forall x, 0 < x -> iv (-1) x = iv 1 x).
Proof.
  intros (G & A & B & E & F). exists G. repeat split; auto. intros v x Hv Hx. specialize (E v x Hv Hx).
  assert (L : is_lim_seq (fun K => G v * Rpower (x / 2) v * sumn K (fun k => ((x / 2) ^ 2) ^ k / (INR (fact k) * rf (v + 1) k))) (G v * Rpower (x / 2) v * h (v + 1) ((x / 2) ^ 2))).
  { apply (is_lim_seq_scal_l _ (G v * Rpower (x / 2) v) (h (v + 1) ((x / 2) ^ 2))). apply (is_lim_seq_ext (fun K => sumn K (fun k => hc (v + 1) k * ((x / 2) ^ 2) ^ k))); [intros; apply sumn_ext; intros; unfold hc; unfold Rdiv; ring|]. apply h_cv. lra. }
  apply is_lim_seq_unique in E, L. rewrite E in L. now injection L.
Qed.
Lemma a_facts alpha : 0 < alpha -> 0 < sqrt (8 * alpha) /\ (sqrt (8 * alpha) / 2) ^ 2 = 2 * alpha /\ sqrt (8 * alpha) * sqrt (8 * alpha) = 8 * alpha.
Proof. intros H. assert (A : sqrt (8 * alpha) * sqrt (8 * alpha) = 8 * alpha) by (apply sqrt_sqrt; lra). repeat split; auto; [apply sqrt_lt_R0; lra|]. replace ((sqrt (8 * alpha) / 2) ^ 2) with (sqrt (8 * alpha) * sqrt (8 * alpha) / 4) by field. rewrite A. field. Qed.
Lemma nbar_h iv alpha m : bessel iv -> 0 < alpha -> 0 < m -> nbar_SO iv alpha m = alpha / m * h (m + 1) (2 * alpha) / h m (2 * alpha).
Proof.
  intros Hb Ha Hm. destruct (bessel_h iv Hb) as (G & GP & GR & E & _). destruct (a_facts alpha Ha) as (A0 & A1 & A2). unfold nbar_SO. set (a := sqrt (8 * alpha)) in *.
  rewrite !E by lra. rewrite A1, GR by auto. replace (m - 1 + 1) with m by ring. pose proof (GP m ltac:(lra)). pose proof (h_pos m (2 * alpha) Hm ltac:(lra)).
  replace (Rpower (a / 2) m) with (a / 2 * Rpower (a / 2) (m - 1)); [|rewrite <- (Rpower_1 (a / 2)) at 1 by lra; rewrite <- Rpower_plus; f_equal; ring].
  assert (0 < Rpower (a / 2) (m - 1)) by apply exp_pos. set (p := Rpower _ _) in *. set (h1 := h (m + 1) _) in *. set (h0 := h m _) in *. replace alpha with (a * a / 8) by lra. field. repeat split; lra.
Qed.
Lemma nbar_h0 iv alpha : bessel iv -> 0 < alpha -> nbar_SO iv alpha 0 = 1 / 2 * h 1 (2 * alpha) / h 2 (2 * alpha).
Proof.
  intros Hb Ha. destruct (bessel_h iv Hb) as (G & GP & GR & E & F). destruct (a_facts alpha Ha) as (A0 & A1 & A2). unfold nbar_SO. set (a := sqrt (8 * alpha)) in *.
  replace (0 - 1) with (-1) by ring. rewrite F by auto. rewrite !E by lra. rewrite A1. replace (0 + 1) with 1 by ring. replace (1 + 1) with 2 by ring. replace (G 0) with (1 * G 1) by (rewrite <- GR by lra; f_equal; ring). pose proof (GP 1 ltac:(lra)). pose proof (h_pos 2 (2 * alpha) ltac:(lra) ltac:(lra)).
  rewrite Rpower_O, Rpower_1 by lra. field. repeat split; lra.
Qed.

(** The number of radicals per particle: there are populations N n of particles with n radicals, positive, adding
    up to one and stationary under entry (rate alpha), desorption (rate m per radical) and termination in pairs
    (rate n (n-1)), and their mean number of radicals is the value returned *)
Theorem C122_Smith_Ewart iv alpha m : bessel iv -> 0 < alpha -> 0 < m -> exists N : nat -> R, (forall n, 0 < N n) /\
  (forall n, (match n with O => 0 | S k => alpha * N k end) + m * (INR n + 1) * N (n + 1)%nat + (INR n + 2) * (INR n + 1) * N (n + 2)%nat
             = (alpha + m * INR n + INR n * (INR n - 1)) * N n) /\
  is_lim_seq (fun K => sumn K N) 1 /\ is_lim_seq (fun K => sumn K (fun n => INR n * N n)) (nbar_SO iv alpha m).
Proof.
  intros Hb Ha Hm. pose proof (h_pos m (2 * alpha) Hm ltac:(lra)) as H0. exists (fun n => / h m (2 * alpha) * pop alpha m n).
  assert (IH0 : 0 < / h m (2 * alpha)) by now apply Rinv_0_lt_compat.
  assert (cut : forall n, alpha * pop alpha m n = (INR n + 1) * (INR n + m) * pop alpha m (n + 1)%nat + (INR n + 2) * (INR n + 1) * pop alpha m (n + 2)%nat).
  { intros n. pose proof (pos_INR n) as In. pose proof (h_contig (m + INR n) alpha ltac:(lra)) as E. unfold pop, coef. rewrite !Nat.add_succ_r, Nat.add_0_r. cbn [rf]. rewrite !fact_simpl, !mult_INR, !S_INR. replace (m + (INR n + 1 + 1)) with (m + INR n + 2) by ring. replace (m + (INR n + 1)) with (m + INR n + 1) by ring.
    replace (h (m + INR n) alpha) with (h (m + INR n + 1) alpha + alpha / ((m + INR n) * (m + INR n + 1)) * h (m + INR n + 2) alpha) by lra.
    pose proof (rf_pos m n Hm). pose proof (INR_fact_lt_0 n). cbn [pow]. field. repeat split; lra. }
  split; [|split; [|split]].
  - intros n. apply Rmult_lt_0_compat; auto. unfold pop. pose proof (pos_INR n). apply Rmult_lt_0_compat; [now apply coef_pos|apply h_pos; lra].
  - intros n. destruct n as [|k].
    + pose proof (cut 0%nat) as C0. cbn [INR Nat.add] in *. set (q := / h m (2 * alpha)). apply (f_equal (Rmult q)) in C0. cbn [INR] in C0. lra.
    + pose proof (cut k) as C1. pose proof (cut (S k)) as C2. rewrite !Nat.add_succ_l, !Nat.add_succ_r, !Nat.add_0_r in *. rewrite S_INR in *. set (q := / h m (2 * alpha)). apply (f_equal (Rmult q)) in C1, C2. lra.
  - apply (is_lim_seq_ext (fun K => / h m (2 * alpha) * sumn K (pop alpha m))); [intros; now rewrite sumn_scal|]. replace 1 with (/ h m (2 * alpha) * h m (2 * alpha)) by (field; lra). apply (is_lim_seq_scal_l _ (/ h m (2 * alpha)) (h m (2 * alpha))). now apply pop_sum.
  - rewrite (nbar_h iv) by auto. apply is_lim_seq_incr_1.
    apply (is_lim_seq_ext (fun K => / h m (2 * alpha) * (alpha / m) * sumn K (pop alpha (m + 1)))).
    + intros K. rewrite sumn_S_first. change (INR 0) with 0. rewrite Rmult_0_l, Rplus_0_l, <- sumn_scal. apply sumn_ext. intros n _. unfold pop, coef. rewrite rf_shift, fact_simpl, mult_INR, S_INR. replace (m + (INR n + 1)) with (m + 1 + INR n) by ring.
      pose proof (rf_pos (m + 1) n ltac:(lra)). pose proof (INR_fact_lt_0 n). pose proof (pos_INR n). cbn [pow]. field. repeat split; lra.
    + replace (alpha / m * h (m + 1) (2 * alpha) / h m (2 * alpha)) with (/ h m (2 * alpha) * (alpha / m) * h (m + 1) (2 * alpha)) by (field; lra).
      apply (is_lim_seq_scal_l _ (/ h m (2 * alpha) * (alpha / m)) (h (m + 1) (2 * alpha))). apply pop_sum; lra.
Qed.
