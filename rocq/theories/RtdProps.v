(** C56: residence time distributions. *)
From Coq Require Import Reals Lra Lia List Bool Arith Psatz.
From Coquelicot Require Import Coquelicot.
From Verif Require Import Prelude Deriv NumBounds Erf RtdModel.
Import ListNotations.
Open Scope R_scope.

(* ------------------------------------------------------------------ *)
(** * Specification                                                   *)
(* ------------------------------------------------------------------ *)

(** a differential and a cumulative distribution over the times after t0 belong together *)
Definition rtd_pair (t0 : R) (E F : R -> R) : Prop :=
  F t0 = 0 /\ (forall t, t0 < t -> D F t (E t)) /\ (forall s t, t0 <= s <= t -> F s <= F t) /\ is_lim F p_infty 1.
(** the integral of g from 0 to infinity *)
Definition total (g : R -> R) (l : R) : Prop := is_lim (fun T => RInt g 0 T) p_infty l.

Lemma lim_p f (l : R) : (forall e, 0 < e -> exists T, forall t, T <= t -> Rabs (f t - l) < e) -> is_lim f p_infty l.
Proof.
  intros H. apply is_lim_spec. intros e. destruct (H (pos e) (cond_pos e)) as (T & HT). exists T. intros t Ht. apply HT. lra.
Qed.
Lemma RInt_D (F f : R -> R) a b : a <= b -> (forall t, a <= t <= b -> D F t (f t)) -> (forall t, a <= t <= b -> continuous f t) -> is_RInt f a b (F b - F a).
Proof. intros H H1 H2. apply (is_RInt_derive F f a b); intros x Hx; rewrite Rmin_left, Rmax_right in Hx by auto; [now apply H1|now apply H2]. Qed.
Lemma D_cont f x l : D f x l -> continuous f x.
Proof. intros H. apply (@ex_derive_continuous _ R_NormedModule). now exists l. Qed.

(* ------------------------------------------------------------------ *)
(** * The Erlang distribution                                         *)
(* ------------------------------------------------------------------ *)

Definition ph (n : nat) (x : R) : R := exp (- x) * (x ^ n / INR (fact n)).
Definition H (n : nat) (x : R) : R := 1 - sumn n (fun i => ph i x).
Lemma fact_pos n : 0 < INR (fact n). Proof. apply INR_fact_lt_0. Qed.
Lemma ph_pos n x : 0 <= x -> 0 <= ph n x.
Proof. intros Hx. unfold ph. apply Rmult_le_pos; [left; apply exp_pos|]. apply Rmult_le_pos; [now apply pow_le|left; apply Rinv_0_lt_compat, fact_pos]. Qed.
Lemma D_pow n x : D (fun t => t ^ n) x (INR n * x ^ pred n).
Proof. unfold D. auto_derive; auto. ring. Qed.
Lemma ph_D n x : D (ph (S n)) x (ph n x - ph (S n) x).
Proof.
  unfold ph. eapply D_eq. { apply (D_mult (fun x => exp (- x)) (fun x => x ^ S n / INR (fact (S n)))). - apply D_exp. apply D_opp, D_id. - apply (D_ext (fun t => / INR (fact (S n)) * t ^ S n)). { intros. unfold Rdiv. ring. } apply D_scal, D_pow. }
  cbn [pred]. rewrite (fact_simpl n), mult_INR. pose proof (fact_pos n). pose proof (pos_INR n). rewrite S_INR. cbn [pow]. field. lra.
Qed.
Lemma ph_D0 x : D (ph 0) x (- ph 0 x).
Proof. unfold ph. apply (D_ext (fun t => exp (- t))). { intros. cbn. field. } eapply D_eq. { apply D_exp, D_opp, D_id. } cbn. field. Qed.
Lemma H_D n x : D (H (S n)) x (ph n x).
Proof.
  induction n as [|n IH]; unfold H.
  - apply (D_ext (fun t => 1 - ph 0 t)). { intros. cbn. ring. } eapply D_eq; [apply D_minus; [apply D_const|apply ph_D0]|ring].
  - apply (D_ext (fun t => H (S n) t - ph (S n) t)). { intros. unfold H. cbn [sumn]. ring. } eapply D_eq; [apply D_minus; [apply IH|apply ph_D]|ring].
Qed.
Lemma ph_00 : ph 0 0 = 1. Proof. unfold ph. rewrite Ropp_0, exp_0. cbn. field. Qed.
Lemma ph_S0 n : ph (S n) 0 = 0. Proof. unfold ph. rewrite pow_i by lia. unfold Rdiv. ring. Qed.
Lemma H_0 n : H (S n) 0 = 0.
Proof. unfold H. induction n as [|n IH]; cbn [sumn] in *. { rewrite ph_00. ring. } rewrite ph_S0. lra. Qed.
Lemma H_mono n x y : 0 <= x <= y -> H (S n) x <= H (S n) y.
Proof. intros Hx. apply (mono_incr (H (S n)) (ph n)); [lra|intros; apply H_D|intros; apply ph_pos; lra]. Qed.
Lemma sumn_ge0 n f : (forall i, 0 <= f i) -> 0 <= sumn n f.
Proof. intros Hf. induction n; cbn [sumn]; [lra|]. pose proof (Hf n). lra. Qed.
Lemma H_bounds n x : 0 <= x -> 0 <= H (S n) x <= 1.
Proof. intros Hx. split; [apply Rle_trans with (H (S n) 0); [rewrite H_0; lra|apply H_mono; lra]|]. unfold H. pose proof (sumn_ge0 (S n) (fun i => ph i x) (fun i => ph_pos i x Hx)). lra. Qed.
Lemma ph_le1 n x : 0 <= x -> ph n x <= 1.
Proof. intros Hx. pose proof (H_bounds n x Hx) as [B _]. unfold H in B. cbn [sumn] in B. pose proof (sumn_ge0 n (fun i => ph i x) (fun i => ph_pos i x Hx)). lra. Qed.
Lemma ph_tail n x : 0 < x -> ph n x <= INR (S n) / x.
Proof.
  intros Hx. pose proof (ph_le1 (S n) x ltac:(lra)) as L. pose proof (fact_pos n). pose proof (pos_INR n). assert (E : ph n x = INR (S n) / x * ph (S n) x). { unfold ph. rewrite (fact_simpl n), mult_INR, S_INR. cbn [pow]. field. lra. }
  rewrite E. rewrite <- (Rmult_1_r (INR (S n) / x)) at 2. apply Rmult_le_compat_l; auto. left. apply Rdiv_lt_0_compat; auto. rewrite S_INR. lra.
Qed.
Lemma H_tail n x : 0 < x -> 1 - H n x <= INR n * INR n / x.
Proof.
  intros Hx. unfold H. assert (forall m, (m <= n)%nat -> sumn m (fun i => ph i x) <= INR m * (INR n / x)).
  { induction m as [|m IH]; intros Hm; [cbn; lra|]. cbn [sumn]. rewrite (S_INR m). pose proof (ph_tail m x Hx). assert (INR (S m) / x <= INR n / x). { unfold Rdiv. apply Rmult_le_compat_r; [left; now apply Rinv_0_lt_compat|]. now apply le_INR. } specialize (IH ltac:(lia)). lra. }
  specialize (H0 n (le_n n)). unfold Rdiv in *. lra.
Qed.

(* ------------------------------------------------------------------ *)
(** * Tanks in series                                                 *)
(* ------------------------------------------------------------------ *)

Section Tanks.
  Variables (tavg : R) (N : nat).
  Hypotheses (Ht : 0 < tavg) (HN : (1 <= N)%nat).
  Let n := (N - 1)%nat.
  Let c := INR N / tavg.
  Lemma tk_N : N = S n. Proof. unfold n. lia. Qed.
  Lemma tk_c : 0 < c. Proof. apply Rdiv_lt_0_compat; auto. apply lt_0_INR. lia. Qed.
  Lemma tk_F t : F_tanks_series t tavg N = H N (c * t).
  Proof.
    unfold F_tanks_series. assert (S : forall q, exp (- INR N * q) * sumn N (fun i => (INR N * q) ^ i / INR (fact i)) = sumn N (fun i => ph i (INR N * q))).
    { intros q. rewrite <- sumn_scal. apply sumn_ext. intros i _. unfold ph. do 2 f_equal. ring. }
    replace (c * t) with (INR N * (t / tavg)) by (unfold c; field; lra). destruct (Reqb (t / tavg) 0) eqn:E.
    - apply Reqb_true in E. rewrite E, Rmult_0_r, tk_N. symmetry. apply H_0.
    - rewrite S. reflexivity.
  Qed.
  Lemma tk_E t : E_tanks_series t tavg N = c * ph n (c * t).
  Proof.
    unfold E_tanks_series, ph. fold n. replace (- (c * t)) with (- INR N * (t / tavg)) by (unfold c; field; lra). replace (c * t) with (INR N * (t / tavg)) by (unfold c; field; lra). rewrite Rpow_mult_distr. rewrite tk_N at 2. cbn [pow]. unfold c. pose proof (fact_pos n). field. lra.
  Qed.
  Lemma D_sc (f : R -> R) t l : D f (c * t) l -> D (fun t => f (c * t)) t (c * l).
  Proof. intros Hf. eapply D_eq. { apply (D_comp f (fun t => c * t)); [apply D_scal, D_id|exact Hf]. } ring. Qed.
  (** moments: the k-th derivative kernel integrates to 1 *)
  Lemma tk_total (m : nat) (K : R) (g : R -> R) : (forall t, g t = K * (c * ph m (c * t))) -> total g K.
  Proof.
    intros Hg. pose proof tk_c as C. unfold total. apply (is_lim_ext_loc (fun T => K * H (S m) (c * T))).
    - exists 0. intros T HT. symmetry. apply is_RInt_unique. apply (is_RInt_ext (fun t => K * (c * ph m (c * t)))). { intros; now rewrite Hg. } replace (K * H (S m) (c * T)) with (K * H (S m) (c * T) - K * H (S m) (c * 0)) by (rewrite Rmult_0_r, H_0; ring).
      apply (RInt_D (fun t => K * H (S m) (c * t))); [lra|..].
      + intros t _. apply D_scal. apply D_sc. apply H_D.
      + intros t _. assert (X : exists l, D (ph m) (c * t) l) by (destruct m; eexists; [apply ph_D0|apply ph_D]). destruct X as (l & X). eapply D_cont. apply D_scal, D_scal, D_sc, X.
    - apply lim_p. intros e He. assert (M : 0 < INR (S m)) by (apply lt_0_INR; lia). exists ((Rabs K + 1) * (INR (S m) * INR (S m)) / e / c). intros T HT. assert (T0 : 0 < T). { eapply Rlt_le_trans; [|exact HT]. apply Rdiv_lt_0_compat; [|exact C]. apply Rdiv_lt_0_compat; [|exact He]. apply Rmult_lt_0_compat; [pose proof (Rabs_pos K); lra|now apply Rmult_lt_0_compat]. }
      pose proof (H_tail (S m) (c * T) ltac:(now apply Rmult_lt_0_compat)) as L. pose proof (H_bounds m (c * T) ltac:(left; now apply Rmult_lt_0_compat)) as B.
      replace (K * H (S m) (c * T) - K) with (- (K * (1 - H (S m) (c * T)))) by ring. rewrite Rabs_Ropp, Rabs_mult, (Rabs_right (1 - _)) by lra. set (M2 := INR (S m) * INR (S m)) in *.
      assert (Q : (Rabs K + 1) * (M2 / (c * T)) <= e). { apply (Rmult_le_compat_r c) in HT; [|lra]. unfold Rdiv in HT. rewrite Rmult_assoc, Rinv_l in HT by lra. apply (Rmult_le_reg_r (c * T)); [now apply Rmult_lt_0_compat|]. replace ((Rabs K + 1) * (M2 / (c * T)) * (c * T)) with ((Rabs K + 1) * M2) by (field; lra). rewrite Rmult_1_r in HT. apply (Rmult_le_compat_r e) in HT; [|lra]. rewrite Rmult_assoc, Rinv_l in HT by lra. lra. }
      pose proof (Rabs_pos K). assert (0 < M2 / (c * T)) by (apply Rdiv_lt_0_compat; apply Rmult_lt_0_compat; auto). apply Rle_lt_trans with (Rabs K * (M2 / (c * T))); [apply Rmult_le_compat_l; lra|lra].
  Qed.
End Tanks.

Theorem C56_tanks tavg N : 0 < tavg -> (1 <= N)%nat -> rtd_pair 0 (fun t => E_tanks_series t tavg N) (fun t => F_tanks_series t tavg N).
Proof.
  intros Ht HN. pose proof (tk_c tavg N Ht HN) as C. pose proof (tk_N N HN) as EN. unfold rtd_pair. split; [|split; [|split]].
  - rewrite tk_F by auto. rewrite Rmult_0_r, EN. apply H_0.
  - intros t _. apply (D_ext (fun t => H N (INR N / tavg * t))). { intros; now rewrite tk_F. } rewrite tk_E by auto. eapply D_sc; eauto. rewrite EN at 1. apply H_D.
  - intros s t Hst. rewrite !tk_F by auto. rewrite EN at 1 3. apply H_mono. split; [apply Rmult_le_pos; lra|apply Rmult_le_compat_l; lra].
  - apply lim_p. intros e He. assert (M : 0 < INR N) by (apply lt_0_INR; lia). exists (INR N * INR N / e / (INR N / tavg) + 1). intros T HT. assert (P : 0 < INR N * INR N / e / (INR N / tavg)) by (repeat apply Rdiv_lt_0_compat; auto; now apply Rmult_lt_0_compat). rewrite tk_F by auto. set (c := INR N / tavg) in *. assert (CT : 0 < c * T) by (apply Rmult_lt_0_compat; lra). pose proof (H_tail N (c * T) CT) as L. pose proof (H_bounds (N - 1) (c * T) ltac:(lra)) as B. rewrite <- EN in B. rewrite Rabs_minus_sym, Rabs_right by lra. eapply Rle_lt_trans; [exact L|].
    apply (Rmult_lt_reg_r (c * T)); auto. unfold Rdiv at 1. rewrite Rmult_assoc, Rinv_l, Rmult_1_r by lra. apply (Rlt_le_trans _ (e * (c * (INR N * INR N / e / c + 1)))); [|apply Rmult_le_compat_l; [lra|]; apply Rmult_le_compat_l; lra]. replace (e * (c * (INR N * INR N / e / c + 1))) with (INR N * INR N + e * c) by (field; lra). assert (0 < e * c) by now apply Rmult_lt_0_compat. lra.
Qed.
(** the mean is tavg, the variance tavg^2 / N *)
Theorem C56_tanks_moments tavg N : 0 < tavg -> (1 <= N)%nat ->
  total (fun t => E_tanks_series t tavg N) 1 /\ total (fun t => t * E_tanks_series t tavg N) tavg /\
  total (fun t => t ^ 2 * E_tanks_series t tavg N) (tavg ^ 2 + tavg ^ 2 / INR N).
Proof.
  intros Ht HN. pose proof (tk_N N HN) as EN. assert (M : 0 < INR N) by (apply lt_0_INR; lia). assert (MN : INR N = INR (N - 1) + 1) by (rewrite EN at 1; apply S_INR). pose proof (fact_pos (N - 1)). pose proof (pos_INR (N - 1)). split; [|split].
  - apply (tk_total tavg N Ht HN (N - 1)). intros t. rewrite tk_E by auto. ring.
  - apply (tk_total tavg N Ht HN (S (N - 1))). intros t. rewrite tk_E by auto. unfold ph. rewrite (fact_simpl (N - 1)), mult_INR, S_INR. cbn [pow]. rewrite MN. field. repeat split; lra.
  - apply (tk_total tavg N Ht HN (S (S (N - 1)))). intros t. rewrite tk_E by auto. unfold ph. rewrite (fact_simpl (S (N - 1))), (fact_simpl (N - 1)), !mult_INR, !S_INR. cbn [pow]. rewrite MN. field. repeat split; lra.
Qed.
Theorem C56_cstr tavg : 0 < tavg -> rtd_pair 0 (fun t => E_cstr t tavg) (fun t => F_cstr t tavg) /\ total (fun t => t * E_cstr t tavg) tavg.
Proof.
  intros Ht. assert (EE : forall t, E_tanks_series t tavg 1 = E_cstr t tavg). { intros. unfold E_tanks_series, E_cstr. cbn. replace (- (1) * (t / tavg)) with (- t / tavg) by (field; lra). field. lra. }
  assert (EF : forall t, F_tanks_series t tavg 1 = F_cstr t tavg). { intros. unfold F_tanks_series, F_cstr. destruct (Reqb (t / tavg) 0) eqn:E. { apply Reqb_true in E. replace (- t / tavg) with (- (t / tavg)) by (field; lra). rewrite E, Ropp_0, exp_0. ring. } cbn. replace (- (1) * (t / tavg)) with (- t / tavg) by (field; lra). field. }
  destruct (C56_tanks tavg 1 Ht (le_n 1)) as (A & B & C & L). split; [split; [|split; [|split]]|].
  - now rewrite <- EF.
  - intros t H0. rewrite <- EE. apply (D_ext (fun t => F_tanks_series t tavg 1)); auto.
  - intros. rewrite <- !EF. auto.
  - apply (is_lim_ext (fun t => F_tanks_series t tavg 1)); auto.
  - apply (is_lim_ext (fun T => RInt (fun t => t * E_tanks_series t tavg 1) 0 T)). { intros. apply RInt_ext. intros. now rewrite EE. } apply (C56_tanks_moments tavg 1 Ht (le_n 1)).
Qed.
Theorem C56_one_tank t tavg : 0 < tavg -> E_tanks_series t tavg 1 = E_cstr t tavg /\ F_tanks_series t tavg 1 = F_cstr t tavg.
Proof.
  intros Ht. split.
  - unfold E_tanks_series, E_cstr. cbn. replace (- (1) * (t / tavg)) with (- t / tavg) by (field; lra). field. lra.
  - unfold F_tanks_series, F_cstr. destruct (Reqb (t / tavg) 0) eqn:E. { apply Reqb_true in E. replace (- t / tavg) with (- (t / tavg)) by (field; lra). rewrite E, Ropp_0, exp_0. ring. } cbn. replace (- (1) * (t / tavg)) with (- t / tavg) by (field; lra). field.
Qed.

(* ------------------------------------------------------------------ *)
(** * Laminar flow                                                    *)
(* ------------------------------------------------------------------ *)

Lemma lam_q t tavg : 0 < tavg -> (t / tavg < 1 / 2 <-> t < tavg / 2).
Proof.
  intros Ht. split; intros L.
  - apply (Rmult_lt_compat_r tavg) in L; auto. unfold Rdiv in L. rewrite Rmult_assoc, Rinv_l in L by lra. lra.
  - apply (Rmult_lt_reg_r tavg); auto. unfold Rdiv at 1. rewrite Rmult_assoc, Rinv_l by lra. lra.
Qed.
Lemma lam_E0 t tavg : 0 < tavg -> t < tavg / 2 -> E_laminar_flow t tavg = 0.
Proof. intros Ht L. unfold E_laminar_flow. now rewrite (proj2 (Rltb_true _ _)) by now apply lam_q. Qed.
Lemma lam_E1 t tavg : 0 < tavg -> tavg / 2 <= t -> E_laminar_flow t tavg = 1 / 2 * tavg ^ 2 / t ^ 3.
Proof. intros Ht L. unfold E_laminar_flow. rewrite (proj2 (Rltb_false _ _)); auto. apply Rnot_lt_le. intros N. apply (proj1 (lam_q t tavg Ht)) in N. lra. Qed.
Lemma lam_F0 t tavg : 0 < tavg -> t <= tavg / 2 -> F_laminar_flow t tavg = 0.
Proof. intros Ht L. unfold F_laminar_flow. rewrite (proj2 (Rleb_true _ _)); auto. destruct L as [L| ->]; [left; now apply lam_q|right; field; lra]. Qed.
Lemma lam_F1 t tavg : 0 < tavg -> tavg / 2 <= t -> F_laminar_flow t tavg = 1 - tavg ^ 2 / (4 * t ^ 2).
Proof.
  intros Ht [L| <-]; [|rewrite lam_F0 by lra; field; lra]. unfold F_laminar_flow. rewrite (proj2 (Rleb_false _ _)). { field. lra. } apply Rnot_le_lt. intros N. apply (Rmult_le_compat_r tavg) in N; [|lra]. unfold Rdiv in N. rewrite Rmult_assoc, Rinv_l in N; lra.
Qed.
Lemma lam_int tavg (w G : R -> R) T : 0 < tavg -> tavg / 2 < T -> (forall t, 0 < t -> D G t (w t * (1 / 2 * tavg ^ 2 / t ^ 3))) -> (forall t, continuous w t) ->
  RInt (fun t => w t * E_laminar_flow t tavg) 0 T = G T - G (tavg / 2).
Proof.
  intros Ht HT HG Hw. apply is_RInt_unique. replace (G T - G (tavg / 2)) with (0 + (G T - G (tavg / 2))) by ring. apply (@is_RInt_Chasles R_NormedModule _ 0 (tavg / 2) T).
  - apply (is_RInt_ext (fun _ => 0)). { intros t Hx. rewrite Rmin_left, Rmax_right in Hx by lra. rewrite lam_E0 by lra. symmetry. apply Rmult_0_r. } pose proof (@is_RInt_const R_NormedModule 0 (tavg / 2) 0) as C. unfold scal in C. cbn in C. unfold mult in C. cbn in C. rewrite Rmult_0_r in C. exact C.
  - apply (is_RInt_ext (fun t => w t * (1 / 2 * tavg ^ 2 / t ^ 3))). { intros t Hx. rewrite Rmin_left, Rmax_right in Hx by lra. rewrite lam_E1 by lra. reflexivity. }
    apply (RInt_D G (fun t => w t * (1 / 2 * tavg ^ 2 / t ^ 3))); [lra| |]. { intros; apply HG; lra. } intros t Hx. apply (continuous_mult w (fun t => 1 / 2 * tavg ^ 2 / t ^ 3)); auto. apply (@ex_derive_continuous _ R_NormedModule). auto_derive. assert (0 < t ^ 3) by (apply pow_lt; lra). cbn in *. lra.
Qed.
Theorem C56_laminar tavg : 0 < tavg ->
  rtd_pair (tavg / 2) (fun t => E_laminar_flow t tavg) (fun t => F_laminar_flow t tavg) /\
  (forall t, t < tavg / 2 -> E_laminar_flow t tavg = 0 /\ F_laminar_flow t tavg = 0) /\
  total (fun t => E_laminar_flow t tavg) 1 /\ total (fun t => t * E_laminar_flow t tavg) tavg.
Proof.
  intros Ht. split; [split; [|split; [|split]]|split; [|split]].
  - apply lam_F0; lra.
  - intros t L. rewrite lam_E1 by lra. apply (D_ext_loc (fun t => 1 - tavg ^ 2 / (4 * t ^ 2)) _ _ _ (t - tavg / 2)); [lra| |]. { intros x Hx. apply Rabs_def2 in Hx. rewrite lam_F1 by lra. reflexivity. } unfold D. auto_derive; [assert (0 < t * t) by nra; lra|]. field. lra.
  - intros s t L. rewrite !lam_F1 by lra. unfold Rdiv. assert (/ (4 * t ^ 2) <= / (4 * s ^ 2)) by (apply Rinv_le_contravar; nra). nra.
  - apply lim_p. intros e He. exists (tavg + tavg / e). intros t L. assert (0 < tavg / e) by (apply Rdiv_lt_0_compat; auto). rewrite lam_F1 by lra. replace (1 - tavg ^ 2 / (4 * t ^ 2) - 1) with (- (tavg ^ 2 / (4 * t ^ 2))) by ring. rewrite Rabs_Ropp, Rabs_right. 2: { apply Rle_ge. apply Rmult_le_pos; [nra|left; apply Rinv_0_lt_compat; nra]. }
    apply (Rmult_lt_reg_r (4 * t ^ 2)); [nra|]. unfold Rdiv at 1. rewrite Rmult_assoc, Rinv_l, Rmult_1_r by nra. assert (Q : tavg <= e * t). { apply Rle_trans with (e * (tavg / e)); [right; field; lra|apply Rmult_le_compat_l; lra]. } nra.
  - intros t L. split; [now apply lam_E0|apply lam_F0; lra].
  - unfold total. apply (is_lim_ext_loc (fun T => 1 - tavg ^ 2 / (4 * T ^ 2))).
    + exists (tavg / 2). intros T L. transitivity (RInt (fun t => 1 * E_laminar_flow t tavg) 0 T); [|apply RInt_ext; intros; apply Rmult_1_l]. rewrite (lam_int tavg (fun _ => 1) (fun t => 1 - tavg ^ 2 / (4 * t ^ 2))); auto. { field. lra. } { intros t H0. unfold D. auto_derive; [assert (0 < t * t) by nra; lra|]. field. lra. } intros. apply continuous_const.
    + apply lim_p. intros e He. exists (tavg + tavg / e). intros t L. assert (0 < tavg / e) by (apply Rdiv_lt_0_compat; auto). replace (1 - tavg ^ 2 / (4 * t ^ 2) - 1) with (- (tavg ^ 2 / (4 * t ^ 2))) by ring. rewrite Rabs_Ropp, Rabs_right. 2: { apply Rle_ge. apply Rmult_le_pos; [nra|left; apply Rinv_0_lt_compat; nra]. }
      apply (Rmult_lt_reg_r (4 * t ^ 2)); [nra|]. unfold Rdiv at 1. rewrite Rmult_assoc, Rinv_l, Rmult_1_r by nra. assert (Q : tavg <= e * t). { apply Rle_trans with (e * (tavg / e)); [right; field; lra|apply Rmult_le_compat_l; lra]. } nra.
  - unfold total. apply (is_lim_ext_loc (fun T => tavg - tavg ^ 2 / (2 * T))).
    + exists (tavg / 2). intros T L. rewrite (lam_int tavg (fun t => t) (fun t => - tavg ^ 2 / (2 * t))); auto. { field. lra. } { intros t H0. unfold D. auto_derive; [lra|]. field. lra. } intros. apply continuous_id.
    + apply lim_p. intros e He. exists (tavg + tavg ^ 2 / e). intros t L. assert (0 < tavg ^ 2 / e) by (apply Rdiv_lt_0_compat; nra). replace (tavg - tavg ^ 2 / (2 * t) - tavg) with (- (tavg ^ 2 / (2 * t))) by ring. rewrite Rabs_Ropp, Rabs_right. 2: { apply Rle_ge. apply Rmult_le_pos; [nra|left; apply Rinv_0_lt_compat; nra]. }
      apply (Rmult_lt_reg_r (2 * t)); [nra|]. unfold Rdiv at 1. rewrite Rmult_assoc, Rinv_l, Rmult_1_r by lra. assert (Q : tavg ^ 2 <= e * t). { apply Rle_trans with (e * (tavg ^ 2 / e)); [right; field; lra|apply Rmult_le_compat_l; lra]. } nra.
Qed.
(** the second moment grows without bound *)
Theorem C56_laminar_variance tavg : 0 < tavg -> is_lim (fun T => RInt (fun t => t ^ 2 * E_laminar_flow t tavg) 0 T) p_infty p_infty.
Proof.
  intros Ht. apply (is_lim_ext_loc (fun T => tavg ^ 2 / 2 * ln T - tavg ^ 2 / 2 * ln (tavg / 2))).
  - exists (tavg / 2). intros T L. rewrite (lam_int tavg (fun t => t ^ 2) (fun t => tavg ^ 2 / 2 * ln t)); auto.
    + intros t H0. eapply D_eq; [apply D_scal; apply (D_ln (fun t => t)); [apply D_id|auto]|]. cbv beta. match goal with |- ?a = ?b => change (@eq R a b) end. field. lra.
    + intros t. apply (@ex_derive_continuous _ R_NormedModule). auto_derive. auto.
  - apply is_lim_spec. intros M. set (c := tavg ^ 2 / 2). assert (C : 0 < c) by (unfold c; nra). exists (exp (ln (tavg / 2) + M / c)). intros T HT. assert (L : ln (tavg / 2) + M / c < ln T). { rewrite <- (ln_exp (ln (tavg / 2) + M / c)). apply ln_increasing; auto. apply exp_pos. } apply (Rmult_lt_compat_l c) in L; auto. replace (c * (ln (tavg / 2) + M / c)) with (c * ln (tavg / 2) + M) in L by (field; lra). lra.
Qed.
