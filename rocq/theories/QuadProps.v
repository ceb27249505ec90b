(** C124: the fallback sums and integrals of the distributions. *)
From Coq Require Import Reals Lra Lia List Bool Arith Psatz.
From Coquelicot Require Import Coquelicot.
From Verif Require Import Prelude DistModel DistFamProps QuadModel.
Open Scope R_scope.

Lemma py_int_INR n : py_int (INR n) = n.
Proof.
  unfold py_int. rewrite <- (Nat2Z.id n) at 2. f_equal.
  destruct (base_Int_part (INR n)) as [A B]. rewrite INR_IZR_INZ in A, B.
  assert (IZR (Int_part (INR n)) <= IZR (Z.of_nat n)) as A' by (rewrite <- INR_IZR_INZ at 1; rewrite <- INR_IZR_INZ in *; exact A).
  rewrite <- INR_IZR_INZ in *. rewrite INR_IZR_INZ in A', B.
  apply le_IZR in A'. assert (IZR (Z.of_nat n - 1) < IZR (Int_part (IZR (Z.of_nat n)))) as B' by (rewrite minus_IZR; lra).
  apply lt_IZR in B'. rewrite INR_IZR_INZ in *. lia.
Qed.
Lemma py_int_bounds x : 0 <= x -> INR (py_int x) <= x < INR (py_int x) + 1.
Proof.
  intros H. unfold py_int. destruct (base_Int_part x) as [A B].
  assert (0 <= Int_part x)%Z as P.
  { assert (IZR (-1) < IZR (Int_part x)) as L by lra. apply lt_IZR in L. lia. }
  rewrite INR_IZR_INZ, Z2Nat.id by exact P. lra.
Qed.
Lemma py_int_mono x y : 0 <= x <= y -> (py_int x <= py_int y)%nat.
Proof.
  intros [H L]. destruct (py_int_bounds x H) as [A _]. destruct (py_int_bounds y ltac:(lra)) as [_ B].
  assert (INR (py_int x) < INR (S (py_int y))) as C by (rewrite S_INR; lra). apply INR_lt in C. lia.
Qed.
Lemma py_int_0 : py_int 0 = O.
Proof. exact (py_int_INR 0). Qed.
Lemma quad_first_0 : quad_first 0 = 1%nat.
Proof. unfold quad_first. now rewrite py_int_0. Qed.
Lemma quad_disc_0 p x m : quad_disc p 0 x m = sumn (py_int x) (fun j => quad_term p m (S j)).
Proof.
  unfold quad_disc. rewrite quad_first_0. replace (S (py_int x) - 1)%nat with (py_int x) by lia. reflexivity.
Qed.
Lemma fb_moment_series p m l : is_series (fun j => INR (S j) ^ m * p (S j)) l -> fb_moment p m = l.
Proof.
  intros H. unfold fb_moment, quad_disc_inf. rewrite quad_first_0. apply is_series_unique. exact H.
Qed.

(** C124 (a): between integer limits the sum is the documented numerator, with both ends included. *)
Theorem C124_range : forall p m a b, (1 <= a <= b)%nat ->
  quad_disc p (INR a) (INR b) m = sum_n_m (fun k => INR k ^ m * p k) a b.
Proof.
  intros p m a b [Ha Hb]. unfold quad_disc, quad_first. rewrite !py_int_INR, Nat.max_r by lia.
  replace b with (a + (b - a))%nat at 2 by lia. replace (S b - a)%nat with (S (b - a)) by lia.
  generalize (b - a)%nat as d. clear. induction d as [|d IH].
  - rewrite Nat.add_0_r, sum_n_n. cbn [sumn]. unfold quad_term. rewrite Nat.add_0_r. lra.
  - replace (a + S d)%nat with (S (a + d)) by lia. rewrite sum_n_Sm by lia. rewrite <- IH.
    cbn [sumn]. unfold quad_term, plus; cbn. replace (a + S d)%nat with (S (a + d)) by lia. reflexivity.
Qed.

(** C124 (b): neighbouring ranges count the common chain length twice. *)
Theorem C124_adjacent : forall p m a b c, (1 <= a <= b)%nat -> (b <= c)%nat ->
  quad_disc p (INR a) (INR b) m + quad_disc p (INR b) (INR c) m
  = quad_disc p (INR a) (INR c) m + INR b ^ m * p b.
Proof.
  intros p m a b c [Ha Hb] Hc. rewrite !C124_range by lia.
  destruct (Nat.eq_dec b c) as [<-|N].
  - now rewrite sum_n_n.
  - rewrite (sum_n_m_Chasles _ a b c) by lia. rewrite (sum_Sn_m _ b c) by lia. unfold plus; cbn. ring.
Qed.

(** C124 (c): the fallback cdf is a cumulative distribution, for every nonnegative pdf with a finite moment. *)
Theorem C124_cdf : forall p m l, (forall k, 0 <= p k) ->
  is_series (fun j => INR (S j) ^ m * p (S j)) l -> 0 < l ->
  (forall x, 0 <= x < 1 -> fb_cdf p x m = 0) /\
  (forall x y, 0 <= x <= y -> fb_cdf p x m <= fb_cdf p y m) /\
  (forall x, 0 <= x -> 0 <= fb_cdf p x m <= 1) /\
  (forall x, 0 <= x -> fb_cdf p x m = fb_cdf p (INR (py_int x)) m) /\
  (forall k, fb_cdf p (INR (S k)) m - fb_cdf p (INR k) m = INR (S k) ^ m * p (S k) / l) /\
  is_lim_seq (fun k => fb_cdf p (INR k) m) 1.
Proof.
  intros p m l Hp Hs Hl. pose proof (fb_moment_series p m l Hs) as EM.
  assert (T : forall j, 0 <= quad_term p m (S j)).
  { intros j. unfold quad_term. apply Rmult_le_pos; [apply pow_le, pos_INR|apply Hp]. }
  assert (IL : 0 < / l) by now apply Rinv_0_lt_compat.
  assert (Mon : forall K L, (K <= L)%nat -> sumn K (fun j => quad_term p m (S j)) <= sumn L (fun j => quad_term p m (S j))).
  { intros K L HK. replace L with (K + (L - K))%nat by lia. rewrite sumn_add.
    assert (0 <= sumn (L - K) (fun i => quad_term p m (S (K + i)))) by (apply sumn_nonneg; intros; apply T). lra. }
  assert (Lim : is_lim_seq (fun K => sumn K (fun j => quad_term p m (S j))) l).
  { apply is_lim_seq_incr_1. eapply is_lim_seq_ext; [|exact Hs]. intros n. cbv beta. now rewrite sum_n_sumn. }
  assert (Bd : forall K, sumn K (fun j => quad_term p m (S j)) <= l).
  { intros K. apply (is_lim_seq_incr_compare _ l Lim). intros n. apply Mon. lia. }
  repeat split.
  - intros x Hx. unfold fb_cdf. rewrite quad_disc_0.
    replace (py_int x) with O; [cbn; unfold Rdiv; ring|].
    destruct (py_int_bounds x ltac:(lra)) as [A _]. assert (INR (py_int x) < INR 1) as C by (cbn; lra).
    apply INR_lt in C. lia.
  - intros x y Hxy. unfold fb_cdf. rewrite EM, !quad_disc_0. apply Rmult_le_compat_r; [lra|]. apply Mon, py_int_mono, Hxy.
  - unfold fb_cdf. rewrite EM, quad_disc_0. apply Rmult_le_pos; [apply sumn_nonneg; intros; apply T|lra].
  - unfold fb_cdf. rewrite EM, quad_disc_0. apply Rle_div_l; [lra|]. rewrite Rmult_1_l. apply Bd.
  - intros x Hx. unfold fb_cdf. rewrite !quad_disc_0, py_int_INR. reflexivity.
  - intros k. unfold fb_cdf. rewrite EM, !quad_disc_0, !py_int_INR. cbn [sumn]. unfold quad_term. field. lra.
  - eapply is_lim_seq_ext with (u := fun K => sumn K (fun j => quad_term p m (S j)) * / l).
    { intros n. unfold fb_cdf. now rewrite EM, quad_disc_0, py_int_INR. }
    replace (Finite 1) with (Rbar_mult l (/ l)) by (cbn; f_equal; field; lra).
    apply is_lim_seq_scal_r, Lim.
Qed.

(** C124 (d): what Flory overrides agrees with what it overrides: moments, and both cdfs at every chain length. *)
Theorem C124_flory : forall pl DPn, 1 <= DPn ->
  (forall n, (n <= 4)%nat -> fb_moment (flory_pdf0 (flory_a DPn)) n = flory_moment pl (flory_a DPn) n) /\
  (forall k o, (o <= 1)%nat -> flory_cdf (flory_a DPn) k o = Ok (fb_cdf (flory_pdf0 (flory_a DPn)) (INR k) o)).
Proof.
  intros pl D HD. split.
  - intros n Hn. apply fb_moment_series, C19_flory_moments; assumption.
  - intros k o Ho. destruct (C19_flory_cdf D k HD) as [A B]. cbv zeta in A, B.
    assert (E : fb_moment (flory_pdf0 (flory_a D)) o = flory_moment pl (flory_a D) o)
      by (apply fb_moment_series, C19_flory_moments; [assumption|lia]).
    unfold fb_cdf. rewrite E, quad_disc_0, py_int_INR. destruct o as [|[|o]]; [| |lia].
    + rewrite A. f_equal. cbn [flory_moment]. unfold Rdiv. rewrite Rinv_1, Rmult_1_r. apply sumn_ext.
      intros j _. unfold quad_term. cbn [pow]. ring.
    + rewrite B. f_equal. replace (flory_moment pl (flory_a D) 1) with D by (unfold flory_a; cbn; field; lra).
      f_equal. apply sumn_ext. intros j _. unfold quad_term. now rewrite pow_1.
Qed.

(** C124 (d'): the same for Poisson, for the moments of every order. *)
Theorem C124_poisson : forall g q DPn, gammaln_spec g -> gammaincc_spec q -> 1 < DPn ->
  let pdf k := poisson_pdf g (INR k) (poisson_a DPn) false in
  (forall n, fb_moment pdf n = poisson_moment (poisson_a DPn) n) /\
  (forall k o, (1 <= k)%nat -> (o <= 1)%nat -> poisson_cdf q g (poisson_a DPn) (INR k) o = Ok (fb_cdf pdf (INR k) o)).
Proof.
  intros g q D Hg Hq HD pdf.
  assert (E : forall n, fb_moment pdf n = poisson_moment (poisson_a D) n)
    by (intros n; apply fb_moment_series, C20_poisson_moments; assumption).
  split; [exact E|]. intros k o Hk Ho. destruct (C20_poisson_cdf g q D k Hg Hq HD Hk) as [A B]. cbv zeta in A, B.
  unfold fb_cdf. rewrite E, quad_disc_0, py_int_INR. destruct o as [|[|o]]; [| |lia].
  - rewrite A. f_equal. cbn [poisson_moment]. unfold Rdiv. rewrite Rinv_1, Rmult_1_r. apply sumn_ext.
    intros j _. unfold quad_term, pdf. cbn [pow]. ring.
  - rewrite B. f_equal. replace (poisson_moment (poisson_a D) 1) with D by (unfold poisson_a; cbn; lra).
    f_equal. apply sumn_ext. intros j _. unfold quad_term, pdf. now rewrite pow_1.
Qed.

(** C124 (e): between two chain lengths they differ: the closed form already counts part of the next chain length. *)
Theorem C124_flory_between : forall DPn k x, 1 < DPn -> INR k < x < INR k + 1 ->
  fb_cdf (flory_pdf0 (flory_a DPn)) x 0 < flory_cdf_at (flory_a DPn) x
  < fb_cdf (flory_pdf0 (flory_a DPn)) (INR (S k)) 0.
Proof.
  intros D k x HD Hx. pose proof (pos_INR k) as Pk.
  assert (Ha : 0 < flory_a D < 1).
  { unfold flory_a. assert (0 < / D < 1) by (split; [apply Rinv_0_lt_compat; lra|rewrite <- Rinv_1; apply Rinv_lt_contravar; lra]).
    unfold Rdiv; rewrite Rmult_1_l; lra. }
  assert (E : py_int x = k).
  { destruct (py_int_bounds x ltac:(lra)) as [A B].
    assert (INR (py_int x) < INR (S k)) as L1 by (rewrite S_INR; lra).
    assert (INR k < INR (S (py_int x))) as L2 by (rewrite S_INR; lra).
    apply INR_lt in L1, L2. lia. }
  assert (C : forall j, fb_cdf (flory_pdf0 (flory_a D)) (INR j) 0 = 1 - flory_a D ^ j).
  { intros j. destruct (C124_flory (fun _ _ => 0) D ltac:(lra)) as [_ F]. specialize (F j O ltac:(lia)).
    cbn [flory_cdf flory_moment] in F. injection F as <-. unfold Rdiv; rewrite Rinv_1; ring. }
  assert (fb_cdf (flory_pdf0 (flory_a D)) x 0 = fb_cdf (flory_pdf0 (flory_a D)) (INR k) 0) as ->.
  { unfold fb_cdf. now rewrite !quad_disc_0, E, py_int_INR. }
  rewrite !C. unfold flory_cdf_at. rewrite <- !Rpower_pow by lra. rewrite S_INR. unfold Rpower.
  assert (ln (flory_a D) < 0) by (rewrite <- ln_1; apply ln_increasing; lra).
  split; apply Rplus_lt_compat_l, Ropp_lt_contravar, exp_increasing; nra.
Qed.

(** C124 (h): raising the order shifts the distribution to longer chains; in particular the mass cdf never exceeds
    the number cdf. *)
Theorem C124_dominance : forall p m l l' x, (forall k, 0 <= p k) ->
  is_series (fun j => INR (S j) ^ m * p (S j)) l -> is_series (fun j => INR (S j) ^ S m * p (S j)) l' -> 0 < l -> 0 < l' ->
  fb_cdf p x (S m) <= fb_cdf p x m.
Proof.
  intros p m l l' x Hp Hs Hs' Hl Hl'. unfold fb_cdf.
  rewrite (fb_moment_series p m l Hs), (fb_moment_series p (S m) l' Hs'), !quad_disc_0.
  set (K := py_int x). clearbody K.
  set (t := fun j => quad_term p m (S j)). set (t' := fun j => quad_term p (S m) (S j)).
  change (fun j => quad_term p m (S j)) with t. change (fun j => quad_term p (S m) (S j)) with t'.
  assert (E : forall j, t' j = INR (S j) * t j) by (intros j; unfold t, t', quad_term; cbn [pow]; ring).
  assert (T : forall j, 0 <= t j).
  { intros j. unfold t, quad_term. apply Rmult_le_pos; [apply pow_le, pos_INR|apply Hp]. }
  assert (A : sumn K t' <= INR K * sumn K t).
  { rewrite <- sumn_scal. apply sumn_le. intros i Hi. rewrite E. apply Rmult_le_compat_r; [apply T|]. apply le_INR. lia. }
  assert (A0 : 0 <= sumn K t) by (apply sumn_nonneg; intros; apply T).
  assert (L : forall u v, is_series (fun j => u j) v -> is_lim_seq (fun n => sumn (n + K) u) v).
  { intros u v H. apply (is_lim_seq_incr_n (fun n => sumn n u)). apply is_lim_seq_incr_1.
    eapply is_lim_seq_ext; [|exact H]. intros n. cbv beta. now rewrite sum_n_sumn. }
  assert (M : sumn K t' * l <= sumn K t * l').
  { refine (is_lim_seq_le (fun n => sumn K t' * sumn (n + K) t) (fun n => sumn K t * sumn (n + K) t')
             (sumn K t' * l) (sumn K t * l') _ _ _).
    - intros n. rewrite (Nat.add_comm n K), !sumn_add.
      assert (B : INR K * sumn n (fun i => t (K + i)%nat) <= sumn n (fun i => t' (K + i)%nat)).
      { rewrite <- sumn_scal. apply sumn_le. intros i _. rewrite E. apply Rmult_le_compat_r; [apply T|]. apply le_INR. lia. }
      assert (B0 : 0 <= sumn n (fun i => t (K + i)%nat)) by (apply sumn_nonneg; intros; apply T).
      pose proof (Rmult_le_compat_r _ _ _ B0 A). pose proof (Rmult_le_compat_l _ _ _ A0 B). lra.
    - apply (is_lim_seq_scal_l (fun n => sumn (n + K) t) (sumn K t') l), L, Hs.
    - apply (is_lim_seq_scal_l (fun n => sumn (n + K) t') (sumn K t) l'), L, Hs'. }
  apply Rle_div_l; [lra|]. replace (sumn K t / l * l') with (sumn K t * l' / l) by (field; lra).
  apply Rle_div_r; [lra|exact M].
Qed.
(** hence for the two discrete families as they are shipped *)
Theorem C124_mass_below_number : forall g q DPn k, gammaln_spec g -> gammaincc_spec q -> 1 < DPn -> (1 <= k)%nat ->
  (exists F0 F1, flory_cdf (flory_a DPn) k 0 = Ok F0 /\ flory_cdf (flory_a DPn) k 1 = Ok F1 /\ F1 <= F0) /\
  (exists F0 F1, poisson_cdf q g (poisson_a DPn) (INR k) 0 = Ok F0 /\ poisson_cdf q g (poisson_a DPn) (INR k) 1 = Ok F1 /\ F1 <= F0).
Proof.
  intros g q D k Hg Hq HD Hk. split.
  - destruct (C124_flory (fun _ _ => 0) D ltac:(lra)) as [_ F]. eexists _, _.
    split; [apply F; lia|split; [apply F; lia|]].
    assert (0 < / D < 1) by (split; [apply Rinv_0_lt_compat; lra|rewrite <- Rinv_1; apply Rinv_lt_contravar; lra]).
    assert (Ha : 0 <= flory_a D < 1) by (unfold flory_a, Rdiv; rewrite Rmult_1_l; lra).
    eapply C124_dominance.
    + intros j. unfold flory_pdf0. apply Rmult_le_pos; [lra|apply pow_le; lra].
    + apply (C19_flory_moments (fun _ _ => 0)); [lra|lia].
    + apply (C19_flory_moments (fun _ _ => 0)); [lra|lia].
    + cbn. lra.
    + cbn [flory_moment]. apply Rdiv_lt_0_compat; lra.
  - destruct (C124_poisson g q D Hg Hq HD) as [_ F]. cbv zeta in F. eexists _, _.
    split; [apply F; lia|split; [apply F; lia|]].
    eapply C124_dominance.
    + intros j. unfold poisson_pdf. apply Rlt_le, exp_pos.
    + apply C20_poisson_moments; assumption.
    + apply C20_poisson_moments; assumption.
    + cbn. lra.
    + cbn [poisson_moment]. unfold poisson_a. lra.
Qed.

(** C124 (f): the derivative of the continuous fallback cdf is the pdf of that order. *)
Theorem C124_continuous : forall p lam m x, (forall t, continuous p t) ->
  is_derive (fun t => fb_cdf_cont p lam t m) x (x ^ m * p x / lam m).
Proof.
  intros p lam m x Hp. unfold fb_cdf_cont, quad_cont, Rdiv.
  assert (Hc : forall t, continuous (fun z => z ^ m * p z) t).
  { intros t. apply (continuous_mult (fun z => z ^ m) p); [|apply Hp].
    apply (ex_derive_continuous (fun z : R => z ^ m)). auto_derive. exact I. }
  refine (is_derive_ext (fun t => / lam m * RInt (fun z => z ^ m * p z) 0 t) _ _ _ _ _).
  { intros t. apply Rmult_comm. }
  replace (x ^ m * p x * / lam m) with (/ lam m * (x ^ m * p x)) by ring.
  apply (is_derive_scal (fun t => RInt (fun z => z ^ m * p z) 0 t)).
  apply (is_derive_RInt (fun z => z ^ m * p z) _ 0 x).
  - apply filter_forall. intros t. apply (RInt_correct (V := R_CompleteNormedModule)).
    apply (ex_RInt_continuous (V := R_CompleteNormedModule)). intros; apply Hc.
  - apply Hc.
Qed.

(** C124 (g): the docstring of the helper divides by the moment; the code leaves that to its callers. *)
Theorem C124_normalisation_refuted : exists DPn a b m,
  let p := flory_pdf0 (flory_a DPn) in
  quad_disc p (INR a) (INR b) m <> sum_n_m (fun k => INR k ^ m * p k) a b / fb_moment p m.
Proof.
  exists 2, 1%nat, 1%nat, 1%nat. cbv zeta. rewrite C124_range by lia. rewrite sum_n_n.
  destruct (C124_flory (fun _ _ => 0) 2 ltac:(lra)) as [F _]. rewrite (F 1%nat ltac:(lia)).
  unfold flory_pdf0, flory_a. cbn. lra.
Qed.

Example C124_range_case : quad_disc (flory_pdf0 (flory_a 2)) (INR 1) (INR 2) 1 = 1.
Proof.
  rewrite C124_range by lia. rewrite sum_Sn_m, sum_n_n by lia. unfold plus, flory_pdf0, flory_a; cbn. lra.
Qed.
Example C124_adjacent_case : (1 <= 1 <= 2)%nat /\ (2 <= 3)%nat /\ 0 < INR 2 ^ 1 * flory_pdf0 (flory_a 2) 2.
Proof. repeat split; try lia. unfold flory_pdf0, flory_a; cbn. lra. Qed.
Example C124_cdf_case : (forall k, 0 <= flory_pdf0 (flory_a 2) k) /\
  is_series (fun j => INR (S j) ^ 1 * flory_pdf0 (flory_a 2) (S j)) 2 /\
  fb_cdf (flory_pdf0 (flory_a 2)) (5 / 2) 1 = 1 / 2.
Proof.
  split; [|split].
  - intros k. unfold flory_pdf0, flory_a. apply Rmult_le_pos; [lra|apply pow_le; lra].
  - pose proof (C19_flory_moments (fun _ _ => 0) 2 1 ltac:(lra) ltac:(lia)) as S.
    assert (flory_moment (fun _ _ => 0) (flory_a 2) 1 = 2) as E by (unfold flory_a; cbn; lra). rewrite E in S. exact S.
  - unfold fb_cdf. rewrite quad_disc_0.
    destruct (C124_flory (fun _ _ => 0) 2 ltac:(lra)) as [F _]. rewrite (F 1%nat ltac:(lia)).
    replace (py_int (5 / 2)) with 2%nat.
    + unfold quad_term, flory_pdf0, flory_a; cbn. lra.
    + destruct (py_int_bounds (5 / 2) ltac:(lra)) as [A B].
      assert (INR (py_int (5 / 2)) < INR 3) as L1 by (cbn; lra).
      assert (INR 1 < INR (py_int (5 / 2))) as L2 by (cbn; lra).
      apply INR_lt in L1, L2. lia.
Qed.
Example C124_flory_between_case : 1 < 2 /\ INR 1 < 3 / 2 < INR 1 + 1.
Proof. cbn. lra. Qed.
Example C124_continuous_case : (forall t, continuous (fun z => exp (- z)) t) /\
  fb_cdf_cont (fun z => exp (- z)) (fun _ => 1) 1 0 = 1 - exp (- (1)).
Proof.
  split.
  - intros t. apply (ex_derive_continuous (fun z => exp (- z))). auto_derive. exact I.
  - unfold fb_cdf_cont, quad_cont. rewrite Rdiv_1.
    apply is_RInt_unique. replace (1 - exp (- (1))) with (minus (- exp (- (1))) (- exp (- 0))).
    + apply (is_RInt_derive (fun z => - exp (- z)) (fun z => z ^ 0 * exp (- z))).
      * intros z _. auto_derive; [exact I|]. cbn. ring.
      * intros z _. apply (ex_derive_continuous (fun z => z ^ 0 * exp (- z))). auto_derive. exact I.
    + unfold minus, plus, opp; cbn. rewrite Ropp_0, exp_0. ring.
Qed.

Print Assumptions C124_cdf.
Print Assumptions C124_flory.
Print Assumptions C124_flory_between.
Print Assumptions C124_continuous.
Print Assumptions C124_range.
Print Assumptions C124_adjacent.
Print Assumptions C124_normalisation_refuted.
Print Assumptions C124_poisson.
Print Assumptions C124_dominance.
Print Assumptions C124_mass_below_number.
