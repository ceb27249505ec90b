(** Convolution of moments (C24), polymer standards (C25), Weibull-Nycander-Gold
    distribution (C67), Laguerre reconstruction (C68). *)
From Coq Require Import Reals Lra Lia List Bool Arith.
From Coquelicot Require Import Coquelicot.
From Verif Require Import Prelude DistModel DistFamProps MomModel.
Import ListNotations.
Open Scope R_scope.

Local Ltac eqR := match goal with |- ?a = ?b => change (@eq R a b) end.

(* ------------------------------------------------------------------ *)
(** ** Binomial coefficients *)
(* ------------------------------------------------------------------ *)
Lemma comb_0 n : comb n 0 = 1%nat. Proof. now destruct n. Qed.
Lemma comb_gt n : forall k, (n < k)%nat -> comb n k = 0%nat.
Proof. induction n as [|n IH]; intros [|k] H; try lia; cbn; [reflexivity|]. rewrite !IH by lia. lia. Qed.
Lemma comb_nn n : comb n n = 1%nat.
Proof. induction n as [|n IH]; cbn; [reflexivity|]. rewrite IH, comb_gt by lia. lia. Qed.
Lemma comb_fact n : forall k, (k <= n)%nat -> INR (comb n k) = INR (fact n) / (INR (fact k) * INR (fact (n - k))).
Proof.
  induction n as [|n IH]; intros k Hk.
  - assert (k = 0)%nat as -> by lia. cbn. field.
  - destruct k as [|k].
    + rewrite comb_0, Nat.sub_0_r. change (INR (fact 0)) with 1. change (INR 1) with 1.
      pose proof (INR_fact_neq_0 (S n)). field. auto.
    + cbn [comb]. rewrite plus_INR. destruct (Nat.eq_dec k n) as [->|N].
      * rewrite comb_nn, comb_gt by lia. rewrite Nat.sub_diag. change (INR (fact 0)) with 1.
        pose proof (INR_fact_neq_0 (S n)). cbn [INR]. field. auto.
      * rewrite !IH by lia. replace (S n - S k)%nat with (n - k)%nat by lia.
        replace (n - k)%nat with (S (n - S k)) by lia. set (m := (n - S k)%nat).
        rewrite !fact_simpl, !mult_INR.
        replace (INR (S n)) with (INR (S k) + INR (S m)) by (rewrite <- plus_INR; f_equal; lia).
        pose proof (INR_fact_neq_0 n). pose proof (INR_fact_neq_0 k). pose proof (INR_fact_neq_0 m).
        assert (INR (S k) <> 0) by (apply not_0_INR; lia). assert (INR (S m) <> 0) by (apply not_0_INR; lia).
        field. auto.
Qed.

(* ------------------------------------------------------------------ *)
(** ** Cauchy products *)
(* ------------------------------------------------------------------ *)
Definition conv (f g : nat -> R) (n : nat) : R := sumn (S n) (fun j => f j * g (n - j)%nat).

Lemma sumn_rev n f : sumn (S n) f = sumn (S n) (fun j => f (n - j)%nat).
Proof.
  induction n as [|n IH]; [reflexivity|].
  change (sumn (S (S n)) f) with (sumn (S n) f + f (S n)). rewrite IH, (sumn_S_first (S n) (fun j => f (S n - j)%nat)).
  rewrite Nat.sub_0_r, Rplus_comm. f_equal.
Qed.
Lemma conv_comm f g n : conv f g n = conv g f n.
Proof.
  unfold conv. rewrite sumn_rev. apply sumn_ext. intros i Hi. replace (n - (n - i))%nat with i by lia. ring.
Qed.
Lemma tri_sum n (G : nat -> nat -> R) :
  sumn (S n) (fun j => sumn (S j) (fun l => G l j)) = sumn (S n) (fun l => sumn (S (n - l)) (fun m => G l (l + m)%nat)).
Proof.
  induction n as [|n IH]; [reflexivity|].
  change (sumn (S (S n)) ?f) with (sumn (S n) f + f (S n)). cbv beta. rewrite IH. clear IH.
  rewrite Nat.sub_diag. change (sumn (S (S n)) ?f) with (sumn (S n) f + f (S n)). cbv beta.
  change (sumn 1 ?f) with (0 + f 0%nat). cbv beta. rewrite Nat.add_0_r.
  rewrite <- Rplus_assoc, <- sumn_plus. rewrite Rplus_0_l. f_equal. apply sumn_ext. intros l Hl.
  replace (S n - l)%nat with (S (n - l)) by lia.
  change (sumn (S (S (n - l))) ?f) with (sumn (S (n - l)) f + f (S (n - l))). cbv beta.
  replace (l + S (n - l))%nat with (S n) by lia. reflexivity.
Qed.
Lemma conv_assoc f g h n : conv (conv f g) h n = conv f (conv g h) n.
Proof.
  unfold conv.
  rewrite (sumn_ext _ _ (fun j => sumn (S j) (fun l => f l * g (j - l)%nat * h (n - j)%nat))).
  2:{ intros j _. now rewrite <- sumn_scal_r. }
  rewrite (tri_sum n (fun l j => f l * g (j - l)%nat * h (n - j)%nat)).
  apply sumn_ext. intros l Hl. rewrite <- sumn_scal. apply sumn_ext. intros m Hm.
  replace (l + m - l)%nat with m by lia. replace (n - (l + m))%nat with (n - l - m)%nat by lia. ring.
Qed.

(** Scaled moments. *)
Definition egf (q : list R) (i : nat) : R := nth i q 0 / INR (fact i).

Lemma convolve_ok q r p : convolve_moments q r = Ok p ->
  length r = length q /\ length p = length q /\
  forall i, (i < length q)%nat -> nth i p 0 = sumn (S i) (fun j => INR (comb i j) * nth j q 0 * nth (i - j) r 0).
Proof.
  unfold convolve_moments. destruct (Nat.eqb_spec (length q) (length r)) as [E|]; [|easy].
  intros [= <-]. rewrite map_length, seq_length. repeat split; auto. intros i Hi.
  set (F := fun i => sumn (i + 1) (fun j => INR (comb i j) * nth j q 0 * nth (i - j) r 0)).
  rewrite (nth_indep _ 0 (F 0%nat)) by (now rewrite map_length, seq_length). rewrite (map_nth F), seq_nth by auto.
  unfold F. rewrite Nat.add_0_l, Nat.add_1_r. reflexivity.
Qed.
Lemma convolve_egf q r p : convolve_moments q r = Ok p ->
  forall i, (i < length q)%nat -> egf p i = conv (egf q) (egf r) i.
Proof.
  intros H i Hi. destruct (convolve_ok _ _ _ H) as (_ & _ & E). unfold egf at 1. rewrite (E i Hi).
  unfold conv. rewrite <- sumn_div. apply sumn_ext. intros j Hj. unfold egf. rewrite comb_fact by lia.
  pose proof (INR_fact_neq_0 i). pose proof (INR_fact_neq_0 j). pose proof (INR_fact_neq_0 (i - j)). field. auto.
Qed.
Lemma egf_inj p p' : length p = length p' -> (forall i, (i < length p)%nat -> egf p i = egf p' i) -> p = p'.
Proof.
  intros L H. apply (nth_ext _ _ 0 0); auto. intros i Hi. specialize (H i Hi). unfold egf in H.
  pose proof (INR_fact_neq_0 i). apply (Rmult_eq_reg_r (/ INR (fact i))); [exact H|]. now apply Rinv_neq_0_compat.
Qed.
Lemma convolve_len q r : length q = length r -> exists p, convolve_moments q r = Ok p.
Proof. intros E. unfold convolve_moments. rewrite E, Nat.eqb_refl. eauto. Qed.

(* ------------------------------------------------------------------ *)
(** ** C24 *)
(* ------------------------------------------------------------------ *)
(** A finite random variable: values with probabilities (any real weights). *)
Definition rv := list (R * R).
Definition rsum (f : R -> R) (X : rv) : R := fold_right (fun vp s => snd vp * f (fst vp) + s) 0 X.
Definition rv_moment (X : rv) (n : nat) : R := rsum (fun x => x ^ n) X.
(** Sum of two independent variables. *)
Definition rv_sum (X Y : rv) : rv := flat_map (fun x => map (fun y => (fst x + fst y, snd x * snd y)) Y) X.

Arguments rsum : simpl never.
Lemma rsum_cons f x X : rsum f (x :: X) = snd x * f (fst x) + rsum f X. Proof. reflexivity. Qed.
Lemma rsum_nil f : rsum f [] = 0. Proof. reflexivity. Qed.
Local Ltac rcbn := cbn; rewrite ?rsum_cons, ?rsum_nil.
Lemma rsum_app f X Y : rsum f (X ++ Y) = rsum f X + rsum f Y.
Proof. induction X as [|x X IH]; rcbn; [ring|]. rewrite IH. ring. Qed.
Lemma rsum_indep f X Y : rsum f (rv_sum X Y) = rsum (fun x => rsum (fun y => f (x + y)) Y) X.
Proof.
  induction X as [|[x p] X IH]; [reflexivity|]. cbn [rv_sum flat_map]. rewrite rsum_app.
  change (flat_map _ X) with (rv_sum X Y). rewrite IH. rewrite rsum_cons. cbn [fst snd]. f_equal.
  clear. induction Y as [|[y q] Y IH]; rcbn; [ring|]. rewrite IH. cbn. ring.
Qed.
Lemma rsum_ext f g X : (forall x, f x = g x) -> rsum f X = rsum g X.
Proof. intros H. induction X as [|x X IH]; rcbn; [reflexivity|]. now rewrite IH, H. Qed.
Lemma rsum_sumn n (f : nat -> R -> R) X : rsum (fun x => sumn n (fun j => f j x)) X = sumn n (fun j => rsum (f j) X).
Proof.
  induction X as [|x X IH]; rcbn.
  - now rewrite sumn_zero'.
  - rewrite IH, <- sumn_scal, <- sumn_plus. reflexivity.
Qed.
Lemma rsum_scal c f X : rsum (fun x => c * f x) X = c * rsum f X.
Proof. induction X as [|x X IH]; rcbn; [ring|]. rewrite IH. ring. Qed.
Lemma rsum_scal_r c f X : rsum (fun x => f x * c) X = rsum f X * c.
Proof. induction X as [|x X IH]; rcbn; [ring|]. rewrite IH. ring. Qed.

Lemma binomial_sumn x y n : (x + y) ^ n = sumn (S n) (fun j => INR (comb n j) * x ^ j * y ^ (n - j)).
Proof.
  induction n as [|n IH].
  - cbn. ring.
  - cbn [pow]. rewrite IH.
    rewrite Rmult_plus_distr_r.
    transitivity (sumn (S (S n)) (fun j => INR (match j with O => 0 | S i => comb n i end) * x ^ j * y ^ (S n - j))
                + sumn (S (S n)) (fun j => INR (comb n j) * x ^ j * y ^ (S n - j))).
    + f_equal.
      * rewrite (sumn_S_first (S n)). cbn [INR]. rewrite <- sumn_scal.
        rewrite Rmult_0_l, Rmult_0_l, Rplus_0_l. apply sumn_ext. intros j Hj. cbn [pow].
        replace (S n - S j)%nat with (n - j)%nat by lia. ring.
      * change (sumn (S (S n)) ?f) with (sumn (S n) f + f (S n)). cbv beta. rewrite (comb_gt n (S n)) by lia.
        cbn [INR]. rewrite !Rmult_0_l, Rplus_0_r, <- sumn_scal. apply sumn_ext. intros j Hj.
        replace (S n - j)%nat with (S (n - j)) by lia. cbn [pow]. ring.
    + rewrite <- sumn_plus. apply sumn_ext. intros j _. destruct j as [|j].
      * rewrite !comb_0. cbn [INR]. ring.
      * cbn [comb]. rewrite plus_INR. ring.
Qed.

(** convolve_moments of the moment vectors of X and Y is the moment vector of X + Y. *)
Theorem C24_moments_of_sum : forall X Y N,
  let mv Z := map (rv_moment Z) (seq 0 N) in
  convolve_moments (mv X) (mv Y) = Ok (mv (rv_sum X Y)).
Proof.
  intros X Y N mv.
  assert (L : forall Z, length (mv Z) = N) by (intros; unfold mv; now rewrite map_length, seq_length).
  assert (Hn : forall Z i, (i < N)%nat -> nth i (mv Z) 0 = rv_moment Z i).
  { intros Z i Hi. rewrite (nth_indep _ 0 (rv_moment Z 0)) by (now rewrite L). unfold mv.
    now rewrite map_nth, seq_nth. }
  destruct (convolve_len (mv X) (mv Y)) as [p E]; [now rewrite !L|]. rewrite E. f_equal.
  destruct (convolve_ok _ _ _ E) as (_ & Lp & Ep). rewrite L in *.
  apply (nth_ext _ _ 0 0); [now rewrite L|]. rewrite Lp. intros i Hi. rewrite (Ep i Hi), Hn by auto.
  unfold rv_moment. rewrite rsum_indep.
  rewrite (rsum_ext _ (fun x => sumn (S i) (fun j => INR (comb i j) * x ^ j * rsum (fun y => y ^ (i - j)) Y))).
  2:{ intros x. rewrite (rsum_ext _ (fun y => sumn (S i) (fun j => INR (comb i j) * x ^ j * y ^ (i - j)))) by (intros; apply binomial_sumn).
      rewrite rsum_sumn. apply sumn_ext. intros j _. now rewrite rsum_scal. }
  rewrite rsum_sumn. apply sumn_ext. intros j Hj. rewrite !Hn by lia.
  rewrite rsum_scal_r, rsum_scal. reflexivity.
Qed.

Theorem C24_length_mismatch : forall q r, length q <> length r <-> convolve_moments q r = Err ValueError.
Proof. intros. unfold convolve_moments. destruct (Nat.eqb_spec (length q) (length r)); split; easy. Qed.

Theorem C24_comm : forall q r, length q = length r -> convolve_moments q r = convolve_moments r q.
Proof.
  intros q r L. destruct (convolve_len q r L) as [p E]. destruct (convolve_len r q (eq_sym L)) as [p' E'].
  rewrite E, E'. f_equal. destruct (convolve_ok _ _ _ E) as (_ & Lp & _). destruct (convolve_ok _ _ _ E') as (_ & Lp' & _).
  apply egf_inj; [congruence|]. intros i Hi. rewrite (convolve_egf _ _ _ E), (convolve_egf _ _ _ E') by lia. apply conv_comm.
Qed.

Theorem C24_assoc : forall q r s, length q = length r -> length r = length s ->
  (do p <- convolve_moments q r; convolve_moments p s) = (do p <- convolve_moments r s; convolve_moments q p).
Proof.
  intros q r s L1 L2. destruct (convolve_len q r L1) as [p E]. destruct (convolve_len r s L2) as [p' E'].
  rewrite E, E'. cbn [bind]. destruct (convolve_ok _ _ _ E) as (_ & Lp & _). destruct (convolve_ok _ _ _ E') as (_ & Lp' & _).
  destruct (convolve_len p s ltac:(congruence)) as [t F]. destruct (convolve_len q p' ltac:(congruence)) as [t' F'].
  rewrite F, F'. f_equal. destruct (convolve_ok _ _ _ F) as (_ & Lt & _). destruct (convolve_ok _ _ _ F') as (_ & Lt' & _).
  apply egf_inj; [congruence|]. intros i Hi. rewrite (convolve_egf _ _ _ F), (convolve_egf _ _ _ F') by lia.
  transitivity (conv (conv (egf q) (egf r)) (egf s) i).
  - unfold conv at 1 2. apply sumn_ext. intros j Hj. now rewrite (convolve_egf _ _ _ E) by lia.
  - rewrite conv_assoc. unfold conv at 1 3. apply sumn_ext. intros j Hj. now rewrite (convolve_egf _ _ _ E') by lia.
Qed.

Theorem C24_unit : forall q n, length q = S n -> convolve_moments (1 :: repeat 0 n) q = Ok q.
Proof.
  intros q n L. assert (Lu : length (1 :: repeat 0 n) = length q) by (cbn; rewrite repeat_length; lia).
  destruct (convolve_len _ _ Lu) as [p E]. rewrite E. f_equal.
  destruct (convolve_ok _ _ _ E) as (_ & Lp & Ep). apply (nth_ext _ _ 0 0); [congruence|].
  intros i Hi. rewrite Ep by lia. rewrite sumn_S_first.
  assert (Z : forall m, nth (S m) (1 :: repeat 0 n) 0 = 0) by (intros m; apply nth_repeat).
  rewrite (sumn_ext i (fun j => INR (comb i (S j)) * nth (S j) (1 :: repeat 0 n) 0 * nth (i - S j) q 0) (fun _ => 0))
    by (intros m _; rewrite Z; ring).
  rewrite sumn_zero' by auto. rewrite comb_0, Nat.sub_0_r. cbn. ring.
Qed.

(** k-fold iterated convolution of q with itself. *)
Lemma iter_len q n : forall p, length p = length q -> exists t, convolve_iter q n p = Ok t /\ length t = length q.
Proof.
  induction n as [|n IH]; intros p L; cbn [convolve_iter].
  - eauto.
  - destruct (convolve_len q p) as [t E]; [congruence|]. rewrite E. cbn [bind]. apply IH.
    now destruct (convolve_ok _ _ _ E) as (_ & ? & _).
Qed.
Lemma iter_last q n : forall p, convolve_iter q (S n) p = (do t <- convolve_iter q n p; convolve_moments q t).
Proof.
  induction n as [|n IH]; intros p.
  - cbn. destruct (convolve_moments q p); reflexivity.
  - change (convolve_iter q (S (S n)) p) with (do t <- convolve_moments q p; convolve_iter q (S n) t).
    change (convolve_iter q (S n) p) with (do t <- convolve_moments q p; convolve_iter q n t).
    destruct (convolve_moments q p) as [t|e]; cbn [bind]; [apply IH|reflexivity].
Qed.

(** convolve_moments_self(q, k) is q convolved k times with itself, for every length
    (including the closed forms for up to three moments). *)
Theorem C24_self : forall q k, convolve_moments_self q k = convolve_iter q k q.
Proof.
  intros q k. destruct k as [|k]; [reflexivity|].
  destruct q as [|q0 [|q1 [|q2 [|q3 q]]]]; cbn [convolve_moments_self].
  - assert (H : forall n, convolve_iter [] n [] = Ok []).
    { induction n as [|n IH]; [reflexivity|]. cbn. exact IH. }
    now rewrite H.
  - assert (H : forall n, convolve_iter [q0] n [q0] = Ok [q0 ^ (n + 1)]).
    { induction n as [|n IH]; [cbn; do 2 f_equal; ring|]. rewrite iter_last, IH. cbn. do 2 f_equal.
      ring. }
    now rewrite H.
  - assert (H : forall n, convolve_iter [q0; q1] n [q0; q1] = Ok [q0 ^ (n + 1); (INR n + 1) * q0 ^ n * q1]).
    { induction n as [|n IH]; [cbn; do 2 f_equal; [ring|f_equal; ring]|]. rewrite iter_last, IH. cbn [bind].
      unfold convolve_moments. cbn [length Nat.eqb seq map nth Nat.sub comb sumn Nat.add]. rewrite (S_INR n), Nat.add_1_r.
      change (INR 1) with 1. cbn [pow]. do 2 f_equal; [ring|f_equal; ring]. }
    rewrite H. reflexivity.
  - assert (H : forall n, convolve_iter [q0; q1; q2] (S n) [q0; q1; q2] =
      Ok [q0 ^ (S n + 1); (INR (S n) + 1) * q0 ^ (S n) * q1; (INR (S n) + 1) * q0 ^ n * (INR (S n) * q1 ^ 2 + q0 * q2)]).
    { induction n as [|n IH].
      - cbn. do 2 f_equal; [ring|f_equal; [ring|f_equal; ring]].
      - rewrite iter_last, IH. cbn [bind].
        unfold convolve_moments. cbn [length Nat.eqb seq map nth Nat.sub comb sumn Nat.add]. rewrite (S_INR (S n)), (S_INR n), Nat.add_1_r.
        change (INR 1) with 1. change (INR 2) with (1 + 1). cbn [pow]. do 2 f_equal; [ring|f_equal; [ring|f_equal; ring]]. }
    rewrite H. reflexivity.
  - reflexivity.
Qed.

Example C24_case : convolve_moments [1; 100; 20000] [1; 50; 50000] = Ok [1; 150; 80000].
Proof. cbn. do 2 f_equal; [ring|f_equal; [ring|f_equal; ring]]. Qed.

(* ------------------------------------------------------------------ *)
(** ** C25 *)
(* ------------------------------------------------------------------ *)
(** Hydrodynamic volume K M^(1+a). *)
Definition hydro (K a M : R) : R := K * Rpower M (1 + a).

Lemma cps_pos M K1 K2 a1 a2 : 0 < convert_polymer_standards M K1 K2 a1 a2.
Proof. unfold convert_polymer_standards. apply Rmult_lt_0_compat; apply exp_pos. Qed.

Theorem C25_hydro : forall M K1 K2 a1 a2, 0 < M -> 0 < K1 -> 0 < K2 -> -1 < a2 ->
  hydro K2 a2 (convert_polymer_standards M K1 K2 a1 a2) = hydro K1 a1 M.
Proof.
  intros M K1 K2 a1 a2 HM H1 H2 Ha. unfold hydro, convert_polymer_standards.
  assert (0 < K1 / K2) by now apply Rdiv_lt_0_compat.
  rewrite <- Rpower_mult_distr by apply exp_pos. rewrite !Rpower_mult.
  replace (1 / (1 + a2) * (1 + a2)) with 1 by (field; lra).
  replace ((1 + a1) / (1 + a2) * (1 + a2)) with (1 + a1) by (field; lra).
  rewrite Rpower_1 by auto. field. lra.
Qed.
Lemma hydro_inj K a M M' : 0 < K -> -1 < a -> 0 < M -> 0 < M' -> hydro K a M = hydro K a M' -> M = M'.
Proof.
  intros HK Ha HM HM' E. unfold hydro in E. apply Rmult_eq_reg_l in E; [|lra]. unfold Rpower in E.
  apply exp_inv in E. apply Rmult_eq_reg_l in E; [|lra]. now apply ln_inv.
Qed.
Theorem C25_roundtrip : forall M K1 K2 a1 a2, 0 < M -> 0 < K1 -> 0 < K2 -> -1 < a1 -> -1 < a2 ->
  convert_polymer_standards (convert_polymer_standards M K1 K2 a1 a2) K2 K1 a2 a1 = M.
Proof.
  intros. apply (hydro_inj K1 a1); auto using cps_pos. rewrite !C25_hydro; auto using cps_pos.
Qed.
Theorem C25_via : forall M K1 K2 K3 a1 a2 a3, 0 < M -> 0 < K1 -> 0 < K2 -> 0 < K3 -> -1 < a1 -> -1 < a2 -> -1 < a3 ->
  convert_polymer_standards (convert_polymer_standards M K1 K2 a1 a2) K2 K3 a2 a3 = convert_polymer_standards M K1 K3 a1 a3.
Proof.
  intros. apply (hydro_inj K3 a3); auto using cps_pos. rewrite !C25_hydro; auto using cps_pos.
Qed.
Theorem C25_increasing : forall M M' K1 K2 a1 a2, 0 < M < M' -> 0 < K1 -> 0 < K2 -> -1 < a1 -> -1 < a2 ->
  convert_polymer_standards M K1 K2 a1 a2 < convert_polymer_standards M' K1 K2 a1 a2.
Proof.
  intros M M' K1 K2 a1 a2 HM H1 H2 Ha1 Ha2. unfold convert_polymer_standards. apply Rmult_lt_compat_l; [apply exp_pos|].
  unfold Rpower. apply exp_increasing. apply Rmult_lt_compat_l; [apply Rdiv_lt_0_compat; lra|]. apply ln_increasing; lra.
Qed.
Theorem C25_identity : forall M K a, 0 < M -> 0 < K -> -1 < a -> convert_polymer_standards M K K a a = M.
Proof. intros. apply (hydro_inj K a); auto using cps_pos. now rewrite C25_hydro. Qed.

Example C25_case : convert_polymer_standards 100 4 1 0 1 = 20.
Proof.
  apply (hydro_inj 1 1); try lra; [apply cps_pos|]. rewrite C25_hydro by lra. unfold hydro.
  replace (1 + 0) with 1 by ring. replace (1 + 1) with (INR 2) by (cbn; ring). rewrite Rpower_1, Rpower_pow by lra. cbn. ring.
Qed.

(* ------------------------------------------------------------------ *)
(** ** C67: Weibull-Nycander-Gold distribution *)
(* ------------------------------------------------------------------ *)
Lemma lim_scal_l (u : nat -> R) (c l : R) : is_lim_seq u l -> is_lim_seq (fun n => c * u n) (c * l).
Proof. intros H. exact (is_lim_seq_scal_l u c l H). Qed.
Lemma lim_scal_r (u : nat -> R) (c l : R) : is_lim_seq u l -> is_lim_seq (fun n => u n * c) (l * c).
Proof. intros H. exact (is_lim_seq_scal_r u c l H). Qed.
Definition expn (x : R) (n : nat) : R := sumn n (fun j => x ^ j / INR (fact j)).
Lemma expn_lim x : is_lim_seq (expn x) (exp x).
Proof.
  apply is_lim_seq_incr_1. pose proof (ff_series x 0) as H. unfold is_series in H.
  replace (exp x) with (x ^ 0 * exp x) by (cbn; ring).
  apply is_lim_seq_ext with (sum_n (fun j => ff j 0 * x ^ j / INR (fact j))); [|exact H].
  intros n. rewrite sum_n_sumn. unfold expn. apply sumn_ext. intros j _. cbn [ff]. unfold Rdiv. ring.
Qed.
Lemma expn1_lim x : is_lim_seq (fun n => sumn n (fun j => INR j * (x ^ j / INR (fact j)))) (x * exp x).
Proof.
  apply is_lim_seq_incr_1. pose proof (ff_series x 1) as H. unfold is_series in H.
  replace (x * exp x) with (x ^ 1 * exp x) by (cbn; ring).
  apply is_lim_seq_ext with (sum_n (fun j => ff j 1 * x ^ j / INR (fact j))); [|exact H].
  intros n. rewrite sum_n_sumn. apply sumn_ext. intros j _. destruct j; cbn [ff]; [cbn|]; unfold Rdiv; ring.
Qed.
Definition tailP (a : R) (k : nat) : R := 1 - exp (- a) * expn a k.
Lemma tailP_S a k : tailP a (S k) = tailP a k - exp (- a) * (a ^ k / INR (fact k)).
Proof. unfold tailP, expn. cbn [sumn]. ring. Qed.

Lemma exp_m_p a : exp (- a) * exp a = 1.
Proof. rewrite <- exp_plus, <- exp_0. f_equal. ring. Qed.

Lemma tail_bound a b k m : Rabs b ^ k * Rabs (expn a (k + m) - expn a k)
  <= expn (Rmax 1 (Rabs b) * Rabs a) (k + m) - expn (Rmax 1 (Rabs b) * Rabs a) k.
Proof.
  induction m as [|m IH].
  - rewrite Nat.add_0_r. rewrite Rminus_eq_0, Rabs_R0. lra.
  - replace (k + S m)%nat with (S (k + m)) by lia.
    set (c := Rmax 1 (Rabs b)) in *.
    assert (Hc1 : 1 <= c) by apply Rmax_l. assert (Hcb : Rabs b <= c) by apply Rmax_r.
    change (expn ?x (S ?n)) with (expn x n + x ^ n / INR (fact n)).
    set (n := (k + m)%nat) in *.
    pose proof (INR_fact_lt_0 n) as Fp.
    assert (K : Rabs b ^ k * Rabs (a ^ n / INR (fact n)) <= (c * Rabs a) ^ n / INR (fact n)).
    { unfold Rdiv. rewrite Rabs_mult, (Rabs_pos_eq (/ INR (fact n))) by (left; now apply Rinv_0_lt_compat).
      rewrite <- RPow_abs, <- Rmult_assoc. apply Rmult_le_compat_r; [left; now apply Rinv_0_lt_compat|].
      rewrite Rpow_mult_distr. apply Rmult_le_compat_r; [apply pow_le, Rabs_pos|].
      apply Rle_trans with (c ^ k); [apply pow_incr; split; [apply Rabs_pos|auto]|].
      apply Rle_pow; [auto|unfold n; lia]. }
    assert (T : Rabs (expn a n + a ^ n / INR (fact n) - expn a k) <= Rabs (expn a n - expn a k) + Rabs (a ^ n / INR (fact n))).
    { replace (expn a n + a ^ n / INR (fact n) - expn a k) with ((expn a n - expn a k) + a ^ n / INR (fact n)) by ring. apply Rabs_triang. }
    assert (0 <= Rabs b ^ k) by apply pow_le, Rabs_pos. nra.
Qed.

Lemma tail0 a b : is_lim_seq (fun k => b ^ k * tailP a k) 0.
Proof.
  set (x := Rmax 1 (Rabs b) * Rabs a).
  apply is_lim_seq_abs_0.
  apply is_lim_seq_le_le with (fun _ => 0) (fun k => exp (- a) * (exp x - expn x k)).
  - intros k. split; [apply Rabs_pos|].
    assert (E : tailP a k = exp (- a) * (exp a - expn a k)).
    { unfold tailP. rewrite Rmult_minus_distr_l, exp_m_p. reflexivity. }
    rewrite E, !Rabs_mult, (Rabs_pos_eq (exp (- a))) by (left; apply exp_pos).
    rewrite <- RPow_abs.
    replace (Rabs b ^ k * (exp (- a) * Rabs (exp a - expn a k))) with (exp (- a) * (Rabs b ^ k * Rabs (exp a - expn a k))) by ring.
    apply Rmult_le_compat_l; [left; apply exp_pos|].
    apply (is_lim_seq_le (fun m => Rabs b ^ k * Rabs (expn a (k + m) - expn a k)) (fun m => expn x (k + m) - expn x k)
             (Rabs b ^ k * Rabs (exp a - expn a k)) (exp x - expn x k)).
    + intros m. apply tail_bound.
    + assert (L : is_lim_seq (fun m => Rabs (expn a (k + m) - expn a k)) (Rabs (exp a - expn a k))).
      { apply (is_lim_seq_abs _ (exp a - expn a k)). apply is_lim_seq_minus'; [|apply is_lim_seq_const].
        apply is_lim_seq_ext with (fun m => expn a (m + k)); [intros; now rewrite Nat.add_comm|].
        apply (is_lim_seq_incr_n (expn a) k (exp a)). apply expn_lim. }
      apply (is_lim_seq_scal_l _ (Rabs b ^ k) _ L).
    + apply is_lim_seq_minus'; [|apply is_lim_seq_const].
      apply is_lim_seq_ext with (fun m => expn x (m + k)); [intros; now rewrite Nat.add_comm|].
      apply (is_lim_seq_incr_n (expn x) k (exp x)). apply expn_lim.
  - apply is_lim_seq_const.
  - replace 0 with (exp (- a) * (exp x - exp x)) by ring.
    apply (is_lim_seq_scal_l (fun k => exp x - expn x k) (exp (- a)) (exp x - exp x)).
    apply is_lim_seq_minus'; [apply is_lim_seq_const|apply expn_lim].
Qed.
Lemma tail1 a b : is_lim_seq (fun k => INR k * (b ^ k * tailP a k)) 0.
Proof.
  apply is_lim_seq_abs_0.
  apply is_lim_seq_le_le with (fun _ => 0) (fun k => Rabs ((2 * b) ^ k * tailP a k)).
  - intros k. split; [apply Rabs_pos|]. rewrite Rpow_mult_distr, !Rabs_mult.
    rewrite Rmult_assoc. apply Rmult_le_compat_r; [apply Rmult_le_pos; apply Rabs_pos|].
    rewrite (Rabs_pos_eq (INR k)) by apply pos_INR. rewrite (Rabs_pos_eq (2 ^ k)) by (apply pow_le; lra).
    clear. induction k as [|k IH]; [cbn; lra|]. rewrite S_INR. cbn [pow].
    assert (1 <= 2 ^ k) by (apply pow_R1_Rle; lra). lra.
  - apply is_lim_seq_const.
  - apply -> is_lim_seq_abs_0. apply tail0.
Qed.

Lemma gold_series (a b p c : R) : b <> 1 ->
  is_series (fun k => match k with O => p | S _ => c * (b ^ k * tailP a k) end)
    (p + c * (b / (b - 1) * (exp (a * (b - 1)) - 1))).
Proof.
  intros Hb.
  apply (is_series_telescope _ (fun K => p + c * ((b ^ S K * tailP a (S K) - b + b * exp (- a) * expn (a * b) (S K)) / (b - 1)))).
  - cbn [pow]. rewrite tailP_S. unfold tailP, expn. cbn. eqR. field. lra.
  - intros K. rewrite (tailP_S a (S K)). change (expn (a * b) (S (S K))) with (expn (a * b) (S K) + (a * b) ^ S K / INR (fact (S K))).
    rewrite Rpow_mult_distr. pose proof (INR_fact_neq_0 (S K)). cbn [pow]. eqR. field. split; solve [auto|lra].
  - replace (p + c * (b / (b - 1) * (exp (a * (b - 1)) - 1)))
      with (p + c * ((0 - b + b * exp (- a) * exp (a * b)) / (b - 1))).
    2:{ replace (a * (b - 1)) with (- a + a * b) by ring. rewrite exp_plus. field. lra. }
    apply is_lim_seq_plus'; [apply is_lim_seq_const|].
    unfold Rdiv. apply (lim_scal_l _ c). apply (lim_scal_r _ (/ (b - 1))).
    apply is_lim_seq_plus'.
    + apply is_lim_seq_minus'; [|apply is_lim_seq_const]. apply (is_lim_seq_incr_1 (fun k => b ^ k * tailP a k)). apply tail0.
    + apply (lim_scal_l _ (b * exp (- a))). apply (is_lim_seq_incr_1 (expn (a * b))). apply expn_lim.
Qed.

Lemma gold_series1 (a b p c : R) : b <> 1 ->
  is_series (fun k => INR k * match k with O => p | S _ => c * (b ^ k * tailP a k) end)
    (c * (b / (b - 1) ^ 2 * (1 + exp (a * (b - 1)) * (a * b * (b - 1) - 1)))).
Proof.
  intros Hb.
  set (al := / (b - 1)). set (be := - b / (b - 1) ^ 2).
  set (G := fun k => al * (INR k * (b ^ k * tailP a k)) + be * (b ^ k * tailP a k)).
  set (F := fun n => al * sumn n (fun j => INR j * ((a * b) ^ j / INR (fact j))) + (al + be) * expn (a * b) n).
  assert (Hab : al + be = - / (b - 1) ^ 2) by (unfold al, be; field; lra).
  apply (is_series_telescope _ (fun K => c * (G (S K) - b * (al + be) + exp (- a) * b * F (S K)))).
  - unfold G, F. cbn [pow]. rewrite tailP_S. unfold tailP, expn. cbn. eqR. field.
  - intros K. unfold G, F. rewrite (tailP_S a (S K)).
    change (expn (a * b) (S (S K))) with (expn (a * b) (S K) + (a * b) ^ S K / INR (fact (S K))).
    change (sumn (S (S K)) ?f) with (sumn (S K) f + f (S K)). cbv beta.
    rewrite Rpow_mult_distr. pose proof (INR_fact_neq_0 (S K)).
    rewrite (S_INR (S K)). change (b ^ S (S K)) with (b * b ^ S K).
    unfold al, be. eqR. field. split; solve [auto|lra].
  - replace (c * (b / (b - 1) ^ 2 * (1 + exp (a * (b - 1)) * (a * b * (b - 1) - 1))))
      with (c * ((al * 0 + be * 0) - b * (al + be) + exp (- a) * b * (al * (a * b * exp (a * b)) + (al + be) * exp (a * b)))).
    2:{ replace (a * (b - 1)) with (- a + a * b) by ring. rewrite exp_plus. rewrite Hab. unfold al. field. lra. }
    apply (lim_scal_l _ c). apply is_lim_seq_plus'.
    + apply is_lim_seq_minus'; [|apply is_lim_seq_const]. apply (is_lim_seq_incr_1 G). unfold G.
      apply is_lim_seq_plus'; [apply (lim_scal_l _ al); apply tail1|apply (lim_scal_l _ be); apply tail0].
    + apply (lim_scal_l _ (exp (- a) * b)). apply (is_lim_seq_incr_1 F). unfold F.
      apply is_lim_seq_plus'; [apply (lim_scal_l _ al); apply expn1_lim|apply (lim_scal_l _ (al + be)); apply expn_lim].
Qed.

(** Normalisation and mean for r different from 1 and 0 < p0 < 1. *)
Lemma gold_both (pdf : nat -> R) (p0 r : R) : 0 < p0 -> 0 < r -> r <> 1 ->
  (forall k, pdf k = match k with O => p0 | S _ => p0 / r * ((r / (r - 1)) ^ k * tailP ((1 - r) * ln p0) k) end) ->
  is_series pdf 1 /\ is_series (fun k => INR k * pdf k) (- (r * ln p0 + (r - 1) * (1 - p0))).
Proof.
  intros Hp Hr Hne E.
  set (b := r / (r - 1)) in *. set (a := (1 - r) * ln p0) in *.
  assert (Hb : b <> 1). { unfold b. intros Q. apply (f_equal (fun x => x * (r - 1))) in Q. unfold Rdiv in Q. rewrite Rmult_assoc, Rinv_l in Q by lra. lra. }
  assert (Eb : a * (b - 1) = - ln p0) by (unfold a, b; field; lra).
  split.
  - apply (is_series_ext (fun k => match k with O => p0 | S _ => p0 / r * (b ^ k * tailP a k) end)); [intros; now rewrite E|].
    replace 1 with (p0 + p0 / r * (b / (b - 1) * (exp (a * (b - 1)) - 1))); [now apply gold_series|].
    rewrite Eb, exp_Ropp, exp_ln by auto. unfold b. field. repeat split; lra.
  - apply (is_series_ext (fun k => INR k * match k with O => p0 | S _ => p0 / r * (b ^ k * tailP a k) end)); [intros; now rewrite E|].
    replace (- (r * ln p0 + (r - 1) * (1 - p0))) with (p0 / r * (b / (b - 1) ^ 2 * (1 + exp (a * (b - 1)) * (a * b * (b - 1) - 1)))); [now apply gold_series1|].
    replace (a * b * (b - 1)) with (a * (b - 1) * b) by ring.
    rewrite Eb, exp_Ropp, exp_ln by auto. unfold b. field. repeat split; lra.
Qed.

(** The lower regularised incomplete gamma function at positive integers. *)
Definition gammainc_int (inc : R -> R -> R) :=
  forall k a, 0 < a -> (1 <= k)%nat -> inc (INR k) a = 1 - exp (- a) * sumn k (fun j => a ^ j / INR (fact j)).

(** The pdf sums to one for every p0; its mean is v exactly when p0 solves the
    equation handed to Brent's method. *)
Theorem C67_gold_gt1 : forall inc p0 r v, gammainc_int inc -> 0 < p0 < 1 -> 1 < r ->
  is_series (gold_pdf_gt1 inc p0 r) 1 /\
  (is_series (fun k => INR k * gold_pdf_gt1 inc p0 r k) v <-> gold_find_p0 v r p0 = 0).
Proof.
  intros inc p0 r v Hi Hp Hr.
  destruct (gold_both (gold_pdf_gt1 inc p0 r) p0 r) as [A B]; try lra.
  { intros [|k]; [reflexivity|]. unfold gold_pdf_gt1.
    assert (ln p0 < 0) by (rewrite <- ln_1; apply ln_increasing; lra).
    rewrite Hi by (try lia; nra). fold (expn ((1 - r) * ln p0) (S k)). fold (tailP ((1 - r) * ln p0) (S k)).
    assert (0 < r / (r - 1)) by (apply Rdiv_lt_0_compat; lra).
    rewrite exp_plus, exp_ln by (apply Rdiv_lt_0_compat; lra).
    assert (exp (INR (S k) * ln (r / (r - 1))) = (r / (r - 1)) ^ S k) as -> by (now apply (Rpower_pow (S k))). ring. }
  split; [exact A|]. unfold gold_find_p0. split.
  - intros C. apply is_series_unique in B. apply is_series_unique in C. rewrite B in C. lra.
  - intros C. replace v with (- (r * ln p0 + (r - 1) * (1 - p0))) by lra. exact B.
Qed.

Lemma gold_loop_ok a n : forall j s S0, (1 <= j)%nat -> s = a ^ (j - 1) / INR (fact (j - 1)) -> S0 = expn a j ->
  gold_loop a j n s S0 = expn a (j + n).
Proof.
  induction n as [|n IH]; intros j s S0 Hj Hs HS; cbn [gold_loop].
  - now rewrite Nat.add_0_r.
  - replace (j + S n)%nat with (S j + n)%nat by lia.
    assert (E : s * (a / INR j) = a ^ j / INR (fact j)).
    { rewrite Hs. destruct j as [|j]; [lia|]. replace (S j - 1)%nat with j by lia. rewrite fact_simpl, mult_INR. cbn [pow].
      pose proof (INR_fact_neq_0 j). assert (INR (S j) <> 0) by (apply not_0_INR; lia). field. auto. }
    apply IH; [lia| |].
    + rewrite E. now replace (S j - 1)%nat with j by lia.
    + rewrite E, HS. reflexivity.
Qed.
Lemma gold_S_ok a k : (1 <= k)%nat -> gold_S a k = expn a k.
Proof.
  intros Hk. unfold gold_S. rewrite (gold_loop_ok a (k - 1) 1 1 1); [f_equal; lia|lia|cbn; field|unfold expn; cbn; field].
Qed.

Theorem C67_gold_lt1 : forall p0 r v, 0 < p0 < 1 -> 0 < r < 1 ->
  is_series (gold_pdf_lt1 p0 r) 1 /\
  (is_series (fun k => INR k * gold_pdf_lt1 p0 r k) v <-> gold_find_p0 v r p0 = 0).
Proof.
  intros p0 r v Hp Hr.
  destruct (gold_both (gold_pdf_lt1 p0 r) p0 r) as [A B]; try lra.
  { intros [|k]; [reflexivity|]. unfold gold_pdf_lt1. rewrite gold_S_ok by lia. fold (tailP ((1 - r) * ln p0) (S k)).
    assert (0 < r / (1 - r)) by (apply Rdiv_lt_0_compat; lra).
    rewrite exp_plus, exp_ln by (apply Rdiv_lt_0_compat; lra).
    assert (exp (INR (S k) * ln (r / (1 - r))) = (r / (1 - r)) ^ S k) as -> by (now apply (Rpower_pow (S k))).
    replace (r / (r - 1)) with (r / (1 - r) * -1) by (field; lra). rewrite Rpow_mult_distr. ring. }
  split; [exact A|]. unfold gold_find_p0. split.
  - intros C. apply is_series_unique in B. apply is_series_unique in C. rewrite B in C. lra.
  - intros C. replace v with (- (r * ln p0 + (r - 1) * (1 - p0))) by lia || lra. exact B.
Qed.

(** The bracket handed to Brent's method is valid whenever it is used, and the limiting
    p0 is a probability. *)
Theorem C67_gold_bracket : forall eps v r, 0 < eps < 1 -> 0 < v ->
  (gold_find_p0 v r eps < 0 -> gold_find_p0 v r eps * gold_find_p0 v r 1 < 0) /\
  (0 < r -> 1 < v + r -> 0 < exp ((1 - v - r) / r) < 1).
Proof.
  intros eps v r He Hv. split.
  - intros H. assert (E : gold_find_p0 v r 1 = v) by (unfold gold_find_p0; rewrite ln_1; ring). rewrite E. nra.
  - intros Hr H. split; [apply exp_pos|]. apply Rlt_le_trans with (exp 0); [|rewrite exp_0; lra]. apply exp_increasing.
    apply (Rmult_lt_reg_r r); [auto|]. unfold Rdiv. rewrite Rmult_assoc, Rinv_l by lra. lra.
Qed.

(** Finding: a scalar chain length gives an array when |r - 1| < 1e-3 and a scalar otherwise. *)
Theorem C67_gold_scalar_refuted : exists r r', gold_shape true r = Array /\ gold_shape true r' = Scalar.
Proof.
  exists 1, 2. unfold gold_shape. split.
  - replace (1 - 1) with 0 by ring. rewrite Rabs_R0.
    assert (Rltb 0 (1 / 1000) = true) as -> by (rdec; lra). reflexivity.
  - replace (2 - 1) with 1 by ring. rewrite Rabs_R1.
    assert (Rltb 1 (1 / 1000) = false) as -> by (rdec; lra). reflexivity.
Qed.

Example C67_case : gold_S 2 3 = 1 + 2 + 2.
Proof. unfold gold_S. cbn. field. Qed.

(* ------------------------------------------------------------------ *)
(** ** C68: Laguerre reconstruction reproduces its moments *)
(* ------------------------------------------------------------------ *)
(** Alternating binomial transform. *)
Definition bt (g : nat -> R) (m : nat) : R := sumn (S m) (fun i => INR (comb m i) * (-1) ^ i * g i).
Lemma bt_ext f g m : (forall i, (i <= m)%nat -> f i = g i) -> bt f m = bt g m.
Proof. intros H. apply sumn_ext. intros i Hi. rewrite H by lia. reflexivity. Qed.
Lemma bt_wide g m N : (m < N)%nat -> sumn N (fun i => INR (comb m i) * (-1) ^ i * g i) = bt g m.
Proof.
  intros H. unfold bt. replace N with (S m + (N - S m))%nat by lia. rewrite sumn_add.
  rewrite (sumn_zero' (N - S m)); [ring|]. intros i Hi. rewrite comb_gt by lia. cbn [INR]. ring.
Qed.
Lemma bt_step g m : bt g (S m) = bt g m - bt (fun i => g (S i)) m.
Proof.
  rewrite <- (bt_wide g m (S (S m))) by lia. unfold bt.
  rewrite (sumn_S_first (S m)), (sumn_S_first (S m)). rewrite !comb_0.
  assert (E : sumn (S m) (fun i => INR (comb (S m) (S i)) * (-1) ^ S i * g (S i)) =
    sumn (S m) (fun i => INR (comb m (S i)) * (-1) ^ S i * g (S i)) - sumn (S m) (fun i => INR (comb m i) * (-1) ^ i * g (S i))).
  { rewrite <- sumn_minus. apply sumn_ext. intros i _. cbn [comb pow]. rewrite plus_INR. ring. }
  rewrite E. ring.
Qed.
Lemma bt_minus f g m : bt (fun i => f i - g i) m = bt f m - bt g m.
Proof. unfold bt. rewrite <- sumn_minus. apply sumn_ext. intros; ring. Qed.
Lemma bt_scal c f m : bt (fun i => c * f i) m = c * bt f m.
Proof. unfold bt. rewrite <- sumn_scal. apply sumn_ext. intros; ring. Qed.
Lemma bt_involutive j : forall g, bt (bt g) j = g j.
Proof.
  induction j as [|j IH]; intros g.
  - unfold bt. cbn. ring.
  - rewrite bt_step. rewrite (bt_ext (fun i => bt g (S i)) (fun i => bt g i - bt (fun n => g (S n)) i)) by (intros; apply bt_step).
    rewrite bt_minus, IH, IH. ring.
Qed.
(** Finite differences of binomials. *)
Lemma bt_comb m : forall a j, bt (fun i => INR (comb (i + a) j)) m = if (m <=? j)%nat then (-1) ^ m * INR (comb a (j - m)) else 0.
Proof.
  induction m as [|m IH]; intros a j.
  - unfold bt. cbn [sumn comb Nat.add Nat.leb pow]. rewrite Nat.sub_0_r. cbn [INR]. ring.
  - rewrite bt_step, IH.
    rewrite (bt_ext (fun i => INR (comb (S i + a) j)) (fun i => INR (comb (i + S a) j))) by (intros; do 2 f_equal; lia).
    rewrite IH. destruct (Nat.leb_spec m j) as [L|L]; destruct (Nat.leb_spec (S m) j) as [L'|L']; try lia.
    + replace (j - m)%nat with (S (j - S m)) by lia. cbn [comb]. rewrite plus_INR. cbn [pow]. ring.
    + replace (j - m)%nat with 0%nat by lia. rewrite !comb_0. ring.
    + ring.
Qed.
Lemma comb_sym n k : (k <= n)%nat -> INR (comb n (n - k)) = INR (comb n k).
Proof.
  intros H. rewrite !comb_fact by lia. replace (n - (n - k))%nat with k by lia.
  pose proof (INR_fact_neq_0 k). pose proof (INR_fact_neq_0 (n - k)). field. auto.
Qed.
(** The j-th moment of e^-x L_m(x), given that of x^n is n!. *)
Lemma laguerre_coef m j :
  sumn (m + 1) (fun i => INR (comb m i) * (-1) ^ i / INR (fact i) * INR (fact (i + j))) = INR (fact j) * ((-1) ^ m * INR (comb j m)).
Proof.
  rewrite Nat.add_1_r.
  transitivity (bt (fun i => INR (fact j) * INR (comb (i + j) j)) m).
  - apply sumn_ext. intros i _. rewrite (comb_fact (i + j) j) by lia. replace (i + j - j)%nat with i by lia.
    pose proof (INR_fact_neq_0 i). pose proof (INR_fact_neq_0 j). field. auto.
  - rewrite bt_scal, bt_comb. f_equal. destruct (Nat.leb_spec m j).
    + now rewrite comb_sym.
    + rewrite (comb_gt j m) by lia. cbn [INR]. ring.
Qed.

(** Antiderivative of x^k e^(-x/D). *)
Definition antider (D : R) (k : nat) (X : R) : R :=
  INR (fact k) * D ^ S k * (1 - exp (- (X / D)) * sumn (S k) (fun i => (X / D) ^ i / INR (fact i))).
Lemma antider_0 D k : 0 < D -> antider D k 0 = 0.
Proof.
  intros HD. unfold antider. rewrite sumn_S_first, sumn_zero'.
  - replace (- (0 / D)) with 0 by (field; lra). rewrite exp_0. cbn. field.
  - intros i _. unfold Rdiv. rewrite !Rmult_0_l. cbn [pow]. ring.
Qed.
Lemma antider_derive D k x : 0 < D -> is_derive (antider D k) x (x ^ k * exp (- (x / D))).
Proof.
  intros HD. induction k as [|k IH].
  - unfold antider. apply is_derive_ext with (fun X => D * (1 - exp (- (X / D)))).
    { intros t. cbn. eqR. field. }
    auto_derive; [auto|]. cbn. unfold Rdiv. field. lra.
  - assert (E : forall X, antider D (S k) X = INR (S k) * D * antider D k X - D * X ^ S k * exp (- (X / D))).
    { intros X. unfold antider. rewrite fact_simpl, mult_INR.
      change (sumn (S (S k)) ?f) with (sumn (S k) f + f (S k)). cbv beta. rewrite fact_simpl, mult_INR.
      assert (P : (X / D) ^ S k = X ^ S k / D ^ S k) by (unfold Rdiv; rewrite Rpow_mult_distr, pow_inv; reflexivity). rewrite P.
      assert (INR (S k) <> 0) by (apply not_0_INR; lia). pose proof (INR_fact_neq_0 k).
      assert (D ^ S k <> 0) by (apply pow_nonzero; lra). change (D ^ S (S k)) with (D * D ^ S k). field. auto. }
    apply is_derive_ext with (fun X => INR (S k) * D * antider D k X - D * X ^ S k * exp (- (X / D))); [intros; now rewrite E|].
    assert (D2 : is_derive (fun X => D * X ^ S k * exp (- (X / D))) x (D * INR (S k) * x ^ k * exp (- (x / D)) - x ^ S k * exp (- (x / D)))).
    { auto_derive; [auto|]. change (match k with O => 1 | S _ => INR k + 1 end) with (INR (S k)).
      replace (pred (S k)) with k by reflexivity. unfold Rdiv. cbn [pow]. field. lra. }
    pose proof (is_derive_minus _ _ _ _ _ (is_derive_scal _ x (INR (S k) * D) _ IH) D2) as DD.
    refine (eq_ind _ (fun l => is_derive _ x l) DD _ _).
    unfold minus, plus, opp; cbn [AbelianGroup.plus AbelianGroup.opp]. cbn. eqR. ring.
Qed.
Lemma lim_exp_pow n : is_lim (fun x => x ^ n * exp (- x)) p_infty 0.
Proof.
  (* x^n <= (n+1)! e^x / x for x > 0 *)
  assert (B : forall m x, 0 <= x -> x ^ m <= INR (fact m) * exp x).
  { intros m x Hx. pose proof (expn_lim x) as L.
    assert (I : forall k, expn x k <= exp x).
    { intros k. apply (is_lim_seq_incr_compare (expn x) (exp x) L).
      intros i. unfold expn; cbn [sumn]. assert (0 <= x ^ i / INR (fact i)); [|lra].
      apply Rmult_le_pos; [now apply pow_le|left; apply Rinv_0_lt_compat, INR_fact_lt_0]. }
    specialize (I (S m)). unfold expn in I. cbn [sumn] in I. pose proof (INR_fact_lt_0 m) as F.
    assert (0 <= sumn m (fun j => x ^ j / INR (fact j))).
    { apply sumn_nonneg. intros i _. apply Rmult_le_pos; [now apply pow_le|left; apply Rinv_0_lt_compat, INR_fact_lt_0]. }
    apply (Rmult_le_reg_r (/ INR (fact m))); [now apply Rinv_0_lt_compat|].
    replace (INR (fact m) * exp x * / INR (fact m)) with (exp x) by (field; lra). unfold Rdiv in *. lra. }
  apply is_lim_le_le_loc with (fun _ => 0) (fun x => INR (fact (S n)) * / x).
  - exists 1. intros x Hx. assert (0 < x) by lra. split.
    + apply Rmult_le_pos; [apply pow_le; lra|left; apply exp_pos].
    + pose proof (B (S n) x ltac:(lra)) as Q. cbn [pow] in Q.
      apply (Rmult_le_reg_l (x * exp x)); [apply Rmult_lt_0_compat; [auto|apply exp_pos]|].
      rewrite exp_Ropp. pose proof (exp_pos x).
      replace (x * exp x * (x ^ n * / exp x)) with (x * x ^ n) by (field; lra).
      replace (x * exp x * (INR (fact (S n)) * / x)) with (INR (fact (S n)) * exp x) by (field; lra). exact Q.
  - apply is_lim_const.
  - replace (Finite 0) with (Rbar_mult (INR (fact (S n))) 0) by (cbn; f_equal; ring).
    apply is_lim_scal_l. replace (Finite 0) with (Rbar_inv p_infty) by reflexivity. apply is_lim_inv; [apply is_lim_id|easy].
Qed.
Lemma is_lim_sumn n (f : nat -> R -> R) (l : nat -> R) :
  (forall i, (i < n)%nat -> is_lim (f i) p_infty (l i)) -> is_lim (fun x => sumn n (fun i => f i x)) p_infty (sumn n l).
Proof.
  induction n as [|n IH]; intros H; cbn [sumn]; [apply is_lim_const|].
  apply (is_lim_plus' (fun x => sumn n (fun i => f i x)) (f n)); [apply IH; auto|apply H; lia].
Qed.
Lemma antider_lim D k : 0 < D -> is_lim (antider D k) p_infty (INR (fact k) * D ^ S k).
Proof.
  intros HD.
  assert (L : is_lim (fun x => sumn (S k) (fun i => / INR (fact i) * (x ^ i * exp (- x)))) p_infty (sumn (S k) (fun i => / INR (fact i) * 0))).
  { apply is_lim_sumn. intros i _. exact (is_lim_scal_l _ (/ INR (fact i)) p_infty 0 (lim_exp_pow i)). }
  assert (LD : is_lim (fun X => X / D) p_infty p_infty).
  { replace p_infty with (Rbar_mult p_infty (/ D)) at 2.
    - exact (is_lim_scal_r (fun X => X) (/ D) p_infty p_infty (is_lim_id p_infty)).
    - cbn. destruct (Rle_dec 0 (/ D)) as [q|q]; [destruct (Rle_lt_or_eq_dec 0 (/ D) q) as [|e]; [reflexivity|]|].
      + pose proof (Rinv_0_lt_compat D HD). lra.
      + pose proof (Rinv_0_lt_compat D HD). lra. }
  assert (L2 : is_lim (fun X => sumn (S k) (fun i => / INR (fact i) * ((X / D) ^ i * exp (- (X / D))))) p_infty (sumn (S k) (fun i => / INR (fact i) * 0))).
  { apply (is_lim_comp (fun x => sumn (S k) (fun i => / INR (fact i) * (x ^ i * exp (- x)))) (fun X => X / D) p_infty _ p_infty L LD).
    exists 0. intros; easy. }
  replace (INR (fact k) * D ^ S k) with (INR (fact k) * D ^ S k * (1 - sumn (S k) (fun i => / INR (fact i) * 0))).
  2:{ rewrite sumn_zero' by (intros; ring). ring. }
  apply is_lim_ext with (fun X => INR (fact k) * D ^ S k * (1 - sumn (S k) (fun i => / INR (fact i) * ((X / D) ^ i * exp (- (X / D)))))).
  { intros X. unfold antider. do 2 f_equal. rewrite <- sumn_scal. apply sumn_ext. intros i _. unfold Rdiv. ring. }
  refine (is_lim_scal_l _ (INR (fact k) * D ^ S k) p_infty (Finite (1 - sumn (S k) (fun i => / INR (fact i) * 0))) _).
  apply (is_lim_minus' (fun _ => 1)); [apply is_lim_const|exact L2].
Qed.

(** The j-th moment of the reconstructed pdf over [0, infinity) is the j-th moment given,
    for every list of moments with positive zeroth and first moments. *)
Theorem C68_laguerre_moments : forall mom j, (2 <= length mom)%nat -> 0 < nth 0 mom 0 -> 0 < nth 1 mom 0 -> (j < length mom)%nat ->
  is_lim (fun X => RInt (fun n => n ^ j * lag_pdf mom n) 0 X) p_infty (nth j mom 0).
Proof.
  intros mom j Hlen H0 H1 Hj.
  set (D := lag_DPn mom). assert (HD : 0 < D) by (unfold D, lag_DPn; now apply Rdiv_lt_0_compat).
  set (N := length mom) in *.
  set (co := fun m i => lag_gamma mom m * (INR (comb m i) * (-1) ^ i / INR (fact i)) * / D ^ (i + 2)).
  set (Phi := fun X => sumn N (fun m => sumn (m + 1) (fun i => co m i * antider D (i + j) X))).
  assert (dPhi : forall x, is_derive Phi x (x ^ j * lag_pdf mom x)).
  { intros x. unfold Phi.
    assert (DD : is_derive (fun X => sumn N (fun m => sumn (m + 1) (fun i => co m i * antider D (i + j) X))) x
        (sumn N (fun m => sumn (m + 1) (fun i => co m i * (x ^ (i + j) * exp (- (x / D))))))).
    { apply (is_derive_sumn N (fun m X => sumn (m + 1) (fun i => co m i * antider D (i + j) X))). intros m _.
      apply (is_derive_sumn (m + 1) (fun i X => co m i * antider D (i + j) X)). intros i _.
      exact (is_derive_scal (antider D (i + j)) x (co m i) _ (antider_derive D (i + j) x HD)). }
    refine (eq_ind _ (fun l => is_derive _ x l) DD _ _). eqR.
    unfold lag_pdf. fold D. fold N. cbv zeta. rewrite <- !sumn_scal. apply sumn_ext. intros m _.
    unfold laguerre. rewrite <- !sumn_scal. apply sumn_ext. intros i _. unfold co.
    assert (P : (x / D) ^ i = x ^ i / D ^ i) by (unfold Rdiv; rewrite Rpow_mult_distr, pow_inv; reflexivity). rewrite P, !pow_add.
    assert (D ^ i <> 0) by (apply pow_nonzero; lra). pose proof (INR_fact_neq_0 i). field. repeat split; auto; lra. }
  assert (P0 : Phi 0 = 0).
  { unfold Phi. apply sumn_zero'. intros m _. apply sumn_zero'. intros i _. rewrite antider_0 by auto. ring. }
  apply is_lim_ext with Phi.
  { intros X. symmetry. apply is_RInt_unique. replace (Phi X) with (minus (Phi X) (Phi 0)) by (unfold minus, plus, opp; cbn; rewrite P0; ring).
    apply (is_RInt_derive Phi); [intros; apply dPhi|].
    intros x _. apply @ex_derive_continuous. unfold lag_pdf. cbv zeta.
    apply ex_derive_mult; [auto_derive; auto|]. apply ex_derive_mult; [auto_derive; auto|].
    exists (sumn (length mom) (fun m => lag_gamma mom m * sumn (m + 1) (fun i => INR (comb m i) * (-1) ^ i * (INR i * (x / lag_DPn mom) ^ pred i * / lag_DPn mom) / INR (fact i)))).
    apply (is_derive_sumn (length mom) (fun m y => lag_gamma mom m * laguerre m (y / lag_DPn mom))). intros m _.
    refine (is_derive_scal (fun y => laguerre m (y / lag_DPn mom)) x (lag_gamma mom m) _ _).
    unfold laguerre. apply (is_derive_sumn (m + 1) (fun i y => INR (comb m i) * (-1) ^ i * (y / lag_DPn mom) ^ i / INR (fact i))).
    intros i _. auto_derive; [auto|]. unfold Rdiv. ring. }
  replace (nth j mom 0) with (sumn N (fun m => sumn (m + 1) (fun i => co m i * (INR (fact (i + j)) * D ^ S (i + j))))).
  - unfold Phi. apply is_lim_sumn. intros m _. apply is_lim_sumn. intros i _.
    exact (is_lim_scal_l _ (co m i) p_infty (Finite _) (antider_lim D (i + j) HD)).
  - (* algebra *)
    transitivity (sumn N (fun m => INR (comb j m) * (-1) ^ m * (INR (fact j) * D ^ j / D * lag_gamma mom m))).
    + apply sumn_ext. intros m _.
      transitivity (lag_gamma mom m * (D ^ j / D) * sumn (m + 1) (fun i => INR (comb m i) * (-1) ^ i / INR (fact i) * INR (fact (i + j)))).
      * rewrite <- sumn_scal. apply sumn_ext. intros i _. unfold co. cbn [pow]. rewrite !pow_add.
        assert (D ^ i <> 0) by (apply pow_nonzero; lra). pose proof (INR_fact_neq_0 i). field. repeat split; auto; lra.
      * rewrite laguerre_coef. unfold Rdiv. ring.
    + rewrite (bt_wide (fun m => INR (fact j) * D ^ j / D * lag_gamma mom m) j N Hj). rewrite bt_scal.
      rewrite (bt_ext (lag_gamma mom) (bt (fun i => nth i mom 0 / powerRZ D (Z.of_nat i - 1) / INR (fact i)))).
      * rewrite bt_involutive.
        assert (E : powerRZ D (Z.of_nat j - 1) = D ^ j / D).
        { unfold Z.sub. rewrite powerRZ_add by lra. rewrite <- pow_powerRZ. cbn. change (Pos.to_nat 1) with 1%nat. rewrite pow_1. reflexivity. }
        rewrite E. pose proof (INR_fact_neq_0 j). assert (D ^ j <> 0) by (apply pow_nonzero; lra). field. repeat split; auto; lra.
      * intros m _. unfold lag_gamma, bt. rewrite Nat.add_1_r. apply sumn_ext. intros i _. fold D. unfold Rdiv. ring.
Qed.

Example C68_case : lag_gamma [1; 2; 6] 0 = 2 /\ lag_gamma [1; 2; 6] 1 = 0 /\ lag_gamma [1; 2; 6] 2 = - / 2.
Proof.
  unfold lag_gamma, lag_DPn. cbn. change (Pos.to_nat 1) with 1%nat. cbn. repeat split; field.
Qed.

Print Assumptions C24_moments_of_sum. Print Assumptions C24_length_mismatch. Print Assumptions C24_comm.
Print Assumptions C24_assoc. Print Assumptions C24_unit. Print Assumptions C24_self.
Print Assumptions C25_hydro. Print Assumptions C25_roundtrip. Print Assumptions C25_via. Print Assumptions C25_increasing.
Print Assumptions C25_identity. Print Assumptions C67_gold_gt1. Print Assumptions C67_gold_lt1.
Print Assumptions C67_gold_bracket. Print Assumptions C67_gold_scalar_refuted. Print Assumptions C68_laguerre_moments.
