(** The error function as an integral: derivative, symmetry, bounds and limit (Gaussian integral). *)
From Coq Require Import Reals Lra Lia Psatz.
From Coquelicot Require Import Coquelicot.
From Verif Require Import Prelude Deriv NumBounds.
Open Scope R_scope.

Definition gauss_fun (t : R) : R := exp (- t ^ 2).
Definition Gint (x : R) : R := RInt gauss_fun 0 x.
(** scipy.special.erf and erfc *)
Definition erf (x : R) : R := 2 / sqrt PI * Gint x.
Definition erfc (x : R) : R := 1 - erf x.

Lemma gauss_D x : D gauss_fun x (- 2 * x * exp (- x ^ 2)).
Proof.
  unfold gauss_fun. eapply D_eq; [apply (D_exp (fun t => - t ^ 2)); apply (D_opp (fun t => t ^ 2)); apply (D_ext (fun t => t * t)); [intros; ring|]; apply (D_mult (fun t => t) (fun t => t)); apply D_id|].
  ring.
Qed.
Lemma gauss_cont x : continuous gauss_fun x.
Proof. apply (ex_derive_continuous gauss_fun). eexists. apply gauss_D. Qed.
Lemma gauss_ex a b : ex_RInt gauss_fun a b.
Proof. apply (ex_RInt_continuous gauss_fun). intros. apply gauss_cont. Qed.
Lemma Gint_D x : D Gint x (gauss_fun x).
Proof.
  unfold Gint. apply (is_derive_RInt gauss_fun _ 0 x); [|apply gauss_cont]. exists (mkposreal 1 Rlt_0_1). intros y _. apply (RInt_correct gauss_fun). apply gauss_ex.
Qed.
Lemma Gint_0 : Gint 0 = 0.
Proof. unfold Gint. apply (RInt_point 0 gauss_fun). Qed.

Definition kfun (x t : R) : R := exp (- (x ^ 2 * (1 + t ^ 2))) / (1 + t ^ 2).
Definition Kint (x : R) : R := RInt (kfun x) 0 1.
Lemma t2_pos t : 0 < 1 + t ^ 2. Proof. nra. Qed.
Lemma kfun_Dx x t : D (fun u => kfun u t) x (- 2 * x * exp (- (x ^ 2 * (1 + t ^ 2)))).
Proof.
  unfold kfun. pose proof (t2_pos t). eapply D_eq.
  - apply (D_ext (fun u => / (1 + t ^ 2) * exp (- (u ^ 2 * (1 + t ^ 2))))); [intros; unfold Rdiv; ring|].
    apply (D_scal (/ (1 + t ^ 2)) (fun u => exp (- (u ^ 2 * (1 + t ^ 2))))). apply (D_exp (fun u => - (u ^ 2 * (1 + t ^ 2)))). apply (D_opp (fun u => u ^ 2 * (1 + t ^ 2))).
    apply (D_ext (fun u => (1 + t ^ 2) * (u * u))); [intros; ring|]. apply (D_scal (1 + t ^ 2) (fun u => u * u)). apply (D_mult (fun t => t) (fun t => t)); apply D_id.
  - field. lra.
Qed.
Lemma kfun_Dt x t : ex_derive (kfun x) t.
Proof. unfold kfun. pose proof (t2_pos t). auto_derive. nra. Qed.
Lemma kfun_ex x : ex_RInt (kfun x) 0 1.
Proof. apply (ex_RInt_continuous (kfun x)). intros. apply (ex_derive_continuous (kfun x)). apply kfun_Dt. Qed.
Lemma Kint_D x : D Kint x (- 2 * exp (- x ^ 2) * Gint x).
Proof.
  unfold Kint. eapply D_eq.
  - apply (is_derive_RInt_param kfun 0 1 x).
    + exists (mkposreal 1 Rlt_0_1). intros y _ t _. eexists. apply kfun_Dx.
    + intros t _. apply (continuity_2d_pt_ext (fun u v => - 2 * u * exp (- (u ^ 2 * (1 + v ^ 2))))).
      { intros u v. symmetry. apply is_derive_unique. apply kfun_Dx. }
      apply continuity_2d_pt_mult.
      * apply continuity_2d_pt_mult; [apply continuity_2d_pt_const|apply continuity_2d_pt_id1].
      * apply (continuity_1d_2d_pt_comp exp (fun u v => - (u ^ 2 * (1 + v ^ 2)))); [apply derivable_continuous_pt; apply derivable_pt_exp|].
        apply continuity_2d_pt_opp. apply continuity_2d_pt_mult.
        -- apply (continuity_2d_pt_ext (fun u v => u * u)); [intros; ring|]. apply continuity_2d_pt_mult; apply continuity_2d_pt_id1.
        -- apply continuity_2d_pt_plus; [apply continuity_2d_pt_const|]. apply (continuity_2d_pt_ext (fun u v => v * v)); [intros; ring|]. apply continuity_2d_pt_mult; apply continuity_2d_pt_id2.
    + exists (mkposreal 1 Rlt_0_1). intros y _. apply kfun_ex.
  - assert (E1 : RInt (fun t => Derive (fun u => kfun u t) x) 0 1 = RInt (fun t => (- 2 * exp (- x ^ 2)) * (x * gauss_fun (x * t + 0))) 0 1).
    { apply (RInt_ext (fun t => Derive (fun u => kfun u t) x)). intros t _. rewrite (is_derive_unique _ _ _ (kfun_Dx x t)). unfold gauss_fun.
      replace (- (x ^ 2 * (1 + t ^ 2))) with (- x ^ 2 + - (x * t + 0) ^ 2) by ring. rewrite exp_plus. match goal with |- ?a = ?b => change (@eq R a b) end. ring. }
    rewrite E1. assert (EX : ex_RInt (fun t => x * gauss_fun (x * t + 0)) 0 1).
    { apply (ex_RInt_comp_lin gauss_fun x 0 0 1). apply gauss_ex. }
    transitivity ((- 2 * exp (- x ^ 2)) * RInt (fun t => x * gauss_fun (x * t + 0)) 0 1); [exact (RInt_scal (fun t => x * gauss_fun (x * t + 0)) 0 1 (- 2 * exp (- x ^ 2)) EX)|].
    f_equal. unfold Gint. pose proof (RInt_comp_lin gauss_fun x 0 0 1 (gauss_ex _ _)) as Q. replace (x * 0 + 0) with 0 in Q by ring. replace (x * 1 + 0) with x in Q by ring. exact Q.
Qed.
Lemma Kint_0 : Kint 0 = PI / 4.
Proof.
  unfold Kint. rewrite <- atan_1. assert (H : is_RInt (kfun 0) 0 1 (atan 1 - atan 0)).
  { apply (is_RInt_derive (fun t => atan t) (kfun 0)).
    - intros t _. eapply D_eq; [apply (D_atan (fun t => t)); apply D_id|]. unfold kfun. replace (- (0 ^ 2 * (1 + t ^ 2))) with 0 by ring. rewrite exp_0. pose proof (t2_pos t). field. lra.
    - intros t _. apply (ex_derive_continuous (kfun 0)). apply kfun_Dt. }
  rewrite atan_0, Rminus_0_r in H. apply is_RInt_unique. exact H.
Qed.
Lemma const_deriv f : (forall x, D f x 0) -> forall x y, f x = f y.
Proof.
  intros H. assert (Q : forall a b, a <= b -> f a = f b).
  { intros a b L. apply Rle_antisym.
    - apply (mono_incr f (fun _ => 0)); auto; intros; lra.
    - cut (- f a <= - f b); [lra|]. apply (mono_incr (fun t => - f t) (fun _ => 0)); auto; [|intros; lra]. intros t _. eapply D_eq; [apply (D_opp f); apply H|ring]. }
  intros x y. destruct (Rle_dec x y); [apply Q; auto|symmetry; apply Q; lra].
Qed.
Lemma gauss_identity x : Gint x ^ 2 + Kint x = PI / 4.
Proof.
  rewrite <- Kint_0. transitivity (Gint 0 ^ 2 + Kint 0); [|rewrite Gint_0; ring].
  apply (const_deriv (fun x => Gint x ^ 2 + Kint x)). intros y. eapply D_eq.
  - apply (D_plus (fun x => Gint x ^ 2) Kint); [|apply Kint_D]. apply (D_ext (fun x => Gint x * Gint x)); [intros; ring|]. apply (D_mult Gint Gint); apply Gint_D.
  - unfold gauss_fun. ring.
Qed.
Lemma Kint_bounds x : 0 < Kint x <= PI / 4 * exp (- x ^ 2).
Proof.
  unfold Kint. split.
  - apply Rlt_le_trans with (RInt (fun _ => exp (- (2 * x ^ 2)) / 2) 0 1).
    + rewrite (RInt_const 0 1 (exp (- (2 * x ^ 2)) / 2)). unfold scal. cbn. unfold mult. cbn. pose proof (exp_pos (- (2 * x ^ 2))). cbn in H. lra.
    + apply (RInt_le (fun _ => exp (- (2 * x ^ 2)) / 2) (kfun x)); [lra|apply ex_RInt_const|apply kfun_ex|]. intros t Ht. unfold kfun. pose proof (t2_pos t).
      assert (A : exp (- (2 * x ^ 2)) <= exp (- (x ^ 2 * (1 + t ^ 2)))).
      { assert (E : forall a b, a <= b -> exp a <= exp b) by (intros a b [L| ->]; [left; now apply exp_increasing|lra]). apply E. assert (t ^ 2 <= 1) by nra. assert (0 <= x ^ 2) by nra. nra. }
      pose proof (exp_pos (- (2 * x ^ 2))). unfold Rdiv. apply Rmult_le_compat; try lra. apply Rinv_le_contravar; nra.
  - rewrite <- Kint_0. unfold Kint. apply Rle_trans with (RInt (fun t => exp (- x ^ 2) * kfun 0 t) 0 1).
    + assert (EX : ex_RInt (fun t => exp (- x ^ 2) * kfun 0 t) 0 1) by (apply (ex_RInt_scal (kfun 0) 0 1 (exp (- x ^ 2))); apply kfun_ex).
      apply (RInt_le (kfun x)); [lra|apply kfun_ex|exact EX|]. intros t Ht. unfold kfun. pose proof (t2_pos t).
      replace (- (0 ^ 2 * (1 + t ^ 2))) with 0 by ring. rewrite exp_0. unfold Rdiv. rewrite <- Rmult_assoc, Rmult_1_r. apply Rmult_le_compat_r; [left; now apply Rinv_0_lt_compat|].
      assert (E : forall a b, a <= b -> exp a <= exp b) by (intros a b [L| ->]; [left; now apply exp_increasing|lra]). apply E. assert (0 <= x ^ 2 * t ^ 2) by (apply Rmult_le_pos; nra). nra.
    + right. transitivity (exp (- x ^ 2) * RInt (kfun 0) 0 1); [|ring]. exact (RInt_scal (kfun 0) 0 1 (exp (- x ^ 2)) (kfun_ex 0)).
Qed.

Lemma spi_pos : 0 < sqrt PI. Proof. apply sqrt_lt_R0. apply PI_RGT_0. Qed.
Lemma spi_sq : sqrt PI * sqrt PI = PI. Proof. apply sqrt_sqrt. left. apply PI_RGT_0. Qed.
Lemma erf_D x : D erf x (2 / sqrt PI * exp (- x ^ 2)).
Proof. unfold erf. apply (D_scal (2 / sqrt PI) Gint). apply Gint_D. Qed.
Lemma erf_0 : erf 0 = 0.
Proof. unfold erf. rewrite Gint_0. ring. Qed.
Lemma erf_sq x : 1 - exp (- x ^ 2) <= erf x ^ 2 < 1.
Proof.
  unfold erf. pose proof (gauss_identity x) as E. pose proof (Kint_bounds x) as B. pose proof spi_pos as P. pose proof spi_sq as S. pose proof PI_RGT_0 as Q.
  replace ((2 / sqrt PI * Gint x) ^ 2) with (4 / (sqrt PI * sqrt PI) * Gint x ^ 2) by (field; lra). rewrite S.
  replace (Gint x ^ 2) with (PI / 4 - Kint x) by lra. replace (4 / PI * (PI / 4 - Kint x)) with (1 - 4 / PI * Kint x) by (field; lra).
  assert (0 < 4 / PI) by (apply Rdiv_lt_0_compat; lra). split.
  - assert (4 / PI * Kint x <= 4 / PI * (PI / 4 * exp (- x ^ 2))) by (apply Rmult_le_compat_l; lra). replace (4 / PI * (PI / 4 * exp (- x ^ 2))) with (exp (- x ^ 2)) in H0 by (field; lra). lra.
  - assert (0 < 4 / PI * Kint x) by (apply Rmult_lt_0_compat; lra). lra.
Qed.
Lemma erf_incr x y : x < y -> erf x < erf y.
Proof.
  intros H. apply (mono_strict erf (fun x => 2 / sqrt PI * exp (- x ^ 2))); auto; [intros; apply erf_D|]. intros. apply Rmult_lt_0_compat; [apply Rdiv_lt_0_compat; [lra|apply spi_pos]|apply exp_pos].
Qed.
Lemma erf_opp x : erf (- x) = - erf x.
Proof.
  cut (erf (- x) + erf x = 0); [lra|]. transitivity (erf (- 0) + erf 0); [|rewrite Ropp_0, erf_0; ring].
  apply (const_deriv (fun x => erf (- x) + erf x)). intros y. eapply D_eq.
  - apply (D_plus (fun x => erf (- x)) erf); [|apply erf_D]. apply (D_comp erf (fun x => - x) y (2 / sqrt PI * exp (- (- y) ^ 2)) (-1)); [|apply erf_D]. eapply D_eq; [apply (D_opp (fun x => x)); apply D_id|ring].
  - replace ((- y) ^ 2) with (y ^ 2) by ring. ring.
Qed.
Lemma erf_bounds x : -1 < erf x < 1.
Proof. pose proof (erf_sq x). split; nra. Qed.
Lemma erf_pos x : 0 < x -> 0 < erf x.
Proof. intros. rewrite <- erf_0. now apply erf_incr. Qed.

(** erfc *)
Lemma erfc_D x : D erfc x (- (2 / sqrt PI * exp (- x ^ 2))).
Proof. unfold erfc. eapply D_eq; [apply (D_minus (fun _ => 1) erf); [apply D_const|apply erf_D]|ring]. Qed.
Lemma erfc_0 : erfc 0 = 1. Proof. unfold erfc. rewrite erf_0. ring. Qed.
Lemma erfc_bounds x : 0 < erfc x < 2. Proof. unfold erfc. pose proof (erf_bounds x). lra. Qed.
Lemma erfc_decr x y : x < y -> erfc y < erfc x. Proof. intros H. unfold erfc. pose proof (erf_incr x y H). lra. Qed.
Lemma erfc_decr_le x y : x <= y -> erfc y <= erfc x. Proof. intros [H| ->]; [left; now apply erfc_decr|lra]. Qed.
Lemma erfc_opp x : erfc (- x) = 2 - erfc x. Proof. unfold erfc. rewrite erf_opp. ring. Qed.
Lemma erfc_upper x : 0 <= x -> erfc x <= exp (- x ^ 2).
Proof.
  intros H. pose proof (erf_sq x) as E. assert (0 <= erf x) by (destruct H as [H| <-]; [left; now apply erf_pos|rewrite erf_0; lra]).
  unfold erfc. pose proof (erf_bounds x). nra.
Qed.
(** erfc tends to 0: any function decreasing towards a nonnegative... is handled with this bound *)
Lemma exp_neg_small e : 0 < e -> exists X, 0 < X /\ forall x, X <= x -> exp (- x ^ 2) < e.
Proof.
  intros He. exists (1 + Rabs (ln e)). split; [pose proof (Rabs_pos (ln e)); lra|]. intros x Hx. pose proof (Rabs_pos (ln e)). rewrite <- (exp_ln e) at 1 by auto. apply exp_increasing.
  pose proof (Rle_abs (- ln e)). rewrite Rabs_Ropp in H0. nra.
Qed.
(** 2x/(1+2x^2) exp(-x^2)/sqrt(pi) < erfc x *)
Lemma erfc_lower x : 0 <= x -> 2 * x / (1 + 2 * x ^ 2) * (exp (- x ^ 2) / sqrt PI) < erfc x.
Proof.
  intros Hx. set (g := fun x => 2 * x / (1 + 2 * x ^ 2) * (exp (- x ^ 2) / sqrt PI) - erfc x). pose proof spi_pos as P.
  assert (Dg : forall x, D g x (4 / (1 + 2 * x ^ 2) ^ 2 * (exp (- x ^ 2) / sqrt PI))).
  { intros y. unfold g. assert (0 < 1 + 2 * y ^ 2) by nra. eapply D_eq.
    - apply (D_minus (fun x => 2 * x / (1 + 2 * x ^ 2) * (exp (- x ^ 2) / sqrt PI)) erfc); [|apply erfc_D].
      apply (D_mult (fun x => 2 * x / (1 + 2 * x ^ 2)) (fun x => exp (- x ^ 2) / sqrt PI)).
      + apply (D_div (fun x => 2 * x) (fun x => 1 + 2 * x ^ 2)); [apply (D_scal 2 (fun x => x)); apply D_id| |lra].
        apply (D_plus (fun _ => 1) (fun x => 2 * x ^ 2)); [apply D_const|]. apply (D_scal 2 (fun x => x ^ 2)). apply (D_ext (fun t => t * t)); [intros; ring|]. apply (D_mult (fun t => t) (fun t => t)); apply D_id.
      + apply (D_ext (fun x => / sqrt PI * exp (- x ^ 2))); [intros; unfold Rdiv; ring|]. apply (D_scal (/ sqrt PI) (fun x => exp (- x ^ 2))). apply gauss_D.
    - cbv beta. field. repeat split; try lra; nra. }
  assert (M : forall a b, a < b -> g a < g b).
  { intros a b L. apply (mono_strict g (fun x => 4 / (1 + 2 * x ^ 2) ^ 2 * (exp (- x ^ 2) / sqrt PI))); auto. intros t _. apply Rmult_lt_0_compat; apply Rdiv_lt_0_compat; auto; [lra|apply pow_lt; nra|apply exp_pos]. }
  cut (g x < 0); [unfold g; lra|]. destruct (Rlt_dec (g x) 0) as [|N]; auto. exfalso.
  assert (G1 : 0 < g (x + 1)) by (pose proof (M x (x + 1) ltac:(lra)); lra).
  destruct (exp_neg_small (g (x + 1)) G1) as (X & HX & HB). pose (y := x + 2 + X). assert (L : g (x + 1) < g y) by (apply M; unfold y; lra).
  specialize (HB y ltac:(unfold y; lra)). assert (U : g y <= exp (- y ^ 2)).
  { unfold g. pose proof (erfc_bounds y). assert (2 * y / (1 + 2 * y ^ 2) * (exp (- y ^ 2) / sqrt PI) <= exp (- y ^ 2)); [|lra].
    pose proof (exp_pos (- y ^ 2)) as EP. assert (Y : 0 < y) by (unfold y; lra).
    assert (S1 : 1 <= sqrt PI) by (rewrite <- sqrt_1; apply sqrt_le_1_alt; pose proof PI_RGT_0; pose proof PI2_1; lra).
    assert (A : exp (- y ^ 2) / sqrt PI <= exp (- y ^ 2)). { apply (Rmult_le_reg_r (sqrt PI)); auto. unfold Rdiv. rewrite Rmult_assoc, Rinv_l by lra. nra. }
    assert (B : 0 <= 2 * y / (1 + 2 * y ^ 2) <= 1). { split; [apply Rmult_le_pos; [lra|left; apply Rinv_0_lt_compat; nra]|]. apply (Rmult_le_reg_r (1 + 2 * y ^ 2)); [nra|]. unfold Rdiv. rewrite Rmult_assoc, Rinv_l by nra. nra. }
    assert (0 < exp (- y ^ 2) / sqrt PI) by now apply Rdiv_lt_0_compat. nra. }
  lra.
Qed.
