(** C96: linear algebra of the quasi-Newton solver. *)
From Coq Require Import Reals Lra Lia List Bool Arith Psatz.
From Verif Require Import Prelude RootsModel DiffModel FixModel PolyModel VecModel Deriv QnLinModel.
Open Scope R_scope.

Definition orthogonal (N : nat) (Q : mat) : Prop :=
  (forall i j, (i < N)%nat -> (j < N)%nat -> sumn N (fun k => Q k i * Q k j) = delta i j) /\
  (forall i j, (i < N)%nat -> (j < N)%nat -> sumn N (fun k => Q i k * Q j k) = delta i j).
Definition upper (N : nat) (Rm : mat) : Prop := forall i j, (j < i)%nat -> (i < N)%nat -> Rm i j = 0.
(** the factorisation of the scaled Jacobian *)
Definition is_qr (N : nat) (Q Rm J : mat) : Prop :=
  orthogonal N Q /\ upper N Rm /\ forall i j, (i < N)%nat -> (j < N)%nat -> mmul N Q Rm i j = J i j.
(** upper triangle *)
Definition triu (C : mat) : mat := fun i j => if (i <=? j)%nat then C i j else 0.
(** C holds in its upper triangle a Cholesky factor of H *)
Definition is_cho (N : nat) (C H : mat) : Prop :=
  (forall i, (i < N)%nat -> 0 < C i i) /\
  forall i j, (i < N)%nat -> (j < N)%nat -> sumn N (fun k => triu C k i * triu C k j) = H i j.

Lemma dot_comm N u v : dot N u v = dot N v u. Proof. unfold dot. apply sumn_ext. intros. ring. Qed.
Lemma dot_ext N u v u' v' : (forall i, (i < N)%nat -> u i = u' i) -> (forall i, (i < N)%nat -> v i = v' i) -> dot N u v = dot N u' v'.
Proof. intros A B. unfold dot. apply sumn_ext. intros i Hi. now rewrite A, B. Qed.
Lemma matvec_ext N M u v : (forall i, (i < N)%nat -> u i = v i) -> forall i, matvec N M u i = matvec N M v i.
Proof. intros A i. unfold matvec. apply sumn_ext. intros j Hj. now rewrite A. Qed.
Lemma mmul_vec N A B v i : matvec N (mmul N A B) v i = matvec N A (matvec N B v) i.
Proof.
  unfold matvec, mmul. rewrite (sumn_ext N (fun j => sumn N (fun k => A i k * B k j) * v j) (fun j => sumn N (fun k => A i k * B k j * v j))).
  - rewrite sumn_swap. apply sumn_ext. intros k Hk. rewrite <- sumn_scal. apply sumn_ext. intros. ring.
  - intros j Hj. now rewrite sumn_scal_r.
Qed.
Lemma adj N A u v : dot N (tmatvec N A u) v = dot N u (matvec N A v).
Proof.
  unfold dot, tmatvec, matvec. rewrite (sumn_ext N _ (fun j => sumn N (fun i => A i j * u i * v j))) by (intros; now rewrite sumn_scal_r). rewrite sumn_swap. apply sumn_ext. intros i Hi. rewrite <- sumn_scal. apply sumn_ext. intros. ring.
Qed.
Lemma orth_tt N Q v i : orthogonal N Q -> (i < N)%nat -> matvec N Q (tmatvec N Q v) i = v i.
Proof.
  intros [_ H] Hi. unfold matvec, tmatvec. rewrite (sumn_ext N _ (fun k => sumn N (fun j => Q i k * Q j k * v j))) by (intros; rewrite <- sumn_scal; apply sumn_ext; intros; ring). rewrite sumn_swap. rewrite <- (sumn_delta_l N i v Hi). apply sumn_ext. intros j Hj. now rewrite sumn_scal_r, H.
Qed.
Lemma orth_t N Q v i : orthogonal N Q -> (i < N)%nat -> tmatvec N Q (matvec N Q v) i = v i.
Proof.
  intros [H _] Hi. unfold matvec, tmatvec. rewrite (sumn_ext N _ (fun k => sumn N (fun j => Q k i * Q k j * v j))) by (intros; rewrite <- sumn_scal; apply sumn_ext; intros; ring). rewrite sumn_swap. rewrite <- (sumn_delta_l N i v Hi). apply sumn_ext. intros j Hj. now rewrite sumn_scal_r, H.
Qed.

(** the gradient passed to the global methods is the gradient of 1/2 ||sclf f||^2, for the exact Jacobian and any QR factors *)
Theorem C96_gradient N (f : vec -> vec) (Jf : mat) Q Rm sclf x j : (j < N)%nat ->
  (forall i, (i < N)%nat -> D (fun t => f (upd x j t) i) (x j) (Jf i j)) ->
  is_qr N Q Rm (fun i k => sclf i * Jf i k) ->
  D (fun t => / 2 * sumn N (fun i => (sclf i * f (upd x j t) i) ^ 2)) (x j) (qn_grad N Q Rm sclf (fun i => f x i) j).
Proof.
  intros Hj HD (HO & _ & HQ). eapply D_eq. { apply D_scal. apply (D_sumn N (fun i t => (sclf i * f (upd x j t) i) ^ 2) (fun i => 2 * (sclf i * f (upd x j (x j)) i) * (sclf i * Jf i j))). intros i Hi. apply (D_ext (fun t => (sclf i * f (upd x j t) i) * (sclf i * f (upd x j t) i))); [intros; cbv beta; ring|]. eapply D_eq; [apply D_mult; apply (D_scal (sclf i)), HD; auto|]. cbv beta. ring. }
  unfold qn_grad, tmatvec. rewrite <- sumn_scal.
  rewrite (sumn_ext N (fun i => Rm i j * _) (fun k => sumn N (fun i => Rm k j * (Q i k * (sclf i * f x i))))) by (intros; now rewrite sumn_scal). rewrite sumn_swap. apply sumn_ext. intros i Hi. rewrite (sumn_ext N _ (fun k => Q i k * Rm k j * (sclf i * f x i))) by (intros; ring). rewrite sumn_scal_r. change (sumn N (fun k => Q i k * Rm k j)) with (mmul N Q Rm i j). rewrite HQ by auto.
  assert (E : f (upd x j (x j)) i = f x i). { f_equal. unfold upd. apply FunctionalExtensionality.functional_extensionality. intros k. destruct (Nat.eq_dec k j) as [-> |]; auto. } cbv beta. rewrite E. field.
Qed.

(** the triangular and Cholesky solvers of scipy.linalg *)
Definition tri_spec (N : nat) (tri : mat -> vec -> vec) : Prop := forall Rm b, upper N Rm ->
  (forall i, (i < N)%nat -> Rm i i <> 0) -> forall i, (i < N)%nat -> matvec N Rm (tri Rm b) i = b i.
Definition posdef (N : nat) (H : mat) : Prop :=
  (forall i j, (i < N)%nat -> (j < N)%nat -> H i j = H j i) /\
  forall v, (exists i, (i < N)%nat /\ v i <> 0) -> 0 < dot N v (matvec N H v).
Definition cho_spec (N : nat) (cho : mat -> option mat) (chosolve : mat -> vec -> vec) : Prop :=
  (forall H, posdef N H -> exists C, cho H = Some C /\ is_cho N C H) /\
  (forall H, ~ posdef N H -> cho H = None) /\
  (forall H C b, cho H = Some C -> forall i, (i < N)%nat -> matvec N H (chosolve C b) i = b i).

(** well-conditioned branch: the step is the Newton step of the unscaled system, whatever the scaling *)
Theorem C96_newton_step N tri cho chosolve rcond Q Rm Jf sclx sclf fc gc p Rm' :
  tri_spec N tri -> ((exists r, rcond = Fin r) -> forall i, (i < N)%nat -> Rm i i <> 0) ->
  (forall i, (i < N)%nat -> sclf i <> 0) -> is_qr N Q Rm (fun i j => sclf i * Jf i j) ->
  well_conditioned rcond = true ->
  qn_lin N tri cho chosolve rcond Q Rm sclx sclf fc = LinStep gc p Rm' ->
  Rm' = Rm /\ (forall i, (i < N)%nat -> matvec N Jf p i = - fc i) /\
  dot N gc p = - sumn N (fun i => (sclf i * fc i) ^ 2).
Proof.
  intros HT HC Hs (HO & HU & HQ) Hw HL. unfold qn_lin in HL. rewrite Hw in HL. injection HL as <- <- <-.
  set (F := fun i => sclf i * fc i). set (z := tri Rm (tmatvec N Q F)).
  assert (Hz : forall i, (i < N)%nat -> matvec N Rm z i = tmatvec N Q F i).
  { apply HT; auto. apply HC. destruct rcond; try discriminate. eauto. }
  assert (HJ : forall i, (i < N)%nat -> matvec N (mmul N Q Rm) z i = F i).
  { intros i Hi. rewrite mmul_vec. rewrite (matvec_ext N Q _ (tmatvec N Q F)) by auto. now apply orth_tt. }
  split; [reflexivity|split].
  - intros i Hi. apply (Rmult_eq_reg_l (sclf i)); auto. transitivity (- F i); [|unfold F; ring]. rewrite <- HJ by auto. unfold matvec at 1 2. rewrite <- sumn_scal, <- sumn_opp. apply sumn_ext. intros j Hj. rewrite HQ by auto. ring.
  - unfold qn_grad. rewrite adj. fold F. rewrite (dot_ext N (tmatvec N Q F) _ (tmatvec N Q F) (fun i => - tmatvec N Q F i)); auto.
    2:{ intros i Hi. rewrite <- Hz by auto. unfold matvec. rewrite <- sumn_opp. apply sumn_ext. intros. ring. }
    transitivity (- dot N (tmatvec N Q F) (tmatvec N Q F)). { unfold dot. rewrite <- sumn_opp. apply sumn_ext. intros. ring. }
    f_equal. rewrite adj. unfold dot. apply sumn_ext. intros i Hi. rewrite orth_tt by auto. unfold F. ring.
Qed.

Definition dlt (N : nat) (Rm : mat) (sclx : vec) := sqrt (INR N * eps) * qn_Hnorm N Rm sclx.
Lemma eps_p : 0 < eps. Proof. unfold eps. apply Rinv_0_lt_compat, pow_lt. lra. Qed.
Lemma dlt_nonneg N Rm sclx : 0 <= dlt N Rm sclx.
Proof. unfold dlt, qn_Hnorm. apply Rmult_le_pos; [apply sqrt_pos|apply maxn_nonneg]. Qed.
Lemma dlt_pos N Rm sclx : (forall i, (i < N)%nat -> 0 < sclx i) ->
  (exists i j, (i < N)%nat /\ (j < N)%nat /\ Rm i j <> 0) -> 0 < dlt N Rm sclx.
Proof.
  intros Hs (i & j & Hi & Hj & Hn). unfold dlt. apply Rmult_lt_0_compat.
  { apply sqrt_lt_R0, Rmult_lt_0_compat; [apply lt_0_INR; lia|apply eps_p]. }
  unfold qn_Hnorm. eapply Rlt_le_trans; [|apply (maxn_ge N _ j Hj)]. cbv beta.
  apply (sumn_pos N _ j); [intros; apply Rabs_pos|auto|]. apply Rabs_pos_lt. apply Rgt_not_eq. unfold Rdiv. apply Rmult_lt_0_compat.
  - unfold qn_H0. apply (sumn_pos N _ i); auto; [intros; nra|]. assert (0 < Rsqr (Rm i j)) by now apply Rsqr_pos_lt. unfold Rsqr in *. lra.
  - apply Rinv_0_lt_compat. specialize (Hs j Hj). nra.
Qed.
Lemma qn_H_quad N Rm sclx v : dot N v (matvec N (qn_H N Rm sclx) v) =
  sumn N (fun i => matvec N Rm v i ^ 2) + dlt N Rm sclx * sumn N (fun i => (sclx i * v i) ^ 2).
Proof.
  assert (E : forall i, (i < N)%nat -> matvec N (qn_H N Rm sclx) v i = tmatvec N Rm (matvec N Rm v) i + dlt N Rm sclx * sclx i ^ 2 * v i).
  { intros i Hi. unfold matvec at 1, qn_H. rewrite (sumn_ext N _ (fun j => qn_H0 N Rm i j * v j + delta i j * (dlt N Rm sclx * sclx i ^ 2 * v j))) by (intros; unfold dlt; ring).
    rewrite sumn_plus, sumn_delta_l by auto. f_equal. unfold qn_H0, tmatvec, matvec.
    rewrite (sumn_ext N _ (fun j => sumn N (fun k => Rm k i * (Rm k j * v j)))). 2:{ intros j Hj. rewrite <- sumn_scal_r. apply sumn_ext. intros; ring. }
    rewrite sumn_swap. apply sumn_ext. intros k Hk. now rewrite sumn_scal. }
  rewrite (dot_ext N v _ v _ (fun _ _ => eq_refl) E). unfold dot.
  rewrite (sumn_ext N _ (fun i => v i * tmatvec N Rm (matvec N Rm v) i + dlt N Rm sclx * (sclx i * v i) ^ 2)) by (intros; ring).
  rewrite sumn_plus, sumn_scal. f_equal. change (dot N v (tmatvec N Rm (matvec N Rm v)) = sumn N (fun i => matvec N Rm v i ^ 2)). rewrite dot_comm, adj. unfold dot. apply sumn_ext. intros; ring.
Qed.
Lemma qn_H_sym N Rm sclx i j : qn_H N Rm sclx i j = qn_H N Rm sclx j i.
Proof.
  unfold qn_H. f_equal. { unfold qn_H0. apply sumn_ext. intros; ring. }
  unfold delta. destruct (Nat.eq_dec i j) as [-> |N1]; [destruct (Nat.eq_dec j j); [reflexivity|tauto]|]. destruct (Nat.eq_dec j i); [congruence|ring].
Qed.
Lemma qn_H_posdef N Rm sclx : (forall i, (i < N)%nat -> 0 < sclx i) ->
  (exists i j, (i < N)%nat /\ (j < N)%nat /\ Rm i j <> 0) -> posdef N (qn_H N Rm sclx).
Proof.
  intros Hs HR. split; [intros; apply qn_H_sym|]. intros v (i & Hi & Hv). rewrite qn_H_quad. pose proof (dlt_pos N Rm sclx Hs HR).
  assert (0 <= sumn N (fun i => matvec N Rm v i ^ 2)) by (apply sumn_nonneg; intros; apply pow2_ge_0).
  assert (0 < sumn N (fun i => (sclx i * v i) ^ 2)).
  { apply (sumn_pos N _ i); auto; [intros; apply pow2_ge_0|]. cbv beta. rewrite <- Rsqr_pow2. apply Rsqr_pos_lt. apply Rmult_integral_contrapositive_currified; auto. specialize (Hs i Hi). lra. }
  nra.
Qed.

(** ill-conditioned branch, any non-zero Jacobian however singular: the Cholesky factorisation succeeds, the step
    solves the regularised normal equations and is a descent direction *)
Theorem C96_regularised_step N tri cho chosolve rcond Q Rm sclx sclf fc :
  cho_spec N cho chosolve -> well_conditioned rcond = false ->
  (forall i, (i < N)%nat -> 0 < sclx i) -> (exists i j, (i < N)%nat /\ (j < N)%nat /\ Rm i j <> 0) ->
  exists gc p C, qn_lin N tri cho chosolve rcond Q Rm sclx sclf fc = LinStep gc p C /\
    is_cho N C (qn_H N Rm sclx) /\
    (forall i, (i < N)%nat -> sumn N (fun k => Rm k i * matvec N Rm p k) + dlt N Rm sclx * sclx i ^ 2 * p i = - gc i) /\
    dot N gc p <= 0 /\ ((exists i, (i < N)%nat /\ gc i <> 0) -> dot N gc p < 0).
Proof.
  intros (H1 & _ & H3) Hw Hs HR. pose proof (qn_H_posdef N Rm sclx Hs HR) as HP. destruct (H1 _ HP) as (C & HC & HCC).
  unfold qn_lin. rewrite Hw, HC. set (gc := qn_grad N Q Rm sclf fc). set (z := chosolve C gc).
  pose proof (H3 _ _ gc HC) as Hz. fold z in Hz.
  exists gc, (fun i => - z i), C. split; [reflexivity|]. split; [exact HCC|].
  assert (Eg : dot N gc (fun i => - z i) = - dot N z (matvec N (qn_H N Rm sclx) z)).
  { rewrite (dot_ext N z (matvec N (qn_H N Rm sclx) z) z gc) by auto. unfold dot. rewrite <- sumn_opp. apply sumn_ext. intros; ring. }
  split; [|split].
  - intros i Hi. rewrite <- Hz by auto. unfold matvec at 2, qn_H.
    rewrite (sumn_ext N (fun j => (qn_H0 N Rm i j + _) * z j) (fun j => qn_H0 N Rm i j * z j + delta i j * (dlt N Rm sclx * sclx i ^ 2 * z j))) by (intros; unfold dlt; ring).
    rewrite sumn_plus, sumn_delta_l by auto.
    assert (E : sumn N (fun k => Rm k i * matvec N Rm (fun j => - z j) k) = - sumn N (fun j => qn_H0 N Rm i j * z j)); [|rewrite E; ring].
    unfold qn_H0, matvec. rewrite <- sumn_opp.
    rewrite (sumn_ext N _ (fun k => sumn N (fun j => - (Rm k i * Rm k j * z j)))). 2:{ intros k Hk. rewrite <- sumn_scal. apply sumn_ext. intros; ring. }
    rewrite sumn_swap. apply sumn_ext. intros j Hj. now rewrite sumn_opp, sumn_scal_r.
  - rewrite Eg, qn_H_quad. pose proof (dlt_nonneg N Rm sclx). assert (0 <= sumn N (fun i => matvec N Rm z i ^ 2)) by (apply sumn_nonneg; intros; apply pow2_ge_0). assert (0 <= sumn N (fun i => (sclx i * z i) ^ 2)) by (apply sumn_nonneg; intros; apply pow2_ge_0). nra.
  - intros (i & Hi & Hg). rewrite Eg. apply Ropp_lt_gt_0_contravar. apply (proj2 HP).
    destruct (Classical_Prop.classic (exists i, (i < N)%nat /\ z i <> 0)) as [|HN]; [assumption|]. exfalso. apply Hg. rewrite <- Hz by auto. unfold matvec. apply sumn_zero'. intros j Hj. destruct (Req_dec (z j) 0) as [-> |]; [ring|]. exfalso. eauto.
Qed.

(** a zero Jacobian at x0: the matrix handed to cho_factor is zero, and its LinAlgError leaves the solver *)
Theorem C96_zero_jacobian N tri cho chosolve rcond Q Rm sclx sclf fc : (0 < N)%nat ->
  cho_spec N cho chosolve -> well_conditioned rcond = false ->
  (forall i j, (i < N)%nat -> (j < N)%nat -> Rm i j = 0) ->
  qn_lin N tri cho chosolve rcond Q Rm sclx sclf fc = LinRaise.
Proof.
  intros HN (_ & H2 & _) Hw H0. unfold qn_lin. rewrite Hw, H2; [reflexivity|]. intros [_ HP].
  assert (HD : dlt N Rm sclx = 0).
  { unfold dlt. assert (E : qn_Hnorm N Rm sclx = maxn N (fun _ => 0)). { unfold qn_Hnorm. apply maxn_ext. intros j Hj. apply sumn_zero'. intros i Hi. unfold qn_H0. rewrite sumn_zero'; [unfold Rdiv; rewrite Rmult_0_l; apply Rabs_R0|]. intros k Hk. rewrite H0 by auto. ring. }
    rewrite E. assert (F : forall m, maxn m (fun _ => 0) = 0). { induction m; cbn [maxn]; [reflexivity|rewrite IHm; apply Rmax_left; lra]. } rewrite F. ring. }
  specialize (HP (fun _ => 1)). rewrite qn_H_quad, HD in HP. rewrite (sumn_ext N (fun i => matvec N Rm (fun _ => 1) i ^ 2) (fun _ => 0)) in HP.
  - rewrite sumn_zero in HP. assert (0 < 0 + 0 * sumn N (fun i => (sclx i * 1) ^ 2)); [|lra]. apply HP. exists 0%nat. split; [exact HN|lra].
  - intros i Hi. unfold matvec. rewrite sumn_zero'; [ring|]. intros j Hj. rewrite H0 by auto. ring.
Qed.

(** the square system x^2 = 1 started at its stationary point x0 = 0, with every global method: the solver raises *)
Theorem C96_zero_jacobian_refuted tri cho chosolve fuel gm tolx tolf maxiter mlf tl :
  cho_spec 1 cho chosolve -> tolf < 100 ->
  exists (f : vec -> vec) (x0 : vec),
    (exists r, f r 0%nat = 0) /\ D (fun t => f (upd x0 0 t) 0%nat) (x0 0%nat) 0 /\
    forall Q rcond, well_conditioned rcond = false ->
    rootvec_qnewton fuel 1 gm f
      (fun _ => qn_lin 1 tri cho chosolve rcond Q (fun _ _ => 0) (fun _ => 1) (fun _ => 1) (f x0))
      x0 tolx tolf (fun _ => 1) (fun _ => 1) (S maxiter) mlf tl = Some (Err LinAlgError).
Proof.
  intros HC Ht. exists (fun x _ => x 0%nat ^ 2 - 1), (fun _ => 0). split; [|split].
  - exists (fun _ => 1). ring.
  - unfold upd. simpl. eapply D_eq. { apply (D_ext (fun t => t * t + -1)); [intros; ring|]. apply D_plus; [apply D_mult; apply D_id|apply D_const]. } cbv beta. ring.
  - intros Q rcond Hw. unfold rootvec_qnewton. rewrite (C96_zero_jacobian 1 tri cho chosolve rcond Q); auto.
    assert (E : Rleb (norm_inf 1 (fun _ : nat => 1 * (0 ^ 2 - 1))) (/ 100 * tolf) = false).
    { unfold Rleb. destruct (Rle_dec _ _) as [L|]; [|reflexivity]. exfalso. revert L. unfold norm_inf. cbn [maxn]. replace (1 * (0 ^ 2 - 1)) with (-(1)) by ring. rewrite Rabs_Ropp, Rabs_R1. pose proof (Rmax_r 0 1). lra. }
    rewrite E. reflexivity.
Qed.

Lemma orth_mmul_inj N Q A B : orthogonal N Q ->
  (forall i j, (i < N)%nat -> (j < N)%nat -> mmul N Q A i j = mmul N Q B i j) ->
  forall i j, (i < N)%nat -> (j < N)%nat -> A i j = B i j.
Proof.
  intros HO HE i j Hi Hj. rewrite <- (orth_t N Q (fun k => A k j) i HO Hi), <- (orth_t N Q (fun k => B k j) i HO Hi).
  unfold tmatvec. apply sumn_ext. intros k Hk. f_equal. apply (HE k j Hk Hj).
Qed.

(** the factor that the ill-conditioned branch stores in R is never the triangular factor of the Jacobian: whatever
    cho_factor leaves below the diagonal, Q R differs from the scaled Jacobian *)
Theorem C96_stale_factor N Q Rm J sclx C : is_qr N Q Rm J ->
  (forall i, (i < N)%nat -> 0 < sclx i) -> (exists i j, (i < N)%nat /\ (j < N)%nat /\ Rm i j <> 0) ->
  is_cho N C (qn_H N Rm sclx) ->
  ~ (forall i j, (i < N)%nat -> (j < N)%nat -> mmul N Q C i j = J i j).
Proof.
  intros (HO & HU & HQ) Hs HR (_ & HC) HE. pose proof (dlt_pos N Rm sclx Hs HR) as Hd.
  assert (E : forall i j, (i < N)%nat -> (j < N)%nat -> C i j = Rm i j). { apply (orth_mmul_inj N Q); auto. intros i j Hi Hj. now rewrite HE, HQ. }
  assert (ET : forall i j, (i < N)%nat -> (j < N)%nat -> triu C i j = Rm i j). { intros i j Hi Hj. unfold triu. destruct (Nat.leb_spec i j); [auto|]. symmetry. now apply HU. }
  destruct HR as (i & _ & Hi & _). specialize (HC i i Hi Hi). unfold qn_H in HC. rewrite delta_eq in HC. fold (dlt N Rm sclx) in HC.
  rewrite (sumn_ext N _ (fun k => Rm k i * Rm k i)) in HC by (intros; now rewrite ET). fold (qn_H0 N Rm i i) in HC. specialize (Hs i Hi). assert (0 < dlt N Rm sclx * sclx i ^ 2); [|lra]. apply Rmult_lt_0_compat; auto. now apply pow_lt.
Qed.

(** a 2x2 Jacobian of rank one, exactly factorised: the Jacobian built from the stored factors has full rank *)
Theorem C96_stale_factor_refuted : exists Q Rm C J : mat,
  is_qr 2 Q Rm J /\ is_cho 2 C (qn_H 2 Rm (fun _ => 1)) /\
  J 1%nat 1%nat = 0 /\ 0 < broyden_J 2 Q C (fun _ => 1) 1%nat 1%nat.
Proof.
  set (Rm := fun i j : nat => match i, j with O, O => 1 | _, _ => 0 end : R).
  assert (Hd : 0 < dlt 2 Rm (fun _ => 1)). { apply dlt_pos; [intros; lra|]. exists 0%nat, 0%nat. repeat split; try lia. unfold Rm. lra. }
  set (d := dlt 2 Rm (fun _ => 1)) in *.
  exists delta, Rm, (fun i j => match i, j with O, O => sqrt (1 + d) | 1%nat, 1%nat => sqrt d | _, _ => 0 end), Rm.
  assert (L2 : forall i, (i < 2)%nat -> i = 0%nat \/ i = 1%nat) by (intros; lia).
  assert (SD : sqrt d * sqrt d = d) by (apply sqrt_def; lra). assert (SE : sqrt (1 + d) * sqrt (1 + d) = 1 + d) by (apply sqrt_def; lra).
  assert (D00 : delta 0 0 = 1) by reflexivity. assert (D11 : delta 1 1 = 1) by reflexivity. assert (D01 : delta 0 1 = 0) by reflexivity. assert (D10 : delta 1 0 = 0) by reflexivity.
  split; [split; [split|split]|split; [split|split]].
  - intros i j Hi Hj. destruct (L2 i Hi) as [-> | ->], (L2 j Hj) as [-> | ->]; cbn [sumn]; rewrite ?D00, ?D01, ?D10, ?D11; ring.
  - intros i j Hi Hj. destruct (L2 i Hi) as [-> | ->], (L2 j Hj) as [-> | ->]; cbn [sumn]; rewrite ?D00, ?D01, ?D10, ?D11; ring.
  - intros i j Hi Hj. destruct i as [|i]; [lia|]. reflexivity.
  - intros i j Hi Hj. unfold mmul. destruct (L2 i Hi) as [-> | ->], (L2 j Hj) as [-> | ->]; cbn [sumn]; rewrite ?D00, ?D01, ?D10, ?D11; unfold Rm; ring.
  - intros i Hi. destruct (L2 i Hi) as [-> | ->]; apply sqrt_lt_R0; lra.
  - intros i j Hi Hj. unfold qn_H. fold (dlt 2 Rm (fun _ => 1)). fold d. unfold qn_H0.
    destruct (L2 i Hi) as [-> | ->], (L2 j Hj) as [-> | ->]; unfold triu; cbn [sumn Nat.leb]; rewrite ?D00, ?D01, ?D10, ?D11; unfold Rm; try ring; nra.
  - reflexivity.
  - unfold broyden_J, mmul. cbn [sumn]. rewrite D10, D11. assert (0 < sqrt d) by (apply sqrt_lt_R0; lra). lra.
Qed.

(** scipy.linalg.qr_update *)
Definition qr_update_spec (N : nat) (qu : mat -> mat -> vec -> vec -> mat * mat) : Prop := forall Q Rm u v,
  let '(Q', R') := qu Q Rm u v in
  forall i j, (i < N)%nat -> (j < N)%nat -> mmul N Q' R' i j = mmul N Q Rm i j + u i * v j.

Section Broyden.
Variables (N : nat) (qu : mat -> mat -> vec -> vec -> mat * mat) (xc xp fc fp : vec) (Q Rm Q' R' : mat) (sclx sclf : vec).
Hypothesis Hqu : qr_update_spec N qu.
Hypothesis Hx : forall i, (i < N)%nat -> 0 < sclx i.
Hypothesis Hne : exists i, (i < N)%nat /\ xp i <> xc i.
Hypothesis HU : update_broyden_qr N qu xc xp fc fp Q Rm sclx sclf = (Q', R').
Let s : vec := fun j => xp j - xc j.
Let A := mmul N Q Rm.
Let A' := mmul N Q' R'.
Let w := broyden_w N xc xp fc fp Q Rm sclf.
Let st := sumn N (fun j => s j * (s j * sclx j ^ 2)).
Lemma bst : 0 < st.
Proof.
  destruct Hne as (i & Hi & Hn). unfold st. apply (sumn_pos N _ i); auto.
  - intros j Hj. pose proof (pow2_ge_0 (s j)). pose proof (pow2_ge_0 (sclx j)). nra.
  - cbv beta. assert (0 < Rsqr (s i)) by (apply Rsqr_pos_lt; unfold s; lra). unfold Rsqr in *. pose proof (pow_lt (sclx i) 2 (Hx i Hi)). nra.
Qed.
Lemma bA i j : (i < N)%nat -> (j < N)%nat -> A' i j = A i j + w i * (s j * sclx j ^ 2 / st).
Proof. intros Hi Hj. unfold update_broyden_qr in HU. pose proof (Hqu Q Rm w (broyden_s N xc xp sclx)) as H. fold w in HU. rewrite HU in H. unfold A', A. rewrite H by auto. reflexivity. Qed.
Lemma bAv v i : (i < N)%nat -> matvec N A' v i = matvec N A v i + w i * (sumn N (fun j => s j * sclx j ^ 2 * v j) / st).
Proof.
  intros Hi. unfold matvec. rewrite <- sumn_div, <- sumn_scal, <- sumn_plus. apply sumn_ext. intros j Hj. rewrite bA by auto. pose proof bst. field. lra.
Qed.
Lemma bAs i : (i < N)%nat -> matvec N A' s i = matvec N A s i + w i.
Proof. intros Hi. rewrite bAv by auto. replace (sumn N (fun j => s j * sclx j ^ 2 * s j)) with st. - pose proof bst. field. lra. - unfold st. apply sumn_ext. intros; ring. Qed.
Let w0 i := sclf i * (fp i - fc i) - matvec N A s i.
Lemma bw i : w i = if Rltb (Rabs (w0 i)) (eps * sclf i * (Rabs (fp i) + Rabs (fc i))) then 0 else w0 i.
Proof. unfold w, broyden_w, w0, A. fold s. now rewrite mmul_vec. Qed.

(** secant equation of the updated factors, up to the rounding threshold below which w is zeroed *)
Lemma broyden_secant i : (i < N)%nat -> 0 <= sclf i ->
  Rabs (matvec N A' s i - sclf i * (fp i - fc i)) <= eps * sclf i * (Rabs (fp i) + Rabs (fc i)) /\
  (eps * sclf i * (Rabs (fp i) + Rabs (fc i)) <= Rabs (w0 i) -> matvec N A' s i = sclf i * (fp i - fc i)).
Proof.
  intros Hi Hf. rewrite bAs by auto. rewrite bw. unfold Rltb. destruct (Rlt_dec _ _) as [L|L].
  - split; [|lra]. replace (matvec N A s i + 0 - sclf i * (fp i - fc i)) with (- w0 i) by (unfold w0; ring). rewrite Rabs_Ropp. lra.
  - assert (E : matvec N A s i + w0 i = sclf i * (fp i - fc i)) by (unfold w0; ring). split; [|auto]. rewrite E, Rminus_diag_eq, Rabs_R0 by reflexivity. pose proof eps_p. pose proof (Rabs_pos (fp i)). pose proof (Rabs_pos (fc i)). apply Rmult_le_pos; [apply Rmult_le_pos; lra|lra].
Qed.
Lemma broyden_keep v i : (i < N)%nat -> sumn N (fun j => sclx j ^ 2 * s j * v j) = 0 -> matvec N A' v i = matvec N A v i.
Proof. intros Hi Hv. rewrite bAv by auto. rewrite (sumn_ext N _ (fun j => sclx j ^ 2 * s j * v j)) by (intros; ring). rewrite Hv. unfold Rdiv. ring. Qed.
Lemma broyden_affine : (forall i, (i < N)%nat -> matvec N A s i = sclf i * (fp i - fc i)) ->
  forall i j, (i < N)%nat -> (j < N)%nat -> A' i j = A i j.
Proof. intros H i j Hi Hj. rewrite bA by auto. rewrite bw. assert (E : w0 i = 0) by (unfold w0; rewrite H by auto; ring). rewrite E. destruct (Rltb _ _); ring. Qed.
Lemma broyden_least B i : (i < N)%nat -> matvec N B s i = sclf i * (fp i - fc i) ->
  sumn N (fun j => ((A' i j - A i j) / sclx j) ^ 2) <= sumn N (fun j => ((B i j - A i j) / sclx j) ^ 2).
Proof.
  intros Hi HB. pose proof bst as Hst. assert (E1 : sumn N (fun j => ((A' i j - A i j) / sclx j) ^ 2) = w i ^ 2 / st).
  { transitivity (sumn N (fun j => w i ^ 2 / st ^ 2 * (s j * (s j * sclx j ^ 2)))).
    - apply sumn_ext. intros j Hj. rewrite bA by auto. specialize (Hx j Hj). field. lra.
    - rewrite sumn_scal. fold st. field. lra. }
  rewrite E1. assert (Hw : w i ^ 2 <= w0 i ^ 2). { rewrite bw. destruct (Rltb _ _); [|lra]. pose proof (pow2_ge_0 (w0 i)). lra. }
  apply Rle_trans with (w0 i ^ 2 / st). { unfold Rdiv. apply Rmult_le_compat_r; auto. apply Rlt_le, Rinv_0_lt_compat; lra. }
  pose proof (sumn_cauchy N (fun _ => 1) (fun j => (B i j - A i j) / sclx j) (fun j => s j * sclx j)) as CS. cbv beta in CS.
  rewrite (sumn_ext N (fun j => 1 * ((B i j - A i j) / sclx j) * (s j * sclx j)) (fun j => B i j * s j - A i j * s j)) in CS.
  2:{ intros j Hj. specialize (Hx j Hj). field. lra. }
  rewrite sumn_minus in CS. change (sumn N (fun j => B i j * s j)) with (matvec N B s i) in CS. change (sumn N (fun j => A i j * s j)) with (matvec N A s i) in CS. rewrite HB in CS. fold (w0 i) in CS.
  rewrite (sumn_ext N (fun j => 1 * ((B i j - A i j) / sclx j) ^ 2) (fun j => ((B i j - A i j) / sclx j) ^ 2)) in CS by (intros; ring).
  rewrite (sumn_ext N (fun j => 1 * (s j * sclx j) ^ 2) (fun j => s j * (s j * sclx j ^ 2))) in CS by (intros; ring). fold st in CS.
  apply (Rmult_le_reg_r st); auto. unfold Rdiv at 1. rewrite Rmult_assoc, Rinv_l, Rmult_1_r by lra. apply CS. intros. lra.
Qed.
End Broyden.

(** _update_broyden_qr: the new factors satisfy the secant equation up to eps relative to the function values, act
    as the old ones on every direction conjugate to the step, and stay unchanged when the old ones already satisfy it *)
Theorem C96_secant N qu xc xp fc fp Q Rm Q' R' sclx sclf : qr_update_spec N qu ->
  (forall i, (i < N)%nat -> 0 < sclx i) -> (forall i, (i < N)%nat -> 0 <= sclf i) ->
  (exists i, (i < N)%nat /\ xp i <> xc i) ->
  update_broyden_qr N qu xc xp fc fp Q Rm sclx sclf = (Q', R') ->
  (forall i, (i < N)%nat -> Rabs (matvec N (mmul N Q' R') (fun j => xp j - xc j) i - sclf i * (fp i - fc i))
                            <= eps * sclf i * (Rabs (fp i) + Rabs (fc i))) /\
  (forall i, (i < N)%nat ->
     eps * sclf i * (Rabs (fp i) + Rabs (fc i)) <=
       Rabs (sclf i * (fp i - fc i) - matvec N (mmul N Q Rm) (fun j => xp j - xc j) i) ->
     matvec N (mmul N Q' R') (fun j => xp j - xc j) i = sclf i * (fp i - fc i)) /\
  (forall v i, (i < N)%nat -> sumn N (fun j => sclx j ^ 2 * (xp j - xc j) * v j) = 0 ->
     matvec N (mmul N Q' R') v i = matvec N (mmul N Q Rm) v i) /\
  ((forall i, (i < N)%nat -> matvec N (mmul N Q Rm) (fun j => xp j - xc j) i = sclf i * (fp i - fc i)) ->
     forall i j, (i < N)%nat -> (j < N)%nat -> mmul N Q' R' i j = mmul N Q Rm i j).
Proof.
  intros H1 H2 H3 H4 H5. split; [|split; [|split]].
  - intros i Hi. eapply (broyden_secant N qu); eauto.
  - intros i Hi. eapply (broyden_secant N qu); eauto.
  - intros v i Hi Hv. eapply (broyden_keep N qu); eauto.
  - eapply (broyden_affine N qu); eauto.
Qed.

(** least change: among all matrices with the secant equation the update is the nearest one, row by row, in the
    norm weighted by 1 / sclx *)
Theorem C96_least_change N qu xc xp fc fp Q Rm Q' R' sclx sclf B i : qr_update_spec N qu ->
  (forall i, (i < N)%nat -> 0 < sclx i) -> (exists i, (i < N)%nat /\ xp i <> xc i) ->
  update_broyden_qr N qu xc xp fc fp Q Rm sclx sclf = (Q', R') ->
  (i < N)%nat -> matvec N B (fun j => xp j - xc j) i = sclf i * (fp i - fc i) ->
  sumn N (fun j => ((mmul N Q' R' i j - mmul N Q Rm i j) / sclx j) ^ 2) <=
  sumn N (fun j => ((B i j - mmul N Q Rm i j) / sclx j) ^ 2).
Proof. intros H1 H2 H4 H5 Hi HB. eapply (broyden_least N qu xc xp fc fp Q Rm Q' R' sclx sclf); eauto. Qed.

(** the Jacobian returned with broyden_update: exact after an exact factorisation, and after a Broyden update its
    secant residual is at most eps (|fp| + |fc|), independently of the scalings *)
Theorem C96_returned_jacobian N Q Rm Jf sclf : is_qr N Q Rm (fun i j => sclf i * Jf i j) ->
  (forall i, (i < N)%nat -> 0 < sclf i) ->
  (forall i j, (i < N)%nat -> (j < N)%nat -> broyden_J N Q Rm sclf i j = Jf i j) /\
  (forall qu xc xp fc fp sclx Q' R', qr_update_spec N qu -> (forall i, (i < N)%nat -> 0 < sclx i) ->
     (exists i, (i < N)%nat /\ xp i <> xc i) ->
     update_broyden_qr N qu xc xp fc fp Q Rm sclx sclf = (Q', R') ->
     forall i, (i < N)%nat ->
       Rabs (sumn N (fun j => broyden_J N Q' R' sclf i j * (xp j - xc j)) - (fp i - fc i)) <= eps * (Rabs (fp i) + Rabs (fc i))).
Proof.
  intros (HO & HU & HQ) Hs. split.
  - intros i j Hi Hj. unfold broyden_J. rewrite HQ by auto. specialize (Hs i Hi). field. lra.
  - intros qu xc xp fc fp sclx Q' R' H1 H2 H4 H5 i Hi.
    destruct (C96_secant N qu xc xp fc fp Q Rm Q' R' sclx sclf H1 H2 (fun i Hi => Rlt_le _ _ (Hs i Hi)) H4 H5) as (A & _). specialize (A i Hi). specialize (Hs i Hi).
    apply (Rmult_le_reg_l (sclf i)); auto. rewrite <- (Rabs_right (sclf i)) at 1 by lra. rewrite <- Rabs_mult.
    replace (sclf i * (sumn N (fun j => broyden_J N Q' R' sclf i j * (xp j - xc j)) - (fp i - fc i))) with
      (matvec N (mmul N Q' R') (fun j => xp j - xc j) i - sclf i * (fp i - fc i)); [lra|].
    unfold matvec, broyden_J. rewrite (Rmult_minus_distr_l (sclf i) (sumn _ _)), <- sumn_scal. f_equal. apply sumn_ext. intros j Hj. field. lra.
Qed.

(** cases of order one *)
Definition tri1 (Rm : mat) (b : vec) : vec := fun _ => b 0%nat / Rm 0%nat 0%nat.
Definition cho1 (H : mat) : option mat := if Rltb 0 (H 0%nat 0%nat) then Some (fun _ _ => sqrt (H 0%nat 0%nat)) else None.
Definition chosolve1 (C : mat) (b : vec) : vec := fun _ => b 0%nat / (C 0%nat 0%nat * C 0%nat 0%nat).
Definition qu1 (Q Rm : mat) (u v : vec) : mat * mat := (fun _ _ => 1, fun _ _ => Q 0%nat 0%nat * Rm 0%nat 0%nat + u 0%nat * v 0%nat).
Lemma lt1 i : (i < 1)%nat -> i = 0%nat. Proof. lia. Qed.
Example C96_tri1 : tri_spec 1 tri1.
Proof. intros Rm b _ Hd i Hi. rewrite (lt1 i Hi). unfold matvec, tri1. cbn [sumn]. field. apply Hd. lia. Qed.
Example C96_cho1 : cho_spec 1 cho1 chosolve1.
Proof.
  split; [|split].
  - intros H [_ HP]. assert (Hp : 0 < H 0%nat 0%nat). { specialize (HP (fun _ => 1)). unfold dot, matvec in HP. cbn [sumn] in HP. assert (0 < 0 + 1 * (0 + H 0%nat 0%nat * 1)); [|lra]. apply HP. exists 0%nat. split; [lia|lra]. }
    exists (fun _ _ => sqrt (H 0%nat 0%nat)). unfold cho1, Rltb. destruct (Rlt_dec _ _); [|lra]. split; [reflexivity|]. split.
    + intros. now apply sqrt_lt_R0.
    + intros i j Hi Hj. rewrite (lt1 i Hi), (lt1 j Hj). unfold triu. cbn [sumn Nat.leb]. rewrite Rplus_0_l. apply sqrt_def. lra.
  - intros H HN. unfold cho1, Rltb. destruct (Rlt_dec _ _) as [L|L]; [|reflexivity]. exfalso. apply HN. split.
    + intros i j Hi Hj. now rewrite (lt1 i Hi), (lt1 j Hj).
    + intros v (i & Hi & Hv). rewrite (lt1 i Hi) in Hv. unfold dot, matvec. cbn [sumn]. assert (0 < Rsqr (v 0%nat)) by now apply Rsqr_pos_lt. unfold Rsqr in *. nra.
  - intros H C b. unfold cho1, Rltb. destruct (Rlt_dec _ _) as [L|L]; [|discriminate]. intros [= <-] i Hi. rewrite (lt1 i Hi). unfold matvec, chosolve1. cbn [sumn]. rewrite sqrt_def by lra. field. lra.
Qed.
(** x^2 = 2 at x = 2, residual 2 and slope 4: the step is -1/2 *)
Example C96_case_newton : exists gc p, qn_lin 1 tri1 cho1 chosolve1 (Fin 1) (fun _ _ => 1) (fun _ _ => 4) (fun _ => 1) (fun _ => 1) (fun _ => 2)
  = LinStep gc p (fun _ _ => 4) /\ p 0%nat = - (1 / 2) /\ gc 0%nat = 8.
Proof.
  unfold qn_lin. assert (E : well_conditioned (Fin 1) = true).
  { unfold well_conditioned, Rltb. destruct (Rlt_dec _ _) as [L|L]; [reflexivity|]. exfalso. apply L. assert (0 < sqrt eps) by apply sqrt_lt_R0, eps_p. assert (sqrt eps < 1). { rewrite <- sqrt_1. apply sqrt_lt_1_alt. pose proof eps_p. split; [lra|]. unfold eps. rewrite <- Rinv_1. apply Rinv_lt_contravar; [|apply Rlt_pow_R1; [lra|lia]]. rewrite Rmult_1_l. apply pow_lt. lra. }
    apply Rmult_lt_reg_r with (sqrt eps); auto. unfold Rdiv. rewrite Rmult_assoc, Rinv_l by lra. lra. }
  rewrite E. eexists. eexists. split; [reflexivity|]. unfold qn_grad, tri1, tmatvec. cbn [sumn]. split; field.
Qed.
(** the secant slope of x^2 between 1 and 2 replaces the tangent slope 2 *)
Example C96_case_broyden : qr_update_spec 1 qu1 /\
  let '(Q', R') := update_broyden_qr 1 qu1 (fun _ => 1) (fun _ => 2) (fun _ => 1) (fun _ => 4) (fun _ _ => 1) (fun _ _ => 2) (fun _ => 1) (fun _ => 1) in
  broyden_J 1 Q' R' (fun _ => 1) 0%nat 0%nat = 3.
Proof.
  split.
  - intros Q Rm u v. unfold qu1, mmul. intros i j Hi Hj. rewrite (lt1 i Hi), (lt1 j Hj). cbn [sumn]. ring.
  - unfold update_broyden_qr, qu1, broyden_J, mmul, broyden_w, broyden_s, dot, matvec. cbn [sumn].
    replace (1 * (4 - 1) - (0 + 1 * (0 + 2 * (2 - 1)))) with 1 by ring. rewrite Rabs_R1, !Rabs_right by lra.
    assert (H : eps * 1 * (4 + 1) < 1). { assert (eps <= / 2 ^ 4). { unfold eps. apply Rinv_le_contravar; [lra|]. apply Rle_pow; [lra|lia]. } lra. }
    unfold Rltb. destruct (Rlt_dec _ _) as [L|L]; [lra|]. field.
Qed.

Print Assumptions C96_gradient.
Print Assumptions C96_newton_step.
Print Assumptions C96_regularised_step.
Print Assumptions C96_zero_jacobian_refuted.
Print Assumptions C96_stale_factor.
Print Assumptions C96_stale_factor_refuted.
Print Assumptions C96_secant.
Print Assumptions C96_least_change.
Print Assumptions C96_returned_jacobian.
