(** C81: mixing functions of the activity models: the relation between Gibbs energy, enthalpy and
    entropy, the ideal entropy, and the entropy obtained by a complex-step derivative. *)
From Coq Require Import Reals Lra Lia List Bool Arith FunctionalExtensionality.
From Coquelicot Require Import Coquelicot.
From Verif Require Import Prelude Deriv KinModel RootsModel AcmModel AcmProps.
Open Scope R_scope.

(** Complex-step data: F extends the real function f to complex arguments near the real axis,
    f' (T) = l, and along T + i h the real part is stationary and the imaginary part grows as l h. *)
Definition CS (F : cx -> cx) (f : R -> R) (T : R) : Prop :=
  exists l, F (T, 0) = (f T, 0) /\ D f T l /\ D (fun h => fst (F (T, h))) 0 0 /\ D (fun h => snd (F (T, h))) 0 l.

Lemma CS_ext F G f g T : (forall z, F z = G z) -> (forall t, f t = g t) -> CS F f T -> CS G g T.
Proof.
  intros H1 H2 (l & A & B & C & E). exists l. split; [now rewrite <- H1, <- H2|]. split; [now apply (D_ext f)|].
  split; [apply (D_ext (fun h => fst (F (T, h))))|apply (D_ext (fun h => snd (F (T, h))))]; auto; intros; now rewrite H1.
Qed.
Lemma CS_id T : CS (fun z => z) (fun t => t) T.
Proof. exists 1. split; [reflexivity|]. split; [apply D_id|]. split; cbn; [apply D_const|apply D_id]. Qed.
Lemma CS_const c T : CS (fun _ => cre c) (fun _ => c) T.
Proof. exists 0. split; [reflexivity|]. split; [apply D_const|]. split; cbn; apply D_const. Qed.
Lemma CS_add F G f g T : CS F f T -> CS G g T -> CS (fun z => cadd (F z) (G z)) (fun t => f t + g t) T.
Proof.
  intros (l & A & B & C & E) (l' & A' & B' & C' & E'). exists (l + l'). split; [rewrite A, A'; unfold cadd; cbn; f_equal; ring|].
  split; [now apply D_plus|]. unfold cadd; cbn. split.
  - eapply D_eq; [apply (D_plus (fun h => fst (F (T, h))) (fun h => fst (G (T, h)))); eauto|ring].
  - now apply (D_plus (fun h => snd (F (T, h))) (fun h => snd (G (T, h)))).
Qed.
Lemma CS_mul F G f g T : CS F f T -> CS G g T -> CS (fun z => cmul (F z) (G z)) (fun t => f t * g t) T.
Proof.
  intros (l & A & B & C & E) (l' & A' & B' & C' & E'). exists (l * g T + f T * l').
  split; [rewrite A, A'; unfold cmul; cbn; f_equal; ring|]. split; [now apply D_mult|]. unfold cmul; cbn. split.
  - eapply D_eq; [apply (D_minus (fun h => _ * _) (fun h => _ * _));
      [apply (D_mult (fun h => fst (F (T, h))) (fun h => fst (G (T, h))))|apply (D_mult (fun h => snd (F (T, h))) (fun h => snd (G (T, h))))]; eauto|].
    cbv beta. rewrite A, A'. cbn. ring.
  - eapply D_eq; [apply (D_plus (fun h => _ * _) (fun h => _ * _));
      [apply (D_mult (fun h => fst (F (T, h))) (fun h => snd (G (T, h))))|apply (D_mult (fun h => snd (F (T, h))) (fun h => fst (G (T, h))))]; eauto|].
    cbv beta. rewrite A, A'. cbn. ring.
Qed.
Lemma CS_scal c F f T : CS F f T -> CS (fun z => cscal c (F z)) (fun t => c * f t) T.
Proof.
  intros H. apply (CS_ext (fun z => cmul (cre c) (F z)) _ (fun t => c * f t)); auto.
  - intros z. unfold cmul, cscal, cre. cbn. f_equal; ring.
  - apply (CS_mul (fun _ => cre c) F (fun _ => c) f); auto. apply CS_const.
Qed.
Lemma CS_div F G f g T : CS F f T -> CS G g T -> g T <> 0 -> CS (fun z => cdiv (F z) (G z)) (fun t => f t / g t) T.
Proof.
  intros (l & A & B & C & E) (l' & A' & B' & C' & E') Hg. exists ((l * g T - f T * l') / (g T) ^ 2).
  split; [rewrite A, A'; unfold cdiv; cbn; f_equal; field; auto|]. split; [now apply D_div|].
  assert (Q : D (fun h => (fst (G (T, h))) ^ 2 + (snd (G (T, h))) ^ 2) 0 0).
  { apply (D_ext (fun h => fst (G (T, h)) * fst (G (T, h)) + snd (G (T, h)) * snd (G (T, h)))); [intros; ring|].
    eapply D_eq; [apply (D_plus (fun h => _ * _) (fun h => _ * _));
      [apply (D_mult (fun h => fst (G (T, h))) (fun h => fst (G (T, h))))|apply (D_mult (fun h => snd (G (T, h))) (fun h => snd (G (T, h))))]; eauto|].
    cbv beta. rewrite A'. cbn. ring. }
  unfold cdiv; cbv zeta; cbn [fst snd]. split.
  - eapply D_eq.
    + apply (D_div (fun h => fst (F (T, h)) * fst (G (T, h)) + snd (F (T, h)) * snd (G (T, h))) (fun h => fst (G (T, h)) ^ 2 + snd (G (T, h)) ^ 2)).
      * apply (D_plus (fun h => _ * _) (fun h => _ * _));
          [apply (D_mult (fun h => fst (F (T, h))) (fun h => fst (G (T, h))))|apply (D_mult (fun h => snd (F (T, h))) (fun h => snd (G (T, h))))]; eauto.
      * exact Q.
      * rewrite A'. cbn [fst snd]. intros Z. apply Hg. nra.
    + cbv beta. rewrite A, A'. cbn [fst snd]. field; repeat split; auto; intros Z; apply Hg; nra.
  - eapply D_eq.
    + apply (D_div (fun h => snd (F (T, h)) * fst (G (T, h)) - fst (F (T, h)) * snd (G (T, h))) (fun h => fst (G (T, h)) ^ 2 + snd (G (T, h)) ^ 2)).
      * apply (D_minus (fun h => _ * _) (fun h => _ * _));
          [apply (D_mult (fun h => snd (F (T, h))) (fun h => fst (G (T, h))))|apply (D_mult (fun h => fst (F (T, h))) (fun h => snd (G (T, h))))]; eauto.
      * exact Q.
      * rewrite A'. cbn [fst snd]. intros Z. apply Hg. nra.
    + cbv beta. rewrite A, A'. cbn [fst snd]. field; repeat split; auto; intros Z; apply Hg; nra.
Qed.
Lemma CS_exp F f T : CS F f T -> CS (fun z => cexp (F z)) (fun t => exp (f t)) T.
Proof.
  intros (l & A & B & C & E). exists (exp (f T) * l). split; [rewrite A; unfold cexp; cbn; now rewrite cos_0, sin_0, Rmult_1_r, Rmult_0_r|].
  split; [now apply D_exp|]. unfold cexp; cbn [fst snd]. split.
  - eapply D_eq; [apply (D_mult (fun h => exp _) (fun h => cos _)); [apply (D_exp (fun h => fst (F (T, h)))); eauto|apply (D_cos (fun h => snd (F (T, h)))); eauto]|].
    cbv beta. rewrite A. cbn. rewrite sin_0. ring.
  - eapply D_eq; [apply (D_mult (fun h => exp _) (fun h => sin _)); [apply (D_exp (fun h => fst (F (T, h)))); eauto|apply (D_sin (fun h => snd (F (T, h)))); eauto]|].
    cbv beta. rewrite A. cbn. rewrite cos_0, sin_0. ring.
Qed.
Lemma ln_sqrt q : 0 < q -> ln (sqrt q) = 1 / 2 * ln q.
Proof. intros H. rewrite <- (sqrt_sqrt q) at 2 by lra. pose proof (sqrt_lt_R0 q H). rewrite ln_mult by auto. field. Qed.
Lemma CS_ln F f T : CS F f T -> 0 < f T -> CS (fun z => cln (F z)) (fun t => ln (f t)) T.
Proof.
  intros (l & A & B & C & E) P. exists (l / f T).
  split. { rewrite A; unfold cln; cbn [fst snd]. f_equal; [f_equal; replace (f T ^ 2 + 0 ^ 2) with (f T * f T) by ring; apply sqrt_square; lra|].
    unfold Rdiv. rewrite Rmult_0_l. apply atan_0. }
  split; [now apply D_ln|]. unfold cln; cbn [fst snd]. split.
  - assert (Q : D (fun h => (fst (F (T, h))) ^ 2 + (snd (F (T, h))) ^ 2) 0 0).
    { apply (D_ext (fun h => fst (F (T, h)) * fst (F (T, h)) + snd (F (T, h)) * snd (F (T, h)))); [intros; ring|].
      eapply D_eq; [apply (D_plus (fun h => _ * _) (fun h => _ * _));
        [apply (D_mult (fun h => fst (F (T, h))) (fun h => fst (F (T, h))))|apply (D_mult (fun h => snd (F (T, h))) (fun h => snd (F (T, h))))]; eauto|].
      cbv beta. rewrite A. cbn. ring. }
    assert (Q0 : 0 < fst (F (T, 0)) ^ 2 + snd (F (T, 0)) ^ 2) by (rewrite A; cbn [fst snd]; nra).
    set (q := fun h => fst (F (T, h)) ^ 2 + snd (F (T, h)) ^ 2) in *.
    assert (K : D (fun h => 1 / 2 * ln (q h)) 0 0).
    { eapply D_eq; [apply (D_scal (1 / 2) (fun h => ln (q h))); apply (D_ln q); [exact Q|exact Q0]|]. unfold Rdiv. ring. }
    assert (Cq : continuous q 0) by (apply (ex_derive_continuous q); eexists; exact Q).
    assert (Nq : locally 0 (fun h => 0 < q h)) by (apply (Cq (fun y => 0 < y)); apply (open_gt 0 (q 0)); exact Q0).
    destruct Nq as (e & Ne). refine (D_ext_loc _ _ 0 0 e (cond_pos e) _ K). intros h Hh. symmetry. apply ln_sqrt. apply Ne. exact Hh.
  - eapply D_eq; [apply (D_atan (fun h => snd (F (T, h)) / fst (F (T, h))));
      apply (D_div (fun h => snd (F (T, h))) (fun h => fst (F (T, h))) 0 l 0); auto; rewrite A; cbn; lra|].
    rewrite A. cbn [fst snd]. field; repeat split; nra.
Qed.
Lemma CS_sum N (F : nat -> cx -> cx) (f : nat -> R -> R) T :
  (forall i, (i < N)%nat -> CS (F i) (f i) T) -> CS (fun z => csum N (fun i => F i z)) (fun t => sumn N (fun i => f i t)) T.
Proof.
  induction N as [|N IH]; intros H; [apply CS_const|].
  apply (CS_ext (fun z => cadd (csum N (fun i => F i z)) (F N z)) _ (fun t => sumn N (fun i => f i t) + f N t)); auto.
  apply (CS_add (fun z => csum N (fun i => F i z)) (F N) (fun t => sumn N (fun i => f i t)) (f N)); [apply IH; intros; apply H; lia|apply H; lia].
Qed.

Lemma CS_tau a b e f i j T : 0 < T -> CS (fun z => ctau a b e f z i j) (fun t => NRTL_tau a b e f t i j) T.
Proof.
  intros HT. unfold ctau, NRTL_tau.
  apply (CS_add (fun z => cadd _ _) (fun z => cscal _ _) (fun t => _ + _) (fun t => f i j * t)); [|apply (CS_scal (f i j) (fun z => z) (fun t => t)); apply CS_id].
  apply (CS_add (fun z => cadd _ _) (fun z => cscal _ _) (fun t => _ + _) (fun t => e i j * ln t)).
  - apply (CS_add (fun z => cre _) (fun z => cdiv _ _) (fun t => _) (fun t => b i j / t)); [apply CS_const|].
    apply (CS_div (fun _ => cre (b i j)) (fun z => z) (fun _ => b i j) (fun t => t)); [apply CS_const|apply CS_id|lra].
  - apply (CS_scal (e i j) (fun z => cln z) (fun t => ln t)). apply (CS_ln (fun z => z) (fun t => t)); [apply CS_id|exact HT].
Qed.
Lemma CS_alpha c d i j T : CS (fun z => calpha c d z i j) (fun t => NRTL_alpha c d t i j) T.
Proof.
  unfold calpha, NRTL_alpha. apply (CS_add (fun z => cre _) (fun z => cscal _ _) (fun t => _) (fun t => d i j * (t - 27315 / 100))); [apply CS_const|].
  apply (CS_scal (d i j) (fun z => cadd _ _) (fun t => _)). apply (CS_add (fun z => z) (fun _ => cre _) (fun t => t) (fun _ => _)); [apply CS_id|apply CS_const].
Qed.

Lemma NRTL_CS N x a b c d e f T : moles N x -> 0 < T ->
  CS (NRTL_gEc N x a b c d e f) (fun t => NRTL_gE N t x (NRTL_tau a b e f t) (NRTL_alpha c d t)) T.
Proof.
  intros M HT.
  assert (HG : forall i j, CS (fun z => cexp (cscal (-1) (cmul (calpha c d z i j) (ctau a b e f z i j)))) (fun t => NRTL_G (NRTL_tau a b e f t) (NRTL_alpha c d t) i j) T).
  { intros i j. apply (CS_ext (fun z => cexp (cscal (-1) (cmul (calpha c d z i j) (ctau a b e f z i j)))) _ (fun t => exp (-1 * (NRTL_alpha c d t i j * NRTL_tau a b e f t i j)))); auto.
    - intros t. unfold NRTL_G. f_equal. ring.
    - apply (CS_exp (fun z => cscal _ _) (fun t => _)). apply (CS_scal (-1) (fun z => cmul _ _) (fun t => _)).
      apply (CS_mul (fun z => calpha c d z i j) (fun z => ctau a b e f z i j) (fun t => NRTL_alpha c d t i j) (fun t => NRTL_tau a b e f t i j)); [apply CS_alpha|now apply CS_tau]. }
  unfold NRTL_gEc, NRTL_gE. cbv zeta.
  apply (CS_mul (fun z => cscal Rgas z) (fun z => csum N _) (fun t => Rgas * t) (fun t => sumn N _)); [apply (CS_scal Rgas (fun z => z) (fun t => t)); apply CS_id|].
  apply (CS_sum N (fun i z => _) (fun i t => _)). intros i Hi. apply (CS_scal (x i) (fun z => cdiv _ _) (fun t => _ / _)).
  apply (CS_div (fun z => csum N _) (fun z => csum N _) (fun t => NRTL_A N x _ _ i) (fun t => NRTL_B N x _ _ i)).
  - unfold NRTL_A. apply (CS_sum N (fun j z => _) (fun j t => _)). intros j Hj. apply (CS_scal (x j) (fun z => cmul _ _) (fun t => _ * _)).
    apply (CS_mul (fun z => ctau a b e f z j i) (fun z => cexp _) (fun t => NRTL_tau a b e f t j i) (fun t => NRTL_G _ _ j i)); [now apply CS_tau|apply HG].
  - unfold NRTL_B. apply (CS_sum N (fun j z => _) (fun j t => _)). intros j Hj. apply (CS_scal (x j) (fun z => cexp _) (fun t => NRTL_G _ _ j i)). apply HG.
  - pose proof (B_pos N x (NRTL_tau a b e f T) (NRTL_alpha c d T) i M). lra.
Qed.
Lemma CS_exp_par a b c d i j T : 0 < T -> CS (fun z => cexp (ctau a b c d z i j)) (fun t => exp_par a b c d t i j) T.
Proof. intros HT. unfold exp_par. apply (CS_exp (fun z => ctau a b c d z i j) (fun t => NRTL_tau a b c d t i j)). now apply CS_tau. Qed.
Lemma exp_par_pos N a b c d T : pos_mat N (exp_par a b c d T).
Proof. intros i j _ _. apply exp_pos. Qed.
Lemma Wilson_CS N x a b c d T : moles N x -> 0 < T ->
  CS (Wilson_gEc N x a b c d) (fun t => Wilson_gE N t x (exp_par a b c d t)) T.
Proof.
  intros M HT. unfold Wilson_gEc, Wilson_gE. cbv zeta.
  apply (CS_mul (fun z => cscal (- Rgas) z) (fun z => csum N _) (fun t => - Rgas * t) (fun t => sumn N _)); [apply (CS_scal (- Rgas) (fun z => z) (fun t => t)); apply CS_id|].
  apply (CS_sum N (fun i z => _) (fun i t => _)). intros i Hi. apply (CS_scal (x i) (fun z => cln _) (fun t => ln _)).
  apply (CS_ln (fun z => csum N _) (fun t => Wilson_A N x (exp_par a b c d t) i)); [|apply WA_pos; auto; apply exp_par_pos].
  unfold Wilson_A. apply (CS_sum N (fun j z => _) (fun j t => _)). intros j Hj.
  apply (CS_ext (fun z => cscal (x j) (cexp (ctau a b c d z i j))) _ (fun t => x j * exp_par a b c d t i j)); auto; [intros; ring|].
  apply (CS_scal (x j) (fun z => cexp _) (fun t => exp_par a b c d t i j)). now apply CS_exp_par.
Qed.
Lemma UNIQUAC_CS N x q r a b c d T : moles N x -> (forall i, (i < N)%nat -> 0 < q i) -> 0 < T ->
  CS (UNIQUAC_gEc N x q r a b c d) (fun t => UNIQUAC_gE N t x q r (exp_par a b c d t)) T.
Proof.
  intros M Hq HT. unfold UNIQUAC_gEc, UNIQUAC_gE. cbv zeta.
  pose proof (moles_wsum N x q M Hq) as PQ.
  apply (CS_mul (fun z => cscal Rgas z) (fun z => cadd _ _) (fun t => Rgas * t) (fun t => _)); [apply (CS_scal Rgas (fun z => z) (fun t => t)); apply CS_id|].
  apply (CS_add (fun z => cre _) (fun z => cscal (-1) _) (fun t => _) (fun t => - _)); [apply CS_const|].
  match goal with |- CS (fun z => cscal (-1) (@?F z)) (fun t => - (@?f t)) T => apply (CS_ext (fun z => cscal (-1) (F z)) _ (fun t => -1 * f t)); auto; [intros; cbv beta; ring|apply (CS_scal (-1) F f)] end.
  apply (CS_sum N (fun i z => _) (fun i t => _)). intros i Hi. destruct (Rltb 0 (x i)) eqn:Pi; [|apply CS_const].
  apply (CS_scal (q i * x i) (fun z => cln _) (fun t => ln _)).
  apply (CS_ln (fun z => csum N _) (fun t => sumn N _)).
  - apply (CS_sum N (fun j z => _) (fun j t => _)). intros j Hj. apply (CS_scal (x j * q j / sumn N (fun l => x l * q l)) (fun z => cexp _) (fun t => exp_par a b c d t j i)). now apply CS_exp_par.
  - rewrite (sumn_ext N _ (fun j => x j * (q j / sumn N (fun l => x l * q l) * exp_par a b c d T j i))) by (intros; unfold Rdiv; ring).
    apply (moles_wsum N x (fun j => q j / sumn N (fun l => x l * q l) * exp_par a b c d T j i) M).
    intros j Hj. apply Rmult_lt_0_compat; [apply Rdiv_lt_0_compat; auto|apply exp_pos].
Qed.
Lemma FH_CS N phi m a b c d e T : 0 < T -> CS (FH_Dgmixc N phi m a b c d e) (fun t => FH_Dgmix N t phi m (FH_chi a b c d e t)) T.
Proof.
  intros HT. unfold FH_Dgmixc, FH_Dgmix, FH_quad. cbv zeta.
  apply (CS_mul (fun z => cscal Rgas z) (fun z => cadd _ _) (fun t => Rgas * t) (fun t => _)); [apply (CS_scal Rgas (fun z => z) (fun t => t)); apply CS_id|].
  apply (CS_add (fun z => cre _) (fun z => cscal (1 / 2) _) (fun t => _) (fun t => 1 / 2 * _)); [apply CS_const|].
  apply (CS_scal (1 / 2) (fun z => csum N _) (fun t => sumn N _)). apply (CS_sum N (fun i z => _) (fun i t => _)). intros i Hi.
  apply (CS_scal (phi i) (fun z => csum N _) (fun t => sumn N _)). apply (CS_sum N (fun j z => _) (fun j t => _)). intros j Hj.
  apply (CS_scal (phi j) (fun z => cchi _ _ _ _ _ _ _ _) (fun t => FH_chi a b c d e t j i)). unfold cchi, FH_chi.
  apply (CS_add (fun z => ctau a b c d z j i) (fun z => cscal _ _) (fun t => NRTL_tau a b c d t j i) (fun t => e j i * t ^ 2)); [now apply CS_tau|].
  apply (CS_scal (e j i) (fun z => cpow2 z) (fun t => t ^ 2)). unfold cpow2.
  apply (CS_ext (fun z => cmul z z) _ (fun t => t * t)); auto; [intros; ring|]. apply (CS_mul (fun z => z) (fun z => z) (fun t => t) (fun t => t)); apply CS_id.
Qed.

(* ------------------------------------------------------------------ *)
(** * Statements                                                      *)
(* ------------------------------------------------------------------ *)

(** base.py:54-131: whatever gE and sE are *)
Theorem C81_mixing_relation N T x gE sE : let m := mixing N T x gE sE in
  mx_Dg m = mx_Dh m - T * mx_Ds m /\ mx_gE m = mx_hE m - T * mx_sE m.
Proof. unfold mixing. cbn. split; ring. Qed.

(** The ideal entropy of mixing lies between 0 and R ln N, is 0 for a pure component and R ln N for
    the equimolar mixture. *)
Theorem C81_ideal_entropy N x : (forall i, (i < N)%nat -> 0 <= x i) -> sumn N x = 1 ->
  0 <= Dsmix_ideal N x <= Rgas * ln (INR N).
Proof.
  intros H0 H1. pose proof Rgas_pos as HR. unfold Dsmix_ideal.
  assert (LE : forall i, (i < N)%nat -> x i <= 1).
  { intros i Hi. rewrite <- H1. rewrite <- (sumn_delta_l N i x Hi). apply sumn_le. intros j Hj. specialize (H0 j Hj).
    unfold delta. destruct (Nat.eq_dec i j); lra. }
  assert (NP : (0 < N)%nat) by (destruct N; [cbn in H1; lra|lia]).
  assert (NP' : 0 < INR N) by (apply lt_0_INR; auto).
  set (s := sumn N (fun i => if Rltb 0 (x i) then x i * ln (x i) else 0)).
  assert (S1 : s <= 0).
  { unfold s. apply Rle_trans with (sumn N (fun _ => 0)); [|right; apply sumn_zero'; auto]. apply sumn_le. intros i Hi.
    destruct (Rltb 0 (x i)) eqn:P; rdec; [|lra]. specialize (LE i Hi).
    assert (ln (x i) <= 0) by (rewrite <- ln_1; apply ln_le; lra). nra. }
  assert (S2 : - s <= ln (INR N)).
  { assert (Q : sumn N (fun i => x i * ln (/ INR N) - (if Rltb 0 (x i) then x i * ln (x i) else 0)) <= sumn N (fun i => / INR N - x i)).
    { apply sumn_le. intros i Hi. destruct (Rltb 0 (x i)) eqn:P; rdec.
      - assert (E : x i * ln (/ INR N) - x i * ln (x i) = x i * ln (/ INR N / x i)).
        { unfold Rdiv. rewrite ln_mult by (apply Rinv_0_lt_compat; auto). rewrite (ln_Rinv (x i)) by auto. ring. }
        rewrite E. assert (B : ln (/ INR N / x i) <= / INR N / x i - 1).
        { pose proof (exp_ineq1_le (ln (/ INR N / x i))) as K. rewrite exp_ln in K by (apply Rdiv_lt_0_compat; auto; now apply Rinv_0_lt_compat). lra. }
        apply Rle_trans with (x i * (/ INR N / x i - 1)); [apply Rmult_le_compat_l; lra|]. right. field. lra.
      - specialize (H0 i Hi). replace (x i) with 0 by lra. pose proof (Rinv_0_lt_compat _ NP'). lra. }
    rewrite !sumn_minus, sumn_scal_r, H1, sumn_const in Q. fold s in Q. rewrite ln_Rinv in Q by auto. rewrite Rinv_r in Q by lra. lra. }
  split; nra.
Qed.

(** The complex-step quotient of gE (Dgmix for Flory-Huggins) converges to the temperature
    derivative: the entropies sE / Dsmix are, up to the finite step, -dgE/dT. *)
Definition sE_consistent (F : cx -> cx) (g : R -> R) (T : R) : Prop :=
  exists l, D g T l /\ F (T, 0) = (g T, 0) /\
    forall e, 0 < e -> exists d, 0 < d /\ forall h, h <> 0 -> Rabs h < d -> Rabs (snd (F (T, h)) / h - l) < e.
Lemma CS_consistent F g T : CS F g T -> sE_consistent F g T.
Proof.
  intros (l & A & B & C & E). exists l. split; auto. split; auto. apply (D_quot (fun h => snd (F (T, h))) l); auto. now rewrite A.
Qed.
Theorem C81_NRTL_entropy N x a b c d e f T : moles N x -> 0 < T ->
  sE_consistent (NRTL_gEc N x a b c d e f) (fun t => NRTL_gE N t x (NRTL_tau a b e f t) (NRTL_alpha c d t)) T.
Proof. intros. apply CS_consistent. now apply NRTL_CS. Qed.
Theorem C81_Wilson_entropy N x a b c d T : moles N x -> 0 < T ->
  sE_consistent (Wilson_gEc N x a b c d) (fun t => Wilson_gE N t x (exp_par a b c d t)) T.
Proof. intros. apply CS_consistent. now apply Wilson_CS. Qed.
Theorem C81_UNIQUAC_entropy N x q r a b c d T : moles N x -> (forall i, (i < N)%nat -> 0 < q i) -> 0 < T ->
  sE_consistent (UNIQUAC_gEc N x q r a b c d) (fun t => UNIQUAC_gE N t x q r (exp_par a b c d t)) T.
Proof. intros. apply CS_consistent. now apply UNIQUAC_CS. Qed.
Theorem C81_FH_entropy N phi m a b c d e T : 0 < T ->
  sE_consistent (FH_Dgmixc N phi m a b c d e) (fun t => FH_Dgmix N t phi m (FH_chi a b c d e t)) T.
Proof. intros. apply CS_consistent. now apply FH_CS. Qed.

(** The step used, h = eps, for Flory-Huggins: the error of Dsmix is bounded by
    eps^2 R/2 sum_ij |phi_i phi_j| (|e_ij| + |c_ij|/T^2). *)
Lemma atan_bounds u : 0 < u -> / (1 + u ^ 2) <= atan u / u <= 1.
Proof.
  intros Hu. destruct (MVT_gen atan 0 u (fun t => / (1 + t ^ 2))) as (c & Hc & E).
  - intros t _. eapply D_eq; [apply (D_atan (fun t => t) t 1 (D_id t))|]. unfold Rdiv. ring.
  - intros t _. apply derivable_continuous_pt. apply derivable_pt_atan.
  - rewrite Rmin_left, Rmax_right in Hc by lra. rewrite atan_0, !Rminus_0_r in E. rewrite E.
    replace (/ (1 + c ^ 2) * u / u) with (/ (1 + c ^ 2)) by (field; split; nra). split.
    + apply Rinv_le_contravar; nra.
    + rewrite <- Rinv_1. apply Rinv_le_contravar; nra.
Qed.
Lemma TlnT_step T h : 0 < T -> 0 < h ->
  Rabs (snd (cmul (T, h) (cln (T, h))) / h - (ln T + 1)) <= h ^ 2 / T ^ 2.
Proof.
  intros HT Hh. set (u := h / T). assert (Pu : 0 < u) by now apply Rdiv_lt_0_compat.
  assert (E : snd (cmul (T, h) (cln (T, h))) / h - (ln T + 1) = 1 / 2 * ln (1 + u ^ 2) + (atan u / u - 1)).
  { unfold cmul, cln; cbn [fst snd]. fold u. rewrite ln_sqrt by nra.
    replace (T ^ 2 + h ^ 2) with (T * T * (1 + u ^ 2)) by (unfold u; field; lra).
    rewrite !ln_mult by (try apply Rmult_lt_0_compat; nra). generalize (ln (1 + u ^ 2)) (atan u). intros q w. unfold u. field. lra. }
  rewrite E. replace (h ^ 2 / T ^ 2) with (u ^ 2) by (unfold u; field; lra).
  pose proof (atan_bounds u Pu) as (A1 & A2).
  assert (L0 : 0 <= ln (1 + u ^ 2)) by (rewrite <- ln_1; apply ln_le; nra).
  assert (L1 : ln (1 + u ^ 2) <= u ^ 2).
  { pose proof (exp_ineq1_le (u ^ 2)) as K. rewrite <- (ln_exp (u ^ 2)) at 2. apply ln_le; nra. }
  assert (I : 1 - u ^ 2 <= / (1 + u ^ 2)).
  { apply (Rmult_le_reg_r (1 + u ^ 2)); [nra|]. rewrite Rinv_l by nra. nra. }
  apply Rabs_le. nra.
Qed.

Theorem C81_FH_entropy_bound N phi m a b c d e T : 0 < T ->
  exists l, D (fun t => FH_Dgmix N t phi m (FH_chi a b c d e t)) T l /\
    Rabs (FH_Dsmix N T phi m a b c d e - - l) <=
      eps ^ 2 * (Rgas / 2 * sumn N (fun i => sumn N (fun j => Rabs (phi i * phi j) * (Rabs (e j i) + Rabs (c j i) / T ^ 2)))).
Proof.
  intros HT. pose proof Rgas_pos as HR. assert (Pe : 0 < eps) by (unfold eps; apply Rinv_0_lt_compat, pow_lt; lra).
  set (l := Rgas * (FH_comb N phi m + 1 / 2 * sumn N (fun i => phi i * sumn N (fun j => phi j *
    (a j i + c j i * (ln T + 1) + 2 * d j i * T + 3 * e j i * T ^ 2))))).
  exists l. split.
  - unfold FH_Dgmix, FH_quad.
    apply (D_ext_loc (fun t => Rgas * (t * FH_comb N phi m + 1 / 2 * sumn N (fun i => phi i * sumn N (fun j => phi j *
      (a j i * t + b j i + c j i * (t * ln t) + d j i * (t * t) + e j i * (t * t * t)))))) _ T l T HT).
    { intros t Ht. apply Rabs_def2 in Ht.
      transitivity (Rgas * (t * FH_comb N phi m + 1 / 2 * (t * sumn N (fun i => phi i * sumn N (fun j => phi j * FH_chi a b c d e t j i))))); [|ring].
      f_equal. f_equal. f_equal. rewrite <- sumn_scal. apply sumn_ext. intros i Hi. transitivity (phi i * (t * sumn N (fun j => phi j * FH_chi a b c d e t j i))); [|ring]. f_equal.
      rewrite <- sumn_scal. apply sumn_ext. intros j Hj. unfold FH_chi. field. lra. }
    unfold l. apply (D_scal Rgas (fun t => _ + _)). apply (D_plus (fun t => t * _) (fun t => 1 / 2 * _)).
    + eapply D_eq; [apply (D_mult (fun t => t) (fun _ => FH_comb N phi m)); [apply D_id|apply D_const]|cbv beta; ring].
    + apply (D_scal (1 / 2) (fun t => sumn N _)). apply (D_sumn N (fun i t => _)). intros i Hi.
      apply (D_scal (phi i) (fun t => sumn N _)). apply (D_sumn N (fun j t => _)). intros j Hj. apply (D_scal (phi j) (fun t => _ + _)).
      eapply D_eq.
      * apply (D_plus (fun t => _ + _) (fun t => e j i * _)); [apply (D_plus (fun t => _ + _) (fun t => d j i * _)); [apply (D_plus (fun t => _ + _) (fun t => c j i * _)); [apply (D_plus (fun t => a j i * t) (fun _ => b j i)); [apply (D_scal (a j i) (fun t => t)), D_id|apply D_const]|]|]|].
        -- apply (D_scal (c j i) (fun t => t * ln t)). apply (D_mult (fun t => t) (fun t => ln t)); [apply D_id|]. apply (D_ln (fun t => t)); [apply D_id|auto].
        -- apply (D_scal (d j i) (fun t => t * t)). apply (D_mult (fun t => t) (fun t => t)); apply D_id.
        -- apply (D_scal (e j i) (fun t => t * t * t)). apply (D_mult (fun t => t * t) (fun t => t)); [apply (D_mult (fun t => t) (fun t => t)); apply D_id|apply D_id].
      * cbv beta. field. lra.
  - set (k := fun i j => a j i + c j i * (snd (cmul (T, eps) (cln (T, eps))) / eps) + 2 * d j i * T + e j i * (3 * T ^ 2 - eps ^ 2)).
    assert (E : FH_Dsmix N T phi m a b c d e = - (Rgas * (FH_comb N phi m + 1 / 2 * sumn N (fun i => phi i * sumn N (fun j => phi j * k i j))))).
    { unfold FH_Dsmix, cstep, FH_Dgmixc. f_equal. unfold csum, cadd, cscal, cre. cbn [fst snd]. unfold cmul at 1. cbn [fst snd].
      set (X := fun i j => cchi a b c d e (T, eps) j i).
      set (u := sumn N (fun i => phi i * sumn N (fun j => phi j * fst (X i j)))).
      set (v := sumn N (fun i => phi i * sumn N (fun j => phi j * snd (X i j)))).
      transitivity (Rgas * (FH_comb N phi m + 1 / 2 * ((T * v + eps * u) / eps))).
      { unfold u, v, X. field. lra. }
      f_equal. f_equal. f_equal. unfold u, v. rewrite <- !sumn_scal, <- sumn_plus, <- sumn_div. apply sumn_ext. intros i Hi.
      transitivity (phi i * ((T * sumn N (fun j => phi j * snd (X i j)) + eps * sumn N (fun j => phi j * fst (X i j))) / eps)); [field; lra|].
      f_equal. rewrite <- !sumn_scal, <- sumn_plus, <- sumn_div. apply sumn_ext. intros j Hj.
      transitivity (phi j * ((T * snd (X i j) + eps * fst (X i j)) / eps)); [field; lra|]. f_equal.
      unfold X, k, cchi, ctau, cpow2, cadd, cmul, cscal, cdiv, cre. cbn [fst snd]. field. split; [lra|nra]. }
    rewrite E. unfold l.
    assert (E2 : - (Rgas * (FH_comb N phi m + 1 / 2 * sumn N (fun i => phi i * sumn N (fun j => phi j * k i j))))
      - - (Rgas * (FH_comb N phi m + 1 / 2 * sumn N (fun i => phi i * sumn N (fun j => phi j * (a j i + c j i * (ln T + 1) + 2 * d j i * T + 3 * e j i * T ^ 2)))))
      = - (Rgas / 2) * sumn N (fun i => sumn N (fun j => phi i * phi j * (c j i * (snd (cmul (T, eps) (cln (T, eps))) / eps - (ln T + 1)) - e j i * eps ^ 2)))).
    { transitivity (- (Rgas / 2) * (sumn N (fun i => phi i * sumn N (fun j => phi j * k i j)) - sumn N (fun i => phi i * sumn N (fun j => phi j * (a j i + c j i * (ln T + 1) + 2 * d j i * T + 3 * e j i * T ^ 2))))); [field|].
      f_equal. rewrite <- sumn_minus. apply sumn_ext. intros i Hi. rewrite <- !sumn_scal, <- sumn_minus. apply sumn_ext. intros j Hj. unfold k. ring. }
    rewrite E2, Rabs_mult, Rabs_Ropp, Rabs_right by lra.
    replace (eps ^ 2 * (Rgas / 2 * sumn N (fun i => sumn N (fun j => Rabs (phi i * phi j) * (Rabs (e j i) + Rabs (c j i) / T ^ 2)))))
      with (Rgas / 2 * (eps ^ 2 * sumn N (fun i => sumn N (fun j => Rabs (phi i * phi j) * (Rabs (e j i) + Rabs (c j i) / T ^ 2))))) by ring.
    apply Rmult_le_compat_l; [lra|]. rewrite <- sumn_scal. eapply Rle_trans; [apply sumn_abs|]. apply sumn_le. intros i Hi.
    rewrite <- sumn_scal. eapply Rle_trans; [apply sumn_abs|]. apply sumn_le. intros j Hj.
    rewrite Rabs_mult. rewrite <- Rmult_assoc, (Rmult_comm (eps ^ 2)), Rmult_assoc. apply Rmult_le_compat_l; [apply Rabs_pos|].
    eapply Rle_trans; [apply Rabs_triang|]. rewrite Rabs_Ropp, !Rabs_mult. pose proof (TlnT_step T eps HT Pe) as K.
    rewrite (Rabs_right (eps ^ 2)) by (apply Rle_ge, pow2_ge_0).
    pose proof (Rabs_pos (c j i)) as Pc. apply (Rmult_le_compat_l (Rabs (c j i))) in K; auto.
    replace (eps ^ 2 * (Rabs (e j i) + Rabs (c j i) / T ^ 2)) with (Rabs (c j i) * (eps ^ 2 / T ^ 2) + Rabs (e j i) * eps ^ 2) by (field; lra). lra.
Qed.

(** Athermal parameters (b = c = d = 0 in Wilson / UNIQUAC, tau and alpha constant in NRTL): sE is
    exactly -gE/T and the enthalpy of mixing is exactly zero, for the step actually used. *)
Definition zmat : mat := fun _ _ => 0.
Lemma ctau_const a h i j T : 0 < T -> ctau a zmat zmat zmat (T, h) i j = (a i j, 0).
Proof. intros HT. unfold ctau, zmat, cadd, cscal, cdiv, cre. cbn [fst snd]. f_equal; field; nra. Qed.
Lemma cln_real v : 0 < v -> cln (v, 0) = (ln v, 0).
Proof.
  intros H. unfold cln; cbn [fst snd]. f_equal; [f_equal; replace (v ^ 2 + 0 ^ 2) with (v * v) by ring; apply sqrt_square; lra|].
  unfold Rdiv. rewrite Rmult_0_l. apply atan_0.
Qed.
Lemma cexp_real v : cexp (v, 0) = (exp v, 0).
Proof. unfold cexp; cbn. now rewrite cos_0, sin_0, Rmult_1_r, Rmult_0_r. Qed.
Lemma csum_real N (f : nat -> cx) g : (forall i, (i < N)%nat -> f i = (g i, 0)) -> csum N f = (sumn N g, 0).
Proof. intros H. unfold csum. f_equal; [apply sumn_ext|apply sumn_zero']; intros i Hi; now rewrite H. Qed.
Lemma cscal_real c v : cscal c (v, 0) = (c * v, 0).
Proof. unfold cscal; cbn. f_equal. ring. Qed.

Theorem C81_Wilson_athermal N x a T : moles N x -> 0 < T ->
  let m := mixing N T x (Wilson_gE N T x (exp_par a zmat zmat zmat T)) (Wilson_sE N T x a zmat zmat zmat) in
  mx_sE m = - mx_gE m / T /\ mx_hE m = 0 /\ mx_Dh m = 0.
Proof.
  intros M HT. assert (Pe : 0 < eps) by (unfold eps; apply Rinv_0_lt_compat, pow_lt; lra).
  assert (Q : Wilson_sE N T x a zmat zmat zmat = - Wilson_gE N T x (exp_par a zmat zmat zmat T) / T).
  { unfold Wilson_sE, cstep, Wilson_gEc, Wilson_gE.
    assert (EL : forall i j, exp_par a zmat zmat zmat T i j = exp (a i j)) by (intros; unfold exp_par, zmat; f_equal; unfold Rdiv; ring).
    assert (PL : pos_mat N (fun i j => exp (a i j))) by (intros i j _ _; apply exp_pos).
    rewrite (csum_real N _ (fun i => x i * ln (Wilson_A N x (fun i j => exp (a i j)) i))).
    2:{ intros i Hi. rewrite (csum_real N _ (fun j => x j * exp (a i j))) by (intros j Hj; rewrite ctau_const, cexp_real, cscal_real; auto).
        rewrite <- (WA_alt N x (fun i j => exp (a i j)) i). rewrite cln_real by (now apply WA_pos). apply cscal_real. }
    rewrite (sumn_ext N (fun i => x i * ln (Wilson_A N x (exp_par a zmat zmat zmat T) i)) (fun i => x i * ln (Wilson_A N x (fun i j => exp (a i j)) i))).
    2:{ intros i Hi. f_equal. f_equal. unfold Wilson_A. apply sumn_ext. intros. now rewrite EL. }
    unfold cmul, cscal. cbn [fst snd]. field. lra. }
  unfold mixing. cbn. rewrite Q. split; [reflexivity|]. split; field; lra.
Qed.
Theorem C81_NRTL_athermal N x a c T : moles N x -> 0 < T ->
  let m := mixing N T x (NRTL_gE N T x (NRTL_tau a zmat zmat zmat T) (NRTL_alpha c zmat T)) (NRTL_sE N T x a zmat c zmat zmat zmat) in
  mx_sE m = - mx_gE m / T /\ mx_hE m = 0 /\ mx_Dh m = 0.
Proof.
  intros M HT. assert (Pe : 0 < eps) by (unfold eps; apply Rinv_0_lt_compat, pow_lt; lra).
  assert (Q : NRTL_sE N T x a zmat c zmat zmat zmat = - NRTL_gE N T x (NRTL_tau a zmat zmat zmat T) (NRTL_alpha c zmat T) / T).
  { assert (Et : NRTL_tau a zmat zmat zmat T = a) by (do 2 (apply functional_extensionality; intro); unfold NRTL_tau, zmat, Rdiv; ring).
    assert (Ea : NRTL_alpha c zmat T = c) by (do 2 (apply functional_extensionality; intro); unfold NRTL_alpha, zmat; ring).
    rewrite Et, Ea. unfold NRTL_sE, cstep, NRTL_gEc, NRTL_gE.
    assert (Ec : forall i j, calpha c zmat (T, eps) i j = (c i j, 0)) by (intros; unfold calpha, zmat, cadd, cscal, cre; cbn [fst snd]; f_equal; ring).
    assert (EG : forall i j, cexp (cscal (-1) (cmul (calpha c zmat (T, eps) i j) (ctau a zmat zmat zmat (T, eps) i j))) = (NRTL_G a c i j, 0)).
    { intros i j. rewrite Ec, ctau_const by auto. unfold cmul, cscal; cbn [fst snd]. unfold NRTL_G.
      replace (-1 * (c i j * a i j - 0 * 0)) with (- c i j * a i j) by ring. replace (-1 * (c i j * 0 + 0 * a i j)) with 0 by ring. apply cexp_real. }
    rewrite (csum_real N _ (fun i => x i * (NRTL_A N x a c i / NRTL_B N x a c i))).
    - unfold cmul, cscal. cbn [fst snd]. field. lra.
    - intros i Hi. rewrite (csum_real N (fun j => cscal (x j) (cmul _ _)) (fun j => x j * (a j i * NRTL_G a c j i))).
      2:{ intros j Hj. rewrite EG, ctau_const by auto. unfold cmul, cscal; cbn [fst snd]. f_equal; ring. }
      rewrite (csum_real N (fun j => cscal (x j) (cexp _)) (fun j => x j * NRTL_G a c j i)).
      2:{ intros j Hj. rewrite EG. apply cscal_real. }
      fold (NRTL_A N x a c i) (NRTL_B N x a c i). pose proof (B_pos N x a c i M) as PB.
      unfold cdiv, cscal; cbn [fst snd]. f_equal; field; repeat split; nra. }
  unfold mixing. cbn. rewrite Q. split; [reflexivity|]. split; field; lra.
Qed.

Print Assumptions C81_FH_entropy_bound.
Print Assumptions C81_NRTL_athermal.
Print Assumptions C81_UNIQUAC_entropy.

(** equimolar binary: the ideal entropy is R ln 2 *)
Example C81_example : Dsmix_ideal 2 (fun _ => 1 / 2) = Rgas * ln 2.
Proof.
  unfold Dsmix_ideal. cbn [sumn]. unfold Rltb. destruct (Rlt_dec 0 (1 / 2)); [|lra].
  replace (1 / 2) with (/ 2) by field. rewrite ln_Rinv by lra. field.
Qed.
