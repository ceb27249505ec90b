(** Thermodynamic consistency of the activity models: C42 (NRTL), C43 (Wilson), C44 (UNIQUAC),
    C45 (Flory-Huggins). *)
From Coq Require Import Reals Lra Lia List Bool Arith FunctionalExtensionality.
From Coquelicot Require Import Coquelicot.
From Verif Require Import Prelude Deriv KinModel RootsModel AcmModel.
Import ListNotations.
Open Scope R_scope.

(* ------------------------------------------------------------------ *)
(** * Vocabulary of the statements                                    *)
(* ------------------------------------------------------------------ *)

(** mole numbers: nonnegative, not all zero *)
Definition moles (N : nat) (n : nat -> R) : Prop := (forall j, (j < N)%nat -> 0 <= n j) /\ 0 < sumn N n.
(** mole fractions belonging to mole numbers *)
Definition frac (N : nat) (n : nat -> R) : nat -> R := fun j => n j / sumn N n.
(** pure component i *)
Definition pure (i : nat) : nat -> R := fun j => delta i j.

Lemma Rgas_pos : 0 < Rgas.
Proof. unfold Rgas. apply Rdiv_lt_0_compat; [lra|apply pow_lt; lra]. Qed.

Lemma moles_some N n : moles N n -> exists i, (i < N)%nat /\ 0 < n i.
Proof.
  intros (H & S). apply Classical_Prop.NNPP. intros NE.
  assert (sumn N n = 0); [|lra]. apply sumn_zero'. intros i Hi. destruct (H i Hi); auto. exfalso. apply NE. eauto.
Qed.
Lemma moles_wsum N n c : moles N n -> (forall j, (j < N)%nat -> 0 < c j) -> 0 < sumn N (fun j => n j * c j).
Proof.
  intros M C. destruct (moles_some N n M) as (i & Hi & Pi). apply (sumn_pos N _ i); auto.
  - intros j Hj. apply Rmult_le_pos; [now apply M|left; auto].
  - apply Rmult_lt_0_compat; auto.
Qed.
Lemma frac_moles N n : moles N n -> moles N (frac N n) /\ sumn N (frac N n) = 1.
Proof.
  intros (H & S). assert (E : sumn N (frac N n) = 1) by (unfold frac; rewrite sumn_div; field; lra).
  split; [|exact E]. split; [|lra]. intros j Hj. apply Rmult_le_pos; auto. left. now apply Rinv_0_lt_compat.
Qed.
Lemma tot_upd N n i : (i < N)%nat -> D (fun t => sumn N (upd n i t)) (n i) 1.
Proof.
  intros Hi. apply (D_ext (fun t => sumn N (fun j => upd n i t j * 1))); [intros t; apply sumn_ext; intros; ring|].
  exact (D_lin N n i (fun _ => 1) Hi).
Qed.
Lemma tot_upd_val N n i t : (i < N)%nat -> sumn N (upd n i t) = sumn N n + (t - n i).
Proof.
  intros Hi. assert (E : sumn N (fun j => upd n i t j - n j) = t - n i).
  { rewrite (sumn_ext N _ (fun j => delta i j * (t - n i))); [now apply (sumn_delta_l N i (fun _ => t - n i))|].
    intros j Hj. unfold upd, delta. destruct (Nat.eq_dec j i), (Nat.eq_dec i j); subst; try congruence; ring. }
  rewrite sumn_minus in E. lra.
Qed.
Lemma tot_near N n i : (i < N)%nat -> moles N n -> forall t, Rabs (t - n i) < sumn N n -> 0 < sumn N (upd n i t).
Proof. intros Hi (_ & S) t H. rewrite tot_upd_val by auto. apply Rabs_def2 in H. lra. Qed.
Lemma moles_upd N n i t : (i < N)%nat -> moles N n -> 0 < t -> moles N (upd n i t).
Proof.
  intros Hi (H & S) Ht. assert (Q : forall j, (j < N)%nat -> 0 <= upd n i t j).
  { intros j Hj. unfold upd. destruct (Nat.eq_dec j i); [lra|auto]. }
  split; auto. apply (sumn_pos N _ i); auto. rewrite upd_same. lra.
Qed.

(** Gibbs-Duhem follows from the Euler identity and the derivative identity. *)
Lemma gibbs_duhem N (g : (nat -> R) -> R) (lg : (nat -> R) -> nat -> R) n k d :
  (k < N)%nat -> moles N n -> 0 < n k ->
  (forall m, moles N m -> g (frac N m) = sumn N (fun j => frac N m j * lg (frac N m) j)) ->
  D (fun t => sumn N (upd n k t) * g (frac N (upd n k t))) (n k) (lg (frac N n) k) ->
  (forall j, (j < N)%nat -> D (fun t => lg (frac N (upd n k t)) j) (n k) (d j)) ->
  sumn N (fun j => n j * d j) = 0.
Proof.
  intros Hk M Pk HE HD Hd.
  assert (E : D (fun t => sumn N (fun j => upd n k t j * lg (frac N (upd n k t)) j)) (n k)
               (sumn N (fun j => delta k j * lg (frac N n) j + n j * d j))).
  { apply (D_sumn N (fun j t => upd n k t j * lg (frac N (upd n k t)) j)). intros j Hj.
    eapply D_eq; [apply (D_mult (fun t => upd n k t j) (fun t => lg (frac N (upd n k t)) j)); [apply D_upd|apply Hd; auto]|].
    cbv beta. rewrite upd_id. f_equal. f_equal. f_equal. apply functional_extensionality. intros l. unfold frac. rewrite upd_id.
    f_equal. apply sumn_ext. intros. apply upd_id. }
  assert (E2 : D (fun t => sumn N (upd n k t) * g (frac N (upd n k t))) (n k) (sumn N (fun j => delta k j * lg (frac N n) j + n j * d j))).
  { refine (D_ext_loc _ _ _ _ (n k) Pk _ E). intros t Ht. apply Rabs_def2 in Ht.
    assert (Mt : moles N (upd n k t)) by (apply moles_upd; auto; lra).
    rewrite (HE _ Mt). rewrite <- sumn_scal. apply sumn_ext. intros j Hj. unfold frac at 2. field. destruct Mt. lra. }
  pose proof (D_unique _ _ _ _ HD E2) as Q. rewrite sumn_plus, (sumn_delta_l N k (lg (frac N n)) Hk) in Q. lra.
Qed.

(** Existence of derivatives, composed. *)
Definition ED (f : R -> R) (x : R) : Prop := exists l, D f x l.
Lemma ED_ext f g x : (forall t, f t = g t) -> ED f x -> ED g x.
Proof. intros H (l & E). exists l. now apply (D_ext f). Qed.
Lemma ED_const c x : ED (fun _ => c) x. Proof. exists 0. apply D_const. Qed.
Lemma ED_plus f g x : ED f x -> ED g x -> ED (fun t => f t + g t) x.
Proof. intros (a & A) (b & B). exists (a + b). now apply D_plus. Qed.
Lemma ED_minus f g x : ED f x -> ED g x -> ED (fun t => f t - g t) x.
Proof. intros (a & A) (b & B). exists (a - b). now apply D_minus. Qed.
Lemma ED_mult f g x : ED f x -> ED g x -> ED (fun t => f t * g t) x.
Proof. intros (a & A) (b & B). exists (a * g x + f x * b). now apply D_mult. Qed.
Lemma ED_div f g x : ED f x -> ED g x -> g x <> 0 -> ED (fun t => f t / g t) x.
Proof. intros (a & A) (b & B) H. exists ((a * g x - f x * b) / (g x) ^ 2). now apply D_div. Qed.
Lemma ED_ln f x : ED f x -> 0 < f x -> ED (fun t => ln (f t)) x.
Proof. intros (a & A) H. exists (a / f x). now apply D_ln. Qed.
Lemma ED_sumn N (f : nat -> R -> R) x : (forall i, (i < N)%nat -> ED (f i) x) -> ED (fun t => sumn N (fun i => f i t)) x.
Proof.
  induction N as [|N IH]; intros H; cbn [sumn]; [apply ED_const|].
  apply (ED_plus (fun t => sumn N (fun i => f i t)) (f N)); [apply IH; intros; apply H; lia|apply H; lia].
Qed.
Lemma ED_frac N n k j : (k < N)%nat -> moles N n -> ED (fun t => frac N (upd n k t) j) (n k).
Proof.
  intros Hk M. unfold frac. apply (ED_div (fun t => upd n k t j) (fun t => sumn N (upd n k t))).
  - eexists. apply D_upd.
  - exists 1. now apply tot_upd.
  - rewrite tot_upd_val by auto. destruct M. lra.
Qed.
Lemma frac_id N n k : frac N (upd n k (n k)) = frac N n.
Proof. apply functional_extensionality. intros l. unfold frac. rewrite upd_id. f_equal. apply sumn_ext. intros. apply upd_id. Qed.

(* ------------------------------------------------------------------ *)
(** * C42: NRTL                                                       *)
(* ------------------------------------------------------------------ *)

Lemma G_pos tau alpha i j : 0 < NRTL_G tau alpha i j.
Proof. apply exp_pos. Qed.
Lemma B_pos N n tau alpha i : moles N n -> 0 < NRTL_B N n tau alpha i.
Proof. intros M. apply (moles_wsum N n (fun j => NRTL_G tau alpha j i) M). intros. apply G_pos. Qed.

Lemma NRTL_ln N x tau alpha i : ln (NRTL_gamma N x tau alpha i) =
  NRTL_A N x tau alpha i / NRTL_B N x tau alpha i
  + (sumn N (fun j => tau i j * NRTL_G tau alpha i j * (x j / NRTL_B N x tau alpha j))
     - sumn N (fun j => NRTL_G tau alpha i j * (x j * NRTL_A N x tau alpha j / (NRTL_B N x tau alpha j) ^ 2))).
Proof. unfold NRTL_gamma. cbv zeta. now rewrite ln_exp. Qed.

Theorem C42_euler N T x tau alpha : moles N x ->
  NRTL_gE N T x tau alpha = Rgas * T * sumn N (fun i => x i * ln (NRTL_gamma N x tau alpha i)).
Proof.
  intros M. unfold NRTL_gE. f_equal.
  set (A := NRTL_A N x tau alpha). set (B := NRTL_B N x tau alpha). set (G := NRTL_G tau alpha).
  assert (PB : forall j, 0 < B j) by (intros j; now apply B_pos).
  rewrite (sumn_ext N (fun i => x i * ln (NRTL_gamma N x tau alpha i))
    (fun i => x i * (A i / B i) + (sumn N (fun j => x i * (tau i j * G i j * (x j / B j))) - sumn N (fun j => x i * (G i j * (x j * A j / B j ^ 2)))))).
  2:{ intros i Hi. rewrite NRTL_ln. fold A B G. rewrite !sumn_scal. ring. }
  rewrite sumn_plus, sumn_minus.
  rewrite (sumn_swap N N (fun i j => x i * (tau i j * G i j * (x j / B j)))), (sumn_swap N N (fun i j => x i * (G i j * (x j * A j / B j ^ 2)))).
  rewrite (sumn_ext N (fun j => sumn N (fun i => x i * (tau i j * G i j * (x j / B j)))) (fun j => A j * (x j / B j))).
  2:{ intros j Hj. unfold A, NRTL_A. fold G. rewrite <- sumn_scal_r. apply sumn_ext. intros. ring. }
  rewrite (sumn_ext N (fun j => sumn N (fun i => x i * (G i j * (x j * A j / B j ^ 2)))) (fun j => A j * (x j / B j))).
  2:{ intros j Hj. transitivity (B j * (x j * A j / B j ^ 2)).
      - unfold B at 2, NRTL_B. fold G. rewrite <- sumn_scal_r. apply sumn_ext. intros. ring.
      - field. specialize (PB j). lra. }
  ring.
Qed.

(** homogeneity of degree one / zero *)
Lemma NRTL_A_frac N n tau alpha i : NRTL_A N (frac N n) tau alpha i = NRTL_A N n tau alpha i / sumn N n.
Proof. unfold NRTL_A, frac. rewrite <- sumn_div. apply sumn_ext. intros. unfold Rdiv. ring. Qed.
Lemma NRTL_B_frac N n tau alpha i : NRTL_B N (frac N n) tau alpha i = NRTL_B N n tau alpha i / sumn N n.
Proof. unfold NRTL_B, frac. rewrite <- sumn_div. apply sumn_ext. intros. unfold Rdiv. ring. Qed.
Lemma ratio_tot a b s : s <> 0 -> a / s / (b / s) = a / b.
Proof.
  intros H. destruct (Req_dec b 0) as [->|Hb]; [|field; auto].
  unfold Rdiv. rewrite Rmult_0_l, Rinv_0. ring.
Qed.

Theorem C42_derivative N T n tau alpha i : (i < N)%nat -> moles N n -> 0 < T ->
  D (fun t => sumn N (upd n i t) * (NRTL_gE N T (frac N (upd n i t)) tau alpha / (Rgas * T))) (n i)
    (ln (NRTL_gamma N (frac N n) tau alpha i)).
Proof.
  intros Hi M HT. pose proof Rgas_pos as HR. pose proof (proj2 M) as S.
  set (G := NRTL_G tau alpha). set (A := NRTL_A N n tau alpha). set (B := NRTL_B N n tau alpha).
  assert (PB : forall j, 0 < B j) by (intros j; now apply B_pos).
  apply (D_ext_loc (fun t => sumn N (fun j => upd n i t j * (NRTL_A N (upd n i t) tau alpha j / NRTL_B N (upd n i t) tau alpha j))) _ _ _ (sumn N n) S).
  { intros t Ht. pose proof (tot_near N n i Hi M t Ht) as P. unfold NRTL_gE.
    transitivity (sumn N (upd n i t) * sumn N (fun j => frac N (upd n i t) j * (NRTL_A N (frac N (upd n i t)) tau alpha j / NRTL_B N (frac N (upd n i t)) tau alpha j)));
      [|field; lra].
    rewrite <- sumn_scal. apply sumn_ext. intros j Hj. rewrite NRTL_A_frac, NRTL_B_frac, ratio_tot by lra. unfold frac. 
    transitivity (upd n i t j * (NRTL_A N (upd n i t) tau alpha j / NRTL_B N (upd n i t) tau alpha j) * (sumn N (upd n i t) / sumn N (upd n i t))).
    - replace (sumn N (upd n i t) / sumn N (upd n i t)) with 1 by (field; lra). ring.
    - unfold Rdiv. ring. }
  eapply D_eq.
  - apply (D_sumn N (fun j t => upd n i t j * (NRTL_A N (upd n i t) tau alpha j / NRTL_B N (upd n i t) tau alpha j))
      (fun j => delta i j * (A j / B j) + n j * ((tau i j * G i j * B j - A j * G i j) / (B j) ^ 2))).
    intros j Hj.
    assert (EA : NRTL_A N (upd n i (n i)) tau alpha j = A j) by (apply lin_id).
    assert (EB : NRTL_B N (upd n i (n i)) tau alpha j = B j) by (apply lin_id).
    eapply D_eq.
    + apply (D_mult (fun t => upd n i t j) (fun t => NRTL_A N (upd n i t) tau alpha j / NRTL_B N (upd n i t) tau alpha j)); [apply D_upd|].
      apply (D_div (fun t => NRTL_A N (upd n i t) tau alpha j) (fun t => NRTL_B N (upd n i t) tau alpha j) _ (tau i j * G i j) (G i j)).
      * exact (D_lin N n i (fun k => tau k j * G k j) Hi).
      * exact (D_lin N n i (fun k => G k j) Hi).
      * rewrite EB. specialize (PB j). lra.
    + cbv beta. rewrite EA, EB, upd_id. reflexivity.
  - rewrite sumn_plus, (sumn_delta_l N i (fun j => A j / B j) Hi).
    rewrite NRTL_ln, NRTL_A_frac, NRTL_B_frac, ratio_tot by lra. fold A B G. f_equal.
    rewrite <- sumn_minus. apply sumn_ext. intros j Hj. rewrite NRTL_A_frac, NRTL_B_frac. fold A B. unfold frac.
    specialize (PB j). field. lra.
Qed.

Theorem C42_gibbs_duhem N T n tau alpha k : (k < N)%nat -> moles N n -> 0 < n k -> 0 < T ->
  (forall j, (j < N)%nat -> ED (fun t => ln (NRTL_gamma N (frac N (upd n k t)) tau alpha j)) (n k)) /\
  forall d, (forall j, (j < N)%nat -> D (fun t => ln (NRTL_gamma N (frac N (upd n k t)) tau alpha j)) (n k) (d j)) ->
    sumn N (fun j => n j * d j) = 0.
Proof.
  intros Hk M Pk HT. pose proof Rgas_pos. split.
  - intros j Hj. apply (ED_ext (fun t => let x := frac N (upd n k t) in
      NRTL_A N x tau alpha j / NRTL_B N x tau alpha j
      + (sumn N (fun i => tau j i * NRTL_G tau alpha j i * (x i / NRTL_B N x tau alpha i))
         - sumn N (fun i => NRTL_G tau alpha j i * (x i * NRTL_A N x tau alpha i / (NRTL_B N x tau alpha i) ^ 2)))));
      [intros t; symmetry; apply NRTL_ln|]. cbv zeta.
    assert (EA : forall i, ED (fun t => NRTL_A N (frac N (upd n k t)) tau alpha i) (n k)).
    { intros i. apply (ED_sumn N (fun l t => frac N (upd n k t) l * (tau l i * NRTL_G tau alpha l i))). intros l Hl.
      apply (ED_mult (fun t => frac N (upd n k t) l) (fun _ => _)); [now apply ED_frac|apply ED_const]. }
    assert (EB : forall i, ED (fun t => NRTL_B N (frac N (upd n k t)) tau alpha i) (n k)).
    { intros i. apply (ED_sumn N (fun l t => frac N (upd n k t) l * NRTL_G tau alpha l i)). intros l Hl.
      apply (ED_mult (fun t => frac N (upd n k t) l) (fun _ => _)); [now apply ED_frac|apply ED_const]. }
    assert (B0 : forall i, NRTL_B N (frac N (upd n k (n k))) tau alpha i <> 0).
    { intros i. rewrite frac_id. pose proof (B_pos N (frac N n) tau alpha i (proj1 (frac_moles N n M))). lra. }
    apply (ED_plus (fun t => _ / _) (fun t => _ - _)).
    + apply (ED_div (fun t => NRTL_A N _ tau alpha j) (fun t => NRTL_B N _ tau alpha j)); auto.
    + apply (ED_minus (fun t => sumn N _) (fun t => sumn N _)).
      * apply (ED_sumn N (fun i t => _)). intros i Hi. apply (ED_mult (fun _ => _) (fun t => _ / _)); [apply ED_const|].
        apply (ED_div (fun t => frac N (upd n k t) i) (fun t => NRTL_B N _ tau alpha i)); auto. now apply ED_frac.
      * apply (ED_sumn N (fun i t => _)). intros i Hi. apply (ED_mult (fun _ => _) (fun t => _ / _)); [apply ED_const|].
        apply (ED_div (fun t => _ * _) (fun t => NRTL_B N (frac N (upd n k t)) tau alpha i ^ 2)).
        -- apply (ED_mult (fun t => frac N (upd n k t) i) (fun t => NRTL_A N _ tau alpha i)); auto. now apply ED_frac.
        -- apply (ED_ext (fun t => NRTL_B N (frac N (upd n k t)) tau alpha i * NRTL_B N (frac N (upd n k t)) tau alpha i)); [intros; ring|].
           now apply (ED_mult (fun t => NRTL_B N _ tau alpha i) (fun t => NRTL_B N _ tau alpha i)).
        -- apply pow_nonzero. apply B0.
  - intros d Hd. apply (gibbs_duhem N (fun x => NRTL_gE N T x tau alpha / (Rgas * T)) (fun x j => ln (NRTL_gamma N x tau alpha j)) n k d); auto.
    + intros m Mm. rewrite (C42_euler N T _ tau alpha (proj1 (frac_moles N m Mm))). field. lra.
    + now apply C42_derivative.
Qed.

(** pure component and ideal limits *)
Theorem C42_pure N tau alpha i : (i < N)%nat -> tau i i = 0 -> NRTL_gamma N (pure i) tau alpha i = 1.
Proof.
  intros Hi H0. unfold NRTL_gamma. cbv zeta.
  assert (EA : NRTL_A N (pure i) tau alpha i = 0).
  { unfold NRTL_A, pure. rewrite (sumn_delta_l N i (fun j => tau j i * NRTL_G tau alpha j i) Hi), H0. ring. }
  assert (EB : NRTL_B N (pure i) tau alpha i = 1).
  { unfold NRTL_B, pure. rewrite (sumn_delta_l N i (fun j => NRTL_G tau alpha j i) Hi). unfold NRTL_G. rewrite H0, Rmult_0_r. apply exp_0. }
  rewrite EA, EB.
  rewrite (sumn_ext N (fun j => tau i j * NRTL_G tau alpha i j * (pure i j / NRTL_B N (pure i) tau alpha j))
    (fun j => delta i j * (tau i j * NRTL_G tau alpha i j / NRTL_B N (pure i) tau alpha j))) by (intros; unfold pure, Rdiv; ring).
  rewrite (sumn_ext N (fun j => NRTL_G tau alpha i j * (pure i j * NRTL_A N (pure i) tau alpha j / NRTL_B N (pure i) tau alpha j ^ 2))
    (fun j => delta i j * (NRTL_G tau alpha i j * NRTL_A N (pure i) tau alpha j / NRTL_B N (pure i) tau alpha j ^ 2))) by (intros; unfold pure, Rdiv; ring).
  rewrite (sumn_delta_l N i (fun j => tau i j * NRTL_G tau alpha i j / _) Hi), (sumn_delta_l N i (fun j => NRTL_G tau alpha i j * _ / _) Hi).
  rewrite EA, H0. replace (_ + _) with 0; [apply exp_0|]. unfold Rdiv. ring.
Qed.
Theorem C42_ideal N x alpha i : NRTL_gamma N x (fun _ _ => 0) alpha i = 1.
Proof.
  unfold NRTL_gamma. cbv zeta.
  assert (EA : forall j, NRTL_A N x (fun _ _ => 0) alpha j = 0).
  { intros j. unfold NRTL_A. apply sumn_zero'. intros. ring. }
  rewrite (sumn_zero' N (fun j => 0 * NRTL_G (fun _ _ => 0) alpha i j * _)) by (intros; ring).
  rewrite (sumn_zero' N (fun j => NRTL_G (fun _ _ => 0) alpha i j * _)) by (intros; rewrite EA; unfold Rdiv; ring).
  rewrite EA. replace (_ + _) with 0; [apply exp_0|]. unfold Rdiv. ring.
Qed.

(* ------------------------------------------------------------------ *)
(** * C43: Wilson                                                     *)
(* ------------------------------------------------------------------ *)

Definition pos_mat (N : nat) (L : mat) : Prop := forall i j, (i < N)%nat -> (j < N)%nat -> 0 < L i j.

Lemma WA_alt N n L i : Wilson_A N n L i = sumn N (fun j => n j * L i j).
Proof. apply sumn_ext. intros; ring. Qed.
Lemma WA_pos N n L i : moles N n -> pos_mat N L -> (i < N)%nat -> 0 < Wilson_A N n L i.
Proof. intros M P Hi. rewrite WA_alt. apply (moles_wsum N n (fun j => L i j) M). intros. now apply P. Qed.
Lemma WA_frac N n L i : Wilson_A N (frac N n) L i = Wilson_A N n L i / sumn N n.
Proof. unfold Wilson_A, frac. rewrite <- sumn_div. apply sumn_ext. intros. unfold Rdiv. ring. Qed.
Lemma Wilson_ln N x L i : moles N x -> pos_mat N L -> (i < N)%nat ->
  ln (Wilson_gamma N x L i) = 1 - sumn N (fun j => x j / Wilson_A N x L j * L j i) - ln (Wilson_A N x L i).
Proof.
  intros M P Hi. unfold Wilson_gamma. pose proof (WA_pos N x L i M P Hi). unfold Rdiv at 1.
  rewrite ln_mult by (try apply exp_pos; now apply Rinv_0_lt_compat). rewrite ln_exp, ln_Rinv by auto. ring.
Qed.

Theorem C43_euler N T x L : moles N x -> sumn N x = 1 -> pos_mat N L ->
  Wilson_gE N T x L = Rgas * T * sumn N (fun i => x i * ln (Wilson_gamma N x L i)).
Proof.
  intros M S P. unfold Wilson_gE.
  rewrite (sumn_ext N (fun i => x i * ln (Wilson_gamma N x L i))
    (fun i => x i - sumn N (fun j => x i * (x j / Wilson_A N x L j * L j i)) - x i * ln (Wilson_A N x L i))).
  2:{ intros i Hi. rewrite Wilson_ln by auto. rewrite sumn_scal. ring. }
  rewrite !sumn_minus, sumn_swap.
  rewrite (sumn_ext N (fun j => sumn N (fun i => x i * (x j / Wilson_A N x L j * L j i))) x).
  2:{ intros j Hj. pose proof (WA_pos N x L j M P Hj) as Q.
      transitivity (x j / Wilson_A N x L j * Wilson_A N x L j); [|field; lra].
      rewrite WA_alt at 2. rewrite <- sumn_scal. apply sumn_ext. intros; ring. }
  ring.
Qed.

Theorem C43_derivative N T n L i : (i < N)%nat -> moles N n -> 0 < T -> pos_mat N L ->
  D (fun t => sumn N (upd n i t) * (Wilson_gE N T (frac N (upd n i t)) L / (Rgas * T))) (n i)
    (ln (Wilson_gamma N (frac N n) L i)).
Proof.
  intros Hi M HT P. pose proof Rgas_pos as HR. pose proof (proj2 M) as S.
  set (A := Wilson_A N n L). set (tot := sumn N n) in *.
  assert (PA : forall j, (j < N)%nat -> 0 < A j) by (intros; now apply WA_pos).
  apply (D_ext_loc (fun t => - sumn N (fun j => upd n i t j * ln (Wilson_A N (upd n i t) L j / sumn N (upd n i t)))) _ _ _ tot S).
  { intros t Ht. pose proof (tot_near N n i Hi M t Ht) as Q. unfold Wilson_gE.
    transitivity (sumn N (upd n i t) * - sumn N (fun j => frac N (upd n i t) j * ln (Wilson_A N (frac N (upd n i t)) L j))); [|field; lra].
    rewrite Ropp_mult_distr_r_reverse. f_equal. rewrite <- sumn_scal. apply sumn_ext. intros j Hj. rewrite WA_frac. unfold frac. field. lra. }
  eapply D_eq.
  - apply (D_opp (fun t => sumn N _)).
    apply (D_sumn N (fun j t => upd n i t j * ln (Wilson_A N (upd n i t) L j / sumn N (upd n i t)))
      (fun j => delta i j * ln (A j / tot) + n j * (((L j i * tot - A j * 1) / tot ^ 2) / (A j / tot)))).
    intros j Hj.
    assert (EA : Wilson_A N (upd n i (n i)) L j = A j) by (unfold A; rewrite !WA_alt; apply lin_id).
    assert (ET : sumn N (upd n i (n i)) = tot) by (apply sumn_ext; intros; apply upd_id).
    eapply D_eq.
    + apply (D_mult (fun t => upd n i t j) (fun t => ln (Wilson_A N (upd n i t) L j / sumn N (upd n i t)))); [apply D_upd|].
      apply (D_ln (fun t => Wilson_A N (upd n i t) L j / sumn N (upd n i t))).
      * apply (D_div (fun t => Wilson_A N (upd n i t) L j) (fun t => sumn N (upd n i t)) _ (L j i) 1).
        -- apply (D_ext (fun t => sumn N (fun k => upd n i t k * L j k))); [intros; now rewrite WA_alt|]. exact (D_lin N n i (fun k => L j k) Hi).
        -- now apply tot_upd.
        -- rewrite ET. lra.
      * rewrite EA, ET. apply Rdiv_lt_0_compat; auto.
    + cbv beta. rewrite EA, ET, upd_id. reflexivity.
  - rewrite sumn_plus, (sumn_delta_l N i (fun j => ln (A j / tot)) Hi).
    rewrite Wilson_ln by (auto; now apply frac_moles). rewrite WA_frac. fold A tot.
    rewrite (sumn_ext N (fun j => n j * _) (fun j => n j / A j * L j i - n j / tot)).
    2:{ intros j Hj. specialize (PA j Hj). field. lra. }
    rewrite sumn_minus, sumn_div. fold tot. replace (tot / tot) with 1 by (field; lra).
    rewrite (sumn_ext N (fun j => frac N n j / Wilson_A N (frac N n) L j * L j i) (fun j => n j / A j * L j i)); [ring|].
    intros j Hj. rewrite WA_frac. fold A tot. unfold frac. fold tot. specialize (PA j Hj). field. lra.
Qed.

Theorem C43_gibbs_duhem N T n L k : (k < N)%nat -> moles N n -> 0 < n k -> 0 < T -> pos_mat N L ->
  (forall j, (j < N)%nat -> ED (fun t => ln (Wilson_gamma N (frac N (upd n k t)) L j)) (n k)) /\
  forall d, (forall j, (j < N)%nat -> D (fun t => ln (Wilson_gamma N (frac N (upd n k t)) L j)) (n k) (d j)) ->
    sumn N (fun j => n j * d j) = 0.
Proof.
  intros Hk M Pk HT P. pose proof Rgas_pos. split.
  - intros j Hj.
    assert (EA : forall i, ED (fun t => Wilson_A N (frac N (upd n k t)) L i) (n k)).
    { intros i. apply (ED_sumn N (fun l t => L i l * frac N (upd n k t) l)). intros l Hl.
      apply (ED_mult (fun _ => L i l) (fun t => frac N (upd n k t) l)); [apply ED_const|now apply ED_frac]. }
    assert (A0 : forall i, (i < N)%nat -> 0 < Wilson_A N (frac N (upd n k (n k))) L i).
    { intros i Hi. rewrite frac_id. apply WA_pos; auto. now apply frac_moles. }
    assert (E : ED (fun t => 1 - sumn N (fun i => frac N (upd n k t) i / Wilson_A N (frac N (upd n k t)) L i * L i j) - ln (Wilson_A N (frac N (upd n k t)) L j)) (n k)).
    { apply (ED_minus (fun t => _ - _) (fun t => ln _)).
      - apply (ED_minus (fun _ => 1) (fun t => sumn N _)); [apply ED_const|].
        apply (ED_sumn N (fun i t => _)). intros i Hi. apply (ED_mult (fun t => _ / _) (fun _ => L i j)); [|apply ED_const].
        apply (ED_div (fun t => frac N (upd n k t) i) (fun t => Wilson_A N _ L i)); auto; [now apply ED_frac|].
        specialize (A0 i Hi). lra.
      - apply (ED_ln (fun t => Wilson_A N _ L j)); auto. }
    destruct E as (l & E). exists l. refine (D_ext_loc _ _ _ _ (n k) Pk _ E). intros t Ht. apply Rabs_def2 in Ht.
    symmetry. apply Wilson_ln; auto. apply frac_moles. apply moles_upd; auto. lra.
  - intros d Hd. apply (gibbs_duhem N (fun x => Wilson_gE N T x L / (Rgas * T)) (fun x j => ln (Wilson_gamma N x L j)) n k d); auto.
    + intros m Mm. destruct (frac_moles N m Mm). rewrite (C43_euler N T _ L) by auto. field. lra.
    + now apply C43_derivative.
Qed.

Theorem C43_pure N L i : (i < N)%nat -> L i i = 1 -> Wilson_gamma N (pure i) L i = 1.
Proof.
  intros Hi H1. unfold Wilson_gamma.
  assert (EA : forall j, Wilson_A N (pure i) L j = L j i).
  { intros j. rewrite WA_alt. unfold pure. apply (sumn_delta_l N i (fun k => L j k) Hi). }
  rewrite (sumn_ext N _ (fun j => delta i j * (/ L j i * L j i))) by (intros; rewrite EA; unfold pure, Rdiv; ring).
  rewrite (sumn_delta_l N i (fun j => / L j i * L j i) Hi), EA, H1.
  replace (1 - / 1 * 1) with 0 by field. rewrite exp_0. field.
Qed.
Theorem C43_ideal N x i : sumn N x = 1 -> Wilson_gamma N x (fun _ _ => 1) i = 1.
Proof.
  intros S. unfold Wilson_gamma.
  assert (EA : forall j, Wilson_A N x (fun _ _ => 1) j = 1).
  { intros j. rewrite WA_alt. transitivity (sumn N x); auto. apply sumn_ext. intros; ring. }
  rewrite (sumn_ext N _ x) by (intros; rewrite EA; field). rewrite EA, S. replace (1 - 1) with 0 by ring. rewrite exp_0. field.
Qed.

(* ------------------------------------------------------------------ *)
(** * C44: UNIQUAC                                                    *)
(* ------------------------------------------------------------------ *)

Section Uniquac.
  Variables (N : nat) (q r : nat -> R) (tau : mat).
  Hypothesis Hq : forall i, (i < N)%nat -> 0 < q i.
  Hypothesis Hr : forall i, (i < N)%nat -> 0 < r i.
  Hypothesis Ht : pos_mat N tau.

  Let RR n := sumn N (fun j => n j * r j).
  Let QQ n := sumn N (fun j => n j * q j).
  Let SS (n : nat -> R) i := sumn N (fun j => n j * (q j * tau j i)).

  Lemma RR_pos n : moles N n -> 0 < RR n.
  Proof. intros M. now apply (moles_wsum N n r M). Qed.
  Lemma QQ_pos n : moles N n -> 0 < QQ n.
  Proof. intros M. now apply (moles_wsum N n q M). Qed.
  Lemma SS_pos n i : moles N n -> (i < N)%nat -> 0 < SS n i.
  Proof. intros M Hi. apply (moles_wsum N n (fun j => q j * tau j i) M). intros. apply Rmult_lt_0_compat; auto. Qed.

  (** ln gamma in terms of mole numbers *)
  Definition Uln (n : nat -> R) (i : nat) : R :=
    let J := r i * sumn N n / RR n in
    let v := r i * QQ n / (q i * RR n) in
    ln J + 1 - J + q i * (1 - ln (SS n i / QQ n) - sumn N (fun j => tau i j * (n j * q j / SS n j)) - 5 * (1 - v + ln v)).

  Lemma UNIQUAC_ln n i : moles N n -> (i < N)%nat -> ln (UNIQUAC_gamma N (frac N n) q r tau i) = Uln n i.
  Proof.
    intros M Hi. pose proof (RR_pos n M) as PR. pose proof (QQ_pos n M) as PQ. pose proof (proj2 M) as PT.
    pose proof (Hq i Hi). pose proof (Hr i Hi).
    unfold UNIQUAC_gamma. cbv zeta.
    assert (ER : sumn N (fun j => frac N n j * r j) = RR n / sumn N n).
    { unfold RR, frac. rewrite <- sumn_div. apply sumn_ext. intros. unfold Rdiv. ring. }
    assert (EQ : sumn N (fun j => frac N n j * q j) = QQ n / sumn N n).
    { unfold QQ, frac. rewrite <- sumn_div. apply sumn_ext. intros. unfold Rdiv. ring. }
    rewrite ER, EQ.
    assert (ES : forall k, sumn N (fun j => frac N n j * (q j / (QQ n / sumn N n)) * tau j k) = SS n k / QQ n).
    { intros k. unfold SS. rewrite <- sumn_div. apply sumn_ext. intros. unfold frac. field. lra. }
    rewrite ES.
    assert (EJ : r i / (RR n / sumn N n) = r i * sumn N n / RR n) by (field; lra).
    assert (EV : r i / (RR n / sumn N n) / (q i / (QQ n / sumn N n)) = r i * QQ n / (q i * RR n)) by (field; lra).
    rewrite EV, EJ.
    rewrite (sumn_ext N (fun j => tau i j * _) (fun j => tau i j * (n j * q j / SS n j))).
    2:{ intros j Hj. rewrite ES. unfold frac. pose proof (SS_pos n j M Hj). field. lra. }
    rewrite ln_mult; [|apply Rdiv_lt_0_compat; auto; now apply Rmult_lt_0_compat|apply exp_pos].
    rewrite ln_exp. unfold Uln. cbv zeta. ring.
  Qed.

  (** n gE / RT in terms of mole numbers *)
  Definition Uterm (n : nat -> R) (j : nat) : R :=
    ln (r j * sumn N n / RR n) + 5 * q j * ln (q j * RR n / (QQ n * r j)) - q j * ln (SS n j / QQ n).
  Lemma UNIQUAC_gE_alt n T : moles N n -> 0 < T ->
    sumn N n * (UNIQUAC_gE N T (frac N n) q r tau / (Rgas * T)) = sumn N (fun j => if Rltb 0 (n j) then n j * Uterm n j else 0).
  Proof.
    intros M HT. pose proof Rgas_pos. pose proof (RR_pos n M) as PR. pose proof (QQ_pos n M) as PQ. pose proof (proj2 M) as PT.
    unfold UNIQUAC_gE. cbv zeta.
    assert (ER : sumn N (fun j => frac N n j * r j) = RR n / sumn N n).
    { unfold RR, frac. rewrite <- sumn_div. apply sumn_ext. intros. unfold Rdiv. ring. }
    assert (EQ : sumn N (fun j => frac N n j * q j) = QQ n / sumn N n).
    { unfold QQ, frac. rewrite <- sumn_div. apply sumn_ext. intros. unfold Rdiv. ring. }
    rewrite ER, EQ.
    assert (ES : forall k, sumn N (fun j => frac N n j * q j / (QQ n / sumn N n) * tau j k) = SS n k / QQ n).
    { intros k. unfold SS. rewrite <- sumn_div. apply sumn_ext. intros. unfold frac. field. lra. }
    rewrite (sumn_ext N (fun i => if Rltb 0 (frac N n i) then q i * frac N n i * _ else 0) (fun i => if Rltb 0 (frac N n i) then q i * frac N n i * ln (SS n i / QQ n) else 0)).
    2:{ intros i Hi. now rewrite ES. }
    match goal with |- _ * (Rgas * T * ?e / _) = _ => transitivity (sumn N n * e); [field; lra|] end.
    unfold Rminus. rewrite <- sumn_opp, <- sumn_plus, <- sumn_scal. apply sumn_ext. intros i Hi.
    pose proof (Hq i Hi). pose proof (Hr i Hi).
    assert (EM : Rltb 0 (frac N n i) = Rltb 0 (n i)).
    { unfold Rltb, frac. destruct (Rlt_dec 0 (n i)) as [a|a], (Rlt_dec 0 (n i / sumn N n)) as [b|b]; auto; exfalso.
      - apply b. now apply Rdiv_lt_0_compat.
      - assert (Z : n i = 0) by (destruct (proj1 M i Hi); auto; lra). rewrite Z in b. unfold Rdiv in b. lra. }
    rewrite EM. destruct (Rltb 0 (n i)) eqn:Pn; [|ring]. rdec. unfold Uterm, frac.
    replace (n i / sumn N n * r i / (RR n / sumn N n) / (n i / sumn N n)) with (r i * sumn N n / RR n) by (field; lra).
    replace (n i / sumn N n * q i / (QQ n / sumn N n) / (n i / sumn N n * r i / (RR n / sumn N n))) with (q i * RR n / (QQ n * r i)) by (field; lra).
    field. lra.
  Qed.

  Lemma UNIQUAC_derivative n T i : (i < N)%nat -> moles N n -> 0 < n i -> 0 < T ->
    D (fun t => sumn N (upd n i t) * (UNIQUAC_gE N T (frac N (upd n i t)) q r tau / (Rgas * T))) (n i)
      (ln (UNIQUAC_gamma N (frac N n) q r tau i)).
  Proof.
    intros Hi M Pi HT. pose proof (RR_pos n M) as PR. pose proof (QQ_pos n M) as PQ. pose proof (proj2 M) as PT.
    apply (D_ext_loc (fun t => sumn N (fun j => if Rltb 0 (n j) then upd n i t j * Uterm (upd n i t) j else 0)) _ _ _ (n i) Pi).
    { intros t Hd. apply Rabs_def2 in Hd. assert (Pt : 0 < t) by lra.
      rewrite UNIQUAC_gE_alt by (auto; now apply moles_upd). apply sumn_ext. intros j Hj.
      assert (E : Rltb 0 (n j) = Rltb 0 (upd n i t j)); [|now rewrite E].
      unfold upd. destruct (Nat.eq_dec j i) as [->|]; auto. unfold Rltb. destruct (Rlt_dec 0 (n i)), (Rlt_dec 0 t); auto; lra. }
    assert (IT : sumn N (upd n i (n i)) = sumn N n) by (apply sumn_ext; intros; apply upd_id).
    assert (IR : RR (upd n i (n i)) = RR n) by apply lin_id.
    assert (IQ : QQ (upd n i (n i)) = QQ n) by apply lin_id.
    assert (IS : forall j, SS (upd n i (n i)) j = SS n j) by (intros; apply lin_id).
    assert (DR : D (fun t => RR (upd n i t)) (n i) (r i)) by (exact (D_lin N n i r Hi)).
    assert (DQ : D (fun t => QQ (upd n i t)) (n i) (q i)) by (exact (D_lin N n i q Hi)).
    assert (DS : forall j, D (fun t => SS (upd n i t) j) (n i) (q i * tau i j)) by (intros j; exact (D_lin N n i (fun k => q k * tau k j) Hi)).
    set (dU := fun j => 1 / sumn N n - r i / RR n + 5 * q j * (r i / RR n - q i / QQ n) - q j * (q i * tau i j / SS n j - q i / QQ n)).
    assert (DU : forall j, (j < N)%nat -> D (fun t => Uterm (upd n i t) j) (n i) (dU j)).
    { intros j Hj. pose proof (Hq j Hj). pose proof (Hr j Hj). pose proof (SS_pos n j M Hj) as PS. unfold Uterm.
      eapply D_eq.
      - apply (D_minus (fun t => _ + _) (fun t => q j * _)).
        + apply (D_plus (fun t => ln _) (fun t => 5 * q j * _)).
          * apply (D_ln (fun t => r j * sumn N (upd n i t) / RR (upd n i t))).
            -- apply (D_div (fun t => r j * sumn N (upd n i t)) (fun t => RR (upd n i t)) _ (r j * 1) (r i)); auto.
               ++ apply (D_scal (r j) (fun t => sumn N (upd n i t))). now apply tot_upd.
               ++ rewrite IR. lra.
            -- rewrite IT, IR. apply Rdiv_lt_0_compat; auto. now apply Rmult_lt_0_compat.
          * apply (D_scal (5 * q j) (fun t => ln _)). apply (D_ln (fun t => q j * RR (upd n i t) / (QQ (upd n i t) * r j))).
            -- apply (D_div (fun t => q j * RR (upd n i t)) (fun t => QQ (upd n i t) * r j) _ (q j * r i) (q i * r j)).
               ++ now apply (D_scal (q j) (fun t => RR (upd n i t))).
               ++ eapply D_eq; [apply (D_mult (fun t => QQ (upd n i t)) (fun _ => r j)); [exact DQ|apply D_const]|cbv beta; ring].
               ++ rewrite IQ. apply Rmult_integral_contrapositive_currified; lra.
            -- rewrite IR, IQ. apply Rdiv_lt_0_compat; now apply Rmult_lt_0_compat.
        + apply (D_scal (q j) (fun t => ln _)). apply (D_ln (fun t => SS (upd n i t) j / QQ (upd n i t))).
          * apply (D_div (fun t => SS (upd n i t) j) (fun t => QQ (upd n i t)) _ (q i * tau i j) (q i)); auto. rewrite IQ. lra.
          * rewrite IS, IQ. now apply Rdiv_lt_0_compat.
      - cbv beta. rewrite IT, IR, IQ, IS. unfold dU. field. lra. }
    eapply D_eq.
    - apply (D_sumn N (fun j t => if Rltb 0 (n j) then upd n i t j * Uterm (upd n i t) j else 0)
        (fun j => delta i j * Uterm n j + n j * dU j)).
      intros j Hj. destruct (Rltb 0 (n j)) eqn:Pj; rdec.
      + eapply D_eq; [apply (D_mult (fun t => upd n i t j) (fun t => Uterm (upd n i t) j)); [apply D_upd|now apply DU]|].
        cbv beta. rewrite upd_id. unfold Uterm. now rewrite IT, IR, IQ, IS.
      + assert (Z : n j = 0) by (destruct (proj1 M j Hj); auto; lra).
        eapply D_eq; [apply D_const|]. rewrite Z. rewrite delta_neq by (intros ->; lra). ring.
    - rewrite sumn_plus, (sumn_delta_l N i (Uterm n) Hi), UNIQUAC_ln by auto.
      assert (E : sumn N (fun j => n j * dU j) = 1 - r i * sumn N n / RR n + 5 * (r i * QQ n / RR n - q i) - q i * sumn N (fun j => tau i j * (n j * q j / SS n j)) + q i).
      { unfold dU.
        rewrite (sumn_ext N _ (fun j => n j * (1 / sumn N n - r i / RR n) + n j * q j * (5 * (r i / RR n - q i / QQ n) + q i / QQ n) - q i * (tau i j * (n j * q j / SS n j)))).
        2:{ intros j Hj. pose proof (SS_pos n j M Hj). field. lra. }
        rewrite sumn_minus, sumn_plus, sumn_scal, !sumn_scal_r. fold (QQ n). field. lra. }
      rewrite E. unfold Uterm, Uln. cbv zeta. pose proof (Hq i Hi). pose proof (Hr i Hi).
      replace (q i * RR n / (QQ n * r i)) with (/ (r i * QQ n / (q i * RR n))) by (field; lra).
      rewrite ln_Rinv by (apply Rdiv_lt_0_compat; now apply Rmult_lt_0_compat). field. lra.
  Qed.

  Lemma UNIQUAC_euler n T : moles N n -> 0 < T ->
    UNIQUAC_gE N T (frac N n) q r tau = Rgas * T * sumn N (fun i => frac N n i * ln (UNIQUAC_gamma N (frac N n) q r tau i)).
  Proof.
    intros M HT. pose proof Rgas_pos. pose proof (RR_pos n M) as PR. pose proof (QQ_pos n M) as PQ. pose proof (proj2 M) as PT.
    apply (Rmult_eq_reg_l (sumn N n / (Rgas * T))); [|unfold Rdiv; apply Rmult_integral_contrapositive_currified; [lra|apply Rinv_neq_0_compat; apply Rmult_integral_contrapositive_currified; lra]].
    transitivity (sumn N n * (UNIQUAC_gE N T (frac N n) q r tau / (Rgas * T))); [field; lra|].
    rewrite UNIQUAC_gE_alt by auto.
    transitivity (sumn N n * sumn N (fun i => frac N n i * Uln n i)).
    2:{ rewrite (sumn_ext N (fun i => frac N n i * ln (UNIQUAC_gamma N (frac N n) q r tau i)) (fun i => frac N n i * Uln n i));
          [field; lra|intros i Hi; now rewrite UNIQUAC_ln]. }
    rewrite <- sumn_scal.
    set (c := fun i => 1 - r i * sumn N n / RR n + 5 * (r i * QQ n / RR n - q i) + q i).
    rewrite (sumn_ext N (fun i => sumn N n * _) (fun i => (if Rltb 0 (n i) then n i * Uterm n i else 0) + (n i * c i - sumn N (fun j => n i * (q i * (tau i j * (n j * q j / SS n j))))))).
    2:{ intros i Hi. pose proof (Hq i Hi). pose proof (Hr i Hi). unfold frac.
        replace (sumn N n * (n i / sumn N n * Uln n i)) with (n i * Uln n i) by (field; lra).
        rewrite !sumn_scal.
        assert (EQ : Uln n i = Uterm n i + c i - q i * sumn N (fun j => tau i j * (n j * q j / SS n j))).
        { unfold Uterm, Uln, c. cbv zeta. replace (q i * RR n / (QQ n * r i)) with (/ (r i * QQ n / (q i * RR n))) by (field; lra).
          rewrite ln_Rinv by (apply Rdiv_lt_0_compat; now apply Rmult_lt_0_compat). field. lra. }
        rewrite EQ. destruct (Rltb 0 (n i)) eqn:Pi; rdec; [ring|].
        assert (Z : n i = 0) by (destruct (proj1 M i Hi); auto; lra). rewrite Z. ring. }
    rewrite sumn_plus, sumn_minus, sumn_swap.
    rewrite (sumn_ext N (fun j => sumn N (fun i => n i * (q i * (tau i j * (n j * q j / SS n j))))) (fun j => n j * q j)).
    2:{ intros j Hj. pose proof (SS_pos n j M Hj). transitivity (SS n j * (n j * q j / SS n j)); [|field; lra].
        unfold SS at 2. rewrite <- sumn_scal_r. apply sumn_ext. intros; ring. }
    unfold c. rewrite (sumn_ext N (fun i => n i * _) (fun i => n i * 1 + n i * r i * ((5 * QQ n - sumn N n) / RR n) - 4 * (n i * q i))) by (intros; field; lra).
    rewrite sumn_minus, sumn_plus, sumn_scal, !sumn_scal_r. fold (RR n) (QQ n). field. lra.
  Qed.

  Lemma UNIQUAC_ED n k : (k < N)%nat -> moles N n -> 0 < n k ->
    forall j, (j < N)%nat -> ED (fun t => ln (UNIQUAC_gamma N (frac N (upd n k t)) q r tau j)) (n k).
  Proof.
    intros Hk M Pk j Hj. pose proof (RR_pos n M) as PR. pose proof (QQ_pos n M) as PQ. pose proof (proj2 M) as PT.
    assert (IT : sumn N (upd n k (n k)) = sumn N n) by (apply sumn_ext; intros; apply upd_id).
    assert (IR : RR (upd n k (n k)) = RR n) by apply lin_id.
    assert (IQ : QQ (upd n k (n k)) = QQ n) by apply lin_id.
    assert (IS : forall j, SS (upd n k (n k)) j = SS n j) by (intros; apply lin_id).
    assert (DT : ED (fun t => sumn N (upd n k t)) (n k)) by (eexists; now apply tot_upd).
    assert (DR : ED (fun t => RR (upd n k t)) (n k)) by (eexists; exact (D_lin N n k r Hk)).
    assert (DQ : ED (fun t => QQ (upd n k t)) (n k)) by (eexists; exact (D_lin N n k q Hk)).
    assert (DS : forall j, ED (fun t => SS (upd n k t) j) (n k)) by (intros l; eexists; exact (D_lin N n k (fun i => q i * tau i l) Hk)).
    pose proof (Hq j Hj). pose proof (Hr j Hj).
    assert (DJ : ED (fun t => r j * sumn N (upd n k t) / RR (upd n k t)) (n k)).
    { apply (ED_div (fun t => r j * _) (fun t => RR _)); auto; [apply (ED_mult (fun _ => r j) (fun t => sumn N _)); auto; apply ED_const|rewrite IR; lra]. }
    assert (DV : ED (fun t => r j * QQ (upd n k t) / (q j * RR (upd n k t))) (n k)).
    { apply (ED_div (fun t => r j * _) (fun t => q j * RR _)).
      - apply (ED_mult (fun _ => r j) (fun t => QQ _)); auto; apply ED_const.
      - apply (ED_mult (fun _ => q j) (fun t => RR _)); auto; apply ED_const.
      - rewrite IR. apply Rmult_integral_contrapositive_currified; lra. }
    assert (E : ED (fun t => Uln (upd n k t) j) (n k)).
    { unfold Uln. cbv zeta. apply (ED_plus (fun t => _ - _) (fun t => q j * _)).
      - apply (ED_minus (fun t => _ + 1) (fun t => _ / _)); auto. apply (ED_plus (fun t => ln _) (fun _ => 1)); [|apply ED_const].
        apply (ED_ln (fun t => _ / _)); auto. rewrite IR, IT. apply Rdiv_lt_0_compat; auto. now apply Rmult_lt_0_compat.
      - apply (ED_mult (fun _ => q j) (fun t => _ - _)); [apply ED_const|].
        apply (ED_minus (fun t => _ - _) (fun t => 5 * _)).
        + apply (ED_minus (fun t => 1 - _) (fun t => sumn N _)).
          * apply (ED_minus (fun _ => 1) (fun t => ln _)); [apply ED_const|]. apply (ED_ln (fun t => _ / _)).
            -- apply (ED_div (fun t => SS _ j) (fun t => QQ _)); auto. rewrite IQ. lra.
            -- rewrite IS, IQ. apply Rdiv_lt_0_compat; auto. now apply SS_pos.
          * apply (ED_sumn N (fun i t => _)). intros i Hi. apply (ED_mult (fun _ => tau j i) (fun t => _ / _)); [apply ED_const|].
            apply (ED_div (fun t => upd n k t i * q i) (fun t => SS _ i)); auto.
            -- apply (ED_mult (fun t => upd n k t i) (fun _ => q i)); [eexists; apply D_upd|apply ED_const].
            -- rewrite IS. pose proof (SS_pos n i M Hi). lra.
        + apply (ED_mult (fun _ => 5) (fun t => _ + _)); [apply ED_const|].
          apply (ED_plus (fun t => 1 - _) (fun t => ln _)).
          * apply (ED_minus (fun _ => 1) (fun t => _ / _)); auto. apply ED_const.
          * apply (ED_ln (fun t => _ / _)); auto. rewrite IR, IQ. apply Rdiv_lt_0_compat; now apply Rmult_lt_0_compat. }
    destruct E as (l & E). exists l. refine (D_ext_loc _ _ _ _ (n k) Pk _ E). intros t Hd. apply Rabs_def2 in Hd.
    symmetry. apply UNIQUAC_ln; auto. apply moles_upd; auto. lra.
  Qed.
End Uniquac.

Theorem C44_euler N T n q r tau : (forall i, (i < N)%nat -> 0 < q i) -> (forall i, (i < N)%nat -> 0 < r i) -> pos_mat N tau ->
  moles N n -> 0 < T ->
  UNIQUAC_gE N T (frac N n) q r tau = Rgas * T * sumn N (fun i => frac N n i * ln (UNIQUAC_gamma N (frac N n) q r tau i)).
Proof. intros. now apply UNIQUAC_euler. Qed.
Theorem C44_derivative N T n q r tau i : (forall i, (i < N)%nat -> 0 < q i) -> (forall i, (i < N)%nat -> 0 < r i) -> pos_mat N tau ->
  (i < N)%nat -> moles N n -> 0 < n i -> 0 < T ->
  D (fun t => sumn N (upd n i t) * (UNIQUAC_gE N T (frac N (upd n i t)) q r tau / (Rgas * T))) (n i)
    (ln (UNIQUAC_gamma N (frac N n) q r tau i)).
Proof. intros. now apply UNIQUAC_derivative. Qed.
Theorem C44_gibbs_duhem N T n q r tau k : (forall i, (i < N)%nat -> 0 < q i) -> (forall i, (i < N)%nat -> 0 < r i) -> pos_mat N tau ->
  (k < N)%nat -> moles N n -> 0 < n k -> 0 < T ->
  (forall j, (j < N)%nat -> ED (fun t => ln (UNIQUAC_gamma N (frac N (upd n k t)) q r tau j)) (n k)) /\
  forall d, (forall j, (j < N)%nat -> D (fun t => ln (UNIQUAC_gamma N (frac N (upd n k t)) q r tau j)) (n k) (d j)) ->
    sumn N (fun j => n j * d j) = 0.
Proof.
  intros Hq Hr Ht Hk M Pk HT. pose proof Rgas_pos. split; [now apply UNIQUAC_ED|].
  intros d Hd. apply (gibbs_duhem N (fun x => UNIQUAC_gE N T x q r tau / (Rgas * T)) (fun x j => ln (UNIQUAC_gamma N x q r tau j)) n k d); auto.
  - intros m Mm. rewrite (C44_euler N T m q r tau) by auto. field. lra.
  - now apply C44_derivative.
Qed.
Theorem C44_pure N q r tau i : (i < N)%nat -> 0 < q i -> 0 < r i -> tau i i = 1 -> UNIQUAC_gamma N (pure i) q r tau i = 1.
Proof.
  intros Hi Pq Pr H1. unfold UNIQUAC_gamma. cbv zeta.
  assert (ER : forall c, sumn N (fun j => pure i j * c j) = c i) by (intros c; now apply (sumn_delta_l N i c)).
  rewrite (ER r), (ER q).
  rewrite (sumn_ext N (fun j => pure i j * (q j / q i) * tau j i) (fun j => pure i j * (q j / q i * tau j i))) by (intros; ring).
  rewrite (ER (fun j => q j / q i * tau j i)), H1.
  set (s := fun k => sumn N (fun j => pure i j * (q j / q i) * tau j k)).
  assert (Es : s i = 1).
  { unfold s. rewrite (sumn_ext N _ (fun j => pure i j * (q j / q i * tau j i))) by (intros; ring). rewrite (ER (fun j => q j / q i * tau j i)), H1. field. lra. }
  rewrite (sumn_ext N (fun j => tau i j * _) (fun j => pure i j * (tau i j * (q j / q i) / s j))) by (intros; unfold s, Rdiv; ring).
  rewrite (ER (fun j => tau i j * (q j / q i) / s j)), Es, H1.
  replace (r i / r i) with 1 by (field; lra). replace (q i / q i) with 1 by (field; lra).
  replace (1 * 1) with 1 by ring. replace (1 / 1) with 1 by field. rewrite ln_1.
  replace (1 - 1 + q i * (1 - 0 - 1 - 5 * (1 - 1 + 0))) with 0 by ring. rewrite exp_0. ring.
Qed.

(* ------------------------------------------------------------------ *)
(** * C45: Flory-Huggins                                              *)
(* ------------------------------------------------------------------ *)

(** volume fractions belonging to mole numbers and molecular sizes *)
Definition vfrac (N : nat) (m n : nat -> R) : nat -> R := fun j => n j * m j / sumn N (fun l => n l * m l).

Section FloryHuggins.
  Variables (N : nat) (m : nat -> R) (chi : mat).
  Hypothesis Hm : forall i, (i < N)%nat -> 0 < m i.
  Hypothesis Hs : forall i j, (i < N)%nat -> (j < N)%nat -> chi i j = chi j i.

  Let MM n := sumn N (fun j => n j * m j).
  Let QQ (n : nat -> R) := sumn N (fun i => n i * (m i * sumn N (fun j => n j * (m j * chi j i)))).
  Lemma MM_pos n : moles N n -> 0 < MM n.
  Proof. intros M. now apply (moles_wsum N n m M). Qed.

  Lemma vfrac_sum n : moles N n -> sumn N (vfrac N m n) = 1.
  Proof. intros M. pose proof (MM_pos n M) as P. unfold vfrac. rewrite sumn_div. fold (MM n). field. lra. Qed.
  Lemma vfrac_pos n i : moles N n -> (i < N)%nat -> 0 < n i -> 0 < vfrac N m n i.
  Proof. intros M Hi P. apply Rdiv_lt_0_compat; [apply Rmult_lt_0_compat; auto|now apply MM_pos]. Qed.

  Lemma FH_quad_alt n : moles N n -> FH_quad N (vfrac N m n) chi = QQ n / (MM n) ^ 2.
  Proof.
    intros M. pose proof (MM_pos n M) as P. unfold FH_quad, QQ, vfrac. fold (MM n). rewrite <- sumn_div. apply sumn_ext. intros i Hi.
    transitivity (n i * m i / MM n * (sumn N (fun j => n j * (m j * chi j i)) / MM n)); [|field; lra].
    f_equal. rewrite <- sumn_div. apply sumn_ext. intros j Hj. unfold Rdiv. ring.
  Qed.

  Lemma FH_ln n i : moles N n -> (i < N)%nat -> 0 < n i ->
    ln (FH_activity N (vfrac N m n) m chi i) =
      ln (n i * m i / MM n) + 1 - m i * (sumn N n / MM n - sumn N (fun j => n j * (m j * chi j i)) / MM n + 1 / 2 * (QQ n / (MM n) ^ 2)).
  Proof.
    intros M Hi Pi. pose proof (MM_pos n M) as P. unfold FH_activity. cbv zeta. rewrite FH_quad_alt by auto.
    rewrite ln_mult, ln_exp by (try apply exp_pos; now apply vfrac_pos).
    rewrite (sumn_ext N (fun j => vfrac N m n j * (1 / m j)) (fun j => n j / MM n)).
    2:{ intros j Hj. unfold vfrac. fold (MM n). pose proof (Hm j Hj). field. lra. }
    rewrite sumn_div.
    rewrite (sumn_ext N (fun j => chi i j * vfrac N m n j) (fun j => n j * (m j * chi j i) / MM n)).
    2:{ intros j Hj. unfold vfrac. fold (MM n). rewrite (Hs i j Hi Hj). unfold Rdiv. ring. }
    rewrite sumn_div. unfold vfrac. fold (MM n). ring.
  Qed.

  Lemma FH_Dgmix_alt n T : moles N n -> 0 < T ->
    MM n * (FH_Dgmix N T (vfrac N m n) m chi / (Rgas * T)) =
      sumn N (fun j => if Rltb 0 (n j) then n j * ln (n j * m j / MM n) else 0) + 1 / 2 * (QQ n / MM n).
  Proof.
    intros M HT. pose proof (MM_pos n M) as P. pose proof Rgas_pos. unfold FH_Dgmix. rewrite FH_quad_alt by auto. unfold FH_comb.
    set (c := sumn N (fun i => if Rltb 0 (vfrac N m n i) then _ else 0)).
    transitivity (MM n * c + 1 / 2 * (QQ n / MM n)); [field; lra|]. f_equal. unfold c. rewrite <- sumn_scal. apply sumn_ext. intros j Hj.
    pose proof (Hm j Hj).
    assert (EM : Rltb 0 (vfrac N m n j) = Rltb 0 (n j)).
    { unfold Rltb. destruct (Rlt_dec 0 (n j)) as [a|a], (Rlt_dec 0 (vfrac N m n j)) as [b|b]; auto; exfalso.
      - apply b. now apply vfrac_pos.
      - assert (Z : n j = 0) by (destruct (proj1 M j Hj); auto; lra). unfold vfrac in b. rewrite Z in b. unfold Rdiv in b. lra. }
    rewrite EM. destruct (Rltb 0 (n j)) eqn:Pj; [|ring]. unfold vfrac. fold (MM n). field. lra.
  Qed.

  Lemma FH_euler n T : moles N n -> 0 < T ->
    MM n * (FH_Dgmix N T (vfrac N m n) m chi / (Rgas * T)) = sumn N (fun i => n i * ln (FH_activity N (vfrac N m n) m chi i)).
  Proof.
    intros M HT. pose proof (MM_pos n M) as P. rewrite FH_Dgmix_alt by auto.
    rewrite (sumn_ext N (fun i => n i * ln (FH_activity N (vfrac N m n) m chi i))
      (fun i => (if Rltb 0 (n i) then n i * ln (n i * m i / MM n) else 0)
              + (n i * 1 - n i * m i * (sumn N n / MM n + 1 / 2 * (QQ n / (MM n) ^ 2)) + n i * (m i * sumn N (fun j => n j * (m j * chi j i))) / MM n))).
    2:{ intros i Hi. destruct (Rltb 0 (n i)) eqn:Pi; rdec.
        - rewrite FH_ln by auto. field. lra.
        - assert (Z : n i = 0) by (destruct (proj1 M i Hi); auto; lra). rewrite Z. unfold Rdiv. ring. }
    rewrite sumn_plus, sumn_plus, sumn_minus, sumn_div, !sumn_scal_r. fold (MM n) (QQ n). field. lra.
  Qed.

  Lemma D_quad n i : (i < N)%nat -> D (fun t => QQ (upd n i t)) (n i) (2 * (m i * sumn N (fun j => n j * (m j * chi j i)))).
  Proof.
    intros Hi. unfold QQ. eapply D_eq.
    - apply (D_sumn N (fun k t => upd n i t k * (m k * sumn N (fun j => upd n i t j * (m j * chi j k))))
        (fun k => delta i k * (m k * sumn N (fun j => n j * (m j * chi j k))) + n k * (m k * (m i * chi i k)))).
      intros k Hk. eapply D_eq.
      + apply (D_mult (fun t => upd n i t k) (fun t => m k * _)); [apply D_upd|].
        apply (D_scal (m k) (fun t => sumn N _)). apply (D_lin N n i (fun j => m j * chi j k) Hi).
      + cbv beta. rewrite upd_id. f_equal. f_equal. f_equal. apply (lin_id N n i (fun j => m j * chi j k)).
    - rewrite sumn_plus, (sumn_delta_l N i (fun k => m k * sumn N (fun j => n j * (m j * chi j k))) Hi).
      rewrite (sumn_ext N (fun k => n k * (m k * (m i * chi i k))) (fun k => m i * (n k * (m k * chi k i)))).
      2:{ intros k Hk. rewrite (Hs i k Hi Hk). ring. }
      rewrite sumn_scal. ring.
  Qed.

  Lemma FH_derivative n T i : (i < N)%nat -> moles N n -> 0 < n i -> 0 < T ->
    D (fun t => sumn N (fun j => upd n i t j * m j) * (FH_Dgmix N T (vfrac N m (upd n i t)) m chi / (Rgas * T))) (n i)
      (ln (FH_activity N (vfrac N m n) m chi i)).
  Proof.
    intros Hi M Pi HT. pose proof (MM_pos n M) as P. pose proof (Hm i Hi) as Pm.
    apply (D_ext_loc (fun t => sumn N (fun j => if Rltb 0 (n j) then upd n i t j * ln (upd n i t j * m j / MM (upd n i t)) else 0)
        + 1 / 2 * (QQ (upd n i t) / MM (upd n i t))) _ _ _ (n i) Pi).
    { intros t Hd. apply Rabs_def2 in Hd. assert (Pt : 0 < t) by lra.
      symmetry. etransitivity; [apply FH_Dgmix_alt; auto; now apply moles_upd|]. f_equal. apply sumn_ext. intros j Hj.
      assert (E : Rltb 0 (upd n i t j) = Rltb 0 (n j)); [|now rewrite E].
      unfold upd. destruct (Nat.eq_dec j i) as [->|]; auto. unfold Rltb. destruct (Rlt_dec 0 (n i)), (Rlt_dec 0 t); auto; lra. }
    assert (IM : MM (upd n i (n i)) = MM n) by apply lin_id.
    assert (IQ : QQ (upd n i (n i)) = QQ n).
    { unfold QQ. apply sumn_ext. intros k Hk. rewrite upd_id. f_equal. f_equal. apply (lin_id N n i (fun j => m j * chi j k)). }
    assert (DM : D (fun t => MM (upd n i t)) (n i) (m i)) by (exact (D_lin N n i m Hi)).
    eapply D_eq.
    - apply (D_plus (fun t => sumn N _) (fun t => 1 / 2 * _)).
      + apply (D_sumn N (fun j t => if Rltb 0 (n j) then upd n i t j * ln (upd n i t j * m j / MM (upd n i t)) else 0)
          (fun j => delta i j * (ln (n j * m j / MM n) + 1) - n j * (m i / MM n))).
        intros j Hj. pose proof (Hm j Hj). destruct (Rltb 0 (n j)) eqn:Pj; rdec.
        * eapply D_eq.
          -- apply (D_mult (fun t => upd n i t j) (fun t => ln _)); [apply D_upd|].
             apply (D_ln (fun t => upd n i t j * m j / MM (upd n i t))).
             ++ apply (D_div (fun t => upd n i t j * m j) (fun t => MM (upd n i t)) _ (delta i j * m j) (m i)); auto.
                ** eapply D_eq; [apply (D_mult (fun t => upd n i t j) (fun _ => m j)); [apply D_upd|apply D_const]|cbv beta; ring].
                ** rewrite IM. lra.
             ++ rewrite IM, upd_id. apply Rdiv_lt_0_compat; auto. now apply Rmult_lt_0_compat.
          -- cbv beta. rewrite IM, upd_id. field. lra.
        * assert (Z : n j = 0) by (destruct (proj1 M j Hj); auto; lra).
          eapply D_eq; [apply D_const|]. rewrite Z, delta_neq by (intros ->; lra). ring.
      + apply (D_scal (1 / 2) (fun t => _ / _)). apply (D_div (fun t => QQ (upd n i t)) (fun t => MM (upd n i t)) _ (2 * (m i * sumn N (fun j => n j * (m j * chi j i)))) (m i)); [now apply D_quad|auto|rewrite IM; lra].
    - rewrite IM, IQ, sumn_minus, (sumn_delta_l N i (fun j => ln (n j * m j / MM n) + 1) Hi), sumn_scal_r.
      rewrite FH_ln by auto. field. lra.
  Qed.
End FloryHuggins.

Theorem C45_euler N T m chi n : (forall i, (i < N)%nat -> 0 < m i) -> (forall i j, (i < N)%nat -> (j < N)%nat -> chi i j = chi j i) ->
  moles N n -> 0 < T ->
  sumn N (fun j => n j * m j) * FH_Dgmix N T (vfrac N m n) m chi = Rgas * T * sumn N (fun i => n i * ln (FH_activity N (vfrac N m n) m chi i)).
Proof. intros Hm Hs M HT. pose proof Rgas_pos. rewrite <- (FH_euler N m chi Hm Hs n T M HT). field. lra. Qed.
Theorem C45_derivative N T m chi n i : (forall i, (i < N)%nat -> 0 < m i) -> (forall i j, (i < N)%nat -> (j < N)%nat -> chi i j = chi j i) ->
  (i < N)%nat -> moles N n -> 0 < n i -> 0 < T ->
  D (fun t => sumn N (fun j => upd n i t j * m j) * (FH_Dgmix N T (vfrac N m (upd n i t)) m chi / (Rgas * T))) (n i)
    (ln (FH_activity N (vfrac N m n) m chi i)).
Proof. intros. now apply FH_derivative. Qed.
Theorem C45_two phi1 chi mm M : (forall i, M i i = 0) -> M 0%nat 1%nat = chi -> M 1%nat 0%nat = chi ->
  FH_activity 2 (fun i => if Nat.eqb i 0 then phi1 else 1 - phi1) (fun i => if Nat.eqb i 0 then 1 else mm) M 0 = FH2_activity phi1 mm chi.
Proof.
  intros H0 H1 H2. unfold FH_activity, FH2_activity, FH_quad. cbv zeta. cbn [sumn Nat.eqb]. rewrite !H0, H1, H2.
  f_equal. f_equal. unfold Rdiv. generalize (/ mm). intros k. field.
Qed.
Theorem C45_pure N m chi i : (i < N)%nat -> 0 < m i -> chi i i = 0 -> FH_activity N (pure i) m chi i = 1.
Proof.
  intros Hi Pm H0. unfold FH_activity, FH_quad. cbv zeta.
  assert (ER : forall c, sumn N (fun j => pure i j * c j) = c i) by (intros c; now apply (sumn_delta_l N i c)).
  rewrite (ER (fun j => 1 / m j)), (ER (fun k => sumn N (fun j => pure i j * chi j k))), (ER (fun j => chi j i)).
  rewrite (sumn_ext N (fun j => chi i j * pure i j) (fun j => pure i j * chi i j)) by (intros; ring). rewrite (ER (fun j => chi i j)), H0.
  unfold pure. rewrite delta_eq. replace (1 - m i * (1 / m i - 0 + 1 / 2 * 0)) with 0 by (field; lra). rewrite exp_0. ring.
Qed.

(* ------------------------------------------------------------------ *)
(** * Concrete cases                                                  *)
(* ------------------------------------------------------------------ *)

(** a binary pair of parameters *)
Definition m2 (u v d : R) : mat := fun i j => match i, j with 0%nat, 1%nat => u | 1%nat, 0%nat => v | _, _ => d end.

(** infinite dilution in NRTL with alpha = 0: ln gamma_0 = tau_10 + tau_01 = 1 + 2 *)
Example C42_example : NRTL_gamma 2 (pure 1) (m2 2 1 0) (fun _ _ => 0) 0 = exp 3.
Proof.
  unfold NRTL_gamma, NRTL_A, NRTL_B, NRTL_G. cbn [sumn]. unfold pure, delta, m2. cbn [Nat.eq_dec nat_rec nat_rect]. cbv zeta. cbn.
  replace (-0 * 0) with 0 by ring. replace (-0 * 1) with 0 by ring. replace (-0 * 2) with 0 by ring. rewrite exp_0. f_equal. field.
Qed.
(** Wilson: ln gamma_0 at infinite dilution is 1 - ln L01 - L10 *)
Example C43_example : Wilson_gamma 2 (pure 1) (m2 2 1 1) 0 = / 2.
Proof.
  unfold Wilson_gamma, Wilson_A. cbn [sumn]. unfold pure, delta, m2. cbn.
  match goal with |- exp ?e / _ = _ => replace e with 0 by field end. rewrite exp_0. field.
Qed.
(** the derivative theorem applied to a ternary mixture *)
Example C43_example_derivative : D (fun t => sumn 3 (upd (fun _ => 1) 0 t) * (Wilson_gE 3 300 (frac 3 (upd (fun _ => 1) 0 t)) (fun _ _ => 1) / (Rgas * 300))) 1 0.
Proof.
  eapply D_eq; [apply (C43_derivative 3 300 (fun _ => 1) (fun _ _ => 1) 0); try lia; try lra|].
  - split; [intros; lra|cbn; lra].
  - intros i j _ _. lra.
  - rewrite C43_ideal; [apply ln_1|]. unfold frac. cbn. field.
Qed.
(** UNIQUAC: equal sizes and tau = 1 is the ideal solution *)
Example C44_example : UNIQUAC_gamma 2 (fun _ => 1 / 2) (fun _ => 3) (fun _ => 2) (fun _ _ => 1) 0 = 1.
Proof.
  unfold UNIQUAC_gamma. cbv zeta. cbn [sumn].
  replace (2 / (0 + 1 / 2 * 2 + 1 / 2 * 2)) with 1 by field.
  replace (3 / (0 + 1 / 2 * 3 + 1 / 2 * 3)) with 1 by field.
  replace (0 + 1 / 2 * 1 * 1 + 1 / 2 * 1 * 1) with 1 by field. replace (1 / 1) with 1 by field. rewrite ln_1.
  match goal with |- 1 * exp ?e = 1 => replace e with 0 by field end. rewrite exp_0. ring.
Qed.
Example C45_example : FH2_activity (1 / 2) 1 2 = 1 / 2 * exp (1 / 2).
Proof. unfold FH2_activity. cbv zeta. f_equal. f_equal. field. Qed.

Print Assumptions C42_gibbs_duhem.
Print Assumptions C43_gibbs_duhem.
Print Assumptions C44_gibbs_duhem.
Print Assumptions C45_derivative.
