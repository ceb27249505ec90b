(** Final statements: quasi-Newton system solver (C09), line search (C62),
    dogleg step (C63). *)
From Coq Require Import Reals Lra Lia List Bool Arith FunctionalExtensionality.
From Verif Require Import Prelude RootsModel DiffModel FixModel FixProofs PolyModel PolyProofs
  VecModel VecProofs.
Open Scope R_scope.

(* ------------------------------------------------------------------ *)
(** ** C09 *)
(* ------------------------------------------------------------------ *)

(** Whatever the function, the linear algebra outcomes, the global method and the
    tolerances: unless the run stops because the last global step failed, the
    returned f is f(x); success implies the scaled residual is within the
    tolerance and f = f(x); never more than maxiter iterations.  Missing for the
    full property: the stop after a failed global step, refuted below. *)
Theorem C09_residual_partial : forall fuel N gm f lin x0 tolx tolf sclx sclf maxiter mlf tl r,
  (1 <= N)%nat -> 0 <= tolf ->
  rootvec_qnewton fuel N gm f lin x0 tolx tolf sclx sclf maxiter mlf tl = Some (Ok r) ->
  (q_msg r <> QGlobalFailed -> q_f r = f (q_x r)) /\
  (q_success r = true ->
     q_f r = f (q_x r) /\ forall i, (i < N)%nat -> Rabs (sclf i * q_f r i) <= tolf) /\
  (q_niter r <= maxiter)%nat.
Proof.
  intros fuel N gm f lin x0 tolx tolf sclx sclf maxiter mlf tl r HN Ht H.
  unfold rootvec_qnewton in H. destruct (Rleb _ _) eqn:E0.
  - injection H as <-. cbn. apply Rleb_true in E0.
    pose proof (proj1 (norm_le_iff N _ _ ltac:(lia)) E0) as B.
    split; [easy|]. split; [|lia]. intros _. split; [easy|]. intros i Hi.
    specialize (B i Hi). cbv beta in B. lra.
  - destruct maxiter as [|n]; [easy|].
    apply qn_loop_consistent in H; auto.
    destruct H as (A1 & A2 & A3 & A4 & A5 & A6 & A7).
    split; [auto|]. split; [|lia].
    intros Hs. split.
    + apply A1. apply A3 in Hs. rewrite Hs. discriminate.
    + apply (norm_le_iff N); [lia|]. auto.
Qed.

(** Without a global method the full property holds. *)
Theorem C09_residual_pure_newton : forall fuel N f lin x0 tolx tolf sclx sclf maxiter mlf tl r,
  rootvec_qnewton fuel N GNone f lin x0 tolx tolf sclx sclf maxiter mlf tl = Some (Ok r) ->
  q_f r = f (q_x r).
Proof.
  intros fuel N f lin x0 tolx tolf sclx sclf maxiter mlf tl r H.
  unfold rootvec_qnewton in H. destruct (Rleb _ _) eqn:E0.
  - injection H as <-. easy.
  - destruct maxiter as [|n]; [easy|].
    apply qn_loop_consistent in H; auto.
    destruct H as (_ & A2 & _). auto.
Qed.

(** Finding (line search): f(x) = 1 + x + 2 x^2 from x0 = 0 with the exact
    Jacobian f'(0) = 1: the step fails, x = 0 is returned together with
    f = 2 = f(-1), although f(0) = 1. *)
Definition fq : vec -> vec := fun x _ => 1 + x O + 2 * x O ^ 2.

Lemma norm2_1 (v : nat -> R) : norm2 1 v = Rabs (v O).
Proof. unfold norm2. simpl. rewrite Rplus_0_l, Rmult_1_r. apply sqrt_Rsqr_abs. Qed.

Theorem C09_line_search_refuted : forall n, exists r,
  rootvec_qnewton 1 1 GLineSearch fq
    (fun _ => LinStep (fun _ => 1) (fun _ => -1) (fun _ _ => 1))
    (fun _ => 0) 2 (/ 1000) (fun _ => 1) (fun _ => 1) (S n) 1000 None = Some (Ok r) /\
  q_x r O = 0 /\ q_f r O = 2 /\ fq (q_x r) O = 1.
Proof.
  intros n. unfold rootvec_qnewton.
  assert (Rleb (norm_inf 1 (fun i => 1 * fq (fun _ => 0) i)) (/ 100 * / 1000) = false) as ->.
  { apply Rleb_false. unfold norm_inf, fq. simpl.
    apply Rlt_le_trans with (Rabs (1 * (1 + 0 + 2 * (0 * (0 * 1))))); [|apply Rmax_r].
    rewrite Rabs_pos_eq by lra. lra. }
  rewrite !norm2_1. cbn [qn_loop global_step]. unfold line_search. cbv zeta. rewrite !norm2_1.
  assert (E1 : Rabs (1 * -1) = 1) by (rewrite Rabs_left; lra).
  assert (E2 : Rmax 0 1000 * Rmax (Rabs (1 * 0)) (Rabs 1) = 1000).
  { rewrite (Rmax_right 0 1000) by lra. rewrite Rmult_0_r, Rabs_R0, Rabs_R1, Rmax_right by lra. ring. }
  rewrite E1, E2.
  assert (Rltb 1000 1 = false) as -> by (apply Rltb_false; lra).
  cbn [ls_loop].
  match goal with |- context [Rleb ?a ?b] =>
    assert (Rleb a b = false) as -> end.
  { apply Rleb_false. unfold fq, ls_alpha, dot. simpl. lra. }
  assert (ER : relstep 1 (fun _ => -1) (fun _ => 0) (fun _ => 1) = 1).
  { unfold relstep. simpl. rewrite Rabs_R0, (Rmax_right 0 (1 / 1)) by lra.
    replace (Rabs (-1) / (1 / 1)) with 1; [apply Rmax_right; lra|].
    rewrite Rabs_left by lra. field. }
  rewrite ER. destruct (Req_EM_T 1 0); [lra|].
  assert (Rltb 1 (2 / 1) = true) as -> by (apply Rltb_true; lra).
  cbn [negb andb ls_ok ls_max ls_x ls_f dl_ok dl_max dl_x dl_f dl_len t_state t_max t_x t_f t_len].
  match goal with |- exists r, Some (Ok ?q) = _ /\ _ => exists q end.
  split; [reflexivity|]. cbn [q_x q_f]. unfold fq. repeat split; lra.
Qed.

(** Finding (dogleg): same function; the trust-region step ends in the state
    "convergence" with x reset but f not. *)
Theorem C09_dogleg_refuted : forall n, exists r,
  rootvec_qnewton 1 1 GDogleg fq
    (fun _ => LinStep (fun _ => 1) (fun _ => -1) (fun _ _ => 1))
    (fun _ => 0) 2 (/ 1000) (fun _ => 1) (fun _ => 1) (S n) 1000 (Some 5) = Some (Ok r) /\
  q_x r O = 0 /\ q_f r O = 2 /\ fq (q_x r) O = 1.
Proof.
  intros n. unfold rootvec_qnewton.
  assert (Rleb (norm_inf 1 (fun i => 1 * fq (fun _ => 0) i)) (/ 100 * / 1000) = false) as ->.
  { apply Rleb_false. unfold norm_inf, fq. simpl.
    apply Rlt_le_trans with (Rabs (1 * (1 + 0 + 2 * (0 * (0 * 1))))); [|apply Rmax_r].
    rewrite Rabs_pos_eq by lra. lra. }
  rewrite !norm2_1. cbn [qn_loop global_step]. unfold dogleg. rewrite !norm2_1.
  assert (E1 : Rabs (1 * -1) = 1) by (rewrite Rabs_left; lra).
  assert (E2 : Rmax 0 1000 * Rmax (Rabs (1 * 0)) (Rabs 1) = 1000).
  { rewrite (Rmax_right 0 1000) by lra. rewrite Rmult_0_r, Rabs_R0, Rabs_R1, Rmax_right by lra. ring. }
  rewrite E1, E2. rewrite (Rmin_left 5 1000) by lra.
  cbn [dl_loop].
  assert (Rleb 1 5 = true) as -> by (apply Rleb_true; lra). cbv zeta.
  unfold update_trust. cbn [is_expl andb].
  match goal with |- context [Rleb ?a ?b] =>
    assert (Rleb a b = true) as -> end.
  { apply Rleb_true. unfold fq, dot. simpl. lra. }
  match goal with |- context [Rltb ?a ?b] =>
    assert (Rltb a b = true) as -> end.
  { apply Rltb_true. simpl. rewrite Rabs_left by lra.
    rewrite (Rabs_left (0 + -1)) by lra. rewrite (Rmax_right (- (0 + -1)) (1 / 1)) by lra.
    apply Rmax_lub_lt; lra. }
  cbn [negb andb ls_ok ls_max ls_x ls_f dl_ok dl_max dl_x dl_f dl_len t_state t_max t_x t_f t_len].
  match goal with |- exists r, Some (Ok ?q) = _ /\ _ => exists q end.
  split; [reflexivity|]. cbn [q_x q_f]. unfold fq. repeat split; lra.
Qed.

(* ------------------------------------------------------------------ *)
(** ** C62 *)
(* ------------------------------------------------------------------ *)

Lemma ls_loop_mono f fN xc p fNc slope lm nl maxlen : forall k m first lam lamp fNpp nf l,
  (k <= m)%nat ->
  ls_loop k f fN xc p fNc slope lm nl maxlen first lam lamp fNpp nf = Some l ->
  ls_loop m f fN xc p fNc slope lm nl maxlen first lam lamp fNpp nf = Some l.
Proof.
  induction k as [|k IH]; intros m first lam lamp fNpp nf l Hkm; [easy|].
  destruct m as [|m]; [lia|]. cbn [ls_loop].
  destruct (Rleb _ _); [auto|]. destruct (Rltb lam lm); [auto|]. apply IH. lia.
Qed.

(** Line search along a descent direction (of the possibly shortened step p'):
    it terminates for every tolx > 0; on success the point is x + lam p' with
    0 < lam <= 1, its residual and norm are returned and the Armijo condition
    with alpha = 1e-4 holds; on failure x is unchanged, the last
    point violates Armijo and every component of the last step is below tolx relative to
    max(|x|, 1/sclx). *)
Theorem C62_line_search : forall N f fN xc fc gc p tolx sclx maxlen,
  0 < tolx -> 0 < maxlen ->
  (forall i, (i < N)%nat -> 0 < sclx i) ->
  dot N gc p < 0 -> fc = f xc ->
  exists c, 0 < c <= 1 /\
    norm2 N (fun i => sclx i * (c * p i)) <= maxlen /\
    (norm2 N (fun i => sclx i * p i) <= maxlen -> c = 1) /\
    exists n0 l, (forall fuel, (n0 <= fuel)%nat ->
       line_search fuel N f fN xc fc gc p tolx sclx maxlen = Some l) /\
    exists lam, 0 < lam <= 1 /\
      ls_f l = f (fun i => xc i + lam * (c * p i)) /\ ls_fN l = fN (ls_f l) /\
      (ls_ok l = true ->
         ls_f l = f (ls_x l) /\ (forall i, ls_x l i = xc i + lam * (c * p i)) /\
         fN (f (ls_x l)) <= fN (f xc) + / 10000 * lam * dot N gc (fun i => c * p i)) /\
      (ls_ok l = false -> ls_x l = xc /\
         fN (f xc) + / 10000 * lam * dot N gc (fun i => c * p i) < ls_fN l /\
         forall i, (i < N)%nat ->
           Rabs (lam * (c * p i)) < tolx * Rmax (Rabs (xc i)) (1 / sclx i)).
Proof.
  intros N f fN xc fc gc p tolx sclx maxlen Ht Hml Hs Hd ->.
  set (nl := norm2 N (fun i => sclx i * p i)).
  set (c := if Rltb maxlen nl then maxlen / nl else 1).
  assert (Hnl : maxlen < nl -> 0 < maxlen / nl < 1).
  { intros H. split; [apply Rdiv_lt_0_compat; lra|].
    apply (Rmult_lt_reg_r nl); [lra|]. unfold Rdiv. rewrite Rmult_assoc, Rinv_l by lra. lra. }
  assert (Hc : 0 < c <= 1).
  { unfold c. destruct (Rltb maxlen nl) eqn:E; [apply Rltb_true in E; specialize (Hnl E)|]; lra. }
  exists c. split; [auto|].
  assert (Hscale : norm2 N (fun i => sclx i * (c * p i)) = c * nl).
  { unfold nl, norm2.
    rewrite (sumn_ext N _ (fun k => c ^ 2 * (sclx k * p k) ^ 2)) by (intros; ring).
    rewrite sumn_scal, sqrt_mult_alt by apply pow2_ge_0.
    rewrite sqrt_pow2 by lra. easy. }
  split.
  { rewrite Hscale. unfold c. destruct (Rltb maxlen nl) eqn:E.
    - apply Rltb_true in E. right. field. lra.
    - apply Rltb_false in E. lra. }
  split.
  { intros H. unfold c. destruct (Rltb maxlen nl) eqn:E; [apply Rltb_true in E; lra|easy]. }
  assert (Ed : dot N gc (fun i => c * p i) = c * dot N gc p).
  { unfold dot. rewrite <- sumn_scal. apply sumn_ext; intros; ring. }
  assert (Hd' : dot N gc (fun i => c * p i) < 0).
  { rewrite Ed. nra. }
  set (p' := fun i => c * p i) in *.
  assert (Hrs : 0 < relstep N p' xc sclx).
  { destruct (Rle_lt_dec (relstep N p' xc sclx) 0) as [Hle|]; auto. exfalso.
    assert (Z : dot N gc p' = 0); [|lra].
    apply sumn_zero'. intros i Hi.
    pose proof (maxn_ge N (fun i => Rabs (p' i) / Rmax (Rabs (xc i)) (1 / sclx i)) i Hi) as B.
    cbv beta in B. unfold relstep in Hle.
    assert (P : 0 < Rmax (Rabs (xc i)) (1 / sclx i)).
    { apply Rlt_le_trans with (1 / sclx i); [|apply Rmax_r].
      apply Rdiv_lt_0_compat; [lra|auto]. }
    assert (Rabs (p' i) <= 0).
    { assert (B2 : Rabs (p' i) / Rmax (Rabs (xc i)) (1 / sclx i) <= 0) by lra.
      apply (Rmult_le_compat_r (Rmax (Rabs (xc i)) (1 / sclx i))) in B2; [|lra].
      unfold Rdiv in B2 at 1. rewrite Rmult_assoc, Rinv_l in B2 by lra. lra. }
    assert (p' i = 0) as ->.
    { pose proof (Rabs_pos (p' i)). destruct (Req_dec (p' i) 0); auto.
      pose proof (Rabs_pos_lt _ H1). lra. }
    ring. }
  set (lm := tolx / relstep N p' xc sclx).
  assert (Hlm : 0 < lm) by now apply Rdiv_lt_0_compat.
  (* the call *)
  set (nl' := if Rltb maxlen nl then maxlen else nl).
  assert (Call : forall fuel, line_search fuel N f fN xc (f xc) gc p tolx sclx maxlen =
     ls_loop fuel f fN xc p' (fN (f xc)) (dot N gc p') lm nl' maxlen true 1 0 0 0).
  { intros fuel. unfold line_search. fold nl. unfold lm, nl'.
    assert (Ep : (fun i => p i * (maxlen / nl)) = p' \/ Rltb maxlen nl = false).
    { unfold p', c. destruct (Rltb maxlen nl); auto. left. apply functional_extensionality; intros; ring. }
    assert (Ep1 : Rltb maxlen nl = false -> p = p').
    { intros E. unfold p', c. rewrite E. apply functional_extensionality; intros; ring. }
    destruct (Rltb maxlen nl) eqn:E.
    - destruct Ep as [Ep|Ep]; [|discriminate]. rewrite Ep.
      destruct (Req_EM_T (relstep N p' xc sclx) 0); [lra|easy].
    - rewrite <- (Ep1 eq_refl). rewrite <- (Ep1 eq_refl) in Hrs.
      destruct (Req_EM_T (relstep N p xc sclx) 0); [lra|easy]. }
  (* termination *)
  destruct (half_pow_small lm Hlm) as [n Hn].
  assert (Term : exists l, ls_loop (S (S n)) f fN xc p' (fN (f xc)) (dot N gc p') lm nl' maxlen true 1 0 0 0 = Some l).
  { remember (S n) as m. cbn [ls_loop]. destruct (Rleb _ _) eqn:E1; [eauto|].
    destruct (Rltb 1 lm); [eauto|]. apply Rleb_false in E1.
    pose proof (ls_quad_bounds _ _ _ Hd' E1) as B.
    subst m.
    destruct (ls_loop_terminates f fN xc p' (fN (f xc)) (dot N gc p') lm nl' maxlen n
      (pymax (/ 10 * 1) (ls_quad (dot N gc p') (fN (f xc)) (fN (f (fun i => xc i + 1 * p' i)))))
      1 (fN (f (fun i => xc i + 1 * p' i))) 1) as (l & El & _).
    - lra.
    - apply Rle_lt_trans with ((/ 2) ^ n); [|apply Hn; lia].
      rewrite <- (Rmult_1_l ((/ 2) ^ n)) at 2. apply Rmult_le_compat_r; [apply pow_le; lra|lra].
    - eauto. }
  destruct Term as [l El].
  pose proof (ls_loop_mono f fN xc p' (fN (f xc)) (dot N gc p') lm nl' maxlen) as Mono.
  exists (S (S n)), l. split.
  { intros fuel Hf. rewrite Call. apply (Mono (S (S n))); auto. }
  pose proof (ls_loop_good f fN xc p' (fN (f xc)) (dot N gc p') lm nl' maxlen _ _ _ _ _ _ _
                Hd' (fun _ => eq_refl) ltac:(lra) El) as (G1 & G2 & G3 & G4 & G5).
  exists (ls_lam l). split; auto. split; [exact G2|]. split; [exact G3|]. split.
  - intros Hok. destruct (G4 Hok) as [E1 E2].
    split; [now rewrite E1|]. split; [intros i; now rewrite E1|].
    rewrite E1. rewrite <- G2, <- G3. exact E2.
  - intros Hok. destruct (G5 Hok) as (E1 & E2 & E3). split; [auto|]. split; [auto|].
    intros i Hi.
    assert (P : 0 < Rmax (Rabs (xc i)) (1 / sclx i)).
    { apply Rlt_le_trans with (1 / sclx i); [|apply Rmax_r].
      apply Rdiv_lt_0_compat; [lra|auto]. }
    pose proof (maxn_ge N (fun i => Rabs (p' i) / Rmax (Rabs (xc i)) (1 / sclx i)) i Hi) as B.
    cbv beta in B. fold (relstep N p' xc sclx) in B.
    assert (B1 : ls_lam l * relstep N p' xc sclx < tolx).
    { unfold lm in E2. apply (Rmult_lt_compat_r (relstep N p' xc sclx)) in E2; auto.
      unfold Rdiv in E2. rewrite Rmult_assoc, Rinv_l in E2 by lra. lra. }
    assert (B2 : ls_lam l * (Rabs (p' i) / Rmax (Rabs (xc i)) (1 / sclx i)) < tolx).
    { eapply Rle_lt_trans; [|exact B1]. apply Rmult_le_compat_l; lra. }
    apply (Rmult_lt_compat_r _ _ _ P) in B2.
    replace (Rabs (ls_lam l * (c * p i)))
      with (ls_lam l * (Rabs (p' i) / Rmax (Rabs (xc i)) (1 / sclx i)) * Rmax (Rabs (xc i)) (1 / sclx i)); auto.
    rewrite Rabs_mult, (Rabs_pos_eq (ls_lam l)) by lra. unfold p'. field. lra.
Qed.

(** The cubic backtracking model is well defined whenever the two previous points
    violate the Armijo condition: it interpolates both values, its square root
    has a non-negative argument, and the new lambda is a stationary point with
    non-negative curvature. *)
Theorem C62_cubic_model : forall slope fNc lam lamp fNp fNpp,
  slope < 0 -> 0 < lam < lamp -> fNc + / 10000 * lam * slope < fNp ->
  exists a b,
    fNc + slope * lam + b * lam ^ 2 + a * lam ^ 3 = fNp /\
    fNc + slope * lamp + b * lamp ^ 2 + a * lamp ^ 3 = fNpp /\
    0 <= b ^ 2 - 3 * a * slope /\
    (/ 100000000 < Rabs a -> exists t,
       ls_cubic slope fNc lam lamp fNp fNpp = Fin t /\
       slope + 2 * b * t + 3 * a * t ^ 2 = 0 /\ 0 <= 2 * b + 6 * a * t).
Proof.
  intros slope fNc lam lamp fNp fNpp Hs Hl Ha.
  pose proof (cubic_ab_interp slope fNc lam lamp fNp fNpp Hl) as HI.
  pose proof (cubic_rad_pos slope fNc lam lamp fNp fNpp Hs Hl Ha) as HR.
  unfold ls_cubic.
  destruct (ls_cubic_ab slope fNc lam lamp fNp fNpp) as [a b]. destruct HI as [H1 H2].
  exists a, b. split; auto. split; auto. split; auto.
  intros Hbig. assert (Rleb (Rabs a) (/ 100000000) = false) as -> by (apply Rleb_false; lra).
  assert (Rltb (b ^ 2 - 3 * a * slope) 0 = false) as -> by (apply Rltb_false; lra).
  eexists. split; [reflexivity|].
  assert (Hne : a <> 0) by (intros ->; rewrite Rabs_R0 in Hbig; lra).
  set (q := sqrt (b ^ 2 - 3 * a * slope)).
  assert (Eq : q ^ 2 = b ^ 2 - 3 * a * slope) by (unfold q; now apply pow2_sqrt).
  assert (0 <= q) by apply sqrt_pos.
  split.
  - replace (slope + 2 * b * ((- b + q) / (3 * a)) + 3 * a * ((- b + q) / (3 * a)) ^ 2)
      with (slope + (q ^ 2 - b ^ 2) / (3 * a)) by (field; auto).
    rewrite Eq. field. auto.
  - replace (2 * b + 6 * a * ((- b + q) / (3 * a))) with (2 * q) by (field; auto). lra.
Qed.

Example C62_case : exists a b,
  (0 - 1 * (1/2) + b * (1/2) ^ 2 + a * (1/2) ^ 3 = 1) /\
  0 <= b ^ 2 - 3 * a * -1.
Proof.
  destruct (C62_cubic_model (-1) 0 (1/2) 1 1 3) as (a & b & H1 & H2 & H3 & _); try lra.
  exists a, b. split; lra.
Qed.

(* ------------------------------------------------------------------ *)
(** ** C63 *)
(* ------------------------------------------------------------------ *)

(** The dogleg step for a trust radius below the Newton length has scaled length
    exactly equal to the radius, and is a descent direction when the Newton step
    is. *)
Theorem C63_dogleg_step : forall N gc p sclx Rm trustlen,
  (forall i, (i < N)%nat -> 0 < sclx i) ->
  (exists i, (i < N)%nat /\ gc i <> 0) ->
  (exists i, (i < N)%nat /\ matvec N Rm (fun i => gc i / sclx i ^ 2) i <> 0) ->
  dot N gc p < 0 ->
  let newtlen := norm2 N (fun i => sclx i * p i) in
  0 < trustlen < newtlen ->
  let s := dogleg_step N (dogleg_path N gc p sclx Rm) p sclx newtlen trustlen in
  norm2 N (fun i => sclx i * s i) = trustlen /\ dot N gc s < 0.
Proof.
  intros N gc p sclx Rm trustlen Hs Hg HR Hd newtlen Htr s.
  set (alpha := norm2 N (fun i => gc i / sclx i) ^ 2).
  set (beta := norm2 N (matvec N Rm (fun i => gc i / sclx i ^ 2)) ^ 2).
  assert (Hal : 0 < alpha).
  { unfold alpha. pose proof (norm2_nonneg N (fun i => gc i / sclx i)).
    assert (norm2 N (fun i => gc i / sclx i) <> 0).
    { rewrite norm2_zero. intros Z. destruct Hg as [i [Hi Hn]]. apply Hn.
      specialize (Z i Hi). specialize (Hs i Hi). cbv beta in Z.
      replace (gc i) with (gc i / sclx i * sclx i) by (field; lra). rewrite Z. ring. }
    apply pow_lt. lra. }
  assert (Hbe : 0 < beta).
  { unfold beta. pose proof (norm2_nonneg N (matvec N Rm (fun i => gc i / sclx i ^ 2))).
    assert (norm2 N (matvec N Rm (fun i => gc i / sclx i ^ 2)) <> 0).
    { rewrite norm2_zero. intros Z. destruct HR as [i [Hi Hn]]. apply Hn, Z; auto. }
    apply pow_lt. lra. }
  assert (Esq : sqrt alpha = norm2 N (fun i => gc i / sclx i)).
  { unfold alpha. apply sqrt_pow2. apply norm2_nonneg. }
  set (K := alpha / beta).
  assert (HK : 0 < K) by now apply Rdiv_lt_0_compat.
  set (cau := alpha * sqrt alpha / beta).
  assert (Hsa : 0 < sqrt alpha) by now apply sqrt_lt_R0.
  assert (Hcau : 0 < cau).
  { unfold cau. apply Rdiv_lt_0_compat; auto. apply Rmult_lt_0_compat; auto. }
  set (eta := 2 / 10 + 8 / 10 * alpha ^ 2 / (beta * Rabs (dot N gc p))).
  assert (Heta : 0 < eta).
  { unfold eta. assert (0 < 8 / 10 * alpha ^ 2 / (beta * Rabs (dot N gc p))); [|lra].
    apply Rdiv_lt_0_compat.
    - apply Rmult_lt_0_compat; [lra|]. apply pow_lt; auto.
    - apply Rmult_lt_0_compat; auto. apply Rabs_pos_lt. lra. }
  set (sSD := fun i => - K * (gc i / sclx i)).
  set (v := fun i => eta * (p i * sclx i) - sSD i).
  assert (ED : dogleg_path N gc p sclx Rm = mkDG cau eta sSD v) by reflexivity.
  assert (SD2 : sumn N (fun i => sSD i ^ 2) = cau ^ 2).
  { unfold sSD. rewrite (sumn_ext N _ (fun i => K ^ 2 * (gc i / sclx i) ^ 2)) by (intros; ring).
    rewrite sumn_scal, <- norm2_pow. fold alpha. unfold cau, K.
    replace ((alpha * sqrt alpha / beta) ^ 2) with (alpha ^ 2 * (sqrt alpha ^ 2) / beta ^ 2) by (field; lra).
    rewrite pow2_sqrt by lra. field. lra. }
  assert (gSD : dot N gc (fun i => sSD i / sclx i) = - K * alpha).
  { unfold dot, sSD. rewrite (sumn_ext N _ (fun i => - K * (gc i / sclx i) ^ 2)).
    - rewrite sumn_scal, <- norm2_pow. easy.
    - intros i Hi. specialize (Hs i Hi). field. lra. }
  assert (Hnl : 0 < newtlen) by lra.
  assert (Ediv : forall (w : nat -> R), norm2 N (fun i => sclx i * (w i / sclx i)) = norm2 N w).
  { intros w. unfold norm2. f_equal. apply sumn_ext. intros i Hi. specialize (Hs i Hi).
    replace (sclx i * (w i / sclx i)) with (w i) by (field; lra). easy. }
  assert (Hom : forall k (w : nat -> R), 0 <= k -> norm2 N (fun i => k * w i) = k * norm2 N w).
  { intros k w Hk. unfold norm2.
    rewrite (sumn_ext N _ (fun i => k ^ 2 * w i ^ 2)) by (intros; ring).
    rewrite sumn_scal, sqrt_mult_alt by apply pow2_ge_0. rewrite sqrt_pow2; auto. }
  assert (NSD : norm2 N sSD = cau).
  { unfold norm2. rewrite SD2. apply sqrt_pow2. lra. }
  unfold s. rewrite ED. unfold dogleg_step. cbn [d_eta d_cauchy d_sSD d_v].
  destruct (Rleb (eta * newtlen) trustlen) eqn:C1.
  - split.
      replace (norm2 N (fun i => sclx i * (trustlen / newtlen * p i)))
        with (norm2 N (fun i => trustlen / newtlen * (sclx i * p i))).
      2:{ unfold norm2. f_equal. apply sumn_ext; intros; f_equal; ring. }
      rewrite Hom by (left; apply Rdiv_lt_0_compat; lra). fold newtlen. field. lra.
    + assert (E : dot N gc (fun i => trustlen / newtlen * p i) = trustlen / newtlen * dot N gc p).
      { unfold dot. rewrite <- sumn_scal. apply sumn_ext; intros; ring. }
      rewrite E. assert (0 < trustlen / newtlen) by (apply Rdiv_lt_0_compat; lra). nra.
  - apply Rleb_false in C1. destruct (Rleb trustlen cau) eqn:C2.
    + split.
      * replace (norm2 N (fun i => sclx i * (trustlen / cau * (sSD i / sclx i))))
          with (norm2 N (fun i => trustlen / cau * (sclx i * (sSD i / sclx i)))).
        2:{ unfold norm2. f_equal. apply sumn_ext; intros; f_equal; ring. }
        rewrite Hom by (left; apply Rdiv_lt_0_compat; lra). rewrite Ediv, NSD. field. lra.
      * assert (E : dot N gc (fun i => trustlen / cau * (sSD i / sclx i))
                   = trustlen / cau * (- K * alpha)).
        { rewrite <- gSD. unfold dot. rewrite <- sumn_scal. apply sumn_ext; intros; ring. }
        rewrite E. assert (0 < trustlen / cau) by (apply Rdiv_lt_0_compat; lra).
        assert (0 < K * alpha) by now apply Rmult_lt_0_compat. nra.
    + apply Rleb_false in C2.
      set (a := dot N v v). set (b := dot N v sSD).
      set (k := trustlen ^ 2 - cau ^ 2).
      assert (Hk : 0 < k).
      { unfold k. assert (0 < (trustlen - cau) * (trustlen + cau)) by (apply Rmult_lt_0_compat; lra). lra. }
      assert (Ha0 : 0 <= a). { unfold a, dot. apply sumn_nonneg; intros; nra. }
      assert (Full : a + 2 * b + cau ^ 2 = (eta * newtlen) ^ 2).
      { replace ((eta * newtlen) ^ 2) with (eta ^ 2 * newtlen ^ 2) by ring.
        unfold newtlen. rewrite norm2_pow, <- sumn_scal. rewrite <- SD2. unfold a, b, dot.
        rewrite <- sumn_scal, <- !sumn_plus. apply sumn_ext. intros i Hi. unfold v. ring. }
      assert (Big : trustlen ^ 2 < (eta * newtlen) ^ 2).
      { assert (0 < (eta * newtlen - trustlen) * (eta * newtlen + trustlen)) by (apply Rmult_lt_0_compat; lra). lra. }
      assert (Hab : k < a + 2 * b) by (unfold k; lra).
      assert (Ha : 0 < a).
      { destruct Ha0 as [|Z]; auto. exfalso.
        assert (b = 0).
        { unfold b, dot. apply sumn_zero'. intros i Hi.
          assert (v i * v i = 0).
          { apply (sumn_nonneg_zero N (fun i => v i * v i)); auto. intros; nra. }
          assert (v i = 0) by nra. rewrite H0. ring. }
        lra. }
      replace (b ^ 2 - a * (cau ^ 2 - trustlen ^ 2)) with (b ^ 2 + a * k) by (unfold k; ring).
      set (q := sqrt (b ^ 2 + a * k)).
      assert (Hak : 0 < a * k) by now apply Rmult_lt_0_compat.
      assert (Eq : q ^ 2 = b ^ 2 + a * k).
      { unfold q. apply pow2_sqrt. pose proof (pow2_ge_0 b). lra. }
      assert (Hq : 0 <= q) by apply sqrt_pos.
      set (lam := (- b + q) / a).
      assert (El : a * lam ^ 2 + 2 * b * lam = k).
      { unfold lam. apply (Rmult_eq_reg_l a); [|lra].
        replace (a * (a * ((- b + q) / a) ^ 2 + 2 * b * ((- b + q) / a)))
          with (q ^ 2 - b ^ 2) by (field; lra). rewrite Eq. ring. }
      assert (Hl0 : 0 < lam).
      { unfold lam. apply Rdiv_lt_0_compat; auto. nra. }
      assert (Hl1 : lam < 1).
      { destruct (Rlt_le_dec lam 1) as [|Hge]; auto. exfalso.
        assert (a + 2 * b <= a * lam + 2 * b) by nra.
        assert (lam * (a + 2 * b) <= lam * (a * lam + 2 * b)) by (apply Rmult_le_compat_l; lra).
        nra. }
      split.
      * rewrite (Ediv (fun i => sSD i + lam * v i)).
        unfold norm2.
        rewrite (sumn_ext N _ (fun i => (sSD i ^ 2 + (2 * lam) * (v i * sSD i)) + lam ^ 2 * (v i * v i)))
          by (intros; ring).
        rewrite !sumn_plus, !sumn_scal, SD2. fold (dot N v sSD) (dot N v v). fold a b.
        replace (cau ^ 2 + 2 * lam * b + lam ^ 2 * a) with (trustlen ^ 2).
        -- apply sqrt_pow2. lra.
        -- unfold k in El. lra.
      * assert (E : dot N gc (fun i => (sSD i + lam * v i) / sclx i)
                    = (1 - lam) * (- K * alpha) + lam * eta * dot N gc p).
        { rewrite <- gSD. unfold dot. rewrite <- !sumn_scal, <- sumn_plus. apply sumn_ext.
          intros i Hi. specialize (Hs i Hi). unfold v. field. lra. }
        rewrite E.
        assert (0 < K * alpha) by now apply Rmult_lt_0_compat.
        assert (0 < lam * eta) by now apply Rmult_lt_0_compat. nra.
Qed.

(** Concrete case: N = 1, gradient 1, Newton step -2, radius 1. *)
Example C63_case :
  let s := dogleg_step 1 (dogleg_path 1 (fun _ => 1) (fun _ => -2) (fun _ => 1) (fun _ _ => 1))
             (fun _ => -2) (fun _ => 1) (norm2 1 (fun i => 1 * -2)) 1 in
  norm2 1 (fun i => 1 * s i) = 1.
Proof.
  apply (C63_dogleg_step 1 (fun _ => 1) (fun _ => -2) (fun _ => 1) (fun _ _ => 1) 1).
  - intros; lra.
  - exists 0%nat. split; [lia|lra].
  - exists 0%nat. split; [lia|]. unfold matvec. simpl. lra.
  - unfold dot. simpl. lra.
  - cbv zeta. rewrite norm2_1, Rabs_left; lra.
Qed.

Print Assumptions C09_residual_partial.
Print Assumptions C09_line_search_refuted.
Print Assumptions C62_line_search.
Print Assumptions C63_dogleg_step.
