(** Proofs about VecModel.v *)
From Coq Require Import Reals Lra Lia List Bool Arith FunctionalExtensionality.
From Verif Require Import Prelude RootsModel DiffModel FixModel FixProofs PolyModel PolyProofs VecModel.
Open Scope R_scope.

(* ---------- line search ---------- *)
Lemma pymax_pymin_bounds lam x : 0 < lam ->
  / 10 * lam <= pymax (/ 10 * lam) (pymin x (/ 2 * lam)) <= / 2 * lam.
Proof.
  intros Hl. destruct x as [r| | |]; cbn [pymin pymax].
  - destruct (Rltb (/ 2 * lam) r) eqn:E; cbn [pymax].
    + destruct (Rltb (/ 10 * lam) (/ 2 * lam)) eqn:E2; lra.
    + apply Rltb_false in E. destruct (Rltb (/ 10 * lam) r) eqn:E2; try lra.
      apply Rltb_true in E2. lra.
  - destruct (Rltb (/ 10 * lam) (/ 2 * lam)) eqn:E2; lra.
  - lra.
  - lra.
Qed.

Lemma ls_quad_bounds slope fNc fNp : slope < 0 -> fNc + ls_alpha * 1 * slope < fNp ->
  / 10 * 1 <= pymax (/ 10 * 1) (ls_quad slope fNc fNp) <= 51 / 100.
Proof.
  intros Hs Ha. unfold ls_alpha in Ha. unfold ls_quad.
  assert (Hd : - slope * (9999 / 5000) < 2 * (fNp - fNc - slope)) by lra.
  destruct (Req_EM_T _ 0); [cbn; lra|]. cbn [pymax].
  assert (B : - slope / (2 * (fNp - fNc - slope)) <= 51 / 100).
  { apply (Rmult_le_reg_r (2 * (fNp - fNc - slope))); [lra|].
    unfold Rdiv at 1. rewrite Rmult_assoc, Rinv_l by lra. lra. }
  destruct (Rltb _ _) eqn:E; [apply Rltb_true in E|]; lra.
Qed.

Section LS.
Variables (f : vec -> vec) (fN : vec -> R) (xc p : vec) (fNc slope lammin newtlen maxlen : R).

Definition ls_good (l : LS) : Prop :=
  0 < ls_lam l <= 1 /\
  ls_f l = f (fun i => xc i + ls_lam l * p i) /\
  ls_fN l = fN (ls_f l) /\
  (ls_ok l = true ->
     ls_x l = (fun i => xc i + ls_lam l * p i) /\ ls_fN l <= fNc + / 10000 * ls_lam l * slope) /\
  (ls_ok l = false ->
     ls_x l = xc /\ ls_lam l < lammin /\ fNc + / 10000 * ls_lam l * slope < ls_fN l).

Lemma ls_loop_good fuel : forall first lam lamp fNpp nf l,
  slope < 0 -> (first = true -> lam = 1) -> 0 < lam <= 1 ->
  ls_loop fuel f fN xc p fNc slope lammin newtlen maxlen first lam lamp fNpp nf = Some l ->
  ls_good l.
Proof.
  induction fuel as [|k IH]; intros first lam lamp fNpp nf l Hs Hf Hl; cbn [ls_loop]; [easy|].
  destruct (Rleb _ _) eqn:E1.
  - intros H; injection H as <-. unfold ls_good; cbn. apply Rleb_true in E1.
    split; [lra|]. split; [easy|]. split; [easy|].
    split; [intros _; split; [easy|exact E1]|easy].
  - apply Rleb_false in E1. destruct (Rltb lam lammin) eqn:E2.
    + intros H; injection H as <-. unfold ls_good; cbn. apply Rltb_true in E2.
      split; [lra|]. split; [easy|]. split; [easy|]. split; [easy|].
      intros _. split; [easy|]. split; [lra|exact E1].
    + apply IH; [auto|easy|]. destruct first.
      * rewrite (Hf eq_refl) in *. pose proof (ls_quad_bounds _ _ _ Hs E1). lra.
      * pose proof (pymax_pymin_bounds lam
          (ls_cubic slope fNc lam lamp (fN (f (fun i => xc i + lam * p i))) fNpp) (proj1 Hl)). lra.
Qed.

Lemma ls_loop_terminates n : forall lam lamp fNpp nf,
  0 < lam -> lam * (/ 2) ^ n < lammin ->
  exists l, ls_loop (S n) f fN xc p fNc slope lammin newtlen maxlen false lam lamp fNpp nf = Some l
    /\ (ls_nf l <= nf + S n)%nat.
Proof.
  induction n as [|n IH]; intros lam lamp fNpp nf Hl Hn.
  - cbn [ls_loop]. destruct (Rleb _ _); [eexists; split; [reflexivity|cbn; lia]|].
    assert (Rltb lam lammin = true) as ->.
    { apply Rltb_true. simpl in Hn. lra. }
    eexists; split; [reflexivity|cbn; lia].
  - remember (S n) as m. cbn [ls_loop]. destruct (Rleb _ _); [eexists; split; [reflexivity|cbn; lia]|].
    destruct (Rltb lam lammin); [eexists; split; [reflexivity|cbn; lia]|]. subst m.
    set (x := ls_cubic _ _ _ _ _ _).
    pose proof (pymax_pymin_bounds lam x Hl) as [B1 B2].
    destruct (IH (pymax (/ 10 * lam) (pymin x (/ 2 * lam))) lam
                (fN (f (fun i => xc i + lam * p i))) (S nf)) as (l & E & Hnf).
    + lra.
    + apply Rle_lt_trans with (/ 2 * lam * (/ 2) ^ n); [|simpl in Hn; lra].
      apply Rmult_le_compat_r; auto. apply pow_le; lra.
    + exists l. split; [exact E|lia].
Qed.
End LS.

Lemma half_pow_small a : 0 < a -> exists n, forall m, (n <= m)%nat -> (/ 2) ^ m < a.
Proof.
  intros Ha. destruct (pow_lt_1_zero (/ 2) ltac:(rewrite Rabs_pos_eq; lra) a Ha) as [N HN].
  exists N. intros m Hm. specialize (HN m Hm). rewrite Rabs_pos_eq in HN; auto.
  apply pow_le; lra.
Qed.

(** the cubic model *)
Lemma cubic_ab_interp slope fNc lam lamp fNp fNpp : 0 < lam < lamp ->
  let '(a, b) := ls_cubic_ab slope fNc lam lamp fNp fNpp in
  fNc + slope * lam + b * lam ^ 2 + a * lam ^ 3 = fNp /\
  fNc + slope * lamp + b * lamp ^ 2 + a * lamp ^ 3 = fNpp.
Proof.
  intros H. unfold ls_cubic_ab. split; field; repeat split; lra.
Qed.

Lemma cubic_rad_pos slope fNc lam lamp fNp fNpp : slope < 0 -> 0 < lam < lamp ->
  fNc + ls_alpha * lam * slope < fNp ->
  let '(a, b) := ls_cubic_ab slope fNc lam lamp fNp fNpp in
  0 <= b ^ 2 - 3 * a * slope.
Proof.
  intros Hs Hl Ha. pose proof (cubic_ab_interp slope fNc lam lamp fNp fNpp Hl) as HI.
  destruct (ls_cubic_ab slope fNc lam lamp fNp fNpp) as [a b]. destruct HI as [H1 _].
  unfold ls_alpha in Ha.
  assert (P : - (9999 / 10000) * slope < b * lam + a * lam ^ 2).
  { apply (Rmult_lt_reg_r lam); [lra|]. nra. }
  destruct (Rle_dec 0 a) as [Pa|Pa].
  - assert (0 <= a * - slope) by (apply Rmult_le_pos; lra). pose proof (pow2_ge_0 b). nra.
  - assert (0 < - a) by lra.
    assert (Q : 0 <= (2 * a * lam + b) ^ 2) by apply pow2_ge_0.
    assert (X : (2 * a * lam + b) ^ 2 = b ^ 2 + 4 * a * (b * lam + a * lam ^ 2)) by ring.
    assert (Y : 4 * a * (b * lam + a * lam ^ 2) < 4 * a * (- (9999 / 10000) * slope)).
    { apply Rmult_lt_gt_compat_neg_l; [lra|]. lra. }
    assert (Z : 0 < (- a) * (- slope)) by (apply Rmult_lt_0_compat; lra).
    nra.
Qed.

(* ---------- trust region ---------- *)
Lemma update_trust_consistent N f fN fNc xc gc Rm s sclx tolx maxlen tl isn xprev fprev fNprev st :
  (st = TExploratory -> fprev = f xprev /\ fNprev = fN fprev) ->
  let t := update_trust N f fN fNc xc gc Rm s sclx tolx maxlen tl isn xprev fprev fNprev st in
  (t_state t = TAccepted -> t_f t = f (t_x t) /\ t_fN t = fN (t_f t)) /\
  (t_state t = TConvergence -> t_x t = xc /\ t_f t = f (fun i => xc i + s i)) /\
  (t_state t = TExploratory -> t_fprev t = f (t_xprev t) /\ t_fNprev t = fN (t_fprev t)).
Proof.
  intros Hp t. unfold t, update_trust. cbv zeta.
  destruct (is_expl st) eqn:Es; cbn [andb];
    repeat match goal with
    | |- context [if ?b then mkTR _ _ _ _ _ _ _ _ _ else _] => destruct b
    | |- context [if ?b then (if _ then mkTR _ _ _ _ _ _ _ _ _ else _) else _] => destruct b
    end; cbn; repeat split; intros; try discriminate; try easy.
  all: destruct st; try discriminate; apply Hp; auto.
Qed.

Lemma dl_loop_consistent fuel : forall N f fN fNc xc gc p Rm tolx sclx maxlen newtlen first tl st
    xprev fprev fNprev nf l,
  (st = TExploratory -> fprev = f xprev /\ fNprev = fN fprev) ->
  dl_loop fuel N f fN fNc xc gc p Rm tolx sclx maxlen newtlen first tl st xprev fprev fNprev nf = Some l ->
  (dl_ok l = true -> dl_f l = f (dl_x l) /\ dl_fN l = fN (dl_f l)) /\
  (dl_ok l = false -> dl_x l = xc /\ exists s, dl_f l = f (fun i => xc i + s i)).
Proof.
  induction fuel as [|k IH]; intros N f fN fNc xc gc p Rm tolx sclx maxlen newtlen first tl st
    xprev fprev fNprev nf l Hp; cbn [dl_loop]; [easy|].
  set (isn := Rleb newtlen tl).
  set (tr1 := if isn then newtlen else _).
  set (s := if isn then p else _).
  pose proof (update_trust_consistent N f fN fNc xc gc Rm s sclx tolx maxlen tr1 isn
                xprev fprev fNprev st Hp) as HU. cbv zeta in HU.
  destruct (update_trust N f fN fNc xc gc Rm s sclx tolx maxlen tr1 isn xprev fprev fNprev st)
    as [ts tm tle tx tf tfn txp tfp tfnp]. cbn in *.
  destruct HU as (U1 & U2 & U3).
  destruct ts; intros H.
  - injection H as <-. cbn. split; [intros _; auto|easy].
  - injection H as <-. cbn. split; [easy|]. intros _. destruct (U2 eq_refl) as [-> ->].
    split; [easy|]. exists s. easy.
  - eapply IH; [|exact H]. intros E0; discriminate E0.
  - eapply IH; [|exact H]. exact U3.
  - eapply IH; [|exact H]. intros E0; discriminate E0.
Qed.

(* ---------- main loop ---------- *)
Lemma global_step_consistent fuel N gm f fN xc fc gc p Rm tolx sclx maxlen tl gok gmax xp fp tl' :
  global_step fuel N gm f fN xc fc gc p Rm tolx sclx maxlen tl = Some (Ok (gok, gmax, xp, fp, tl')) ->
  (gok = true -> fp = f xp) /\ (gok = false -> gm <> GNone /\ xp = xc).
Proof.
  unfold global_step. destruct gm.
  - intros H; injection H as <- <- <- <- <-. easy.
  - destruct (line_search _ _ _ _ _ _ _ _ _ _ _) as [l|] eqn:E; [|easy].
    intros H; injection H as <- <- <- <- <-.
    assert (G : forall p0 c s0 lm nl fu first lam lamp fNpp nf l,
       ls_loop fu f fN xc p0 c s0 lm nl maxlen first lam lamp fNpp nf = Some l ->
       (ls_ok l = true -> ls_f l = f (ls_x l)) /\ (ls_ok l = false -> ls_x l = xc)).
    { intros p0 c s0 lm nl.
      induction fu as [|k IH]; intros first lam lamp fNpp nf l0; cbn [ls_loop]; [easy|].
      destruct (Rleb _ _); [intros H; injection H as <-; cbn; easy|].
      destruct (Rltb _ _); [intros H; injection H as <-; cbn; easy|].
      apply IH. }
    unfold line_search in E. cbv zeta in E.
    destruct (if Rltb _ _ then _ else _) as [p1 nl1].
    apply G in E. destruct E as [E1 E2]. split; auto. intros; split; auto; discriminate.
  - destruct (dogleg _ _ _ _ _ _ _ _ _ _ _ _ _) as [l|] eqn:E; [|easy].
    intros H; injection H as <- <- <- <- <-. unfold dogleg in E.
    apply dl_loop_consistent in E; [|discriminate]. destruct E as [E1 E2].
    split; [apply E1|]. intros Hk; split; [discriminate|]. apply E2; auto.
  - easy.
Qed.

Lemma qn_loop_consistent fuel N gm f lin tolx tolf sclx sclf maxlen n :
  forall niter xc fc restart nmax tl r,
  fc = f xc ->
  qn_loop fuel N gm f lin tolx tolf sclx sclf maxlen n niter xc fc restart nmax tl = Some (Ok r) ->
  (q_msg r <> QGlobalFailed -> q_f r = f (q_x r)) /\
  (gm = GNone -> q_f r = f (q_x r)) /\
  (q_success r = true <-> q_msg r = QTolF) /\
  (q_success r = true -> norm_inf N (fun i => sclf i * q_f r i) <= tolf) /\
  q_msg r <> QTol0 /\
  (q_niter r < niter + n)%nat /\ (niter <= q_niter r)%nat.
Proof.
  induction n as [|n IH]; intros niter xc fc restart nmax tl r Hc; cbn [qn_loop]; [easy|].
  destruct (lin niter) as [| |gc p Rm].
  - intros H; injection H as <-. cbn. repeat split; try easy; lia.
  - easy.
  - destruct (global_step _ _ _ _ _ _ _ _ _ _ _ _ _ _) as [[[[[[gok gmax] xp] fp] tl']|e]|] eqn:EG;
      try easy.
    apply global_step_consistent in EG. destruct EG as [G1 G2].
    set (nm := if gmax then S nmax else O).
    assert (NX : forall xc fc rs, fc = f xc ->
      match n with
      | O => Some (Ok (mkQR false QMaxIter niter xc fc))
      | S _ => qn_loop fuel N gm f lin tolx tolf sclx sclf maxlen n (S niter) xc fc rs nm tl'
      end = Some (Ok r) ->
      (q_msg r <> QGlobalFailed -> q_f r = f (q_x r)) /\
      (gm = GNone -> q_f r = f (q_x r)) /\
      (q_success r = true <-> q_msg r = QTolF) /\
      (q_success r = true -> norm_inf N (fun i => sclf i * q_f r i) <= tolf) /\
      q_msg r <> QTol0 /\
      (q_niter r < niter + S n)%nat /\ (niter <= q_niter r)%nat).
    { intros xc' fc' rs Hc'. destruct n as [|n'].
      - intros H; injection H as <-. cbn. repeat split; try easy; lia.
      - intros H. apply IH in H; auto.
        destruct H as (A1 & A2 & A3 & A4 & A4' & A5 & A6). repeat (split; auto); lia. }
    destruct gok; cbn [negb andb].
    + destruct (Rleb (norm_inf N (fun i => sclf i * fp i)) tolf) eqn:E1.
      * intros H; injection H as <-. cbn. apply Rleb_true in E1.
        repeat split; try easy; auto; lia.
      * destruct (Rleb _ tolx).
        -- intros H; injection H as <-. cbn. repeat split; try easy; auto; lia.
        -- destruct (_ && _).
           ++ intros H; injection H as <-. cbn. repeat split; try easy; auto; lia.
           ++ apply NX. auto.
    + destruct restart; cbn [negb].
      * intros H; injection H as <-. cbn.
        repeat split; try easy; try lia.
        intros Hg. destruct (G2 eq_refl); easy.
      * apply NX; auto.
Qed.
