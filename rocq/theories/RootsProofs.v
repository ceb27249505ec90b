(** Proofs about the scalar root solvers (model in RootsModel.v). *)
From Coq Require Import Reals Lra Lia List Bool Arith Psatz.
From Verif Require Import Prelude RootsModel.
Import ListNotations.
Open Scope R_scope.

Lemma eps_pos : 0 < eps.
Proof. unfold eps; apply Rinv_0_lt_compat; apply pow_lt; lra. Qed.

(* ------------------------------------------------------------------ *)
(** * Brent                                                            *)
(* ------------------------------------------------------------------ *)

Definition inhull (lo hi x : R) : Prop := lo <= x <= hi.

(** Invariant at the head of an iteration. *)
Record binv (f : R -> R) (lo hi : R) (s : bst) : Prop := {
  bi_fa : b_fa s = f (b_xa s);
  bi_fb : b_fb s = f (b_xb s);
  bi_fc : b_fc s = f (b_xc s);
  bi_xa : inhull lo hi (b_xa s);
  bi_xb : inhull lo hi (b_xb s);
  bi_xc : inhull lo hi (b_xc s);
  bi_sign : 0 < b_fb s * b_fc s -> b_fa s * b_fb s <= 0;
  bi_de : b_de s = None -> 0 < b_fb s * b_fc s
}.

(** Invariant after re-bracketing and re-ordering. *)
Record binv2 (f : R -> R) (lo hi : R) (s : bst) : Prop := {
  b2_fa : b_fa s = f (b_xa s);
  b2_fb : b_fb s = f (b_xb s);
  b2_fc : b_fc s = f (b_xc s);
  b2_xa : inhull lo hi (b_xa s);
  b2_xb : inhull lo hi (b_xb s);
  b2_xc : inhull lo hi (b_xc s);
  b2_sign : b_fb s * b_fc s <= 0;
  b2_abs : Rabs (b_fb s) <= Rabs (b_fc s);
  b2_de : b_de s <> None
}.

Lemma brent_prepare f lo hi s :
  binv f lo hi s -> binv2 f lo hi (brent_order (brent_bracket s)).
Proof.
  intros [Ha Hb Hc Xa Xb Xc Hs Hd].
  assert (H1 : let t := brent_bracket s in
    b_fa t = f (b_xa t) /\ b_fb t = f (b_xb t) /\ b_fc t = f (b_xc t) /\
    inhull lo hi (b_xa t) /\ inhull lo hi (b_xb t) /\ inhull lo hi (b_xc t) /\
    b_fb t * b_fc t <= 0 /\ b_de t <> None).
  { unfold brent_bracket; destruct (Rltb 0 (b_fb s * b_fc s)) eqn:E; rdec; simpl.
    - repeat split; auto; try apply Xa; try apply Xb; try easy.
      rewrite Rmult_comm; auto.
    - repeat split; auto; try apply Xa; try apply Xb; try apply Xc; try easy.
      intros Hn; specialize (Hd Hn); lra. }
  set (t := brent_bracket s) in *; clearbody t.
  destruct H1 as (A & B & C & D & E & F & G & I).
  unfold brent_order; destruct (Rltb (Rabs (b_fc t)) (Rabs (b_fb t))) eqn:EQ; rdec.
  - constructor; simpl; auto; [rewrite Rmult_comm; auto | lra].
  - constructor; auto.
Qed.


(** What one (d, e) update can be: a bisection, or an accepted interpolation. *)
Definition step_spec (m tol1 d e d' e' : R) : Prop :=
  (d' = m /\ e' = m) \/
  (e' = d /\ tol1 <= Rabs e /\ Rabs d' < Rabs e / 2 /\
   exists l, 0 <= l < 3 / 2 /\ d' = l * m).

Lemma brent_step_ok f lo hi s m tol1 d e :
  binv2 f lo hi s -> b_fb s <> 0 ->
  exists d' e', brent_step s m tol1 d e = Ok (d', e') /\ step_spec m tol1 d e d' e'.
Proof.
  intros H Hnz. unfold brent_step.
  destruct (Rleb tol1 (Rabs e) && Rltb (Rabs (b_fb s)) (Rabs (b_fa s))) eqn:EC;
    [|exists m, m; split; [easy|left; auto]].
  apply andb_prop in EC; destruct EC as [Ee EC]; rdec.
  assert (Hfa : b_fa s <> 0).
  { intros Z; rewrite Z, Rabs_R0 in EC; pose proof (Rabs_pos (b_fb s)); lra. }
  assert (Hfc : b_fc s <> 0).
  { intros Z; destruct H as [_ _ _ _ _ _ _ Hab _]; rewrite Z, Rabs_R0 in Hab.
    pose proof (Rabs_pos_lt _ Hnz); lra. }
  assert (Hpq : exists p q, brent_pq s m = Ok (p, q)).
  { unfold brent_pq; rewrite pydiv_ok by auto; simpl.
    destruct (Req_EM_T (b_xa s) (b_xc s)).
    - eexists; eexists; reflexivity.
    - rewrite !pydiv_ok by auto; simpl. eexists; eexists; reflexivity. }
  destruct Hpq as (p & q & ->); simpl.
  set (q' := if Rltb 0 p then - q else q).
  destruct (Rltb (2 * Rabs p) _) eqn:EL;
    [|exists m, m; split; [easy|left; auto]].
  rdec.
  assert (H1 : 2 * Rabs p < 3 * m * q' - Rabs (tol1 * q')).
  { eapply Rlt_le_trans; [apply EL|apply Rmin_l]. }
  assert (H2 : 2 * Rabs p < Rabs (e * q')).
  { eapply Rlt_le_trans; [apply EL|apply Rmin_r]. }
  pose proof (Rabs_pos p) as Hp0.
  assert (Hmq : 0 < m * q').
  { pose proof (Rabs_pos (tol1 * q')); lra. }
  assert (Hq : q' <> 0) by (intros Z; rewrite Z in Hmq; lra).
  assert (Hm : m <> 0) by (intros Z; rewrite Z in Hmq; lra).
  rewrite pydiv_ok by auto; simpl.
  exists (Rabs p / q'), d; split; [easy|]. right.
  repeat split; auto.
  - unfold Rdiv at 1. rewrite Rabs_mult, Rabs_inv, Rabs_Rabsolu.
    rewrite Rabs_mult in H2. pose proof (Rabs_pos_lt _ Hq).
    apply (Rmult_lt_reg_r (Rabs q')); auto.
    replace (Rabs p * / Rabs q' * Rabs q') with (Rabs p) by (field; lra).
    lra.
  - exists (Rabs p / (m * q')); repeat split.
    + apply Rmult_le_pos; auto. left; apply Rinv_0_lt_compat; auto.
    + apply (Rmult_lt_reg_r (m * q')); auto.
      replace (Rabs p / (m * q') * (m * q')) with (Rabs p) by (field; auto).
      pose proof (Rabs_pos (tol1 * q')); lra.
    + field; auto.
Qed.

(** The step actually taken is a fraction in [0, 3/2] of the half bracket m. *)
Lemma brent_move m tol1 d e d' e' :
  0 <= tol1 -> tol1 < Rabs m -> step_spec m tol1 d e d' e' ->
  exists l, 0 <= l <= 3 / 2 /\
    (if Rltb tol1 (Rabs d') then d' else copysign tol1 m) = l * m.
Proof.
  intros Ht Hm H.
  destruct (Rltb tol1 (Rabs d')) eqn:E; rdec.
  - destruct H as [[-> _]|(_ & _ & _ & l & Hl & ->)].
    + exists 1; split; lra.
    + exists l; split; lra.
  - exists (tol1 / Rabs m).
    assert (0 < Rabs m) by lra.
    assert (0 <= tol1 / Rabs m) by (apply Rmult_le_pos; auto; left; apply Rinv_0_lt_compat; auto).
    assert (tol1 / Rabs m < 1).
    { apply (Rmult_lt_reg_r (Rabs m)); auto. unfold Rdiv; rewrite Rmult_assoc, Rinv_l; lra. }
    split; [lra|]. unfold copysign. destruct (Rltb m 0) eqn:E0; rdec.
    + rewrite Rabs_left by auto. field; lra.
    + rewrite Rabs_pos_eq by auto.
      assert (m <> 0) by (intros Z; rewrite Z, Rabs_R0 in *; lra). field; auto.
Qed.

Lemma hull_between lo hi x c l :
  inhull lo hi x -> inhull lo hi c -> 0 <= l <= 3 / 2 ->
  inhull lo hi (x + l * (/ 2 * (c - x))).
Proof. unfold inhull; intros. nra. Qed.

Definition tol1_of (tolx x : R) : R := 2 * eps * Rabs x + / 2 * tolx.

Lemma tol1_nonneg tolx x : 0 <= tolx -> 0 <= tol1_of tolx x.
Proof. intros; unfold tol1_of; pose proof eps_pos; pose proof (Rabs_pos x); nra. Qed.

Lemma binv_next f lo hi tolx s d e d' e' :
  0 <= tolx -> binv2 f lo hi s ->
  let m := / 2 * (b_xc s - b_xb s) in
  let tol1 := tol1_of tolx (b_xb s) in
  tol1 < Rabs m -> step_spec m tol1 d e d' e' ->
  let xb' := b_xb s + (if Rltb tol1 (Rabs d') then d' else copysign tol1 m) in
  inhull lo hi xb' /\
  binv f lo hi (mkB (b_xb s) (b_fb s) xb' (f xb') (b_xc s) (b_fc s) (Some (d', e'))).
Proof.
  intros Htx H m tol1 Hm Hs xb'.
  destruct (brent_move m tol1 d e d' e') as (l & Hl & Hl'); auto.
  { apply tol1_nonneg; auto. }
  assert (Hin : inhull lo hi xb').
  { unfold xb'; rewrite Hl'. apply hull_between; auto; apply H. }
  split; auto.
  destruct H as [Ha Hb Hc Xa Xb Xc Hs' Hab Hd].
  constructor; simpl; auto; try easy.
  intros Hp. set (y := f xb') in *. 
  (* fb*fc <= 0 and y*fc > 0  =>  fb*y <= 0 *)
  destruct (Rle_lt_dec (b_fb s * y) 0) as [|Hlt]; auto. exfalso.
  assert (0 < (b_fb s * y) * (y * b_fc s)) by (apply Rmult_lt_0_compat; auto).
  assert (0 <= y * y) by nra. nra.
Qed.

Definition enclosed (f : R -> R) (lo hi tolx x : R) : Prop :=
  exists c, inhull lo hi c /\ Rabs (c - x) <= tolx + 4 * eps * Rabs x /\ f x * f c <= 0.

Record brent_good (f : R -> R) (lo hi tolx tolf : R) (tr : list R) (nmax : nat)
    (r : RootResult R) : Prop := {
  bg_f : rr_f r = f (rr_x r);
  bg_x : inhull lo hi (rr_x r);
  bg_nf : rr_nfeval r = length tr;
  bg_it : (rr_niter r <= nmax)%nat;
  bg_in : In (rr_x r) tr;
  bg_succ : rr_success r = true ->
     Rabs (f (rr_x r)) <= tolf \/ enclosed f lo hi tolx (rr_x r);
  bg_fail : rr_success r = false -> rr_niter r = nmax
}.

(** xb after re-bracketing/ordering is one of the three stored points. *)
Lemma brent_prepare_xb s :
  let t := brent_order (brent_bracket s) in
  b_xb t = b_xb s \/ b_xb t = b_xc s \/ b_xb t = b_xa s.
Proof.
  unfold brent_order, brent_bracket.
  destruct (Rltb 0 _); simpl; destruct (Rltb (Rabs _) _); simpl; auto.
Qed.
Lemma brent_prepare_xc s :
  let t := brent_order (brent_bracket s) in
  b_xc t = b_xb s \/ b_xc t = b_xc s \/ b_xc t = b_xa s.
Proof.
  unfold brent_order, brent_bracket.
  destruct (Rltb 0 _); simpl; destruct (Rltb (Rabs _) _); simpl; auto.
Qed.

Lemma brent_loop_spec f lo hi tolx tolf : 0 <= tolx -> 0 <= tolf ->
  forall n k s tr,
  binv f lo hi s -> Forall (inhull lo hi) tr -> (0 < n + k)%nat ->
  In (b_xa s) tr -> In (b_xb s) tr -> In (b_xc s) tr ->
  exists tr' r, brent_loop f tolx tolf n k s tr = (tr', Ok r) /\
    Forall (inhull lo hi) tr' /\ (length tr' <= length tr + n)%nat /\
    brent_good f lo hi tolx tolf tr' (n + k) r.
Proof.
  intros Htx Htf. induction n as [|n IH]; intros k s tr Hinv Htr Hnk Ia Ib Ic; simpl.
  - destruct (Nat.eqb_spec k 0); [lia|].
    eexists; eexists; split; [reflexivity|].
    repeat split; auto; simpl; try lia; try apply Hinv; try easy.
  - pose proof (brent_prepare f lo hi s Hinv) as H2.
    pose proof (brent_prepare_xb s) as Pb. pose proof (brent_prepare_xc s) as Pc.
    set (t := brent_order (brent_bracket s)) in *. cbv zeta in Pb, Pc.
    assert (Jb : In (b_xb t) tr) by (destruct Pb as [->|[->| ->]]; auto).
    assert (Jc : In (b_xc t) tr) by (destruct Pc as [->|[->| ->]]; auto).
    fold (tol1_of tolx (b_xb t)).
    set (m := / 2 * (b_xc t - b_xb t)).
    destruct (Rleb (Rabs m) (tol1_of tolx (b_xb t))) eqn:E1; rdec.
    { eexists; eexists; split; [reflexivity|].
      repeat split; auto; simpl; try lia; try apply H2; try easy.
      intros _. right. exists (b_xc t). split; [apply H2|]. split.
      - unfold m, tol1_of in E1. rewrite Rabs_mult, (Rabs_pos_eq (/2)) in E1 by lra. lra.
      - rewrite <- (b2_fb _ _ _ _ H2), <- (b2_fc _ _ _ _ H2). apply H2. }
    destruct (Rleb (Rabs (b_fb t)) tolf) eqn:E2; rdec.
    { eexists; eexists; split; [reflexivity|].
      repeat split; auto; simpl; try lia; try apply H2; try easy.
      intros _; left. rewrite <- (b2_fb _ _ _ _ H2); auto. }
    destruct (b_de t) as [[d e]|] eqn:Ed; [|destruct (b2_de _ _ _ _ H2); auto].
    assert (Hnz : b_fb t <> 0) by (intros Z; rewrite Z, Rabs_R0 in E2; lra).
    destruct (brent_step_ok f lo hi t m (tol1_of tolx (b_xb t)) d e H2 Hnz)
      as (d' & e' & -> & Hsp).
    destruct (binv_next f lo hi tolx t d e d' e' Htx H2 E1 Hsp) as [Hin Hnext].
    fold m in Hnext, Hin.
    edestruct (IH (k + 1)%nat) as (tr' & r & E & F1 & F2 & F3);
      [exact Hnext | | | | | | ].
    + apply Forall_app; split; [exact Htr|constructor; [exact Hin|constructor]].
    + lia.
    + simpl. apply in_or_app; auto.
    + simpl. apply in_or_app; right; left; reflexivity.
    + simpl. apply in_or_app; auto.
    + rewrite E. exists tr', r. split; [reflexivity|].
      split; auto. split.
      * rewrite app_length in F2; simpl in F2; lia.
      * replace (S (n + k)) with (n + (k + 1))%nat by lia. exact F3.
Qed.

(* ------------------------------------------------------------------ *)
(** ** Guaranteed convergence of Brent's method                        *)
(* ------------------------------------------------------------------ *)

Lemma brent_prepare_cases s :
  let t := brent_order (brent_bracket s) in
  (Rabs (b_xc t - b_xb t) = Rabs (b_xb s - b_xc s) /\ b_de t = b_de s) \/
  (Rabs (b_xc t - b_xb t) = Rabs (b_xb s - b_xa s) /\
   b_de t = Some (b_xb s - b_xa s, b_xb s - b_xa s) /\
   (b_xb t = b_xb s \/ b_xb t = b_xa s)).
Proof.
  unfold brent_order, brent_bracket.
  destruct (Rltb 0 _); simpl; destruct (Rltb (Rabs _) _); simpl.
  - right; repeat split; auto.
  - right; repeat split; auto. apply Rabs_minus_sym.
  - left; split; auto.
  - left; split; auto; apply Rabs_minus_sym.
Qed.

(** Interpolation budget: w accepted interpolations are still possible. *)
Definition ready (tau : R) (w : nat) (t : bst) : Prop :=
  exists d e, b_de t = Some (d, e) /\
    Rabs e < tau * 2 ^ (Nat.div2 (S w)) /\ Rabs d < tau * 2 ^ (Nat.div2 w).

Lemma eps_small : eps < / 100.
Proof.
  unfold eps. apply Rinv_lt_contravar.
  - apply Rmult_lt_0_compat; [lra|apply pow_lt; lra].
  - simpl; lra.
Qed.

Lemma tol1_tiny tolx x y :
  0 < tolx -> Rabs (y - x) <= tol1_of tolx x -> / 2 * tol1_of tolx x <= tol1_of tolx y.
Proof.
  intros Ht H. unfold tol1_of in *.
  pose proof eps_pos as He. pose proof eps_small as Hs.
  pose proof (Rabs_pos x) as Hx. pose proof (Rabs_pos y) as Hy.
  assert (Htri : Rabs x <= Rabs y + Rabs (y - x)).
  { replace x with (y + - (y - x)) at 1 by ring.
    eapply Rle_trans; [apply Rabs_triang|]. rewrite Rabs_Ropp; lra. }
  assert (Rabs x * (1 - 2 * eps) <= Rabs y + / 2 * tolx) by lra.
  assert (Rabs x <= 2 * (Rabs y + / 2 * tolx)) by nra.
  nra.
Qed.

Lemma brent_loop_converges f lo hi tolx tolf J : 0 < tolx -> 0 <= tolf ->
  forall n b w k s tr,
  binv f lo hi s ->
  let t := brent_order (brent_bracket s) in
  Rabs (b_xc t - b_xb t) <= tolx * 2 ^ b -> (b <= J)%nat ->
  ready (/ 2 * tolx) w t ->
  (b * (2 * J + 5) + w + 2 <= n)%nat ->
  exists tr' r, brent_loop f tolx tolf n k s tr = (tr', Ok r) /\ rr_success r = true.
Proof.
  intros Htx Htf. induction n as [|n IH]; intros b w k s tr Hinv t HL HbJ Hr Hn; [lia|].
  simpl.
  pose proof (brent_prepare f lo hi s Hinv) as H2. fold t in H2 |- *.
  fold (tol1_of tolx (b_xb t)).
  set (m := / 2 * (b_xc t - b_xb t)).
  set (tol1 := tol1_of tolx (b_xb t)).
  assert (Hm2 : Rabs (b_xc t - b_xb t) = 2 * Rabs m).
  { unfold m; rewrite Rabs_mult, (Rabs_pos_eq (/2)) by lra; lra. }
  destruct (Rleb (Rabs m) tol1) eqn:E1; rdec.
  { eexists; eexists; split; [reflexivity|easy]. }
  destruct (Rleb (Rabs (b_fb t)) tolf) eqn:E2; rdec.
  { eexists; eexists; split; [reflexivity|easy]. }
  destruct Hr as (d & e & Hde & He & Hd). rewrite Hde.
  assert (Hnz : b_fb t <> 0) by (intros Z; rewrite Z, Rabs_R0 in E2; lra).
  destruct (brent_step_ok f lo hi t m tol1 d e H2 Hnz) as (d' & e' & -> & Hsp).
  assert (Htx0 : 0 <= tolx) by lra.
  destruct (binv_next f lo hi tolx t d e d' e' Htx0 H2 E1 Hsp) as [_ Hnext].
  fold m in Hnext. fold tol1 in Hnext.
  assert (Htau : / 2 * tolx <= tol1).
  { unfold tol1, tol1_of. pose proof eps_pos; pose proof (Rabs_pos (b_xb t)); nra. }
  assert (Ht0 : 0 <= tol1) by (apply tol1_nonneg; lra).
  destruct (brent_move m tol1 d e d' e' Ht0 E1 Hsp) as (l & Hl & Hmv).
  set (stp := if Rltb tol1 (Rabs d') then d' else copysign tol1 m) in *.
  set (s' := mkB (b_xb t) (b_fb t) (b_xb t + stp) (f (b_xb t + stp)) (b_xc t) (b_fc t)
                 (Some (d', e'))) in *.
  destruct Hsp as [[-> ->]|(-> & Hte & Hd2 & l' & Hl' & Hdl)].
  - (* bisection *)
    assert (Hst : stp = m).
    { unfold stp. destruct (Rltb tol1 (Rabs m)) eqn:E; rdec; [easy|lra]. }
    destruct b as [|b]; [simpl in HL; lra|].
    assert (Hlen : Rabs m <= tolx * 2 ^ b) by (simpl in HL; lra).
    assert (Hrw : Rabs m < / 2 * tolx * 2 ^ (J + 2)).
    { eapply Rle_lt_trans; [apply Hlen|].
      assert (2 ^ b <= 2 ^ J) by (apply Rle_pow; [lra|lia]).
      assert (0 < 2 ^ J) by (apply pow_lt; lra).
      rewrite pow_add. simpl. nra. }
    apply (IH b (2 * (J + 2))%nat); auto; try lia.
    + destruct (brent_prepare_cases s') as [[Hx _]|[Hx _]]; rewrite Hx; unfold s'; simpl;
        rewrite Hst.
      * replace (b_xb t + m - b_xc t) with (- m) by (unfold m; lra). rewrite Rabs_Ropp; auto.
      * replace (b_xb t + m - b_xb t) with m by lra. auto.
    + exists m, m.
      assert (D1 : Nat.div2 (2 * (J + 2)) = (J + 2)%nat) by apply Nat.div2_double.
      assert (D2 : Nat.div2 (S (2 * (J + 2))) = (J + 2)%nat) by apply Nat.div2_succ_double.
      rewrite D1, D2. split; [|auto].
      destruct (brent_prepare_cases s') as [[_ Hx]|[_ [Hx _]]]; rewrite Hx; unfold s'; simpl.
      * easy.
      * rewrite Hst. do 2 f_equal; ring.
  - (* accepted interpolation *)
    destruct w as [|w].
    { simpl in He. lra. }
    assert (Hdw : Rabs d' < / 2 * tolx * 2 ^ Nat.div2 w).
    { change (Nat.div2 (S (S w))) with (S (Nat.div2 w)) in He. simpl in He. lra. }
    assert (Hdw' : Rabs d' < / 2 * tolx * 2 ^ Nat.div2 (S w)).
    { eapply Rlt_le_trans; [apply Hdw|]. apply Rmult_le_compat_l; [lra|].
      apply Rle_pow; [lra|]. destruct (Nat.Even_or_Odd w) as [[j ->]|[j ->]].
      - rewrite Nat.div2_double, Nat.div2_succ_double; lia.
      - replace (2 * j + 1)%nat with (S (2 * j)) by lia.
        rewrite Nat.div2_succ_double. change (Nat.div2 (S (S (2 * j)))) with (S (Nat.div2 (2 * j))).
        rewrite Nat.div2_double; lia. }
    destruct (brent_prepare_cases s') as [[Hx Hy]|[Hx [Hy Hz]]].
    + apply (IH b w); auto; try lia.
      * rewrite Hx. unfold s'; simpl. rewrite Hmv.
        replace (b_xb t + l * m - b_xc t) with ((l - 2) * m) by (unfold m; lra).
        rewrite Rabs_mult, (Rabs_left (l - 2)) by lra.
        pose proof (Rabs_pos m). nra.
      * exists d', d. rewrite Hy. unfold s'; simpl b_de. repeat split; auto.
    + change (b_xb s') with (b_xb t + stp) in Hx, Hy, Hz.
      change (b_xa s') with (b_xb t) in Hx, Hy, Hz.
      replace (b_xb t + stp - b_xb t) with stp in Hx, Hy by lra.
      destruct (Rltb tol1 (Rabs d')) eqn:E3; rdec.
      * assert (Hst : stp = d') by reflexivity.
        apply (IH b w); auto; try lia.
        -- rewrite Hx, Hst. rewrite Hdl, Rabs_mult, (Rabs_pos_eq l') by lra.
           pose proof (Rabs_pos m). nra.
        -- exists stp, stp. split; [exact Hy|]. rewrite Hst. split; auto.
      * (* minimal step with sign change: next iteration stops *)
        assert (Hst : Rabs stp = tol1).
        { unfold stp, copysign. destruct (Rltb m 0); [rewrite Rabs_Ropp|]; apply Rabs_pos_eq; lra. }
        destruct n as [|n]; [lia|]. simpl.
        set (t' := brent_order (brent_bracket s')) in *.
        fold (tol1_of tolx (b_xb t')).
        assert (Hsm : Rabs (/ 2 * (b_xc t' - b_xb t')) <= tol1_of tolx (b_xb t')).
        { rewrite Rabs_mult, (Rabs_pos_eq (/2)) by lra.
          change (brent_order (brent_bracket s')) with t' in Hx. rewrite Hx, Hst.
          unfold tol1. apply tol1_tiny; auto.
          change (brent_order (brent_bracket s')) with t' in Hz.
          destruct Hz as [-> | ->].
          - replace (b_xb t + stp - b_xb t) with stp by lra. rewrite Hst; unfold tol1; lra.
          - rewrite Rminus_diag_eq, Rabs_R0 by auto. exact Ht0. }
        apply Rleb_true in Hsm. rewrite Hsm.
        eexists; eexists; split; [reflexivity|easy].
Qed.

(* ------------------------------------------------------------------ *)
(** ** root_brent                                                      *)
(* ------------------------------------------------------------------ *)

Lemma brent_init f xa xb : 
  f xa * f xb <= 0 -> f xb <> 0 ->
  binv f (Rmin xa xb) (Rmax xa xb) (mkB xa (f xa) xb (f xb) xb (f xb) None).
Proof.
  intros Hs Hn. constructor; simpl; auto; unfold inhull;
    try (split; [apply Rmin_l|apply Rmax_l]); try (split; [apply Rmin_r|apply Rmax_r]).
  intros _. nra.
Qed.

Lemma root_brent_spec f xa xb tolx tolf maxiter :
  0 <= tolx -> 0 <= tolf -> (0 < maxiter)%nat ->
  ~ (tolf < Rabs (f xa) /\ tolf < Rabs (f xb) /\ 0 < f xa * f xb) ->
  exists tr r, root_brent f xa xb tolx tolf maxiter = (tr, Ok r) /\
    Forall (inhull (Rmin xa xb) (Rmax xa xb)) tr /\ (length tr <= maxiter + 2)%nat /\
    brent_good f (Rmin xa xb) (Rmax xa xb) tolx tolf tr maxiter r.
Proof.
  intros Hx Hf Hn Hb. unfold root_brent.
  assert (Ha : inhull (Rmin xa xb) (Rmax xa xb) xa) by (split; [apply Rmin_l|apply Rmax_l]).
  assert (Hc : inhull (Rmin xa xb) (Rmax xa xb) xb) by (split; [apply Rmin_r|apply Rmax_r]).
  destruct (Rleb (Rabs (f xa)) tolf) eqn:E1; rdec.
  { eexists; eexists; split; [reflexivity|]. repeat split; simpl; auto; try lia; try easy;
    try apply Ha. }
  destruct (Rleb (Rabs (f xb)) tolf) eqn:E2; rdec.
  { eexists; eexists; split; [reflexivity|]. repeat split; simpl; auto; try lia; try easy;
    try apply Hc. }
  destruct (Rltb 0 (f xa * f xb)) eqn:E3; rdec.
  { exfalso; apply Hb; auto. }
  assert (Hfb : f xb <> 0) by (intros Z; rewrite Z, Rabs_R0 in E2; lra).
  destruct (brent_loop_spec f (Rmin xa xb) (Rmax xa xb) tolx tolf Hx Hf maxiter 0
              (mkB xa (f xa) xb (f xb) xb (f xb) None) [xa; xb])
    as (tr' & r & E & F1 & F2 & F3); simpl; auto; try lia.
  - apply brent_init; auto.
  - exists tr', r. repeat split; auto; try apply F3; try (simpl in F2; lia).
    rewrite <- (Nat.add_0_r maxiter) at 1. apply F3.
    rewrite <- (Nat.add_0_r maxiter). apply F3.
Qed.

Lemma root_brent_error f xa xb tolx tolf maxiter :
  tolf < Rabs (f xa) -> tolf < Rabs (f xb) -> 0 < f xa * f xb ->
  root_brent f xa xb tolx tolf maxiter = ([xa; xb], Err ValueError).
Proof.
  intros A B C. unfold root_brent.
  apply Rleb_false in A, B. apply Rltb_true in C. now rewrite A, B, C.
Qed.

Lemma root_brent_converges f xa xb tolx tolf maxiter J :
  0 < tolx -> 0 <= tolf -> f xa * f xb <= 0 ->
  Rabs (xb - xa) <= tolx * 2 ^ J -> ((J + 2) * (2 * J + 3) <= maxiter)%nat ->
  exists tr r, root_brent f xa xb tolx tolf maxiter = (tr, Ok r) /\ rr_success r = true.
Proof.
  intros Hx Hf Hs HL Hn. unfold root_brent.
  destruct (Rleb (Rabs (f xa)) tolf) eqn:E1; rdec.
  { eexists; eexists; split; reflexivity. }
  destruct (Rleb (Rabs (f xb)) tolf) eqn:E2; rdec.
  { eexists; eexists; split; reflexivity. }
  destruct (Rltb 0 (f xa * f xb)) eqn:E3; rdec; [lra|].
  assert (Hfb : f xb <> 0) by (intros Z; rewrite Z, Rabs_R0 in E2; lra).
  set (s0 := mkB xa (f xa) xb (f xb) xb (f xb) None).
  assert (Hpos : 0 < f xb * f xb) by nra.
  assert (Hbr : brent_bracket s0 = mkB xa (f xa) xb (f xb) xa (f xa) (Some (xb - xa, xb - xa))).
  { unfold brent_bracket, s0; simpl. apply Rltb_true in Hpos. now rewrite Hpos. }
  apply (brent_loop_converges f (Rmin xa xb) (Rmax xa xb) tolx tolf J Hx Hf
           maxiter J (2 * J + 4)%nat).
  - apply brent_init; auto.
  - rewrite Hbr. unfold brent_order; simpl.
    destruct (Rltb (Rabs (f xa)) (Rabs (f xb))); simpl; auto.
    rewrite Rabs_minus_sym; auto.
  - lia.
  - exists (xb - xa), (xb - xa). split.
    + rewrite Hbr. unfold brent_order; simpl.
      destruct (Rltb (Rabs (f xa)) (Rabs (f xb))); simpl; auto.
    + replace (2 * J + 4)%nat with (2 * (J + 2))%nat by lia.
      rewrite Nat.div2_double, Nat.div2_succ_double.
      assert (0 < 2 ^ J) by (apply pow_lt; lra).
      rewrite pow_add; simpl. split; nra.
  - nia.
Qed.

(* ------------------------------------------------------------------ *)
(** * Newton                                                           *)
(* ------------------------------------------------------------------ *)

(** Consecutive elements of [l] are related by the Newton update. *)
Fixpoint newton_chain (fre fim : R -> R -> R) (l : list R) : Prop :=
  match l with
  | x :: ((y :: _) as t) => y = x - fre x eps / (fim x eps / eps) /\ newton_chain fre fim t
  | _ => True
  end.

Lemma newton_chain_snoc fre fim l x y :
  newton_chain fre fim (l ++ [x]) -> y = x - fre x eps / (fim x eps / eps) ->
  newton_chain fre fim ((l ++ [x]) ++ [y]).
Proof.
  intros H Hy. induction l as [|a l IH]; simpl in *; [auto|].
  destruct l as [|b l]; simpl in *; intuition.
Qed.

Lemma newton_loop_spec fre fim tolx tolf n : forall k x tr,
  length tr = k -> newton_chain fre fim (tr ++ [x]) -> (0 < n)%nat ->
  exists pre r, newton_loop fre fim tolx tolf n k x tr = (pre ++ [rr_x r], Ok r) /\
    rr_nfeval r = length (pre ++ [rr_x r]) /\ rr_niter r = rr_nfeval r /\
    (k < rr_niter r <= k + n)%nat /\
    newton_chain fre fim (pre ++ [rr_x r]) /\
    (exists p, tr ++ [x] ++ p = pre ++ [rr_x r]) /\
    rr_f r = fre (rr_x r) eps /\
    (rr_success r = true ->
       Rabs (rr_f r) <= tolf \/
       (eps < Rabs (fim (rr_x r) eps / eps) /\
        Rabs (rr_f r / (fim (rr_x r) eps / eps)) <= tolx)) /\
    (rr_success r = false ->
       rr_niter r = (k + n)%nat \/ Rabs (fim (rr_x r) eps / eps) <= eps).
Proof.
  induction n as [|n IH]; intros k x tr Hk Hc Hn; [lia|].
  assert (Hlen : length (tr ++ [x]) = (k + 1)%nat) by (rewrite app_length; simpl; lia).
  simpl.
  destruct (Rleb (Rabs (fre x eps)) tolf) eqn:E1; rdec.
  { match goal with |- context [Ok ?r] => exists tr, r end; split; [reflexivity|]; simpl. rewrite Hlen.
    repeat split; auto; try lia; try easy. exists []; reflexivity. }
  destruct (Rleb (Rabs (fim x eps / eps)) eps) eqn:E2; rdec.
  { match goal with |- context [Ok ?r] => exists tr, r end; split; [reflexivity|]; simpl. rewrite Hlen.
    repeat split; auto; try lia; try easy. exists []; reflexivity. }
  destruct (Rleb (Rabs (- fre x eps / (fim x eps / eps))) tolx) eqn:E3; rdec.
  { match goal with |- context [Ok ?r] => exists tr, r end; split; [reflexivity|]; simpl. rewrite Hlen.
    repeat split; auto; try lia; try easy.
    - exists []; reflexivity.
    - intros _; right; split; auto. rewrite <- Rabs_Ropp.
      replace (- (fre x eps / (fim x eps / eps))) with (- fre x eps / (fim x eps / eps)); auto.
      unfold Rdiv; ring. }
  destruct n as [|n].
  { match goal with |- context [Ok ?r] => exists tr, r end; split; [reflexivity|]; simpl. rewrite Hlen.
    repeat split; auto; try lia; try easy. exists []; reflexivity. }
  destruct (IH (k + 1)%nat (x + - fre x eps / (fim x eps / eps)) (tr ++ [x]))
    as (pre & r & E & F1 & F2 & F3 & F4 & (p & F5) & F6 & F7 & F8); auto; try lia.
  { apply newton_chain_snoc; auto. unfold Rdiv; ring. }
  exists pre, r. split; [exact E|]. repeat split; auto; try lia.
  - exists ([x + - fre x eps / (fim x eps / eps)] ++ p).
    rewrite <- F5. rewrite <- !app_assoc. reflexivity.
  - intros Hf; destruct (F8 Hf); auto. left; lia.
Qed.

Lemma root_newton_spec fre fim x0 tolx tolf maxiter : (0 < maxiter)%nat ->
  exists pre r, root_newton fre fim x0 tolx tolf maxiter = (pre ++ [rr_x r], Ok r) /\
    hd_error (pre ++ [rr_x r]) = Some x0 /\
    newton_chain fre fim (pre ++ [rr_x r]) /\
    rr_nfeval r = length (pre ++ [rr_x r]) /\ rr_niter r = rr_nfeval r /\
    (1 <= rr_niter r <= maxiter)%nat /\
    rr_f r = fre (rr_x r) eps /\
    (rr_success r = true ->
       Rabs (rr_f r) <= tolf \/
       (eps < Rabs (fim (rr_x r) eps / eps) /\
        Rabs (rr_f r / (fim (rr_x r) eps / eps)) <= tolx)) /\
    (rr_success r = false ->
       rr_niter r = maxiter \/ Rabs (fim (rr_x r) eps / eps) <= eps).
Proof.
  intros Hn. unfold root_newton.
  destruct (newton_loop_spec fre fim tolx tolf maxiter 0 x0 [])
    as (pre & r & E & F1 & F2 & F3 & F4 & (p & F5) & F6 & F7 & F8); simpl; auto.
  exists pre, r. rewrite E. repeat split; auto; try lia.
  rewrite <- F5. reflexivity.
Qed.

(** Affine functions a*z + b (complex z): the second point is the root. *)
Definition affine_re (a b x y : R) : R := a * x + b.
Definition affine_im (a b x y : R) : R := a * y.

Lemma newton_affine a b x0 tolx tolf maxiter :
  eps < Rabs a -> 0 <= tolf -> (2 <= maxiter)%nat ->
  exists tr r, root_newton (affine_re a b) (affine_im a b) x0 tolx tolf maxiter = (tr, Ok r) /\
    rr_success r = true /\
    (rr_x r = - b / a \/
     (rr_x r = x0 /\ (Rabs (a * x0 + b) <= tolf \/ Rabs (x0 - - b / a) <= tolx))).
Proof.
  intros Ha Hf Hn. pose proof eps_pos as He.
  assert (Ha0 : a <> 0) by (intros ->; rewrite Rabs_R0 in Ha; lra).
  unfold root_newton. destruct maxiter as [|[|n]]; try lia. simpl.
  assert (Hd : forall x, affine_im a b x eps / eps = a).
  { intros x; unfold affine_im; field; lra. }
  rewrite Hd. unfold affine_re at 1.
  destruct (Rleb (Rabs (a * x0 + b)) tolf) eqn:E1; rdec.
  { eexists; eexists; split; [reflexivity|]; simpl; split; auto. }
  destruct (Rleb (Rabs a) eps) eqn:E2; rdec; [lra|].
  unfold affine_re at 1.
  destruct (Rleb (Rabs (- (a * x0 + b) / a)) tolx) eqn:E3; rdec.
  { eexists; eexists; split; [reflexivity|]; simpl; split; auto.
    right; split; auto. right.
    replace (x0 - - b / a) with (- (- (a * x0 + b) / a)) by (field; auto).
    rewrite Rabs_Ropp; auto. }
  rewrite Hd.
  assert (Hx : x0 + - affine_re a b x0 eps / a = - b / a) by (unfold affine_re; field; auto).
  rewrite Hx.
  assert (Hz : affine_re a b (- b / a) eps = 0) by (unfold affine_re; field; auto).
  rewrite Hz, Rabs_R0.
  destruct (Rleb 0 tolf) eqn:E4; rdec; [|lra].
  eexists; eexists; split; [reflexivity|]; simpl; split; auto.
Qed.

(* ------------------------------------------------------------------ *)
(** * Secant                                                           *)
(* ------------------------------------------------------------------ *)

(** Consistency of a secant result with the function: the returned pair is
    (x, f x) for the last evaluated x. *)
Definition sec_consistent (f : R -> R) (tr : list R) (r : RootResult fl) : Prop :=
  exists pre x, tr = pre ++ [x] /\ rr_x r = Fin x /\ rr_f r = Fin (f x).

Lemma secant_loop_spec f tolx tolf n : forall k x0 x1 pre,
  (0 < k + n)%nat -> length (pre ++ [x1]) = (k + 2)%nat ->
  (exists p, pre = p ++ [x0]) ->
  exists tr r,
    secant_loop f tolx tolf n k x0 (f x0) x1 (f x1)
      (if Nat.eqb k 0 then NaN else Fin x1) (if Nat.eqb k 0 then NaN else Fin (f x1))
      (pre ++ [x1]) = (tr, Ok r) /\
    rr_nfeval r = length tr /\ (length tr <= k + n + 2)%nat /\ (rr_niter r <= k + n)%nat /\
    (sec_consistent f tr r \/
     (k = 0%nat /\ rr_success r = false /\ rr_message r = MsgZeroSlope /\ rr_x r = NaN /\ rr_f r = NaN /\
      Rabs (f x1 - f x0) <= eps * Rmax (Rmax (Rabs (f x0)) (Rabs (f x1))) 1)) /\
    (rr_success r = true -> exists q y z, tr = q ++ [y; z] /\ rr_x r = Fin z /\ rr_f r = Fin (f z) /\
       (Rabs (z - y) <= tolx \/ Rabs (f z) <= tolf)).
Proof.
  induction n as [|n IH]; intros k x0 x1 pre Hk Hlen Hpre; simpl.
  - destruct (Nat.eqb_spec k 0); [lia|].
    eexists; eexists; split; [reflexivity|]; simpl. repeat split; try lia; try easy.
    left. exists pre, x1. auto.
  - destruct (Rleb (Rabs (f x1 - f x0)) _) eqn:E0; rdec.
    { eexists; eexists; split; [reflexivity|]; simpl. repeat split; try lia; try easy.
      destruct (Nat.eqb_spec k 0).
      - right; auto 10.
      - left; exists pre, x1; auto. }
    set (nx := x1 - f x1 * (x1 - x0) / (f x1 - f x0)).
    assert (Hlen' : length ((pre ++ [x1]) ++ [nx]) = (k + 3)%nat)
      by (rewrite app_length, Hlen; simpl; lia).
    destruct (Rleb (Rabs (nx - x1)) tolx) eqn:E1; rdec.
    { eexists; eexists; split; [reflexivity|]; simpl. rewrite Hlen'.
      repeat split; try lia; try easy.
      - left; exists (pre ++ [x1]), nx; auto.
      - intros _; exists pre, x1, nx. rewrite <- app_assoc; simpl; auto. }
    destruct (Rleb (Rabs (f nx)) tolf) eqn:E2; rdec.
    { eexists; eexists; split; [reflexivity|]; simpl. rewrite Hlen'.
      repeat split; try lia; try easy.
      - left; exists (pre ++ [x1]), nx; auto.
      - intros _; exists pre, x1, nx. rewrite <- app_assoc; simpl; auto. }
    destruct (IH (k + 1)%nat x1 nx (pre ++ [x1])) as (tr & r & E & F1 & F2 & F2' & F3 & F4).
    + lia.
    + rewrite Hlen'; lia.
    + exists pre; auto.
    + assert (Hk1 : Nat.eqb (k + 1) 0 = false) by (apply Nat.eqb_neq; lia).
      rewrite Hk1 in E. exists tr, r. split; [exact E|].
      repeat split; auto; try lia.
      destruct F3 as [F3|[F3 _]]; [auto|lia].
Qed.

Definition flat_start (f : R -> R) (x0 x1 : R) : Prop :=
  Rabs (f x1 - f x0) <= eps * Rmax (Rmax (Rabs (f x0)) (Rabs (f x1))) 1.

Lemma root_secant_spec f x0 x1 tolx tolf maxiter : (0 < maxiter)%nat ->
  exists tr r, root_secant f x0 x1 tolx tolf maxiter = (tr, Ok r) /\
    rr_nfeval r = length tr /\ (length tr <= maxiter + 2)%nat /\ (rr_niter r <= maxiter)%nat /\
    (sec_consistent f tr r \/
     (rr_success r = false /\ rr_x r = NaN /\ rr_f r = NaN /\ flat_start f x0 x1)) /\
    (rr_success r = true -> exists z, rr_x r = Fin z /\ rr_f r = Fin (f z) /\
       (Rabs (f z) <= tolf \/ exists q y, tr = q ++ [y; z] /\ Rabs (z - y) <= tolx)).
Proof.
  intros Hn. unfold root_secant.
  destruct (Rleb (Rabs (f x0)) tolf) eqn:E0; rdec.
  { eexists; eexists; split; [reflexivity|]; simpl. repeat split; try lia.
    - left; exists [], x0; auto.
    - intros _; exists x0; auto. }
  destruct (Rleb (Rabs (f x1)) tolf) eqn:E1; rdec.
  { eexists; eexists; split; [reflexivity|]; simpl. repeat split; try lia.
    - left; exists [x0], x1; auto.
    - intros _; exists x1; auto. }
  destruct (secant_loop_spec f tolx tolf maxiter 0 x0 x1 [x0])
    as (tr & r & E & F1 & F2 & F2' & F3 & F4); simpl; auto; try lia.
  { exists []; reflexivity. }
  exists tr, r. simpl in E. rewrite E. repeat split; auto; try lia.
  - destruct F3 as [F3|(_ & A & _ & B & C & D)]; auto 10.
  - intros Hs; destruct (F4 Hs) as (q & y & z & A & B & C & [D|D]); exists z; repeat split; auto.
    right; exists q, y; auto.
Qed.

(** Affine functions: one secant step gives the root. *)
Lemma secant_affine a b x0 x1 tolx tolf maxiter :
  let f := fun x => a * x + b in
  0 <= tolf -> (0 < maxiter)%nat -> a <> 0 -> ~ flat_start f x0 x1 ->
  exists tr r, root_secant f x0 x1 tolx tolf maxiter = (tr, Ok r) /\ rr_success r = true /\
    (length tr <= 3)%nat /\
    (rr_x r = Fin (- b / a) \/
     (rr_x r = Fin x0 /\ Rabs (f x0) <= tolf) \/ (rr_x r = Fin x1 /\ Rabs (f x1) <= tolf)).
Proof.
  intros f Hf Hn Ha Hfl. unfold root_secant.
  destruct (Rleb (Rabs (f x0)) tolf) eqn:E0; rdec.
  { eexists; eexists; split; [reflexivity|]; simpl; repeat split; auto. }
  destruct (Rleb (Rabs (f x1)) tolf) eqn:E1; rdec.
  { eexists; eexists; split; [reflexivity|]; simpl; repeat split; auto. }
  destruct maxiter as [|n]; [lia|]. simpl.
  unfold flat_start in Hfl. apply Rnot_le_lt in Hfl. apply Rleb_false in Hfl. rewrite Hfl.
  assert (Hd : f x1 - f x0 <> 0).
  { intros Z. apply Rleb_false in Hfl. rewrite Z, Rabs_R0 in Hfl.
    pose proof eps_pos. assert (1 <= Rmax (Rmax (Rabs (f x0)) (Rabs (f x1))) 1) by apply Rmax_r. nra. }
  assert (Hx : x1 - f x1 * (x1 - x0) / (f x1 - f x0) = - b / a).
  { unfold f in *. replace (a * x1 + b - (a * x0 + b)) with (a * (x1 - x0)) in * by ring.
    field; split; auto. intros Z; apply Hd; rewrite Z; ring. }
  rewrite Hx. assert (Hz : f (- b / a) = 0) by (unfold f; field; auto).
  destruct (Rleb (Rabs (- b / a - x1)) tolx) eqn:E3.
  { eexists; eexists; split; [reflexivity|]; simpl; repeat split; auto. }
  rewrite Hz, Rabs_R0. apply Rleb_true in Hf. rewrite Hf.
  eexists; eexists; split; [reflexivity|]; simpl; repeat split; auto.
Qed.

(* ------------------------------------------------------------------ *)
(** * Forms used by the property files                                 *)
(* ------------------------------------------------------------------ *)

Lemma bracket_dec fa fb tolf :
  (tolf < Rabs fa /\ tolf < Rabs fb /\ 0 < fa * fb) \/
  ~ (tolf < Rabs fa /\ tolf < Rabs fb /\ 0 < fa * fb).
Proof.
  destruct (Rlt_dec tolf (Rabs fa)); [|right; tauto].
  destruct (Rlt_dec tolf (Rabs fb)); [|right; tauto].
  destruct (Rlt_dec 0 (fa * fb)); [left; tauto|right; tauto].
Qed.

Lemma brent_success_lemma f xa xb tolx tolf maxiter tr r :
  0 <= tolx -> 0 <= tolf ->
  root_brent f xa xb tolx tolf maxiter = (tr, Ok r) ->
  rr_f r = f (rr_x r) /\
  (rr_success r = true ->
   Rabs (f (rr_x r)) <= tolf \/
   exists c, Rmin xa xb <= c <= Rmax xa xb /\
     Rabs (c - rr_x r) <= tolx + 4 * eps * Rabs (rr_x r) /\ f (rr_x r) * f c <= 0).
Proof.
  intros Hx Hf E.
  destruct maxiter as [|n].
  { revert E; unfold root_brent.
    destruct (Rleb (Rabs (f xa)) tolf) eqn:E1; rdec.
    { intros E; injection E as <- <-; simpl; auto. }
    destruct (Rleb (Rabs (f xb)) tolf) eqn:E2; rdec.
    { intros E; injection E as <- <-; simpl; auto. }
    destruct (Rltb 0 (f xa * f xb)); simpl; discriminate. }
  destruct (bracket_dec (f xa) (f xb) tolf) as [(A & B & C)|H].
  { rewrite (root_brent_error f xa xb tolx tolf (S n) A B C) in E; discriminate. }
  destruct (root_brent_spec f xa xb tolx tolf (S n) Hx Hf (Nat.lt_0_succ n) H)
    as (tr' & r' & E' & _ & _ & G).
  rewrite E in E'; injection E' as <- <-.
  split; [apply G|]. intros Hs. destruct (bg_succ _ _ _ _ _ _ _ _ G Hs) as [Hs'|Hs']; auto.
Qed.

Lemma brent_trace_lemma f xa xb tolx tolf maxiter :
  0 <= tolx -> 0 <= tolf ->
  forall x, In x (fst (root_brent f xa xb tolx tolf maxiter)) ->
  Rmin xa xb <= x <= Rmax xa xb.
Proof.
  intros Hx Hf x.
  assert (Ha : Rmin xa xb <= xa <= Rmax xa xb) by (split; [apply Rmin_l|apply Rmax_l]).
  assert (Hc : Rmin xa xb <= xb <= Rmax xa xb) by (split; [apply Rmin_r|apply Rmax_r]).
  destruct maxiter as [|n].
  { unfold root_brent.
    destruct (Rleb (Rabs (f xa)) tolf); [simpl; intuition; subst; auto|].
    destruct (Rleb (Rabs (f xb)) tolf); [simpl; intuition; subst; auto|].
    destruct (Rltb 0 (f xa * f xb)); simpl; intuition; subst; auto. }
  destruct (bracket_dec (f xa) (f xb) tolf) as [(A & B & C)|H].
  { rewrite (root_brent_error f xa xb tolx tolf (S n) A B C); simpl; intuition; subst; auto. }
  destruct (root_brent_spec f xa xb tolx tolf (S n) Hx Hf (Nat.lt_0_succ n) H)
    as (tr' & r' & E' & F & _ & G).
  rewrite E'; simpl. rewrite Forall_forall in F. apply F.
Qed.

Lemma brent_total_lemma f xa xb tolx tolf maxiter :
  0 <= tolx -> 0 <= tolf -> (1 <= maxiter)%nat ->
  (tolf < Rabs (f xa) /\ tolf < Rabs (f xb) /\ 0 < f xa * f xb /\
   snd (root_brent f xa xb tolx tolf maxiter) = Err ValueError)
  \/
  (~ (tolf < Rabs (f xa) /\ tolf < Rabs (f xb) /\ 0 < f xa * f xb) /\
   exists tr r, root_brent f xa xb tolx tolf maxiter = (tr, Ok r) /\
     rr_nfeval r = length tr /\ (length tr <= maxiter + 2)%nat /\
     In (rr_x r) tr /\ (rr_niter r <= maxiter)%nat).
Proof.
  intros Hx Hf Hn.
  destruct (bracket_dec (f xa) (f xb) tolf) as [(A & B & C)|H].
  - left; rewrite (root_brent_error f xa xb tolx tolf maxiter A B C); auto.
  - right; split; auto.
    destruct (root_brent_spec f xa xb tolx tolf maxiter Hx Hf Hn H) as (tr & r & E & F & L & G).
    exists tr, r; repeat split; auto; apply G.
Qed.

Lemma brent_continuous_root f xa xb tolx tolf maxiter tr r :
  0 <= tolx -> 0 <= tolf -> continuity f ->
  root_brent f xa xb tolx tolf maxiter = (tr, Ok r) -> rr_success r = true ->
  Rabs (f (rr_x r)) <= tolf \/
  exists z, f z = 0 /\ Rmin xa xb <= z <= Rmax xa xb /\
    Rabs (z - rr_x r) <= tolx + 4 * eps * Rabs (rr_x r).
Proof.
  intros Hx Hf Hc E Hs.
  assert (Hxr : Rmin xa xb <= rr_x r <= Rmax xa xb).
  { destruct maxiter as [|n].
    - revert E; unfold root_brent.
      destruct (Rleb (Rabs (f xa)) tolf) eqn:E1.
      { intros E; injection E as <- <-; simpl; split; [apply Rmin_l|apply Rmax_l]. }
      destruct (Rleb (Rabs (f xb)) tolf) eqn:E2.
      { intros E; injection E as <- <-; simpl; split; [apply Rmin_r|apply Rmax_r]. }
      destruct (Rltb 0 (f xa * f xb)); simpl; discriminate.
    - destruct (brent_total_lemma f xa xb tolx tolf (S n) Hx Hf ltac:(lia))
        as [(_ & _ & _ & D)|(_ & tr' & r' & E' & _ & _ & I & _)].
      + rewrite E in D; discriminate.
      + rewrite E in E'; injection E' as <- <-.
        apply (brent_trace_lemma f xa xb tolx tolf (S n) Hx Hf). rewrite E; exact I. }
  destruct (brent_success_lemma _ _ _ _ _ _ _ _ Hx Hf E) as [_ H].
  destruct (H Hs) as [H1|(c & Hcb & Hd & Hsg)]; auto. right.
  destruct (Rle_dec (rr_x r) c) as [Hle|Hle].
  - destruct (IVT_cor f (rr_x r) c Hc Hle Hsg) as (z & Hz & Hz0).
    exists z; repeat split; auto; try lra.
    rewrite Rabs_pos_eq in * by lra. lra.
  - apply Rnot_le_lt in Hle.
    destruct (IVT_cor f c (rr_x r) Hc (Rlt_le _ _ Hle)) as (z & Hz & Hz0); [lra|].
    exists z; repeat split; auto; try lra.
    rewrite Rabs_left1 in * by lra. lra.
Qed.

Lemma newton_zero_iter fre fim x0 tolx tolf :
  snd (root_newton fre fim x0 tolx tolf 0) = Err UnboundLocalError.
Proof. reflexivity. Qed.

Lemma secant_flat_const n :
  snd (root_secant (fun _ => 1) 0 1 0 0 (S n)) = Ok (mkRR false MsgZeroSlope 2 1 NaN NaN).
Proof.
  unfold root_secant.
  assert (E : Rleb (Rabs 1) 0 = false) by (rdec; rewrite Rabs_R1; lra).
  rewrite E. cbn [secant_loop].
  assert (E2 : Rleb (Rabs (1 - 1)) (eps * Rmax (Rmax (Rabs 1) (Rabs 1)) 1) = true).
  { rdec. rewrite Rminus_diag_eq, Rabs_R0 by auto. apply Rmult_le_pos.
    - left; apply eps_pos.
    - eapply Rle_trans; [|apply Rmax_r]; lra. }
  rewrite E2. reflexivity.
Qed.

Lemma secant_zero_iter f x0 x1 tolx tolf :
  tolf < Rabs (f x0) -> tolf < Rabs (f x1) ->
  snd (root_secant f x0 x1 tolx tolf 0) = Err UnboundLocalError.
Proof.
  intros A B; unfold root_secant. apply Rleb_false in A, B. rewrite A, B. reflexivity.
Qed.
Lemma brent_zero_iter f xa xb tolx tolf :
  tolf < Rabs (f xa) -> tolf < Rabs (f xb) -> f xa * f xb <= 0 ->
  snd (root_brent f xa xb tolx tolf 0) = Err UnboundLocalError.
Proof.
  intros A B C; unfold root_brent. apply Rleb_false in A, B. apply Rltb_false in C.
  rewrite A, B, C. reflexivity.
Qed.

(* ------------------------------------------------------------------ *)
(** * Brent's interpolation formulae                                    *)
(* ------------------------------------------------------------------ *)
(** Lagrange inverse quadratic interpolation: abscissa at ordinate 0 of the
    quadratic x(y) through three points. *)
Definition inverse_quadratic (xa fa xb fb xc fc : R) : R :=
  xa * (fb * fc) / ((fa - fb) * (fa - fc)) +
  xb * (fa * fc) / ((fb - fa) * (fb - fc)) +
  xc * (fa * fb) / ((fc - fa) * (fc - fb)).

Lemma brent_step_interpolates s m tol1 d e d' e' :
  m = / 2 * (b_xc s - b_xb s) ->
  brent_step s m tol1 d e = Ok (d', e') ->
  (d' = m /\ e' = m) \/
  (e' = d /\ b_fa s <> b_fb s /\
   ((b_xa s = b_xc s /\
     b_xb s + d' = b_xb s - b_fb s * (b_xb s - b_xa s) / (b_fb s - b_fa s)) \/
    (b_xa s <> b_xc s /\ b_fa s <> b_fc s /\ b_fb s <> b_fc s /\
     b_xb s + d' =
       inverse_quadratic (b_xa s) (b_fa s) (b_xb s) (b_fb s) (b_xc s) (b_fc s)))).
Proof.
  intros Hm. unfold brent_step.
  destruct (Rleb tol1 (Rabs e) && Rltb (Rabs (b_fb s)) (Rabs (b_fa s))) eqn:G.
  2:{ intros H; injection H as <- <-. left; auto. }
  apply andb_true_iff in G. destruct G as [_ G]. apply Rltb_true in G.
  assert (Hfa : b_fa s <> 0).
  { intros Z. rewrite Z, Rabs_R0 in G. pose proof (Rabs_pos (b_fb s)). lra. }
  assert (Hab : b_fa s <> b_fb s) by (intros Z; rewrite Z in G; lra).
  unfold brent_pq. rewrite pydiv_ok by auto. cbn [bind].
  destruct s as [xa fa xb fb xc fc de]; cbn [b_xa b_fa b_xb b_fb b_xc b_fc b_de] in *.
  assert (Hneg : forall p q dd, (if Rltb 0 p then - q else q) <> 0 ->
     pydiv (Rabs p) (if Rltb 0 p then - q else q) = Ok dd -> q <> 0 /\ dd = - p / q).
  { intros p q dd Hq H. rewrite pydiv_ok in H by auto. injection H as <-.
    destruct (Rltb 0 p) eqn:Ep.
    - apply Rltb_true in Ep. rewrite Rabs_pos_eq by lra.
      assert (q <> 0) by lra. split; auto. field; auto.
    - apply Rltb_false in Ep. rewrite Rabs_left1 by lra. split; auto. }
  destruct (Req_EM_T xa xc) as [Hx|Hx]; cbn [bind].
  - set (p := 2 * m * (fb / fa)). set (q := 1 - fb / fa).
    set (q' := if Rltb 0 p then - q else q).
    destruct (Rltb (2 * Rabs p) _) eqn:Acc.
    2:{ intros H; injection H as <- <-. left; auto. }
    destruct (pydiv (Rabs p) q') as [dd|ex] eqn:Ed; cbn [bind]; [|discriminate].
    intros H; injection H as <- <-. right. split; auto. split; auto. left. split; auto.
    assert (Hq' : q' <> 0).
    { intros Z. rewrite Z in Ed. rewrite pydiv_zero in Ed by auto. discriminate. }
    destruct (Hneg p q dd Hq' Ed) as [Hq Hd]. rewrite Hd. unfold p, q. rewrite Hm, <- Hx.
    field. repeat split; try lra.
  - destruct (pydiv fa fc) as [qq|ex] eqn:Eq; cbn [bind]; [|discriminate].
    assert (Hfc : fc <> 0).
    { intros Z. rewrite Z in Eq. rewrite pydiv_zero in Eq by auto. discriminate. }
    rewrite pydiv_ok in Eq by auto. injection Eq as Eq.
    rewrite pydiv_ok by auto. cbn [bind].
    set (p := fb / fa * (2 * m * qq * (qq - fb / fc) - (xb - xa) * (fb / fc - 1))).
    set (q := (qq - 1) * (fb / fc - 1) * (fb / fa - 1)).
    set (q' := if Rltb 0 p then - q else q).
    destruct (Rltb (2 * Rabs p) _) eqn:Acc.
    2:{ intros H; injection H as <- <-. left; auto. }
    destruct (pydiv (Rabs p) q') as [dd|ex] eqn:Ed; cbn [bind]; [|discriminate].
    intros H; injection H as <- <-. right. split; auto. split; auto. right. split; auto.
    assert (Hq' : q' <> 0).
    { intros Z. rewrite Z in Ed. rewrite pydiv_zero in Ed by auto. discriminate. }
    destruct (Hneg p q dd Hq' Ed) as [Hq Hd].
    assert (Hac : fa <> fc).
    { intros Z. apply Hq. unfold q. rewrite <- Eq, Z. field_simplify; lra. }
    assert (Hbc : fb <> fc).
    { intros Z. apply Hq. unfold q. rewrite <- Eq, Z. field_simplify; lra. }
    split; auto. split; auto.
    rewrite Hd. unfold p, q, inverse_quadratic. rewrite <- Eq, Hm.
    field. repeat split; try lra.
Qed.
