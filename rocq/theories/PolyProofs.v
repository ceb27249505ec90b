(** Proofs about PolyModel.v *)
From Coq Require Import Reals Lra Lia List Bool Arith.
From Verif Require Import Prelude PolyModel.
Import ListNotations.
Open Scope R_scope.

Lemma norm2_pow N v : norm2 N v ^ 2 = sumn N (fun k => v k ^ 2).
Proof.
  unfold norm2. rewrite pow2_sqrt; [easy|]. apply sumn_nonneg; intros; apply pow2_ge_0.
Qed.
Lemma norm2_nonneg N v : 0 <= norm2 N v.
Proof. apply sqrt_pos. Qed.

Lemma norm2_zero N v : norm2 N v = 0 <-> forall k, (k < N)%nat -> v k = 0.
Proof.
  split.
  - intros H k Hk. pose proof (norm2_pow N v) as E. rewrite H in E.
    assert (v k ^ 2 = 0).
    { apply (sumn_nonneg_zero N (fun k => v k ^ 2)); auto. intros; apply pow2_ge_0. rewrite <- E. ring. }
    simpl in H0. nra.
  - intros H. assert (E : norm2 N v ^ 2 = 0).
    { rewrite norm2_pow. apply sumn_zero'. intros k Hk. rewrite H by auto. ring. }
    simpl in E. pose proof (norm2_nonneg N v). nra.
Qed.

(** squared distance of p to the point a + t (b - a) *)
Definition dline2 (N : nat) (p a b : nat -> R) (t : R) : R :=
  sumn N (fun k => (p k - (a k + t * (b k - a k))) ^ 2).

(** the projection is the closest point of the line *)
Lemma perp_dist_spec N p a b d : perp_dist N p a b = Some d ->
  0 <= d /\ (exists t, dline2 N p a b t = d ^ 2) /\ (forall t, d ^ 2 <= dline2 N p a b t).
Proof.
  unfold perp_dist. cbv zeta.
  set (nd := norm2 N (fun k => b k - a k)).
  destruct (Req_EM_T nd 0) as [|Hn]; [easy|]. intros H; injection H as <-.
  split; [apply norm2_nonneg|].
  assert (Hp : 0 < nd) by (pose proof (norm2_nonneg N (fun k => b k - a k)); unfold nd in *; lra).
  set (S := sumn N (fun k => (b k - a k) * (p k - a k))).
  assert (Es : sumn N (fun k => (b k - a k) / nd * (p k - a k)) = S / nd).
  { rewrite (sumn_ext N _ (fun k => / nd * ((b k - a k) * (p k - a k)))).
    - rewrite sumn_scal. fold S. unfold Rdiv; ring.
    - intros; field; auto. }
  rewrite Es.
  assert (E2 : norm2 N (fun k => p k - a k - S / nd * ((b k - a k) / nd)) ^ 2
               = dline2 N p a b (S / nd ^ 2)).
  { rewrite norm2_pow. unfold dline2. apply sumn_ext. intros; field; auto. }
  rewrite E2. split; [now exists (S / nd ^ 2)|].
  assert (Q : forall t, dline2 N p a b t =
     sumn N (fun k => (p k - a k) ^ 2) - 2 * t * S + t ^ 2 * nd ^ 2).
  { intros t. unfold nd. rewrite norm2_pow. unfold dline2, S.
    rewrite (sumn_ext N _ (fun k => ((p k - a k) ^ 2 - 2 * t * ((b k - a k) * (p k - a k)))
                + t ^ 2 * (b k - a k) ^ 2)) by (intros; ring).
    rewrite sumn_plus, sumn_minus, !sumn_scal. ring. }
  intros t. rewrite !Q.
  assert (0 <= (t * nd - S / nd) ^ 2) by apply pow2_ge_0.
  replace (-2) with (-(2)) by ring.
  assert (E3 : (t * nd - S / nd) ^ 2 = (t ^ 2 * nd ^ 2 - 2 * t * S)
           - ((S / nd ^ 2) ^ 2 * nd ^ 2 - 2 * (S / nd ^ 2) * S)) by (field; auto).
  lra.
Qed.

Lemma perp_dist_some N p a b : (exists k, (k < N)%nat /\ a k <> b k) ->
  exists d, perp_dist N p a b = Some d.
Proof.
  intros [k [Hk Hne]]. unfold perp_dist. cbv zeta.
  destruct (Req_EM_T _ 0) as [E|E]; [|eauto].
  exfalso. rewrite norm2_zero in E. specialize (E k Hk). cbn in E. lra.
Qed.

Lemma perp_dist_none N p a b : (forall k, (k < N)%nat -> a k = b k) -> perp_dist N p a b = None.
Proof.
  intros H. unfold perp_dist. cbv zeta. destruct (Req_EM_T _ 0) as [E|E]; [easy|].
  exfalso; apply E, norm2_zero. intros k Hk. rewrite H by auto. ring.
Qed.

Lemma farthest_loop_spec N pts istart iend n : forall i imax dmax,
  let '(im, dm) := farthest_loop N pts istart iend n i imax dmax in
  dmax <= dm /\
  (dm = dmax /\ im = imax \/
   (dmax < dm /\ (i <= im < i + n)%nat /\ perp_dist N (pts im) (pts istart) (pts iend) = Some dm)) /\
  (forall j d, (i <= j < i + n)%nat -> perp_dist N (pts j) (pts istart) (pts iend) = Some d -> d <= dm).
Proof.
  induction n as [|n IH]; intros i imax dmax; cbn [farthest_loop].
  - split; [lra|]. split; [now left|]. intros; lia.
  - destruct (perp_dist N (pts i) (pts istart) (pts iend)) as [d|] eqn:Ed.
    + destruct (Rltb dmax d) eqn:El.
      * apply Rltb_true in El. specialize (IH (S i) i d).
        destruct (farthest_loop N pts istart iend n (S i) i d) as [im dm].
        destruct IH as (H1 & H2 & H3). split; [lra|]. split.
        -- right. split; [lra|]. destruct H2 as [[-> ->]|(H2 & H4 & H5)]; [split; [lia|auto]|].
           split; [lia|auto].
        -- intros j d' Hj Hd. destruct (Nat.eq_dec j i) as [->|]; [|apply (H3 j); auto; lia].
           rewrite Ed in Hd; injection Hd as <-. lra.
      * apply Rltb_false in El. specialize (IH (S i) imax dmax).
        destruct (farthest_loop N pts istart iend n (S i) imax dmax) as [im dm].
        destruct IH as (H1 & H2 & H3). split; [lra|]. split.
        -- destruct H2 as [H2|(H2 & H4 & H5)]; [now left|right; split; [auto|split; [lia|auto]]].
        -- intros j d' Hj Hd. destruct (Nat.eq_dec j i) as [->|]; [|apply (H3 j); auto; lia].
           rewrite Ed in Hd; injection Hd as <-. lra.
    + specialize (IH (S i) imax dmax).
      destruct (farthest_loop N pts istart iend n (S i) imax dmax) as [im dm].
      destruct IH as (H1 & H2 & H3). split; [lra|]. split.
      * destruct H2 as [H2|(H2 & H4 & H5)]; [now left|right; split; [auto|split; [lia|auto]]].
      * intros j d' Hj Hd. destruct (Nat.eq_dec j i) as [->|]; [congruence|apply (H3 j); auto; lia].
Qed.

(** structure of the result *)
Definition kept (N : nat) pts (tol : R) (a b : nat) : Prop :=
  (a < b)%nat /\
  forall i, (a < i < b)%nat -> forall d, perp_dist N (pts i) (pts a) (pts b) = Some d -> d <= tol.

Inductive chain (P : nat -> nat -> Prop) : nat -> list nat -> nat -> Prop :=
| chain_end a : chain P a [a] a
| chain_cons a b l c : P a b -> chain P b l c -> chain P a (a :: l) c.

Lemma chain_app P a l b l' c : chain P a l b -> chain P b l' c -> chain P a (l ++ tl l') c.
Proof.
  induction 1 as [a|a b' l c' Hab Hc IH]; intros H2.
  - inversion H2; subst; simpl; [constructor|econstructor; eauto].
  - cbn [app]. apply chain_cons with b'; auto.
Qed.

Lemma rdp_spec fuel : forall N pts istart iend tol,
  0 <= tol -> (istart < iend)%nat -> (iend - istart <= fuel)%nat ->
  exists L, rdp fuel N pts istart iend tol = Some L /\
    chain (kept N pts tol) istart L iend.
Proof.
  induction fuel as [|f IH]; intros N pts istart iend tol Ht Hlt Hf; [lia|].
  cbn [rdp]. unfold farthest_point.
  pose proof (farthest_loop_spec N pts istart iend (iend - (istart + 1)) (istart + 1) 0 0) as HF.
  destruct (farthest_loop _ _ _ _ _ _ _ _) as [im dm]. destruct HF as (H1 & H2 & H3).
  destruct (Rltb tol dm) eqn:E.
  - apply Rltb_true in E. destruct H2 as [[H2 _]|(H2 & H4 & H5)]; [lra|].
    destruct (IH N pts istart im tol Ht ltac:(lia) ltac:(lia)) as (L1 & E1 & C1).
    destruct (IH N pts im iend tol Ht ltac:(lia) ltac:(lia)) as (L2 & E2 & C2).
    rewrite E1, E2. eexists; split; [reflexivity|]. eapply chain_app; eauto.
  - apply Rltb_false in E. eexists; split; [reflexivity|].
    econstructor; [|constructor]. split; auto.
    intros i Hi d Hd. apply Rle_trans with dm; auto. apply (H3 i); auto. lia.
Qed.

Lemma rdp_neg_diverges fuel : forall N pts istart iend tol,
  tol < 0 -> rdp fuel N pts istart iend tol = None.
Proof.
  induction fuel as [|f IH]; intros N pts istart iend tol Ht; cbn [rdp]; [easy|].
  unfold farthest_point.
  pose proof (farthest_loop_spec N pts istart iend (iend - (istart + 1)) (istart + 1) 0 0) as HF.
  destruct (farthest_loop _ _ _ _ _ _ _ _) as [im dm]. destruct HF as (H1 & _).
  assert (Rltb tol dm = true) as -> by (apply Rltb_true; lra).
  now rewrite (IH N pts istart im tol Ht).
Qed.

Lemma chain_bounds (P : nat -> nat -> Prop) a l c : (forall x y, P x y -> (x < y)%nat) -> chain P a l c ->
  (a <= c)%nat /\ forall x, In x l -> (a <= x <= c)%nat.
Proof.
  intros HP. induction 1 as [a|a b l c Hab Hc [IH1 IH2]].
  - split; [lia|]. intros x [->|[]]; lia.
  - specialize (HP _ _ Hab). split; [lia|].
    intros x [->|Hx]; [lia|]. specialize (IH2 x Hx). lia.
Qed.

Lemma chain_ends (P : nat -> nat -> Prop) a l c : chain P a l c ->
  exists l', l = a :: l' /\ forall d, last l d = c.
Proof.
  induction 1 as [a|a b l c Hab Hc (l' & E & IH)].
  - exists []. easy.
  - exists l. split; [easy|]. intros d. rewrite <- (IH d). subst l. easy.
Qed.

Lemma chain_nth (P : nat -> nat -> Prop) a l c : chain P a l c -> forall j, (S j < length l)%nat ->
  P (nth j l 0%nat) (nth (S j) l 0%nat).
Proof.
  induction 1 as [a|a b l c Hab Hc IH]; intros j Hj; simpl in Hj; [lia|].
  destruct j as [|j].
  - destruct (chain_ends _ _ _ _ Hc) as (l' & -> & _). simpl. exact Hab.
  - change (P (nth j l 0%nat) (nth (S j) l 0%nat)). apply IH. lia.
Qed.

(** every index between the ends is kept or lies strictly between two kept ones *)
Lemma chain_locate (P : nat -> nat -> Prop) a l c : (forall x y, P x y -> (x < y)%nat) -> chain P a l c ->
  forall i, (a <= i <= c)%nat -> In i l \/
    exists j, (S j < length l)%nat /\ (nth j l 0%nat < i < nth (S j) l 0%nat)%nat.
Proof.
  intros HP. induction 1 as [a|a b l c Hab Hc IH]; intros i Hi.
  - left. left. lia.
  - destruct (Nat.eq_dec i a) as [->|Hne]; [left; now left|].
    destruct (le_lt_dec b i) as [Hb|Hb].
    + destruct (IH i ltac:(lia)) as [Hin|(j & Hj & Hj')].
      * left. now right.
      * right. exists (S j). simpl. split; [lia|]. exact Hj'.
    + right. exists 0%nat. destruct (chain_ends _ _ _ _ Hc) as (l' & -> & _). simpl. split; lia.
Qed.
