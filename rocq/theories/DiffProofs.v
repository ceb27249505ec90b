(** Proofs about DiffModel.v *)
From Coq Require Import Reals Lra Lia List Bool Arith ZArith FunctionalExtensionality.
From Verif Require Import Prelude RootsModel RootsProofs DiffModel.
Open Scope R_scope.

(** decide all comparisons of naturals in the goal *)
Ltac natb :=
  repeat (match goal with
          | |- context [Nat.eqb ?a ?b] => destruct (Nat.eqb_spec a b)
          | |- context [Nat.leb ?a ?b] => destruct (Nat.leb_spec a b)
          | |- context [Nat.ltb ?a ?b] => destruct (Nat.ltb_spec a b)
          end; cbn [andb orb]; try lia); subst; auto; try lia.

Lemma upd_upd {A} (x : nat -> A) i a b : upd (upd x i a) i b = upd x i b.
Proof.
  apply functional_extensionality; intros j; unfold upd.
  destruct (Nat.eq_dec j i); easy.
Qed.
Lemma upd_id {A} (x : nat -> A) i : upd x i (x i) = x.
Proof.
  apply functional_extensionality; intros j; unfold upd.
  destruct (Nat.eq_dec j i) as [->|]; easy.
Qed.
Lemma upd_restore {A} (x : nat -> A) i a : upd (upd x i a) i (x i) = x.
Proof. rewrite upd_upd; apply upd_id. Qed.

Lemma cbrt_pos y : 0 < cbrt y.
Proof. unfold cbrt, Rpower. apply exp_pos. Qed.

Lemma noise_pos d : 0 < noise d.
Proof.
  destruct d; simpl.
  - apply Rinv_0_lt_compat, pow_lt; lra.
  - apply eps_pos.
Qed.

Lemma step_neq0 h x : (if Req_EM_T h 0 then cbrt (3 * eps) else h) * (1 + Rabs x) <> 0.
Proof.
  intros H. apply Rmult_integral in H.
  destruct H as [H|H].
  - destruct (Req_EM_T h 0); [pose proof (cbrt_pos (3 * eps)); lra|easy].
  - pose proof (Rabs_pos x); lra.
Qed.

(* ---------- Jacobian ---------- *)
Lemma perturb_spec {A} (f : (nat -> R) -> A) h i xh :
  perturb f h i xh = (xh, h, f (upd xh i (xh i + h))).
Proof.
  unfold perturb. rewrite upd_restore, upd_same.
  f_equal. f_equal. ring.
Qed.

Definition jstep (x sclx : nat -> R) (h0 : R) (k : nat) : R :=
  h0 * Rmax (Rabs (x k)) (Rabs (1 / sclx k)).

Lemma jstep_pos x sclx h0 k : 0 < h0 -> sclx k <> 0 -> 0 < jstep x sclx h0 k.
Proof.
  intros H0 Hs. unfold jstep. apply Rmult_lt_0_compat; auto.
  apply Rlt_le_trans with (Rabs (1 / sclx k)); [|apply Rmax_r].
  apply Rabs_pos_lt. unfold Rdiv. rewrite Rmult_1_l. now apply Rinv_neq_0_compat.
Qed.

Lemma jac_loop_spec f x fx sclx h0 n : forall k J r c,
  jac_loop f x fx sclx h0 n k x J r c =
  if (k <=? c) && (c <? k + n)
  then (f (upd x c (x c + jstep x sclx h0 c)) r - fx r) / jstep x sclx h0 c
  else J r c.
Proof.
  induction n as [|n IH]; intros k J r c; cbn [jac_loop].
  - destruct (Nat.leb_spec k c); simpl; auto.
    destruct (Nat.ltb_spec c (k + 0)); [lia|]. easy.
  - rewrite perturb_spec. rewrite IH. cbv beta.
    fold (jstep x sclx h0 k).
    destruct (Nat.leb_spec (S k) c), (Nat.leb_spec k c), (Nat.ltb_spec c (S k + n)),
      (Nat.ltb_spec c (k + S n)); simpl; try lia; auto;
      destruct (Nat.eqb_spec c k); try lia; subst; auto.
Qed.

Lemma jacobian_spec N f x fx sclx nd J0 r c : (c < N)%nat ->
  jacobian_forward N f x fx sclx nd J0 r c =
  let h := jstep x sclx (sqrt (noise nd)) c in
  (f (upd x c (x c + h)) r - (match fx with Some v => v | None => f x end) r) / h.
Proof.
  intros Hc. unfold jacobian_forward. rewrite jac_loop_spec.
  destruct (Nat.ltb_spec c (0 + N)); simpl; [reflexivity|lia].
Qed.

Lemma sumn_upd N (a x : nat -> R) c v : (c < N)%nat ->
  sumn N (fun i => a i * upd x c v i) = sumn N (fun i => a i * x i) + a c * (v - x c).
Proof.
  intros Hc.
  rewrite (sumn_ext N (fun i => a i * upd x c v i)
             (fun i => a i * x i + delta i c * (a i * (v - x i)))).
  2:{ intros i Hi. unfold upd, delta. destruct (Nat.eq_dec i c) as [->|]; ring. }
  rewrite sumn_plus, sumn_delta by auto. ring.
Qed.

(* ---------- Hessian ---------- *)
Lemma hess_loop1_spec f x sclx h0 n : forall k h fh,
  let '(xh, h', fh') := hess_loop1 f x sclx h0 n k x h fh in
  xh = x /\
  (forall i, h' i = if (k <=? i) && (i <? k + n) then jstep x sclx h0 i else h i) /\
  (forall i, fh' i = if (k <=? i) && (i <? k + n)
                     then f (upd x i (x i + jstep x sclx h0 i)) else fh i).
Proof.
  induction n as [|n IH]; intros k h fh; cbn [hess_loop1].
  - split; [easy|].
    split; intros i; destruct (Nat.leb_spec k i), (Nat.ltb_spec i (k + 0)); simpl; auto; lia.
  - rewrite perturb_spec. fold (jstep x sclx h0 k).
    specialize (IH (S k) (upd h k (jstep x sclx h0 k))
                  (upd fh k (f (upd x k (x k + jstep x sclx h0 k))))).
    destruct (hess_loop1 f x sclx h0 n (S k) x _ _) as [[xh h'] fh'].
    destruct IH as [-> [H1 H2]]. split; [easy|].
    split; intros i; rewrite ?H1, ?H2; unfold upd;
      destruct (Nat.leb_spec (S k) i), (Nat.leb_spec k i), (Nat.ltb_spec i (S k + n)),
        (Nat.ltb_spec i (k + S n)); simpl; try lia; auto;
      destruct (Nat.eq_dec i k); try lia; subst; auto.
Qed.

Lemma upd2_same H i j v : upd2 H i j v i j = v.
Proof. unfold upd2. now rewrite !Nat.eqb_refl. Qed.
Lemma upd2_other H i j v r c : r <> i \/ c <> j -> upd2 H i j v r c = H r c.
Proof.
  unfold upd2. intros [Hn|Hn]; destruct (Nat.eqb_spec r i), (Nat.eqb_spec c j); simpl; auto; lia.
Qed.

(** value of an off-diagonal entry *)
Definition hoff f (fx : R) (h fh : nat -> R) (i : nat) (xh : nat -> R) (j : nat) : R :=
  ((fx - fh i) + (f (upd xh j (xh j + h j)) - fh j)) / (h i * h j).

Lemma hess_inner_spec f fx h fh i n : forall j xh H, (i < j)%nat ->
  let '(xh', H') := hess_inner f fx h fh i n j xh H in
  xh' = xh /\
  (forall r c, H' r c =
     if (r =? i) && (j <=? c) && (c <? j + n) then hoff f fx h fh i xh c
     else if (c =? i) && (j <=? r) && (r <? j + n) then hoff f fx h fh i xh r
     else H r c).
Proof.
  induction n as [|n IH]; intros j xh H Hij; cbn [hess_inner].
  - split; [easy|]. intros r c.
    destruct (r =? i), (c =? i), (Nat.leb_spec j c), (Nat.ltb_spec c (j + 0)),
      (Nat.leb_spec j r), (Nat.ltb_spec r (j + 0)); simpl; auto; lia.
  - rewrite upd_restore. fold (hoff f fx h fh i xh j).
    rewrite upd2_same.
    specialize (IH (S j) xh (upd2 (upd2 H i j (hoff f fx h fh i xh j)) j i
                               (hoff f fx h fh i xh j)) ltac:(lia)).
    destruct (hess_inner f fx h fh i n (S j) xh _) as [xh' H'].
    destruct IH as [-> IH]. split; [easy|]. intros r c. rewrite IH.
    unfold upd2.
    natb.
Qed.

Definition hdiag f (fx : R) (h fh : nat -> R) (x : nat -> R) (i : nat) : R :=
  ((fx - fh i) + (f (upd x i (x i + 2 * h i)) - fh i)) / (h i ^ 2).


Lemma hess_outer_spec f fx h fh n : forall i x H,
  let '(xh, H') := hess_outer f fx h fh n i x H in
  xh = x /\
  (forall r c, (r < i + n)%nat -> (c < i + n)%nat ->
    H' r c =
    if (r <? i) || (c <? i) then H r c
    else if r =? c then hdiag f fx h fh x r
    else if r <? c then hoff f fx h fh r (upd x r (x r + h r)) c
    else hoff f fx h fh c (upd x c (x c + h c)) r).
Proof.
  induction n as [|n IH]; intros i x H; cbn [hess_outer].
  - split; [easy|]. intros r c Hr Hc.
    destruct (Nat.ltb_spec r i), (Nat.ltb_spec c i); simpl; auto; lia.
  - rewrite upd_upd.
    fold (hdiag f fx h fh x i).
    pose proof (hess_inner_spec f fx h fh i n (S i) (upd x i (x i + h i))
                  (upd2 H i i (hdiag f fx h fh x i)) ltac:(lia)) as HI.
    destruct (hess_inner f fx h fh i n (S i) _ _) as [xh3 H2].
    destruct HI as [-> HI]. rewrite upd_restore.
    specialize (IH (S i) x H2).
    destruct (hess_outer f fx h fh n (S i) x H2) as [xh H'].
    destruct IH as [-> IH]. split; [easy|].
    intros r c Hr Hc. rewrite IH by lia. rewrite !HI. unfold upd2.
    natb.
Qed.

Lemma hessian_spec N f x fx sclx nd h_ fh_ H0 :
  let h0 := cbrt (noise nd) in
  let f0 := match fx with Some v => v | None => f x end in
  let h := jstep x sclx h0 in
  let p i := upd x i (x i + h i) in
  let '(xh, H) := hessian_forward_st N f x fx sclx nd h_ fh_ H0 in
  xh = x /\
  (forall i, (i < N)%nat ->
     H i i = (f0 - 2 * f (p i) + f (upd x i (x i + 2 * h i))) / (h i ^ 2)) /\
  (forall i j, (i < j)%nat -> (j < N)%nat ->
     H i j = (f0 - f (p i) - f (p j) + f (upd (p i) j (x j + h j))) / (h i * h j) /\
     H j i = H i j).
Proof.
  intros h0 f0 h p. unfold hessian_forward_st. fold h0 f0.
  pose proof (hess_loop1_spec f x sclx h0 N 0 h_ fh_) as H1.
  destruct (hess_loop1 f x sclx h0 N 0 x h_ fh_) as [[xh hh] fh].
  destruct H1 as [-> [Hh Hf]].
  pose proof (hess_outer_spec f f0 hh fh N 0 x H0) as HO.
  destruct (hess_outer f f0 hh fh N 0 x H0) as [xh H].
  destruct HO as [-> HO].
  assert (Eh : forall i, (i < N)%nat -> hh i = h i).
  { intros i Hi. rewrite Hh. simpl. destruct (Nat.ltb_spec i N); [easy|lia]. }
  assert (Ef : forall i, (i < N)%nat -> fh i = f (p i)).
  { intros i Hi. rewrite Hf. simpl. destruct (Nat.ltb_spec i N); [easy|lia]. }
  split; [easy|]. split.
  - intros i Hi. rewrite HO by lia. simpl. rewrite Nat.eqb_refl.
    unfold hdiag. rewrite Eh, Ef by auto. f_equal. ring.
  - intros i j Hij Hj.
    rewrite !HO by lia. simpl.
    destruct (Nat.eqb_spec i j); [lia|]. destruct (Nat.eqb_spec j i); [lia|].
    destruct (Nat.ltb_spec i j); [|lia]. destruct (Nat.ltb_spec j i); [lia|].
    split; [|easy].
    unfold hoff. rewrite !Eh, !Ef by lia. fold (p i).
    assert (p i j = x j) as ->. { unfold p. apply upd_other. lia. }
    f_equal. ring.
Qed.

(* ---------- quadratic functions ---------- *)
Definition quadf (N : nat) (a : R) (b : nat -> R) (A : nat -> nat -> R) (x : nat -> R) : R :=
  a + sumn N (fun i => b i * x i)
  + / 2 * sumn N (fun i => sumn N (fun j => A i j * x i * x j)).

(** increment of a quadratic when component c moves by d *)
Lemma quadf_upd N a b A x c d :
  (c < N)%nat -> (forall i j, (i < N)%nat -> (j < N)%nat -> A i j = A j i) ->
  quadf N a b A (upd x c (x c + d)) =
  quadf N a b A x + d * (b c + sumn N (fun j => A c j * x j)) + / 2 * A c c * d ^ 2.
Proof.
  intros Hc Hs. unfold quadf.
  rewrite sumn_upd by auto.
  assert (E : sumn N (fun i => sumn N (fun j => A i j * upd x c (x c + d) i * upd x c (x c + d) j))
    = sumn N (fun i => sumn N (fun j => A i j * x i * x j))
      + 2 * d * sumn N (fun j => A c j * x j) + A c c * d ^ 2).
  { transitivity (sumn N (fun i => (sumn N (fun j => A i j * x i * x j)
        + d * (A c i * x i)) + delta i c * (d * sumn N (fun j => A i j * x j) + A i c * d ^ 2))).
    - apply sumn_ext. intros i Hi.
      rewrite (sumn_upd N (fun j => A i j * upd x c (x c + d) i)) by auto.
      destruct (Nat.eq_dec i c) as [->|Hne].
      + rewrite upd_same, delta_eq.
        rewrite (sumn_ext N (fun i => A c i * (x c + d) * x i)
                  (fun i => A c i * x c * x i + d * (A c i * x i))) by (intros; ring).
        rewrite sumn_plus, sumn_scal. ring.
      + rewrite upd_other by auto. rewrite delta_neq by auto. rewrite (Hs c i) by auto. ring.
    - rewrite !sumn_plus, sumn_scal. rewrite sumn_delta by auto. ring. }
  rewrite E. field.
Qed.

Lemma lin_upd N (w x : nat -> R) j v : (j < N)%nat ->
  sumn N (fun i => w i * upd x j v i) = sumn N (fun i => w i * x i) + w j * (v - x j).
Proof. apply sumn_upd. Qed.

(* ---------- scalex ---------- *)
Lemma min_nonzero_none n x : min_nonzero n x = None <-> forall i, (i < n)%nat -> x i = 0.
Proof.
  induction n as [|n IH]; cbn [min_nonzero].
  - split; auto. intros; lia.
  - destruct (Req_EM_T (x n) 0) as [E|E].
    + rewrite IH. split; intros H i Hi; [|apply H; lia].
      destruct (Nat.eq_dec i n) as [->|]; auto. apply H; lia.
    + split; [destruct (min_nonzero n x); easy|].
      intros H. exfalso. apply E, H. lia.
Qed.

Lemma min_nonzero_some n x m : min_nonzero n x = Some m ->
  0 < m /\ (forall i, (i < n)%nat -> x i <> 0 -> m <= Rabs (x i)) /\
  exists i, (i < n)%nat /\ x i <> 0 /\ m = Rabs (x i).
Proof.
  revert m; induction n as [|n IH]; intros m; cbn [min_nonzero]; [easy|].
  destruct (Req_EM_T (x n) 0) as [E|E].
  - intros H. destruct (IH m H) as [H1 [H2 [i [Hi [Hx Hm]]]]].
    split; auto. split.
    + intros j Hj Hxj. apply H2; auto. destruct (Nat.eq_dec j n) as [->|]; [easy|lia].
    + exists i. repeat split; auto.
  - assert (P : 0 < Rabs (x n)) by now apply Rabs_pos_lt.
    destruct (min_nonzero n x) as [m'|] eqn:Em; intros H; injection H as <-.
    + destruct (IH m' eq_refl) as [H1 [H2 [i [Hi [Hx Hm]]]]].
      split; [now apply Rmin_glb_lt|]. split.
      * intros j Hj Hxj. destruct (Nat.eq_dec j n) as [->|].
        -- apply Rmin_r.
        -- eapply Rle_trans; [apply Rmin_l|apply H2; auto; lia].
      * unfold Rmin. destruct (Rle_dec m' (Rabs (x n))).
        -- exists i. repeat split; auto.
        -- exists n. repeat split; auto.
    + split; auto. rewrite min_nonzero_none in Em. split.
      * intros j Hj Hxj. destruct (Nat.eq_dec j n) as [->|]; [lra|].
        exfalso; apply Hxj, Em; lia.
      * exists n. repeat split; auto.
Qed.

Lemma log10_ge1 a b : 0 < a -> 0 < b -> (1 <= ln (a / b) / ln 10 <-> 10 * b <= a).
Proof.
  intros Ha Hb.
  assert (L : 0 < ln 10). { rewrite <- ln_1. apply ln_increasing; lra. }
  assert (P : 0 < a / b) by now apply Rdiv_lt_0_compat.
  split; intros H.
  - assert (ln 10 <= ln (a / b)).
    { apply (Rmult_le_compat_r (ln 10)) in H; [|lra].
      unfold Rdiv in H at 1. rewrite Rmult_assoc, Rinv_l in H by lra. lra. }
    assert (10 <= a / b).
    { destruct (Rle_lt_dec 10 (a / b)); auto.
      apply ln_increasing in r; auto; lra. }
    apply (Rmult_le_compat_r b) in H1; [|lra].
    unfold Rdiv in H1. rewrite Rmult_assoc, Rinv_l in H1 by lra. lra.
  - assert (10 <= a / b).
    { apply (Rmult_le_reg_r b); auto. unfold Rdiv. rewrite Rmult_assoc, Rinv_l by lra. lra. }
    assert (ln 10 <= ln (a / b)).
    { destruct H0 as [H0|H0]; [left; apply ln_increasing; lra|rewrite <- H0; lra]. }
    apply (Rmult_le_reg_r (ln 10)); auto.
    unfold Rdiv at 1. rewrite Rmult_assoc, Rinv_l by lra. lra.
Qed.

(* ---------- ode ---------- *)
Lemma floorZ_spec x : IZR (floorZ x) <= x < IZR (floorZ x) + 1.
Proof.
  unfold floorZ. destruct (archimed x) as [H1 H2].
  rewrite minus_IZR. lra.
Qed.

Lemma iter_S {A} n (f : A -> A) x : Nat.iter (S n) f x = f (Nat.iter n f x).
Proof. easy. Qed.
Lemma iter_shift {A} n (f : A -> A) x : Nat.iter (S n) f x = Nat.iter n f (f x).
Proof. induction n as [|n IH]; [easy|]. rewrite iter_S, IH. easy. Qed.

Lemma rk_loop_iter step h n : forall t y,
  rk_loop step h n t y =
  (t + INR n * h,
   snd (Nat.iter n (fun p => (fst p + h, step (fst p) (snd p) h)) (t, y))).
Proof.
  assert (G : forall n t y, rk_loop step h n t y =
     Nat.iter n (fun p => (fst p + h, step (fst p) (snd p) h)) (t, y)).
  { clear. induction n as [|n IH]; intros t y; cbn [rk_loop]; [easy|].
    rewrite IH. rewrite (iter_shift n). easy. }
  intros t y. rewrite G.
  assert (F : fst (Nat.iter n (fun p => (fst p + h, step (fst p) (snd p) h)) (t, y))
              = t + INR n * h).
  { induction n as [|n IH]; [simpl; ring|].
    rewrite (@iter_S). cbn [fst]. rewrite IH, S_INR. ring. }
  rewrite <- F. now destruct (Nat.iter n _ (t, y)).
Qed.

Lemma nsteps_pos (t0 tf h : R) : h <> 0 -> 0 <= (tf - t0) / h ->
  exists n : nat, floorZ ((tf - t0) / h) = Z.of_nat n /\
    INR n <= (tf - t0) / h < INR n + 1.
Proof.
  intros Hh Hq. destruct (floorZ_spec ((tf - t0) / h)) as [H1 H2].
  assert (0 <= floorZ ((tf - t0) / h))%Z.
  { assert (-1 < floorZ ((tf - t0) / h))%Z; [|lia]. apply lt_IZR. simpl. lra. }
  exists (Z.to_nat (floorZ ((tf - t0) / h))).
  rewrite Z2Nat.id by auto. split; [easy|].
  rewrite INR_IZR_INZ, Z2Nat.id by auto. lra.
Qed.

(** The integration with a step of the direction of the interval: n full steps
    and one remainder step. *)
Lemma integrate_spec step t0 tf y0 h : h <> 0 -> 0 <= (tf - t0) / h ->
  exists n hf,
    INR n <= (tf - t0) / h < INR n + 1 /\
    t0 + INR n * h + hf = tf /\
    integrate step t0 tf y0 h =
    step (t0 + INR n * h)
      (snd (Nat.iter n (fun p => (fst p + h, step (fst p) (snd p) h)) (t0, y0))) hf.
Proof.
  intros Hh Hq. destruct (nsteps_pos t0 tf h Hh Hq) as [n [En Hn]].
  exists n, ((tf - t0) - INR n * h). split; auto. split; [ring|].
  unfold integrate. rewrite En, Nat2Z.id, rk_loop_iter, <- INR_IZR_INZ. easy.
Qed.

Lemma iter_exact step (Y : R -> R) h t0 n :
  (forall t, step t (Y t) h = Y (t + h)) ->
  Nat.iter n (fun p => (fst p + h, step (fst p) (snd p) h)) (t0, Y t0)
  = (t0 + INR n * h, Y (t0 + INR n * h)).
Proof.
  intros HY. induction n as [|n IH].
  - simpl. now rewrite Rmult_0_l, Rplus_0_r.
  - rewrite (@iter_S), IH. cbn [fst snd]. rewrite HY, S_INR.
    replace (t0 + INR n * h + h) with (t0 + (INR n + 1) * h) by ring. easy.
Qed.

Lemma integrate_exact step (Y : R -> R) t0 tf y0 h :
  (forall t h, step t (Y t) h = Y (t + h)) ->
  h <> 0 -> 0 <= (tf - t0) / h -> Y t0 = y0 ->
  integrate step t0 tf y0 h = Y tf.
Proof.
  intros HY Hh Hq <-. destruct (integrate_spec step t0 tf (Y t0) h Hh Hq) as [n [hf [_ [E ->]]]].
  rewrite iter_exact by auto. cbn [snd]. now rewrite HY, E.
Qed.

Lemma integrate_linear step (P : R -> R) t0 tf y0 h :
  (forall t y h, step t y h = P h * y) ->
  h <> 0 -> 0 <= (tf - t0) / h ->
  exists n hf,
    INR n <= (tf - t0) / h < INR n + 1 /\ t0 + INR n * h + hf = tf /\
    integrate step t0 tf y0 h = P h ^ n * P hf * y0.
Proof.
  intros HP Hh Hq. destruct (integrate_spec step t0 tf y0 h Hh Hq) as [n [hf [Hn [E ->]]]].
  exists n, hf. split; auto. split; auto.
  assert (G : forall m, snd (Nat.iter m (fun p => (fst p + h, step (fst p) (snd p) h)) (t0, y0))
               = P h ^ m * y0).
  { induction m as [|m IH]; [simpl; ring|].
    rewrite (@iter_S). cbn [snd]. rewrite HP, IH. simpl; ring. }
  rewrite HP, G. ring.
Qed.
