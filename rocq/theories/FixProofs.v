(** Proofs about FixModel.v *)
From Coq Require Import Reals Lra Lia List Bool Arith FunctionalExtensionality.
From Verif Require Import Prelude RootsModel RootsProofs DiffModel DiffProofs FixModel.
Import ListNotations.
Open Scope R_scope.

Definition vz : vec := fun _ => 0.
Notation at_ L k := (nth k L vz).

Lemma at_app_old (L : list vec) x k : (k < length L)%nat -> at_ (L ++ [x]) k = at_ L k.
Proof. intros; now apply app_nth1. Qed.
Lemma at_app_new (L : list vec) x k : k = length L -> at_ (L ++ [x]) k = x.
Proof. intros ->. rewrite app_nth2, Nat.sub_diag by lia. easy. Qed.

Lemma norm_le_iff N v t : (0 < N)%nat ->
  norm_inf N v <= t <-> forall i, (i < N)%nat -> Rabs (v i) <= t.
Proof.
  intros HN. destruct (Rle_dec 0 t) as [H|H]; [now apply norm_inf_le|].
  split; intros A.
  - pose proof (maxn_nonneg N (fun i => Rabs (v i))). unfold norm_inf in A. lra.
  - pose proof (A O HN). pose proof (Rabs_pos (v O)). lra.
Qed.

Lemma weg_q_bounds qmin qmax s : qmin <= qmax -> qmin <= weg_q qmin qmax s <= qmax.
Proof.
  intros H. unfold weg_q. destruct (Req_EM_T s 1); [lra|].
  unfold Rmin, Rmax. repeat destruct Rle_dec; lra.
Qed.
Lemma weg_q_in qmin qmax s : s <> 1 -> qmin <= s / (s - 1) <= qmax ->
  weg_q qmin qmax s = s / (s - 1).
Proof.
  intros H [H1 H2]. unfold weg_q. destruct (Req_EM_T s 1); [easy|].
  unfold Rmin, Rmax. repeat destruct Rle_dec; lra.
Qed.

Section Weg.
Variables (N : nat) (g : vec -> vec) (sclx : vec) (tolx : R) (wait : nat) (qmin qmax : R).
Hypothesis Hw : (1 <= wait)%nat.

(** what one iteration does to the trace *)
Definition weg_next (L : list vec) (k : nat) : Prop :=
  ((k < wait)%nat -> at_ L (S k) = g (at_ L k)) /\
  ((wait <= k)%nat -> forall i,
     let s := weg_s (at_ L k i - at_ L (k - 1) i) (g (at_ L k) i - g (at_ L (k - 1)) i) in
     let q := weg_q qmin qmax s in
     at_ L (S k) i = q * at_ L k i + (1 - q) * g (at_ L k) i) /\
  ~ (norm_inf N (fun i => sclx i * (g (at_ L k) i - at_ L k i)) <= tolx).

Lemma weg_next_app L x k : (S k < length L)%nat -> weg_next L k -> weg_next (L ++ [x]) k.
Proof.
  intros Hk H. unfold weg_next. rewrite !at_app_old by lia. exact H.
Qed.

Lemma weg_loop_spec n : forall k x xm gxm tr,
  length tr = k ->
  ((0 < k)%nat -> at_ tr (k - 1) = xm /\ gxm = g xm) ->
  (forall j, (S j < length (tr ++ [x]))%nat -> weg_next (tr ++ [x]) j) ->
  exists T r,
    weg_loop N g sclx tolx wait qmin qmax (S n) k x xm gxm tr = (T, Ok r) /\
    (exists T', T = (tr ++ [x]) ++ T') /\
    length T = v_niter r /\ v_nfeval r = v_niter r /\
    (k + 1 <= v_niter r <= k + S n)%nat /\
    at_ T (v_niter r - 1) = v_x r /\
    (v_f r = fun i => g (v_x r) i - v_x r i) /\
    (v_success r = true <-> norm_inf N (fun i => sclx i * v_f r i) <= tolx) /\
    (v_success r = false -> v_niter r = (k + S n)%nat) /\
    (forall j, (S j < length T)%nat -> weg_next T j).
Proof.
  induction n as [|n IH]; intros k x xm gxm tr Hlen Hprev Hrel; cbn [weg_loop].
  all: destruct (Rleb (norm_inf N (fun i => sclx i * (g x i - x i))) tolx) eqn:Ec.
  all: try (match goal with |- exists T r, (?T0, Ok ?r0) = _ /\ _ => exists T0, r0 end;
    cbn [v_niter v_nfeval v_x v_f v_success]; rewrite app_length; cbn [length];
    split; [easy|]; split; [exists nil; now rewrite app_nil_r|];
    split; [lia|]; split; [lia|]; split; [lia|];
    split; [apply at_app_new; lia|]; split; [easy|];
    split; [try (rewrite Rleb_true in Ec); try (rewrite Rleb_false in Ec);
            split; intros; try easy; try lra|];
    split; [intros; try easy; lia|];
    rewrite app_length in Hrel; exact Hrel).
  (* continue *)
  apply Rleb_false in Ec.
  set (x1 := fun i : nat =>
     (weg_q qmin qmax (weg_s (x i - xm i) (g x i - gxm i)) * x i
      + (1 - weg_q qmin qmax (weg_s (x i - xm i) (g x i - gxm i))) * g x i)).
  assert (G : forall x2, ((k < wait)%nat -> x2 = g x) -> ((wait <= k)%nat -> x2 = x1) ->
     forall j, (S j < length ((tr ++ [x]) ++ [x2]))%nat -> weg_next ((tr ++ [x]) ++ [x2]) j).
  { intros x2 H1 H2 j Hj. rewrite !app_length in Hj. cbn [length] in Hj.
    destruct (Nat.eq_dec j (length tr)) as [->|Hne].
    - unfold weg_next. rewrite (at_app_new _ x2) by (rewrite app_length; simpl; lia).
      rewrite !(at_app_old _ x2) by (rewrite app_length; simpl; lia).
      rewrite (at_app_new tr x) by lia.
      split; [intros; apply H1; lia|]. split; [|lra].
      intros Hk i. cbv zeta. rewrite (H2 ltac:(lia)). unfold x1.
      rewrite at_app_old by lia.
      destruct (Hprev ltac:(lia)) as [E1 E2]. rewrite Hlen, E1, E2. easy.
    - apply weg_next_app; [rewrite app_length; simpl; lia|].
      apply Hrel. rewrite app_length. simpl. lia. }
  assert (K : forall x2,
     ((k < wait)%nat -> x2 = g x) -> ((wait <= k)%nat -> x2 = x1) ->
     exists T r,
    weg_loop N g sclx tolx wait qmin qmax (S n) (S k) x2 x (g x) (tr ++ [x]) = (T, Ok r) /\
    (exists T', T = (tr ++ [x]) ++ T') /\
    length T = v_niter r /\ v_nfeval r = v_niter r /\
    (k + 1 <= v_niter r <= k + S (S n))%nat /\
    at_ T (v_niter r - 1) = v_x r /\
    (v_f r = fun i => g (v_x r) i - v_x r i) /\
    (v_success r = true <-> norm_inf N (fun i => sclx i * v_f r i) <= tolx) /\
    (v_success r = false -> v_niter r = (k + S (S n))%nat) /\
    (forall j, (S j < length T)%nat -> weg_next T j)).
  { intros x2 H1 H2.
    destruct (IH (S k) x2 x (g x) (tr ++ [x])) as (T & r & E & (T' & ET) & R1 & R2 & R3 & R4).
    - rewrite app_length; simpl; lia.
    - intros _. split; [|easy]. apply at_app_new. lia.
    - apply G; auto.
    - exists T, r. split; [exact E|]. split.
      { exists ([x2] ++ T'). now rewrite ET, <- app_assoc. }
      split; [auto|]. split; [auto|]. split; [lia|].
      destruct R4 as (R4 & R5 & R6 & R7 & R8).
      repeat (split; auto). intros Hs. specialize (R7 Hs). lia. }
  destruct (Nat.ltb_spec k wait).
  - apply K; [easy|lia].
  - apply K; [lia|easy].
Qed.
End Weg.

(* ------------------------------------------------------------------ *)
(** * Anderson *)
(* ------------------------------------------------------------------ *)
Section And.
Variables (N m : nat) (g : vec -> vec) (sclx : vec) (tolx : R) (orc : lsq).
Hypothesis Hm : (1 <= m)%nat.

Definition res_ (x : vec) : vec := fun i => g x i - x i.

(** differences used at iteration k, oldest first: mk of them, column j is the
    difference between points k-mk+j+1 and k-mk+j of the trace. *)
Definition dcol (h : vec -> vec) (L : list vec) (k mk j : nat) : vec :=
  fun i => h (at_ L (k - mk + j + 1)%nat) i - h (at_ L (k - mk + j)%nat) i.

Definition and_next (L : list vec) (k : nat) : Prop :=
  let mk := Nat.min m k in
  ~ (norm_inf N (fun i => sclx i * res_ (at_ L k) i) <= tolx) /\
  exists gamma,
    orc k mk (fun j => if (j <? mk)%nat then dcol res_ L k mk j
                       else (fun i => res_ (at_ L k) i - res_ (at_ L (k - 1)%nat) i))
        (res_ (at_ L k)) = LsGamma gamma /\
    forall i, at_ L (S k) i =
      g (at_ L k) i - sumn mk (fun j => gamma j * dcol g L k mk j i).

(** invariant of the stored differences after the shift at iteration k *)
Definition dinv (h : vec -> vec) (L : list vec) (k : nat) (D : nat -> vec) : Prop :=
  (forall j, (j < Nat.min m k)%nat -> forall i,
    D (m - 1 - j)%nat i = h (at_ L (k - j)%nat) i - h (at_ L (k - j - 1)%nat) i) /\
  (forall r, (m - 1 <= r)%nat -> forall i,
    D r i = h (at_ L k) i - h (at_ L (k - 1)%nat) i).

Lemma dinv_shift h L k D x :
  (1 <= k)%nat -> length L = k ->
  ((2 <= k)%nat -> dinv h L (k - 1) D) ->
  dinv h (L ++ [x]) k
    (shift_in m D (fun i => - h (at_ L (k - 1)%nat) i + h x i)).
Proof.
  intros Hk Hlen HD. split.
  - intros j Hj i. unfold shift_in.
    destruct (Nat.eq_dec j 0) as [->|Hj0].
    + destruct (Nat.ltb_spec (S (m - 1 - 0)) m); [lia|].
      rewrite Nat.sub_0_r. rewrite (at_app_new L x k) by lia.
      rewrite at_app_old by lia. ring.
    + destruct (Nat.ltb_spec (S (m - 1 - j)) m); [|lia].
      destruct (HD ltac:(lia)) as [H1 _].
      replace (S (m - 1 - j)) with (m - 1 - (j - 1))%nat by lia.
      rewrite H1 by lia. rewrite !at_app_old by lia.
      replace (k - 1 - (j - 1))%nat with (k - j)%nat by lia. easy.
  - intros r Hr i. unfold shift_in. destruct (Nat.ltb_spec (S r) m); [lia|].
    rewrite (at_app_new L x k) by lia. rewrite at_app_old by lia. ring.
Qed.

Lemma dinv_col h L k D : (1 <= k)%nat -> dinv h L k D ->
  (fun j => D (m - Nat.min m k + j)%nat) =
  (fun j => if (j <? Nat.min m k)%nat then dcol h L k (Nat.min m k) j
            else (fun i => h (at_ L k) i - h (at_ L (k - 1)%nat) i)).
Proof.
  intros Hk [H1 H2]. apply functional_extensionality; intros j.
  apply functional_extensionality; intros i.
  destruct (Nat.ltb_spec j (Nat.min m k)).
  - unfold dcol.
    replace (m - Nat.min m k + j)%nat with (m - 1 - (Nat.min m k - 1 - j))%nat by lia.
    rewrite H1 by lia.
    replace (k - (Nat.min m k - 1 - j))%nat with (k - Nat.min m k + j + 1)%nat by lia.
    replace (k - Nat.min m k + j + 1 - 1)%nat with (k - Nat.min m k + j)%nat by lia. easy.
  - apply H2. lia.
Qed.

Lemma and_next_app L x k : (S k < length L)%nat -> and_next L k -> and_next (L ++ [x]) k.
Proof.
  intros Hk [H0 [gam [H1 H2]]].
  split; [rewrite at_app_old by lia; exact H0|]. exists gam.
  assert (EC : forall h j, (j < Nat.min m k)%nat ->
     dcol h (L ++ [x]) k (Nat.min m k) j = dcol h L k (Nat.min m k) j).
  { intros h j Hj. unfold dcol. rewrite !at_app_old by lia. easy. }
  split.
  - rewrite <- H1. rewrite !at_app_old by lia. f_equal.
    apply functional_extensionality; intros j.
    destruct (Nat.ltb_spec j (Nat.min m k)); auto.
  - intros i. rewrite !at_app_old by lia. rewrite H2. f_equal.
    apply sumn_ext. intros j Hj. now rewrite EC.
Qed.

Lemma and_loop_spec n : forall k x gx fx dG dF tr,
  (1 <= k)%nat -> length tr = k ->
  gx = g (at_ tr (k - 1)) -> fx = res_ (at_ tr (k - 1)) ->
  ((2 <= k)%nat -> dinv g tr (k - 1) dG /\ dinv res_ tr (k - 1) dF) ->
  (forall j, (1 <= j)%nat -> (S j < length (tr ++ [x]))%nat -> and_next (tr ++ [x]) j) ->
  exists T r,
    and_loop N m g sclx tolx orc (S n) k x gx fx dG dF tr = (T, Ok r) /\
    (exists T', T = (tr ++ [x]) ++ T') /\
    length T = v_niter r /\ v_nfeval r = v_niter r /\
    (k + 1 <= v_niter r <= k + S n)%nat /\
    at_ T (v_niter r - 1) = v_x r /\
    (v_f r = fun i => g (v_x r) i - v_x r i) /\
    (v_success r = true <-> norm_inf N (fun i => sclx i * v_f r i) <= tolx) /\
    (v_success r = false -> v_niter r = (k + S n)%nat \/ v_msg r = FMsgQR \/ v_msg r = FMsgLsq) /\
    (forall j, (1 <= j)%nat -> (S j < length T)%nat -> and_next T j).
Proof.
  induction n as [|n IH]; intros k x gx fx dG dF tr Hk Hlen Hgx Hfx Hd Hrel; cbn [and_loop].
  all: destruct (Rleb (norm_inf N (fun i => sclx i * (g x i - x i))) tolx) eqn:Ec.
  all: try (destruct (orc k (Nat.min m k) _ _) as [| |gam] eqn:Eo).
  all: try (match goal with |- exists T r, (?T0, Ok ?r0) = _ /\ _ => exists T0, r0 end;
    cbn [v_niter v_nfeval v_x v_f v_success v_msg]; rewrite app_length; cbn [length];
    split; [easy|]; split; [exists nil; now rewrite app_nil_r|];
    split; [lia|]; split; [lia|]; split; [lia|];
    split; [apply at_app_new; lia|]; split; [easy|];
    split; [try (rewrite Rleb_true in Ec); try (rewrite Rleb_false in Ec);
            split; intros; try easy; try lra|];
    split; [intros; try easy; try (left; lia); auto|];
    rewrite app_length in Hrel; exact Hrel).
  set (dG' := shift_in m dG (fun i => - gx i + g x i)) in *.
  set (dF' := shift_in m dF (fun i => - fx i + (g x i - x i))) in *.
  set (x1 := fun i => g x i - sumn (Nat.min m k) (fun j => gam j * dG' (m - Nat.min m k + j)%nat i)).
  assert (DG : dinv g (tr ++ [x]) k dG').
  { unfold dG'. rewrite Hgx. apply dinv_shift; auto. intros; now apply Hd. }
  assert (DF : dinv res_ (tr ++ [x]) k dF').
  { unfold dF'. rewrite Hfx.
    change (fun i => - res_ (at_ tr (k - 1)) i + (g x i - x i))
      with (fun i => - res_ (at_ tr (k - 1)) i + res_ x i).
    apply dinv_shift; auto. intros; now apply Hd. }
  destruct (IH (S k) x1 (g x) (fun i => g x i - x i) dG' dF' (tr ++ [x]))
    as (T & r & E & (T' & ET) & R1 & R2 & R3 & R4 & R5 & R6 & R7 & R8).
  - lia.
  - rewrite app_length; simpl; lia.
  - rewrite at_app_new by lia. easy.
  - rewrite at_app_new by lia. easy.
  - intros _. replace (S k - 1)%nat with k by lia. auto.
  - intros j Hj1 Hj. rewrite !app_length in Hj. cbn [length] in Hj.
    destruct (Nat.eq_dec j k) as [->|Hne].
    + split.
      { rewrite (at_app_old _ x1) by (rewrite app_length; simpl; lia).
        rewrite at_app_new by lia. apply Rleb_false in Ec. unfold res_. lra. }
      exists gam.
      assert (EC : forall h j, (j < Nat.min m k)%nat ->
         dcol h ((tr ++ [x]) ++ [x1]) k (Nat.min m k) j = dcol h (tr ++ [x]) k (Nat.min m k) j).
      { intros h j Hj'. unfold dcol. rewrite !(at_app_old _ x1) by (rewrite app_length; simpl; lia). easy. }
      assert (L1 : length (tr ++ [x]) = S k) by (rewrite app_length; simpl; lia).
      rewrite (at_app_old _ x1 k), (at_app_old _ x1 (k - 1)) by lia.
      rewrite (at_app_new (tr ++ [x]) x1) by lia.
      split.
      * rewrite <- Eo. rewrite (dinv_col _ _ _ _ Hk DF).
        rewrite (at_app_new tr x k) by lia. change (res_ x) with (fun i => g x i - x i).
        f_equal. apply functional_extensionality; intros j.
        destruct (Nat.ltb_spec j (Nat.min m k)); auto.
      * intros i. unfold x1. rewrite (at_app_new tr x k) by lia. f_equal.
        apply sumn_ext. intros j Hj'. f_equal.
        change (dG' (m - Nat.min m k + j)%nat i)
          with ((fun j => dG' (m - Nat.min m k + j)%nat) j i).
        rewrite (dinv_col _ _ _ _ Hk DG). rewrite EC by auto.
        destruct (Nat.ltb_spec j (Nat.min m k)); [easy|lia].
    + apply and_next_app; [rewrite app_length; simpl; lia|].
      apply Hrel; auto. rewrite app_length. simpl. lia.
  - exists T, r. split; [exact E|]. split.
    { exists ([x1] ++ T'). now rewrite ET, <- app_assoc. }
    split; [auto|]. split; [auto|]. split; [lia|].
    split; [auto|]. split; [auto|]. split; [auto|]. split; [|auto].
    intros Hs. destruct (R7 Hs) as [R|R]; [left; lia|auto].
Qed.
End And.
