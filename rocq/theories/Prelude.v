(** Common vocabulary: exceptions as values, extended floats, finite sums over
    numpy vectors.  Nothing in this file is specific to one polykin module. *)
From Coq Require Import Reals Lra Lia List Bool Arith.
From Coquelicot Require Import Coquelicot.
Import ListNotations.
Open Scope R_scope.

(* ------------------------------------------------------------------ *)
(** * Exceptions as values                                            *)
(* ------------------------------------------------------------------ *)

(** Exceptions observable by a caller.  RangeError, ShapeError, RootSolverError,
    ConvergenceError are the subclasses of ValueError of
    src/polykin/utils/exceptions.py; the others are Python built-ins. *)
Inductive exn : Set :=
| ValueError | RangeError | ShapeError | TypeError | ZeroDivisionError
| UnboundLocalError | RootSolverError | ConvergenceError | LinAlgError
| RecursionError | IndexError | KeyError | AttributeError | NotImplementedErr.

Inductive res (A : Type) : Type :=
| Ok : A -> res A
| Err : exn -> res A.
Arguments Ok {A} _.
Arguments Err {A} _.

Definition bind {A B} (x : res A) (f : A -> res B) : res B :=
  match x with Ok a => f a | Err e => Err e end.
Notation "'do' x <- e1 ; e2" := (bind e1 (fun x => e2))
  (at level 200, x pattern, e1 at level 100, e2 at level 200, right associativity).

Definition is_ok {A} (x : res A) : Prop := exists a, x = Ok a.
Definition raises {A} (x : res A) (e : exn) : Prop := x = Err e.

(* ------------------------------------------------------------------ *)
(** * Extended floats                                                 *)
(* ------------------------------------------------------------------ *)

(** A Python float without rounding: a real, an infinity, or NaN. *)
Inductive fl : Type := Fin (r : R) | PInf | NInf | NaN.

Definition Rleb (x y : R) : bool := if Rle_dec x y then true else false.
Definition Rltb (x y : R) : bool := if Rlt_dec x y then true else false.
Definition Reqb (x y : R) : bool := if Req_EM_T x y then true else false.

Lemma Rleb_true x y : Rleb x y = true <-> x <= y.
Proof. unfold Rleb; destruct (Rle_dec x y); split; intros; try easy; lra. Qed.
Lemma Rleb_false x y : Rleb x y = false <-> y < x.
Proof. unfold Rleb; destruct (Rle_dec x y); split; intros; try easy; lra. Qed.
Lemma Rltb_true x y : Rltb x y = true <-> x < y.
Proof. unfold Rltb; destruct (Rlt_dec x y); split; intros; try easy; lra. Qed.
Lemma Rltb_false x y : Rltb x y = false <-> y <= x.
Proof. unfold Rltb; destruct (Rlt_dec x y); split; intros; try easy; lra. Qed.
Lemma Reqb_true x y : Reqb x y = true <-> x = y.
Proof. unfold Reqb; destruct (Req_EM_T x y); split; intros; try easy; lra. Qed.
Lemma Reqb_false x y : Reqb x y = false <-> x <> y.
Proof. unfold Reqb; destruct (Req_EM_T x y); split; intros; try easy; lra. Qed.

Ltac rdec :=
  repeat match goal with
  | H : Rleb _ _ = true |- _ => apply Rleb_true in H
  | H : Rleb _ _ = false |- _ => apply Rleb_false in H
  | H : Rltb _ _ = true |- _ => apply Rltb_true in H
  | H : Rltb _ _ = false |- _ => apply Rltb_false in H
  | H : Reqb _ _ = true |- _ => apply Reqb_true in H
  | H : Reqb _ _ = false |- _ => apply Reqb_false in H
  | |- Rleb _ _ = true => apply Rleb_true
  | |- Rleb _ _ = false => apply Rleb_false
  | |- Rltb _ _ = true => apply Rltb_true
  | |- Rltb _ _ = false => apply Rltb_false
  | |- Reqb _ _ = true => apply Reqb_true
  | |- Reqb _ _ = false => apply Reqb_false
  end.

(** Python [a <= b] on floats: false as soon as NaN is involved. *)
Definition fleb (a b : fl) : bool :=
  match a, b with
  | NaN, _ | _, NaN => false
  | NInf, _ => true
  | _, PInf => true
  | Fin x, Fin y => Rleb x y
  | _, _ => false
  end.
Definition fltb (a b : fl) : bool :=
  match a, b with
  | NaN, _ | _, NaN => false
  | NInf, NInf => false
  | PInf, _ => false
  | NInf, _ => true
  | _, PInf => true
  | Fin x, Fin y => Rltb x y
  | _, _ => false
  end.

(* ------------------------------------------------------------------ *)
(** * Python scalar division                                          *)
(* ------------------------------------------------------------------ *)
(** [a / b] on Python floats raises ZeroDivisionError for b = 0. *)
Definition pydiv (a b : R) : res R :=
  if Req_EM_T b 0 then Err ZeroDivisionError else Ok (a / b).

Lemma pydiv_ok a b : b <> 0 -> pydiv a b = Ok (a / b).
Proof. intros; unfold pydiv; destruct (Req_EM_T b 0); easy. Qed.
Lemma pydiv_zero a b : b = 0 -> pydiv a b = Err ZeroDivisionError.
Proof. intros; unfold pydiv; destruct (Req_EM_T b 0); easy. Qed.

(* ------------------------------------------------------------------ *)
(** * Finite sums over vectors (numpy [sum], [dot])                   *)
(* ------------------------------------------------------------------ *)
Fixpoint sumn (n : nat) (f : nat -> R) : R :=
  match n with O => 0 | S k => sumn k f + f k end.

Lemma sumn_ext n f g : (forall i, (i < n)%nat -> f i = g i) -> sumn n f = sumn n g.
Proof.
  induction n as [|n IH]; intros H; simpl; [easy|].
  rewrite IH, H; auto.
Qed.
Lemma sumn_plus n f g : sumn n (fun i => f i + g i) = sumn n f + sumn n g.
Proof. induction n as [|n IH]; simpl; [lra|rewrite IH; lra]. Qed.
Lemma sumn_minus n f g : sumn n (fun i => f i - g i) = sumn n f - sumn n g.
Proof. induction n as [|n IH]; simpl; [lra|rewrite IH; lra]. Qed.
Lemma sumn_opp n f : sumn n (fun i => - f i) = - sumn n f.
Proof. induction n as [|n IH]; simpl; [lra|rewrite IH; lra]. Qed.
Lemma sumn_scal n c f : sumn n (fun i => c * f i) = c * sumn n f.
Proof. induction n as [|n IH]; simpl; [lra|rewrite IH; lra]. Qed.
Lemma sumn_scal_r n c f : sumn n (fun i => f i * c) = sumn n f * c.
Proof. induction n as [|n IH]; simpl; [lra|rewrite IH; lra]. Qed.
Lemma sumn_div n c f : sumn n (fun i => f i / c) = sumn n f / c.
Proof. unfold Rdiv; apply sumn_scal_r. Qed.
Lemma sumn_zero n : sumn n (fun _ => 0) = 0.
Proof. induction n as [|n IH]; simpl; lra. Qed.
Lemma sumn_zero' n f : (forall i, (i < n)%nat -> f i = 0) -> sumn n f = 0.
Proof. intros H; rewrite <- (sumn_zero n); now apply sumn_ext. Qed.
Lemma sumn_const n c : sumn n (fun _ => c) = INR n * c.
Proof. induction n as [|n IH]; [simpl; lra|]. rewrite S_INR; simpl; rewrite IH; lra. Qed.
Lemma sumn_swap n m (f : nat -> nat -> R) :
  sumn n (fun i => sumn m (fun j => f i j)) = sumn m (fun j => sumn n (fun i => f i j)).
Proof.
  induction n as [|n IH]; simpl.
  - rewrite sumn_zero; easy.
  - rewrite IH, <- sumn_plus; easy.
Qed.
Lemma sumn_le n f g : (forall i, (i < n)%nat -> f i <= g i) -> sumn n f <= sumn n g.
Proof.
  induction n as [|n IH]; intros H; simpl; [lra|].
  apply Rplus_le_compat; auto.
Qed.
Lemma sumn_nonneg n f : (forall i, (i < n)%nat -> 0 <= f i) -> 0 <= sumn n f.
Proof. intros H; rewrite <- (sumn_zero n); now apply sumn_le. Qed.
Lemma sumn_ge_term n f k :
  (forall i, (i < n)%nat -> 0 <= f i) -> (k < n)%nat -> f k <= sumn n f.
Proof.
  induction n as [|n IH]; intros H Hk; [lia|]; simpl.
  destruct (Nat.eq_dec k n) as [->|Hne].
  - assert (0 <= sumn n f) by (apply sumn_nonneg; auto). lra.
  - assert (f k <= sumn n f) by (apply IH; auto; lia).
    specialize (H n (Nat.lt_succ_diag_r n)). lra.
Qed.
Lemma sumn_pos n f k :
  (forall i, (i < n)%nat -> 0 <= f i) -> (k < n)%nat -> 0 < f k -> 0 < sumn n f.
Proof. intros H Hk Hp. pose proof (sumn_ge_term n f k H Hk). lra. Qed.
Lemma sumn_lt n f g k :
  (forall i, (i < n)%nat -> f i <= g i) -> (k < n)%nat -> f k < g k -> sumn n f < sumn n g.
Proof.
  intros H Hk Hlt.
  assert (0 < sumn n (fun i => g i - f i)).
  { apply (sumn_pos n _ k); auto; [intros i Hi; specialize (H i Hi); lra | lra]. }
  rewrite sumn_minus in H0. lra.
Qed.
Lemma sumn_nonneg_zero n f :
  (forall i, (i < n)%nat -> 0 <= f i) -> sumn n f = 0 -> forall i, (i < n)%nat -> f i = 0.
Proof.
  intros H Hs i Hi. pose proof (sumn_ge_term n f i H Hi). specialize (H i Hi). lra.
Qed.
Lemma sumn_abs n f : Rabs (sumn n f) <= sumn n (fun i => Rabs (f i)).
Proof.
  induction n as [|n IH]; simpl; [rewrite Rabs_R0; lra|].
  eapply Rle_trans; [apply Rabs_triang|]. lra.
Qed.
Lemma sumn_S_first n f : sumn (S n) f = f 0%nat + sumn n (fun i => f (S i)).
Proof.
  induction n as [|n IH]; [simpl; lra|].
  change (sumn (S (S n)) f) with (sumn (S n) f + f (S n)).
  rewrite IH; simpl; lra.
Qed.
Lemma sumn_add n m f : sumn (n + m) f = sumn n f + sumn m (fun i => f (n + i)%nat).
Proof.
  induction m as [|m IH]; simpl.
  - rewrite Nat.add_0_r; lra.
  - rewrite Nat.add_succ_r; simpl; rewrite IH; lra.
Qed.

(** Kronecker delta. *)
Definition delta (i j : nat) : R := if Nat.eq_dec i j then 1 else 0.
Lemma delta_eq i : delta i i = 1.
Proof. unfold delta; destruct (Nat.eq_dec i i); easy. Qed.
Lemma delta_neq i j : i <> j -> delta i j = 0.
Proof. unfold delta; destruct (Nat.eq_dec i j); easy. Qed.
Lemma delta_sym i j : delta i j = delta j i.
Proof. unfold delta; destruct (Nat.eq_dec i j), (Nat.eq_dec j i); subst; easy. Qed.
Lemma sumn_delta n k f : (k < n)%nat -> sumn n (fun i => delta i k * f i) = f k.
Proof.
  induction n as [|n IH]; intros Hk; [lia|]; simpl.
  destruct (Nat.eq_dec k n) as [->|Hne].
  - rewrite delta_eq.
    rewrite (sumn_zero' n); [lra|]. intros i Hi; rewrite delta_neq by lia; lra.
  - rewrite IH by lia. rewrite delta_neq by lia; lra.
Qed.
Lemma sumn_delta_l n k f : (k < n)%nat -> sumn n (fun i => delta k i * f i) = f k.
Proof.
  intros Hk; rewrite <- (sumn_delta n k f Hk); apply sumn_ext; intros; now rewrite delta_sym.
Qed.

(** Vector update: [x] with entry [i] replaced by [v] (numpy [x[i] = v]). *)
Definition upd {A} (x : nat -> A) (i : nat) (v : A) : nat -> A :=
  fun j => if Nat.eq_dec j i then v else x j.
Lemma upd_same {A} (x : nat -> A) i v : upd x i v i = v.
Proof. unfold upd; destruct (Nat.eq_dec i i); easy. Qed.
Lemma upd_other {A} (x : nat -> A) i j v : j <> i -> upd x i v j = x j.
Proof. unfold upd; destruct (Nat.eq_dec j i); easy. Qed.

(** Derivative of a finite sum. *)
Lemma is_derive_sumn n (f : nat -> R -> R) (d : nat -> R) (x : R) :
  (forall i, (i < n)%nat -> is_derive (f i) x (d i)) ->
  is_derive (fun t => sumn n (fun i => f i t)) x (sumn n d).
Proof.
  induction n as [|n IH]; intros H; simpl.
  - apply (is_derive_const (V := R_NormedModule) 0 x).
  - apply (is_derive_plus (V := R_NormedModule)
             (fun t => sumn n (fun i => f i t)) (fun t => f n t) x (sumn n d) (d n)).
    + apply IH; auto.
    + apply H; lia.
Qed.

(** Infinity norm of a vector of length n ([np.linalg.norm(v, np.inf)]). *)
Fixpoint maxn (n : nat) (f : nat -> R) : R :=
  match n with O => 0 | S k => Rmax (maxn k f) (f k) end.
Definition norm_inf (n : nat) (v : nat -> R) : R := maxn n (fun i => Rabs (v i)).

Lemma maxn_ext n f g : (forall i, (i < n)%nat -> f i = g i) -> maxn n f = maxn n g.
Proof.
  induction n as [|n IH]; intros H; simpl; [easy|]. rewrite IH, H; auto.
Qed.
Lemma maxn_ge n f i : (i < n)%nat -> f i <= maxn n f.
Proof.
  induction n as [|n IH]; intros Hi; [lia|]; simpl.
  destruct (Nat.eq_dec i n) as [->|Hne]; [apply Rmax_r|].
  eapply Rle_trans; [apply IH; lia|apply Rmax_l].
Qed.
Lemma maxn_nonneg n f : 0 <= maxn n f.
Proof. induction n as [|n IH]; simpl; [lra|]. eapply Rle_trans; [apply IH|apply Rmax_l]. Qed.
Lemma norm_inf_le n v t : 0 <= t -> (norm_inf n v <= t <-> forall i, (i < n)%nat -> Rabs (v i) <= t).
Proof.
  intros Ht; unfold norm_inf; split.
  - intros H i Hi. eapply Rle_trans; [|exact H]. apply (maxn_ge n (fun i => Rabs (v i)) i Hi).
  - induction n as [|n IH]; intros H; simpl; [easy|].
    apply Rmax_lub; auto.
Qed.
Lemma norm_inf_ext n u v : (forall i, (i < n)%nat -> u i = v i) -> norm_inf n u = norm_inf n v.
Proof. intros H; apply maxn_ext; intros i Hi; now rewrite H. Qed.

(** Weighted Cauchy-Schwarz inequality for finite sums. *)
Lemma sumn_cauchy N (w x y : nat -> R) :
  (forall i, (i < N)%nat -> 0 <= w i) ->
  (sumn N (fun i => w i * x i * y i)) ^ 2 <=
  sumn N (fun i => w i * x i ^ 2) * sumn N (fun i => w i * y i ^ 2).
Proof.
  intros Hw.
  set (A := sumn N (fun i => w i * x i ^ 2)).
  set (B := sumn N (fun i => w i * x i * y i)).
  set (C := sumn N (fun i => w i * y i ^ 2)).
  assert (HA : 0 <= A).
  { apply sumn_nonneg; intros. apply Rmult_le_pos; auto. apply pow2_ge_0. }
  destruct (Req_dec A 0) as [Z|NZ].
  - assert (B = 0).
    { apply sumn_zero'. intros i Hi.
      assert (Hz : w i * x i ^ 2 = 0).
      { apply (sumn_nonneg_zero N (fun i => w i * x i ^ 2)); auto.
        intros; apply Rmult_le_pos; auto; apply pow2_ge_0. }
      apply Rmult_integral in Hz. destruct Hz as [Hz|Hz]; [rewrite Hz; ring|].
      assert (x i = 0).
      { simpl in Hz. apply Rmult_integral in Hz. destruct Hz; auto. lra. }
      rewrite H; ring. }
    rewrite H, Z. lra.
  - assert (H : 0 <= sumn N (fun i => w i * (A * y i - B * x i) ^ 2)).
    { apply sumn_nonneg; intros. apply Rmult_le_pos; auto. apply pow2_ge_0. }
    assert (E : sumn N (fun i => w i * (A * y i - B * x i) ^ 2) = A * (A * C - B ^ 2)).
    { transitivity (sumn N (fun i => (A ^ 2 * (w i * y i ^ 2) - (2 * A * B) * (w i * x i * y i))
                                     + B ^ 2 * (w i * x i ^ 2))).
      - apply sumn_ext; intros; ring.
      - rewrite sumn_plus, sumn_minus, !sumn_scal. fold A B C. ring. }
    rewrite E in H.
    assert (0 < A) by lra.
    assert (0 <= A * C - B ^ 2); [|lra].
    apply (Rmult_le_reg_l A); lra.
Qed.
