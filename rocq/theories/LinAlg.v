(** Linear systems: Gaussian elimination over the reals, shown to meet the specification
    of numpy.linalg.solve used in CopoMultiModel (so that the specification is
    satisfiable). *)
From Coq Require Import Reals Lra Lia List Bool Arith.
From Verif Require Import Prelude UtilsModel RootsModel CopoModel CopoMultiModel.
Import ListNotations.
Open Scope R_scope.

Fixpoint find_pivot (n : nat) (A : mat) : option nat :=
  match n with
  | O => None
  | S k => if Req_EM_T (A k 0%nat) 0 then find_pivot k A else Some k
  end.
Definition skip (p i : nat) : nat := if Nat.ltb i p then i else S i.
Fixpoint gauss (N : nat) (A : mat) (b : vec) : res vec :=
  match N with
  | O => Ok (fun _ => 0)
  | S n =>
      match find_pivot N A with
      | None => Err LinAlgError
      | Some p =>
          do y <- gauss n (fun i j => A (skip p i) (S j) - A (skip p i) 0%nat / A p 0%nat * A p (S j))
                        (fun i => b (skip p i) - A (skip p i) 0%nat / A p 0%nat * b p);
          Ok (fun j => match j with
                       | O => (b p - sumn n (fun j => A p (S j) * y j)) / A p 0%nat
                       | S j => y j
                       end)
      end
  end.

Lemma find_pivot_some n A p : find_pivot n A = Some p -> (p < n)%nat /\ A p 0%nat <> 0.
Proof.
  induction n; cbn; [discriminate|]. destruct (Req_EM_T (A n 0%nat) 0).
  - intros H. destruct (IHn H). split; auto; lia.
  - intros H. injection H as <-. split; auto.
Qed.
Lemma find_pivot_none n A : find_pivot n A = None -> forall i, (i < n)%nat -> A i 0%nat = 0.
Proof.
  induction n; cbn; [lia|]. destruct (Req_EM_T (A n 0%nat) 0); [|discriminate].
  intros H i Hi. destruct (Nat.eq_dec i n) as [->|]; auto. apply IHn; auto; lia.
Qed.
Lemma skip_inv p n i : (p < S n)%nat -> (i < S n)%nat -> i <> p -> exists i', (i' < n)%nat /\ skip p i' = i.
Proof.
  intros Hp Hi Hne. unfold skip. destruct (lt_dec i p).
  - exists i. split; [lia|]. apply Nat.ltb_lt in l. now rewrite l.
  - exists (i - 1)%nat. split; [lia|]. destruct (Nat.ltb_spec (i - 1) p); lia.
Qed.
Lemma skip_lt p n i : (i < n)%nat -> (skip p i < S n)%nat.
Proof. unfold skip. destruct (Nat.ltb_spec i p); lia. Qed.

Lemma gauss_sound N : forall A b x, gauss N A b = Ok x ->
  forall i, (i < N)%nat -> sumn N (fun j => A i j * x j) = b i.
Proof.
  induction N as [|n IH]; intros A b x E i Hi; [lia|].
  cbn [gauss] in E. destruct (find_pivot (S n) A) as [p|] eqn:EP; [|discriminate].
  destruct (find_pivot_some _ _ _ EP) as (Hp & Np).
  destruct (gauss n _ _) as [y|] eqn:EY; [|discriminate]. cbn [bind] in E. injection E as <-.
  rewrite sumn_S_first. destruct (Nat.eq_dec i p) as [->|Ne].
  - field. auto.
  - destruct (skip_inv p n i Hp Hi Ne) as (i' & Hi' & <-).
    specialize (IH _ _ _ EY i' Hi'). cbn beta in IH.
    rewrite (sumn_ext n _ (fun j => A (skip p i') (S j) * y j - A (skip p i') 0%nat / A p 0%nat * (A p (S j) * y j))) in IH
      by (intros; ring).
    rewrite sumn_minus, sumn_scal in IH.
    apply (Rplus_eq_reg_r (- (A (skip p i') 0%nat / A p 0%nat * b p))).
    replace (b (skip p i') + - (A (skip p i') 0%nat / A p 0%nat * b p)) with
      (b (skip p i') - A (skip p i') 0%nat / A p 0%nat * b p) by ring.
    rewrite <- IH. field. auto.
Qed.

Lemma gauss_complete N : forall A b, nonsingular N A -> exists x, gauss N A b = Ok x.
Proof.
  induction N as [|n IH]; intros A b H; [eexists; reflexivity|].
  cbn [gauss]. destruct (find_pivot (S n) A) as [p|] eqn:EP.
  - destruct (find_pivot_some _ _ _ EP) as (Hp & Np).
    destruct (IH (fun i j => A (skip p i) (S j) - A (skip p i) 0%nat / A p 0%nat * A p (S j))
                 (fun i => b (skip p i) - A (skip p i) 0%nat / A p 0%nat * b p)) as (y & ->).
    + intros y Hy i Hi.
      set (x := fun j => match j with O => - sumn n (fun j => A p (S j) * y j) / A p 0%nat | S j => y j end).
      change (y i) with (x (S i)). apply H; [|lia]. clear i Hi. intros i Hi.
      rewrite sumn_S_first. unfold x. destruct (Nat.eq_dec i p) as [->|Ne].
      * field. auto.
      * destruct (skip_inv p n i Hp Hi Ne) as (i' & Hi' & <-).
        specialize (Hy i' Hi'). cbn beta in Hy.
        rewrite (sumn_ext n _ (fun j => A (skip p i') (S j) * y j - A (skip p i') 0%nat / A p 0%nat * (A p (S j) * y j))) in Hy
          by (intros; ring).
        rewrite sumn_minus, sumn_scal in Hy.
        rewrite <- Hy. field. auto.
    + cbn [bind]. eexists; reflexivity.
  - exfalso. pose proof (find_pivot_none _ _ EP) as Z.
    specialize (H (fun j => match j with O => 1 | S _ => 0 end)).
    assert (K : (fun j : nat => match j with O => 1 | S _ => 0 end) 0%nat = 0).
    { refine (H _ 0%nat _); [|lia]. intros i Hi. rewrite sumn_S_first, Z by auto.
      rewrite sumn_zero' by (intros; ring). ring. }
    cbn in K. lra.
Qed.

(** The specification of the linear solver is satisfiable. *)
Theorem solve_spec_gauss : solve_spec gauss.
Proof.
  intros N A b. split; [apply gauss_sound|apply gauss_complete].
Qed.
