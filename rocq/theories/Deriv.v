(** Derivative rules on R in the form "derivative equals l", used by the thermodynamic
    consistency proofs.  Nothing here is specific to polykin. *)
From Coq Require Import Reals Lra Lia.
From Coquelicot Require Import Coquelicot.
From Verif Require Import Prelude.
Open Scope R_scope.

Definition D (f : R -> R) (x l : R) : Prop := is_derive f x l.

Lemma D_eq f x l l' : D f x l -> l = l' -> D f x l'.
Proof. intros H <-. exact H. Qed.
Lemma D_ext f g x l : (forall t, f t = g t) -> D f x l -> D g x l.
Proof. intros H. apply is_derive_ext. exact H. Qed.
(** functions that agree near x *)
Lemma D_ext_loc f g x l e : 0 < e -> (forall t, Rabs (t - x) < e -> f t = g t) -> D f x l -> D g x l.
Proof.
  intros He H. apply is_derive_ext_loc. exists (mkposreal e He). intros y Hy. apply H. exact Hy.
Qed.
Lemma D_const c x : D (fun _ => c) x 0.
Proof. apply is_derive_Reals. apply derivable_pt_lim_const. Qed.
Lemma D_id x : D (fun t => t) x 1.
Proof. apply is_derive_Reals. apply derivable_pt_lim_id. Qed.
Lemma D_plus f g x a b : D f x a -> D g x b -> D (fun t => f t + g t) x (a + b).
Proof. intros A B. apply is_derive_Reals. apply (derivable_pt_lim_plus f g); now apply is_derive_Reals. Qed.
Lemma D_minus f g x a b : D f x a -> D g x b -> D (fun t => f t - g t) x (a - b).
Proof. intros A B. apply is_derive_Reals. apply (derivable_pt_lim_minus f g); now apply is_derive_Reals. Qed.
Lemma D_opp f x a : D f x a -> D (fun t => - f t) x (- a).
Proof. intros A. apply is_derive_Reals. apply (derivable_pt_lim_opp f); now apply is_derive_Reals. Qed.
Lemma D_mult f g x a b : D f x a -> D g x b -> D (fun t => f t * g t) x (a * g x + f x * b).
Proof. intros A B. apply is_derive_Reals. apply (derivable_pt_lim_mult f g); now apply is_derive_Reals. Qed.
Lemma D_scal c f x a : D f x a -> D (fun t => c * f t) x (c * a).
Proof. intros A. eapply D_eq; [apply (D_mult (fun _ => c) f x 0 a); [apply D_const|exact A]|ring]. Qed.
Lemma D_div f g x a b : D f x a -> D g x b -> g x <> 0 -> D (fun t => f t / g t) x ((a * g x - f x * b) / (g x) ^ 2).
Proof.
  intros A B H. apply is_derive_Reals. apply is_derive_Reals in A. apply is_derive_Reals in B.
  pose proof (derivable_pt_lim_div f g x a b A B H) as Q. unfold Rsqr in Q.
  refine (eq_ind _ (fun l => derivable_pt_lim _ x l) Q _ _). field. auto.
Qed.
Lemma D_comp f g x a b : D g x b -> D f (g x) a -> D (fun t => f (g t)) x (a * b).
Proof. intros A B. apply is_derive_Reals. apply (derivable_pt_lim_comp g f); now apply is_derive_Reals. Qed.
Lemma D_ln f x a : D f x a -> 0 < f x -> D (fun t => ln (f t)) x (a / f x).
Proof.
  intros A H. eapply D_eq; [apply (D_comp ln f x (/ f x) a A)|field; lra].
  apply is_derive_Reals. now apply derivable_pt_lim_ln.
Qed.
Lemma D_exp f x a : D f x a -> D (fun t => exp (f t)) x (exp (f x) * a).
Proof. intros A. apply (D_comp exp f x); auto. apply is_derive_Reals. apply derivable_pt_lim_exp. Qed.
Lemma D_sumn n (f : nat -> R -> R) (d : nat -> R) x :
  (forall i, (i < n)%nat -> D (f i) x (d i)) -> D (fun t => sumn n (fun i => f i t)) x (sumn n d).
Proof. intros H. now apply (is_derive_sumn n f d x). Qed.
Lemma D_unique f x a b : D f x a -> D f x b -> a = b.
Proof. intros A B. apply is_derive_unique in A. apply is_derive_unique in B. congruence. Qed.

(** one component of a vector as a variable *)
Lemma D_upd n i j : D (fun t => upd n i t j) (n i) (delta i j).
Proof.
  unfold delta. destruct (Nat.eq_dec i j) as [<-|H].
  - apply (D_ext (fun t => t)); [|apply D_id]. intros t. now rewrite upd_same.
  - apply (D_ext (fun _ => n j)); [|apply D_const]. intros t. now rewrite upd_other by auto.
Qed.
Lemma upd_id n i (j : nat) : upd n i (n i) j = (n j : R).
Proof. unfold upd. destruct (Nat.eq_dec j i) as [->|]; reflexivity. Qed.
(** a weighted sum of the components *)
Lemma D_lin N n i (c : nat -> R) : (i < N)%nat -> D (fun t => sumn N (fun j => upd n i t j * c j)) (n i) (c i).
Proof.
  intros Hi. eapply D_eq.
  - apply (D_sumn N (fun j t => upd n i t j * c j) (fun j => delta i j * c j)).
    intros j Hj. eapply D_eq; [apply (D_mult (fun t => upd n i t j) (fun _ => c j)); [apply D_upd|apply D_const]|cbv beta; ring].
  - now apply (sumn_delta_l N i c).
Qed.
Lemma lin_id N n i (c : nat -> R) : sumn N (fun j => upd n i (n i) j * c j) = sumn N (fun j => n j * c j).
Proof. apply sumn_ext. intros j _. now rewrite upd_id. Qed.
Lemma D_atan f x a : D f x a -> D (fun t => atan (f t)) x (a / (1 + (f x) ^ 2)).
Proof.
  intros A. eapply D_eq; [apply (D_comp atan f x (/ (1 + (f x) ^ 2)) a A)|unfold Rdiv; ring].
  apply is_derive_Reals. apply derivable_pt_lim_atan.
Qed.
Lemma D_sin f x a : D f x a -> D (fun t => sin (f t)) x (cos (f x) * a).
Proof. intros A. apply (D_comp sin f x); auto. apply is_derive_Reals. apply derivable_pt_lim_sin. Qed.
Lemma D_cos f x a : D f x a -> D (fun t => cos (f t)) x (- sin (f x) * a).
Proof. intros A. apply (D_comp cos f x); auto. apply is_derive_Reals. apply derivable_pt_lim_cos. Qed.
(** difference quotients of a function vanishing at 0 *)
Lemma D_quot f l : f 0 = 0 -> D f 0 l -> forall e, 0 < e -> exists d, 0 < d /\ forall h, h <> 0 -> Rabs h < d -> Rabs (f h / h - l) < e.
Proof.
  intros Z A e He. apply is_derive_Reals in A. destruct (A e He) as (d & Hd). exists d. split; [apply cond_pos|].
  intros h H1 H2. specialize (Hd h H1 H2). rewrite Rplus_0_l, Z, Rminus_0_r in Hd. exact Hd.
Qed.
