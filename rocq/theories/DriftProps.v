(** Composition drift: the wrappers of the differential-equation solver. *)
From Coq Require Import Reals Lra Lia List Bool Arith Sorted.
From Coquelicot Require Import Rcomplements.
From Verif Require Import Prelude RootsModel CopoModel FitModel.
Import ListNotations.
Open Scope R_scope.

(** strictly increasing *)
Fixpoint increasing (l : list R) : Prop := match l with a :: ((b :: _) as l') => a < b /\ increasing l' | _ => True end.
Lemma steps_incr l : steps (fun a b => Rltb a b) l = true <-> increasing l.
Proof.
  induction l as [|a [|b l] IH]; cbn [steps increasing]; [tauto|tauto|]. rewrite andb_true_iff, IH, Rltb_true. reflexivity.
Qed.
Lemma lmax_ge l : forall a, a <= lmax a l /\ forall b, In b l -> b <= lmax a l.
Proof.
  induction l as [|c l IH]; intros a; cbn [lmax]; [split; [lra|intros b []]|]. destruct (Rltb a c) eqn:E; rdec.
  - destruct (IH c) as (H1 & H2). split; [lra|]. intros b [<-|Hb]; [exact H1|now apply H2].
  - destruct (IH a) as (H1 & H2). split; [exact H1|]. intros b [<-|Hb]; [lra|now apply H2].
Qed.
Lemma lmax_in l : forall a, lmax a l = a \/ In (lmax a l) l.
Proof. induction l as [|c l IH]; intros a; cbn [lmax]; [now left|]. destruct (Rltb a c); [destruct (IH c) as [H|H]; right; [now left|now right]|destruct (IH a) as [H|H]; [now left|right; now right]]. Qed.
Lemma incr_ge l : forall a, increasing (a :: l) -> forall b, In b l -> a < b.
Proof. induction l as [|c l IH]; intros a H b Hb; [destruct Hb|]. destruct H as (H1 & H2). destruct Hb as [<-|Hb]; [exact H1|]. pose proof (IH c H2 b Hb). lra. Qed.

(** conversions accepted, when the largest is positive: strictly increasing from a nonnegative value *)
Theorem C104_accepts ivp f10 a l r1 r2 atol rtol : 0 < lmax a l ->
  (exists o, monomer_drift_binary ivp f10 (a :: l) r1 r2 atol rtol = FOk o) <-> (0 <= a /\ increasing (a :: l)) /\ ivp (df1dx (F1r r1 r2)) (lmax a l) f10 atol rtol <> None.
Proof.
  intros HP. unfold monomer_drift_binary, solve_ivp. assert (E : t_eval_ok (lmax a l) (a :: l) = true <-> 0 <= a /\ increasing (a :: l)).
  { unfold t_eval_ok. rewrite andb_true_iff. replace (Rltb 0 (lmax a l)) with true by (symmetry; now apply Rltb_true). rewrite steps_incr. rewrite forallb_forall. rewrite Rmin_left, Rmax_right by lra. split.
    - intros (H1 & H2). split; [|exact H2]. pose proof (H1 a (or_introl eq_refl)) as H. apply andb_true_iff in H. destruct H as (H & _). now apply Rleb_true in H.
    - intros (H1 & H2). split; [|exact H2]. intros x Hx. destruct (lmax_ge l a) as (G1 & G2). apply andb_true_iff. rewrite !Rleb_true. destruct Hx as [<-|Hx]; [lra|]. pose proof (incr_ge l a H2 x Hx). pose proof (G2 x Hx). lra. }
  destruct (t_eval_ok (lmax a l) (a :: l)) eqn:T; cbn [fbind].
  - destruct (ivp _ _ _ _ _) as [y|]; cbn [fbind].
    + split; [intros _; split; [tauto|discriminate]|intros _; eexists; reflexivity].
    + split; [intros (o & H); discriminate|intros (_ & H); congruence].
  - split; [intros (o & H); discriminate|intros (H & _)]. apply E in H. discriminate.
Qed.
(** otherwise a ValueError: unsorted or repeated conversions, and an empty list *)
Theorem C104_rejects ivp f10 a l r1 r2 atol rtol : (0 < lmax a l -> ~ increasing (a :: l) \/ a < 0 -> monomer_drift_binary ivp f10 (a :: l) r1 r2 atol rtol = FErr (Raised ValueError)) /\ monomer_drift_binary ivp f10 [] r1 r2 atol rtol = FErr (Raised ValueError).
Proof.
  split; [|reflexivity]. intros HP H. unfold monomer_drift_binary, solve_ivp. replace (t_eval_ok (lmax a l) (a :: l)) with false; [reflexivity|]. symmetry. apply not_true_is_false. intros T. unfold t_eval_ok in T. apply andb_true_iff in T. destruct T as (T1 & T2). replace (Rltb 0 (lmax a l)) with true in T2 by (symmetry; now apply Rltb_true). apply steps_incr in T2. rewrite forallb_forall in T1. pose proof (T1 a (or_introl eq_refl)) as T. apply andb_true_iff in T. destruct T as (T & _). apply Rleb_true in T. rewrite Rmin_left in T by lra. destruct H as [H|H]; [tauto|lra].
Qed.

(** what is asked of the solver: one trajectory for each initial value, starting there *)
Definition ivp_spec (ivp : ivp_t) : Prop := forall rhs tf y0 atol rtol l, ivp rhs tf y0 atol rtol = Some l -> length l = length y0 /\ forall i, (i < length y0)%nat -> nth i l (fun _ => 0) 0 = nth i y0 0.

(** the values: one row for each initial value and one column for each conversion, never negative *)
Theorem C104_values ivp f10 x r1 r2 atol rtol o : ivp_spec ivp -> monomer_drift_binary ivp f10 x r1 r2 atol rtol = FOk o ->
  exists ys, ivp (df1dx (F1r r1 r2)) (lmax (hd 0 x) (tl x)) f10 atol rtol = Some ys /\ length ys = length f10 /\
    match o with
    | Row v => length f10 = 1%nat /\ length v = length x /\ forall j, (j < length x)%nat -> nth j v 0 = Rmax 0 (nth 0 ys (fun _ => 0) (nth j x 0))
    | Rows vs => length f10 <> 1%nat /\ length vs = length f10 /\ forall i, (i < length f10)%nat -> length (nth i vs []) = length x /\ forall j, (j < length x)%nat -> nth j (nth i vs []) 0 = Rmax 0 (nth i ys (fun _ => 0) (nth j x 0))
    end.
Proof.
  intros HS. destruct x as [|a l]; [discriminate|]. cbn [hd tl]. unfold monomer_drift_binary, solve_ivp. destruct (t_eval_ok (lmax a l) (a :: l)); cbn [fbind]; [|discriminate]. destruct (ivp _ _ _ _ _) as [ys|] eqn:E; [|discriminate]. intros H. injection H as <-. destruct (HS _ _ _ _ _ _ E) as (L & _). exists ys. split; [reflexivity|]. split; [exact L|]. set (x := a :: l).
  assert (G : forall y : R -> R, length (map (Rmax 0) (map y x)) = length x /\ forall j, (j < length x)%nat -> nth j (map (Rmax 0) (map y x)) 0 = Rmax 0 (y (nth j x 0))).
  { intros y. split; [now rewrite !map_length|]. intros j Hj. rewrite map_map. rewrite (nth_indep _ 0 ((fun t => Rmax 0 (y t)) 0)) by (rewrite map_length; exact Hj). now rewrite (map_nth (fun t => Rmax 0 (y t))). }
  unfold clip_rows. destruct ys as [|y [|z ys]]; cbn [map].
  - cbn [length] in L. split; [lia|]. split; [exact L|]. intros i Hi. lia.
  - cbn [length] in L. split; [lia|]. apply G.
  - cbn [length] in L. split; [lia|]. split; [cbn [length]; rewrite !map_length; exact L|]. intros i Hi.
    destruct i as [|[|i]]; cbn [nth]; [apply G|apply G|]. rewrite (nth_indep _ [] (map (Rmax 0) (map (fun _ => 0) x))) by (rewrite !map_length; cbn [length] in Hi; lia). rewrite (map_nth (map (Rmax 0))). rewrite (map_nth (fun y0 : R -> R => map y0 x)). apply G.
Qed.

(** clipping does not increase the error against compositions in [0, 1], and the start is reproduced *)
Theorem C104_error ivp f0 x r1 r2 atol rtol v (g : R -> R) tol : ivp_spec ivp -> monomer_drift_binary ivp [f0] x r1 r2 atol rtol = FOk (Row v) ->
  (forall t, In t x -> 0 <= g t <= 1) -> (forall ys, ivp (df1dx (F1r r1 r2)) (lmax (hd 0 x) (tl x)) [f0] atol rtol = Some ys -> forall t, In t x -> Rabs (nth 0 ys (fun _ => 0) t - g t) <= tol) ->
  forall j, (j < length x)%nat -> 0 <= nth j v 0 <= 1 + tol /\ Rabs (nth j v 0 - g (nth j x 0)) <= tol /\ (nth j x 0 = 0 -> 0 <= f0 -> nth j v 0 = f0).
Proof.
  intros HS E HG HT j Hj. destruct (C104_values ivp [f0] x r1 r2 atol rtol (Row v) HS E) as (ys & EY & LY & _ & LV & HV). pose proof (HG _ (nth_In x 0 Hj)) as G. pose proof (HT ys EY _ (nth_In x 0 Hj)) as T. rewrite HV by exact Hj. destruct (HS _ _ _ _ _ _ EY) as (_ & ST). pose proof (ST 0%nat ltac:(cbn; lia)) as S0. cbn [nth] in S0. set (y := nth 0 ys (fun _ => 0)) in *. apply Rabs_le_between in T. split; [|split].
  - split; [apply Rmax_l|]. apply Rmax_lub; lra.
  - unfold Rmax. destruct (Rle_dec 0 (y (nth j x 0))); apply Rabs_le; lra.
  - intros Z F. rewrite Z, S0. now rewrite Rmax_right by exact F.
Qed.

(** the methods of a model with constant reactivity ratios give the same result, unless the integration fails *)
Theorem C104_model ivp r1 r2 f10 x o : monomer_drift_binary ivp f10 x r1 r2 (1 / 10 ^ 4) (1 / 10 ^ 4) = FOk o <-> model_drift ivp (fun _ => (r1, r2)) f10 x = FOk (inl o).
Proof.
  destruct x as [|a l]; [split; discriminate|]. unfold monomer_drift_binary, model_drift, solve_ivp. destruct (t_eval_ok (lmax a l) (a :: l)); cbn [fbind]; [|split; discriminate]. change (fun x f => (f - F1r (fst (r1, r2)) (snd (r1, r2)) f) / (1 - x + eps)) with (df1dx (F1r r1 r2)). destruct (ivp _ _ _ _ _); split; intros H; try discriminate; injection H as <-; reflexivity.
Qed.

(** the exact solution for pure monomer is constant: the composition at f = 1 is 1, at f = 0 it is 0 *)
Lemma F1r_ends r1 r2 : 0 < r1 -> 0 < r2 -> F1r r1 r2 1 = 1 /\ F1r r1 r2 0 = 0.
Proof.
  intros H1 H2. unfold F1r, inst_copolymer_binary. cbv zeta. unfold np_div. split; (match goal with |- context [Reqb ?b 0] => replace (Reqb b 0) with false by (symmetry; apply Reqb_false; lra) end); field; lra.
Qed.
(** a solver accurate to 1e-5: it returns the start plus a small drift outwards *)
Definition ivp_out (s : R) : ivp_t := fun _ _ y0 _ _ => Some (map (fun f t => f + s * t / 10 ^ 5) y0).
Lemma ivp_out_spec s : ivp_spec (ivp_out s).
Proof. intros rhs tf y0 atol rtol l H. unfold ivp_out in H. injection H as <-. rewrite map_length. split; [reflexivity|]. intros i Hi. rewrite (nth_indep _ _ ((fun f t => f + s * t / 10 ^ 5) 0)) by now rewrite map_length. rewrite (map_nth (fun f t => f + s * t / 10 ^ 5)). field. Qed.
(** finding: compositions above 1 are returned (only the lower bound is enforced), so that exchanging the monomers is not a symmetry;
    here the exact solution is constant and the solver within 1e-5 of it *)
Theorem C104_upper_refuted : exists ivp x v, ivp_spec ivp /\ (forall t, In t x -> 0 <= t <= 1) /\ df1dx (F1r 1 1) 0 1 = 0 /\
  (forall ys, ivp (df1dx (F1r 1 1)) (lmax (hd 0 x) (tl x)) [1] (1 / 10 ^ 4) (1 / 10 ^ 4) = Some ys -> forall t, In t x -> Rabs (nth 0 ys (fun _ => 0) t - 1) <= 1 / 10 ^ 5) /\
  monomer_drift_binary ivp [1] x 1 1 (1 / 10 ^ 4) (1 / 10 ^ 4) = FOk (Row v) /\ exists j, (j < length x)%nat /\ 1 < nth j v 0.
Proof.
  exists (ivp_out 1), [1 / 2; 1], [Rmax 0 (1 + 1 * (1 / 2) / 10 ^ 5); Rmax 0 (1 + 1 * 1 / 10 ^ 5)]. split; [apply ivp_out_spec|]. split; [intros t [<-|[<-|[]]]; lra|]. split; [unfold df1dx; rewrite (proj1 (F1r_ends 1 1 ltac:(lra) ltac:(lra))); unfold Rdiv; ring|]. split.
  - intros ys H. unfold ivp_out in H. injection H as <-. cbn [map nth]. intros t [<-|[<-|[]]]; apply Rabs_le; lra.
  - split; [|exists 1%nat; split; [cbn; lia|]; cbn [nth]; rewrite Rmax_right; lra].
    assert (A : exists o, monomer_drift_binary (ivp_out 1) [1] [1 / 2; 1] 1 1 (1 / 10 ^ 4) (1 / 10 ^ 4) = FOk o) by (apply C104_accepts; [cbn [lmax]; destruct (Rltb (1 / 2) 1) eqn:E; rdec; lra|]; split; [cbn [increasing]; lra|discriminate]).
    destruct A as (o & A). rewrite A. destruct o as [v|vs]; unfold monomer_drift_binary, solve_ivp in A; destruct (t_eval_ok _ _); cbn [fbind ivp_out map clip_rows] in A; try discriminate. now injection A as <-.
Qed.
(** finding: the documented shape is (conversions, initial values); the rows are the initial values *)
Theorem C104_shape_refuted : exists ivp vs, ivp_spec ivp /\ monomer_drift_binary ivp [1 / 5; 4 / 5] [1 / 10; 1 / 2; 9 / 10] 1 1 (1 / 10 ^ 4) (1 / 10 ^ 4) = FOk (Rows vs) /\ length vs = 2%nat /\ forall r, In r vs -> length r = 3%nat.
Proof.
  exists (ivp_out 0). assert (A : exists o, monomer_drift_binary (ivp_out 0) [1 / 5; 4 / 5] [1 / 10; 1 / 2; 9 / 10] 1 1 (1 / 10 ^ 4) (1 / 10 ^ 4) = FOk o).
  { apply C104_accepts; [pose proof (proj1 (lmax_ge [1 / 2; 9 / 10] (1 / 10))); lra|]. split; [cbn [increasing]; lra|discriminate]. }
  destruct A as (o & A). destruct (C104_values _ _ _ _ _ _ _ _ (ivp_out_spec 0) A) as (ys & _ & _ & H). destruct o as [v|vs]; [destruct H as (H & _); discriminate|]. exists vs. split; [apply ivp_out_spec|]. split; [exact A|]. destruct H as (_ & L & H). split; [exact L|]. intros r Hr. destruct (In_nth vs r [] Hr) as (i & Hi & <-). cbn [length] in L. apply (H i). cbn [length]. lia.
Qed.
(** finding: when the integration fails, the method of the model returns as many nan as conversions, also for several initial values *)
Theorem C104_failure_refuted : exists ivp, ivp_spec ivp /\ monomer_drift_binary ivp [1 / 5; 4 / 5] [1] 1 1 (1 / 10 ^ 4) (1 / 10 ^ 4) = FErr ODESolverError /\ model_drift ivp (fun _ => (1, 1)) [1 / 5; 4 / 5] [1] = FOk (inr 1%nat).
Proof.
  exists (fun _ _ _ _ _ => None). split; [intros rhs tf y0 atol rtol l H; discriminate|]. unfold monomer_drift_binary, model_drift, solve_ivp. replace (t_eval_ok (lmax 1 []) [1]) with true; [split; reflexivity|]. symmetry. unfold t_eval_ok. cbn [lmax forallb steps]. rewrite Rmin_left, Rmax_right by lra. replace (Rltb 0 1) with true by (symmetry; apply Rltb_true; lra). replace (Rleb 0 1) with true by (symmetry; apply Rleb_true; lra). replace (Rleb 1 1) with true by (symmetry; apply Rleb_true; lra). reflexivity.
Qed.
(** one initial value, two conversions *)
Example C104_example : exists v, monomer_drift_binary (ivp_out 0) [1 / 2] [0; 1 / 2] 1 1 (1 / 10 ^ 4) (1 / 10 ^ 4) = FOk (Row v) /\ nth 0 v 0 = 1 / 2.
Proof.
  assert (A : exists o, monomer_drift_binary (ivp_out 0) [1 / 2] [0; 1 / 2] 1 1 (1 / 10 ^ 4) (1 / 10 ^ 4) = FOk o) by (apply C104_accepts; [destruct (lmax_ge [1 / 2] 0) as (_ & H); pose proof (H (1 / 2) (or_introl eq_refl)); lra|]; split; [cbn [increasing]; lra|discriminate]).
  destruct A as (o & A). destruct (C104_values _ _ _ _ _ _ _ _ (ivp_out_spec 0) A) as (ys & EY & _ & H). destruct o as [v|vs]; [|destruct H as (H & _); cbn in H; lia]. exists v. split; [exact A|]. destruct H as (_ & _ & H). rewrite (H 0%nat) by (cbn; lia). unfold ivp_out in EY. injection EY as <-. cbn [map nth]. rewrite Rmax_right; lra.
Qed.
Print Assumptions C104_accepts. Print Assumptions C104_rejects. Print Assumptions C104_values. Print Assumptions C104_error. Print Assumptions C104_model. Print Assumptions C104_upper_refuted. Print Assumptions C104_shape_refuted. Print Assumptions C104_failure_refuted.
