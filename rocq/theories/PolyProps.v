(** Final statements: polyline simplification (C15). *)
From Coq Require Import Reals Lra Lia List Bool Arith Sorted.
From Verif Require Import Prelude PolyModel PolyProofs.
Import ListNotations.
Open Scope R_scope.

(** For every polyline with nvert >= 2 vertices in N >= 2 dimensions and every
    tol >= 0 the recursion finishes (depth at most nvert) and keeps a strictly
    increasing list of indices from 0 to nvert-1; every dropped vertex lies
    strictly between two consecutive kept ones a, b and, provided these do not
    coincide as points, there is a point of the line through them within tol of
    it.  Missing for the full statement: the case of coinciding a, b, refuted
    below. *)
Theorem C15_simplify_partial : forall N nvert pts tol fuel,
  (2 <= N)%nat -> (2 <= nvert)%nat -> 0 <= tol -> (nvert <= fuel)%nat ->
  exists L, simplify_polyline fuel N nvert pts tol = Ok (Some L) /\
    hd_error L = Some 0%nat /\ last L 0%nat = (nvert - 1)%nat /\
    (forall j, (S j < length L)%nat -> (nth j L 0 < nth (S j) L 0)%nat) /\
    (forall i, In i L -> (i < nvert)%nat) /\
    forall i, (i < nvert)%nat -> ~ In i L ->
      exists j, (S j < length L)%nat /\
        let a := nth j L 0%nat in let b := nth (S j) L 0%nat in
        (a < i < b)%nat /\
        ((exists k, (k < N)%nat /\ pts a k <> pts b k) ->
         exists t, sumn N (fun k => (pts i k - (pts a k + t * (pts b k - pts a k))) ^ 2)
                   <= tol ^ 2).
Proof.
  intros N nvert pts tol fuel HN Hv Ht Hf.
  assert (G : exists L, simplify_polyline fuel N nvert pts tol = Ok (Some L) /\
            chain (kept N pts tol) 0 L (nvert - 1)).
  { unfold simplify_polyline.
    destruct (Nat.ltb_spec N 2); [lia|]. destruct (Nat.ltb_spec nvert 2); [lia|].
    destruct (Nat.eqb_spec nvert 2) as [->|].
    - exists [0; 1]%nat. split; [easy|]. econstructor; [|constructor].
      split; [lia|]. intros; lia.
    - destruct (rdp_spec fuel N pts 0 (nvert - 1) tol Ht ltac:(lia) ltac:(lia)) as (L & -> & C).
      eauto. }
  destruct G as (L & E & C). exists L. split; [exact E|].
  assert (HP : forall x y, kept N pts tol x y -> (x < y)%nat) by (intros x y [H _]; auto).
  destruct (chain_ends _ _ _ _ C) as (l' & EL & Hl).
  split; [now rewrite EL|]. split; [apply Hl|].
  split. { intros j Hj. apply HP. now apply chain_nth with (1 := C). }
  split. { intros i Hi. destruct (chain_bounds _ _ _ _ HP C) as [_ B]. specialize (B i Hi). lia. }
  intros i Hi Hnot.
  destruct (chain_locate _ _ _ _ HP C i ltac:(lia)) as [|(j & Hj & Hij)]; [easy|].
  exists j. split; [auto|]. cbv zeta. split; [auto|]. intros Hne.
  destruct (chain_nth _ _ _ _ C j Hj) as [_ K].
  destruct (perp_dist_some N (pts i) _ _ Hne) as [d Ed].
  specialize (K i Hij d Ed).
  destruct (perp_dist_spec _ _ _ _ _ Ed) as (Hd & (t & Et) & _).
  exists t. unfold dline2 in Et. rewrite Et. apply pow_incr. lra.
Qed.

(** With tol = 0 only vertices on the line through their kept neighbours are
    removed (neighbours not coinciding). *)
Theorem C15_tol0_collinear_partial : forall N nvert pts fuel L,
  (2 <= N)%nat -> (2 <= nvert)%nat -> (nvert <= fuel)%nat ->
  simplify_polyline fuel N nvert pts 0 = Ok (Some L) ->
  forall i, (i < nvert)%nat -> ~ In i L ->
    exists j, (S j < length L)%nat /\
      let a := nth j L 0%nat in let b := nth (S j) L 0%nat in
      (a < i < b)%nat /\
      ((exists k, (k < N)%nat /\ pts a k <> pts b k) ->
       exists t, forall k, (k < N)%nat -> pts i k = pts a k + t * (pts b k - pts a k)).
Proof.
  intros N nvert pts fuel L HN Hv Hf HL i Hi Hnot.
  destruct (C15_simplify_partial N nvert pts 0 fuel HN Hv ltac:(lra) Hf)
    as (L' & E & _ & _ & _ & _ & H).
  rewrite HL in E; injection E as <-.
  destruct (H i Hi Hnot) as (j & Hj & Hab & Hd). exists j. split; auto. cbv zeta in *.
  split; auto. intros Hne. destruct (Hd Hne) as [t Ht]. exists t. intros k Hk.
  assert (Z : (pts i k - (pts (nth j L 0%nat) k + t * (pts (nth (S j) L 0%nat) k - pts (nth j L 0%nat) k))) ^ 2 = 0).
  { apply (sumn_nonneg_zero N (fun k => (pts i k - (pts (nth j L 0%nat) k
       + t * (pts (nth (S j) L 0%nat) k - pts (nth j L 0%nat) k))) ^ 2)); auto.
    - intros; apply pow2_ge_0.
    - apply Rle_antisym; [|apply sumn_nonneg; intros; apply pow2_ge_0].
      replace (0 ^ 2) with 0 in Ht by ring. exact Ht. }
  simpl in Z. nra.
Qed.

(** Nothing is kept needlessly at the top level: if every interior vertex is
    within tol of the line through the (distinct) end points, only the end
    points remain. *)
Theorem C15_all_close : forall N nvert pts tol fuel,
  (2 <= N)%nat -> (2 <= nvert)%nat -> 0 <= tol -> (1 <= fuel)%nat ->
  (forall i, (0 < i < nvert - 1)%nat ->
     exists t, sumn N (fun k => (pts i k - (pts 0%nat k + t * (pts (nvert - 1)%nat k - pts 0%nat k))) ^ 2)
               <= tol ^ 2) ->
  simplify_polyline fuel N nvert pts tol = Ok (Some [0%nat; (nvert - 1)%nat]).
Proof.
  intros N nvert pts tol fuel HN Hv Ht Hf H.
  unfold simplify_polyline.
  destruct (Nat.ltb_spec N 2); [lia|]. destruct (Nat.ltb_spec nvert 2); [lia|].
  destruct (Nat.eqb_spec nvert 2) as [->|]; [easy|].
  destruct fuel as [|f]; [lia|]. cbn [rdp]. unfold farthest_point.
  pose proof (farthest_loop_spec N pts 0 (nvert - 1) (nvert - 1 - (0 + 1)) (0 + 1) 0 0) as HF.
  destruct (farthest_loop _ _ _ _ _ _ _ _) as [im dm]. destruct HF as (F1 & F2 & F3).
  destruct (Rltb tol dm) eqn:E; [|easy].
  exfalso. apply Rltb_true in E. destruct F2 as [[H2 _]|(H2 & H4 & H5)]; [lra|].
  destruct (H im ltac:(lia)) as [t Ht'].
  destruct (perp_dist_spec _ _ _ _ _ H5) as (Hd & _ & Hmin).
  specialize (Hmin t). unfold dline2 in Hmin.
  assert (Q : dm ^ 2 <= tol ^ 2) by lra. simpl in Q. nra.
Qed.

(** Invalid shapes are rejected. *)
Theorem C15_invalid : forall fuel N nvert pts tol,
  (N < 2)%nat \/ (nvert < 2)%nat -> simplify_polyline fuel N nvert pts tol = Err ValueError.
Proof.
  intros fuel N nvert pts tol H. unfold simplify_polyline.
  destruct (Nat.ltb_spec N 2); [easy|]. destruct (Nat.ltb_spec nvert 2); [easy|]. lia.
Qed.

(** Finding: on a closed polyline the distances are nan, so every interior
    vertex is dropped, however far away. *)
Theorem C15_closed_polyline_refuted : exists (pts : nat -> nat -> R) L,
  simplify_polyline 3 2 3 pts 1 = Ok (Some L) /\
  L = [0; 2]%nat /\
  (* the dropped vertex 1 is at distance 5 from both kept points *)
  sumn 2 (fun k => (pts 1%nat k - pts 0%nat k) ^ 2) = 25 /\
  sumn 2 (fun k => (pts 1%nat k - pts 2%nat k) ^ 2) = 25.
Proof.
  exists (fun i k => if Nat.eqb i 1 then (if Nat.eqb k 0 then 3 else 4) else 0), [0; 2]%nat.
  split; [|split; [easy|split; simpl; lra]].
  unfold simplify_polyline. cbn [Nat.ltb Nat.leb Nat.eqb].
  assert (E : forall f pts, (forall k, (k < 2)%nat -> pts 0%nat k = pts 2%nat k) ->
             rdp (S f) 2 pts 0 (3 - 1) 1 = Some [0; 2]%nat).
  { intros f pts Hc. cbn [rdp]. unfold farthest_point. cbn [Nat.sub Nat.add farthest_loop].
    rewrite perp_dist_none by auto.
    assert (Rltb 1 0 = false) as -> by (apply Rltb_false; lra). easy. }
  rewrite E; [easy|]. intros; easy.
Qed.

(** Finding: for a negative tolerance the recursion never finishes. *)
Theorem C15_negative_tol_refuted : forall N nvert pts tol,
  (2 <= N)%nat -> (3 <= nvert)%nat -> tol < 0 ->
  forall fuel, simplify_polyline fuel N nvert pts tol = Ok None.
Proof.
  intros N nvert pts tol HN Hv Ht fuel. unfold simplify_polyline.
  destruct (Nat.ltb_spec N 2); [lia|]. destruct (Nat.ltb_spec nvert 2); [lia|].
  destruct (Nat.eqb_spec nvert 2); [lia|]. now rewrite rdp_neg_diverges.
Qed.

Example C15_case :
  simplify_polyline 1 2 3 (fun i k => if Nat.eqb k 0 then INR i else (if Nat.eqb i 1 then 1/10 else 0)) 1
  = Ok (Some [0; 2]%nat).
Proof.
  apply (C15_all_close 2 3); try lia; try lra.
  intros i Hi. assert (i = 1%nat) as -> by lia. exists (1/2). simpl. lra.
Qed.

(** a vertex 5 away from the chord is kept *)
Example C15_case_kept :
  exists L, simplify_polyline 3 2 3
    (fun i k => if Nat.eqb k 0 then INR i else (if Nat.eqb i 1 then 5 else 0)) 1 = Ok (Some L)
    /\ In 1%nat L.
Proof.
  destruct (C15_simplify_partial 2 3
    (fun i k => if Nat.eqb k 0 then INR i else (if Nat.eqb i 1 then 5 else 0)) 1 3)
    as (L & E & _ & _ & _ & H4 & H5); try lia; try lra.
  exists L. split; [exact E|].
  destruct (in_dec Nat.eq_dec 1%nat L) as [|Hn]; auto. exfalso.
  destruct (H5 1%nat ltac:(lia) Hn) as (j & Hj & Hab & Hd). cbv zeta in *.
  set (a := nth j L 0%nat) in *. set (b := nth (S j) L 0%nat) in *.
  assert (b < 3)%nat by (apply H4, nth_In; auto).
  assert (Ea : a = 0%nat) by lia. assert (Eb : b = 2%nat) by lia.
  rewrite Ea, Eb in Hd. destruct Hd as [t Ht].
  - exists 0%nat. split; [lia|]. simpl. lra.
  - simpl in Ht. nra.
Qed.

Print Assumptions C15_simplify_partial.
Print Assumptions C15_closed_polyline_refuted.
Print Assumptions C15_negative_tol_refuted.
