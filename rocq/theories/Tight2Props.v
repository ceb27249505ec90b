(** Statements added after mutation rounds: adding a mixture to itself (C22), which parameters a copolymerization
    model accepts (C28), and how many points a plotted curve has (C110). *)
From Coq Require Import Reals Lra Lia List Bool Arith String.
From Verif Require Import Prelude UtilsModel.
Import ListNotations.
Close Scope string_scope.
Open Scope R_scope.

Section Blend.
From Verif Require Import DistModel DistFamProps DistMixProps.
Open Scope R_scope.
(** m + m, in place: every weight is doubled, no component is added or lost, and no other mixture changes. *)
Theorem C22_self_add h l : (l < List.length h)%nat -> exists h', op_add h (OMix l) (OMix l) = Some (h', OMix l) /\
  (forall k, dget (hget h' l) k = match dget (hget h l) k with Some v => Some (2 * v) | None => None end) /\
  map fst (hget h' l) = map fst (hget h l) /\ (forall m, m <> l -> hget h' m = hget h m).
Proof.
  intros Hl. cbn [op_add]. rewrite Nat.eqb_refl. eexists. split; [reflexivity|].
  rewrite hget_hset_same by exact Hl. split; [|split].
  - intros k. induction (hget h l) as [|(k', v) d IH]; [reflexivity|]. cbn [double_dict map dget].
    destruct (k' =? k)%nat; [f_equal; ring|exact IH].
  - induction (hget h l) as [|(k', v) d IH]; [reflexivity|]. cbn [double_dict map fst]. f_equal. exact IH.
  - intros m Hm. apply hget_hset_other. congruence.
Qed.
Example C22_self_add_case : op_add [[(0%nat, 3); (7%nat, 1)]] (OMix 0) (OMix 0) = Some ([[(0%nat, 3 + 3); (7%nat, 1 + 1)]], OMix 0).
Proof. reflexivity. Qed.
End Blend.

Section Accepts.
From Verif Require Import CopoModel.
Open Scope R_scope.
(** the reactivity ratios of a model, in the order of its constructor *)
Definition ratios (m : model) : list R :=
  match m with
  | Terminal r1 r2 _ _ => [r1; r2]
  | Penultimate r11 r12 r21 r22 s1 s2 _ _ => [r11; r12; r21; r22; s1; s2]
  | ImplicitPenultimate r1 r2 s1 s2 _ _ => [r1; r2; s1; s2]
  end.
(** A model is built exactly when no ratio is negative; otherwise a RangeError. *)
Theorem C28_accepts m : (make_model m = Ok m <-> forall r, In r (ratios m) -> 0 <= r) /\
  (make_model m = Err RangeError <-> exists r, In r (ratios m) /\ r < 0).
Proof.
  assert (X : (make_model m = Ok m /\ forall r, In r (ratios m) -> 0 <= r) \/
              (make_model m = Err RangeError /\ exists r, In r (ratios m) /\ r < 0)).
  { destruct m; cbn [make_model ratios]; unfold nonneg_check;
      repeat (match goal with |- context [Rleb 0 ?x] => destruct (Rle_dec 0 x) as [?|?];
        [replace (Rleb 0 x) with true by (symmetry; apply Rleb_true; assumption)
        |replace (Rleb 0 x) with false by (symmetry; apply Rleb_false; lra)]; cbn [bind] end);
      try (left; split; [reflexivity|]; intros q Hq; cbn [In] in Hq; repeat destruct Hq as [<-|Hq]; try lra; contradiction);
      right; (split; [reflexivity|]);
      match goal with H : ~ 0 <= ?x |- _ => exists x; split; [cbn; tauto|lra] end. }
  destruct X as [(E & A)|(E & r & I & N)]; rewrite E; split; split; try discriminate; try tauto.
  - intros (r & I & N). specialize (A r I). lra.
  - intros A. specialize (A r I). lra.
  - intros _. eauto.
Qed.
Example C28_accepts_case : make_model (ImplicitPenultimate (1 / 2) 0 1 2 None None) = Ok (ImplicitPenultimate (1 / 2) 0 1 2 None None) /\
  make_model (ImplicitPenultimate (1 / 2) (- 1) 1 2 None None) = Err RangeError.
Proof.
  split.
  - apply (proj1 (C28_accepts _)). cbn [ratios In]. intros r H. decompose [or] H; subst; lra || contradiction.
  - apply (proj2 (C28_accepts _)). exists (- 1). cbn [ratios In]. split; [tauto|lra].
Qed.
End Accepts.

Section Points.
From Verif Require Import DataModel DistPlotModel DistPlotProps.
Open Scope R_scope.
(** Every curve of a figure of one distribution has 200 points, and each further component of a mixture adds 100. *)
Theorem C110_points pdf cdf h t kd sm xs xr nc lg cs : good h -> snd (plot pdf cdf h t kd sm xs xr nc) = Ok (lg, cs) ->
  forall c, In c cs -> List.length (c_x c) = List.length (c_y c) /\
    match t with Ind _ => List.length (c_x c) = 200%nat | Mix ids => (List.length (c_x c) + 100 = 200 + 100 * List.length ids)%nat end.
Proof.
  intros G H c Hc. destruct (C110_figure _ _ _ _ _ _ _ _ _ _ _ G H) as (ks & sam & r & x & _ & _ & _ & _ & _ & (L & _) & ->).
  apply in_flat_map in Hc. destruct Hc as (k & _ & Hc).
  assert (List.length (c_x c) = npoints t /\ List.length (c_y c) = npoints t) as [A B].
  { unfold figure_of in Hc. destruct nc as [|[|nc]]; cbn [In] in Hc; repeat destruct Hc as [<-|Hc]; try contradiction;
      cbn [c_x c_y]; rewrite ?map_length; auto. }
  rewrite A, B. split; [reflexivity|]. destruct t; unfold npoints; lia.
Qed.
Example C110_points_case pdf cdf : exists c cs,
  snd (plot pdf cdf flory_heap (Mix [0; 1]%nat) (KStr (kname Mass)) (KBool false) "auto" None 0) = Ok (false, c :: cs) /\ List.length (c_x c) = 300%nat.
Proof.
  pose proof (plot_one pdf cdf flory_heap (Mix [0; 1]%nat) Mass false None) as PO.
  destruct (snd (plot_range flory_heap (Mix [0; 1]%nat) false false None)) as [r|e] eqn:E.
  - cbn [bind figure_of] in PO. eexists _, _. split; [exact PO|].
    assert (List.length (c_x (mkC 1 (linspace (fst r) (snd r) (npoints (Mix [0; 1]%nat))) (map (pdf (kind_order Mass) false) (linspace (fst r) (snd r) (npoints (Mix [0; 1]%nat)))))) + 100 = 400)%nat as L; [|cbn [c_x] in L |- *; lia].
    apply (C110_points pdf cdf flory_heap (Mix [0; 1]%nat) _ _ _ _ _ _ _ flory_good PO). left. reflexivity.
  - exfalso. cbn in E. discriminate E.
Qed.
End Points.

Print Assumptions C22_self_add.
Print Assumptions C28_accepts.
Print Assumptions C110_points.
