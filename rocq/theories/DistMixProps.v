(** Size-as-mass scaling (C21), mixtures (C22) and purity of blending (C23). *)
From Coq Require Import Reals Lra Lia List Bool Arith Permutation.
From Verif Require Import Prelude UtilsModel DistModel.
Import ListNotations.
Open Scope R_scope.

Arguments lsum : simpl never.
Lemma lsum_cons x l : lsum (x :: l) = x + lsum l. Proof. reflexivity. Qed.
Lemma lsum_nil : lsum [] = 0. Proof. reflexivity. Qed.
Local Ltac lcbn := cbn; rewrite ?lsum_cons, ?lsum_nil.

(* ------------------------------------------------------------------ *)
(** ** C21 *)
(* ------------------------------------------------------------------ *)
Theorem C21_individual : forall d M o, 0 < i_M0 d -> i_mom d o <> 0 ->
  ind_pdf d M o true = ind_pdf d (M / i_M0 d) o false / i_M0 d /\
  ind_cdf d M o true = ind_cdf d (M / i_M0 d) o false.
Proof.
  intros d M o HM Hm. unfold ind_pdf, ind_cdf. split; [|reflexivity]. field. split; lra.
Qed.

(** Averages in mass are averages in length times M0 (any distribution with nonzero
    moments; M0 > 0). *)
Theorem C21_averages : forall d n w z, 0 < i_M0 d ->
  let mm := moment_mass d in
  av_DPn mm = Ok n -> av_DPw mm = Ok w -> av_DPz mm = Ok z ->
  av_Mn mm = Ok (n * i_M0 d) /\ av_Mw mm = Ok (w * i_M0 d) /\ av_Mz mm = Ok (z * i_M0 d).
Proof.
  intros d n w z HM mm. unfold av_DPn, av_DPw, av_DPz, av_Mn, av_Mw, av_Mz, mm, moment_mass, Rpowz.
  cbn [Z.of_nat Pos.of_succ_nat Z.sub Z.add Z.opp Z.pos_sub Pos.succ Pos.pred_double powerRZ].
  change (Pos.to_nat 1) with 1%nat. change (Pos.to_nat 2) with 2%nat. change (Pos.to_nat 3) with 3%nat.
  intros A B C.
  assert (K : forall a b q, pydiv a b = Ok q -> b <> 0 /\ q = a / b).
  { intros a b q. unfold pydiv. destruct (Req_EM_T b 0); [easy|]. now intros [= <-]. }
  destruct (K _ _ _ A) as [A1 ->]. destruct (K _ _ _ B) as [B1 ->]. destruct (K _ _ _ C) as [C1 ->].
  rewrite !pydiv_ok by auto. repeat split; f_equal; field; repeat split; try lra;
   intros E; first [apply A1; rewrite E; ring | apply B1; rewrite E; ring | apply C1; rewrite E; ring].
Qed.

Lemma zipsum_ext f g xs l : (forall x d w, In (d, w) l -> f x d = g x d) -> zipsum f xs l = zipsum g xs l.
Proof.
  unfold zipsum. revert xs. induction l as [|[d w] l IH]; intros [|x xs] H; lcbn; auto.
  rewrite (H x d w) by (cbn; auto). f_equal. apply IH. intros; eapply H; cbn; eauto.
Qed.
Lemma zipsum_scal c f xs l : zipsum (fun x d => f x d * c) xs l = zipsum f xs l * c.
Proof.
  unfold zipsum. revert xs. induction l as [|[d w] l IH]; intros [|x xs]; lcbn; try ring.
  rewrite IH. ring.
Qed.

Theorem C21_mixture : forall comps M0 M o, 0 < M0 ->
  (forall d w, In (d, w) comps -> i_M0 d = M0 /\ i_mom d o <> 0) ->
  mix_pdf comps M o true = mix_pdf comps (M / M0) o false / M0 /\
  mix_cdf comps M o true = mix_cdf comps (M / M0) o false.
Proof.
  intros comps M0 M o HM H. unfold mix_pdf, mix_cdf. split.
  - rewrite (zipsum_ext _ (fun x d => x * moment_mass d o 0 * ind_pdf d (M / M0) o false * / M0)).
    + rewrite (zipsum_scal (/ M0)). unfold Rdiv. ring.
    + intros x d w I. destruct (H d w I) as [E Hm]. destruct (C21_individual d M o) as [-> _]; [lra|auto|].
      rewrite E. unfold Rdiv. ring.
  - f_equal. apply zipsum_ext. intros x d w I. destruct (H d w I) as [E Hm].
    destruct (C21_individual d M o) as [_ ->]; [lra|auto|]. now rewrite E.
Qed.

Example C21_case : ind_pdf (mkI (fun x => x) (fun x _ => x) (fun _ => 2) 5) 10 1 true = 2 / 5.
Proof. unfold ind_pdf. cbn. field. Qed.

(* ------------------------------------------------------------------ *)
(** ** C22: mixture rules *)
(* ------------------------------------------------------------------ *)
(** A component: unit zeroth moment, positive moments, M0 and weight. *)
Definition good (c : idist * R) : Prop :=
  i_mom (fst c) 0 = 1 /\ (forall n, 0 < i_mom (fst c) n) /\ 0 < i_M0 (fst c) /\ 0 < snd c.

(** Molar-mass averages of one component, by their definition. *)
Definition cMn (d : idist) := i_mom d 1 / i_mom d 0 * i_M0 d.
Definition cMw (d : idist) := i_mom d 2 / i_mom d 1 * i_M0 d.
Definition cMz (d : idist) := i_mom d 3 / i_mom d 2 * i_M0 d.
Definition wsum (f : idist -> R) (l : list (idist * R)) : R := lsum (map (fun c => snd c * f (fst c)) l).

Lemma mm_pow d n : moment_mass d n 0 = i_mom d n * i_M0 d ^ n.
Proof. unfold moment_mass, Rpowz. rewrite Z.sub_0_r. now rewrite <- pow_powerRZ. Qed.
Lemma mm00 d : moment_mass d 0 0 = i_mom d 0. Proof. rewrite mm_pow. cbn. ring. Qed.
Lemma ind_Mn_eq d : 0 < i_mom d 0 -> ind_Mn d = cMn d.
Proof. intros. unfold ind_Mn, cMn. rewrite !mm_pow. cbn. field. lra. Qed.
Lemma cMn_pos c : good c -> 0 < cMn (fst c).
Proof. intros (A & B & C & D). unfold cMn. apply Rmult_lt_0_compat; auto. apply Rdiv_lt_0_compat; auto. Qed.

Lemma lsum_scal c l : lsum (map (fun x => x * c) l) = lsum l * c.
Proof. induction l as [|x l IH]; lcbn; [ring|]. rewrite IH. ring. Qed.
Lemma lsum_div c l : lsum (map (fun x => x / c) l) = lsum l / c.
Proof. unfold Rdiv. apply lsum_scal. Qed.
Lemma lsum_pos l : l <> [] -> Forall (fun x => 0 < x) l -> 0 < lsum l.
Proof.
  induction l as [|x l IH]; intros Hn Hf; [easy|]. inversion Hf; subst. lcbn.
  destruct l as [|y l]; [lcbn; lra|]. specialize (IH ltac:(easy) H2). lra.
Qed.

(** Total moles. *)
Definition moles (l : list (idist * R)) : R := wsum (fun d => / cMn d) l.
Lemma moles_pos l : l <> [] -> Forall good l -> 0 < moles l.
Proof.
  intros Hn Hf. unfold moles, wsum. apply lsum_pos; [now destruct l|].
  apply Forall_map. eapply Forall_impl; [|exact Hf]. intros c Hc. pose proof (cMn_pos c Hc). destruct Hc as (_ & _ & _ & ?).
  apply Rmult_lt_0_compat; auto. now apply Rinv_0_lt_compat.
Qed.

Lemma molefrac_eq l : Forall good l -> molefrac l = map (fun c => snd c / cMn (fst c) / moles l) l.
Proof.
  intros Hf. unfold molefrac. rewrite map_map.
  assert (E : map (fun '(d, w) => w / ind_Mn d) l = map (fun c => snd c * / cMn (fst c)) l).
  { apply map_ext_in. intros [d w] I. rewrite Forall_forall in Hf. destruct (Hf _ I) as (A & B & C & D). cbn in *.
    rewrite ind_Mn_eq by auto. reflexivity. }
  rewrite E. fold (wsum (fun d => / cMn d) l). fold (moles l). apply map_ext_in. intros [d w] I.
  rewrite Forall_forall in Hf. destruct (Hf _ I) as (A & B & C & D). cbn in *. now rewrite ind_Mn_eq.
Qed.

Lemma zipsum_map f g (l : list (idist * R)) :
  zipsum f (map g l) l = lsum (map (fun c => f (g c) (fst c)) l).
Proof. unfold zipsum. induction l as [|[d w] l IH]; lcbn; [reflexivity|]. now rewrite IH. Qed.

Lemma mixsum l (f : idist -> R) : l <> [] -> Forall good l ->
  zipsum (fun x d => x * f d) (molefrac l) l = wsum (fun d => f d / cMn d) l / moles l.
Proof.
  intros Hn Hf. rewrite molefrac_eq, zipsum_map by auto. unfold wsum.
  rewrite <- lsum_div, map_map. f_equal. apply map_ext_in. intros [d w] I. cbn. unfold Rdiv. ring.
Qed.

Lemma wsum_ext f g l : Forall good l -> (forall d w, good (d, w) -> f d = g d) -> wsum f l = wsum g l.
Proof.
  intros Hf H. unfold wsum. f_equal. apply map_ext_in. intros [d w] I. cbn. rewrite Forall_forall in Hf.
  now rewrite (H d w) by auto.
Qed.
Lemma wsum_pos f l : l <> [] -> Forall good l -> (forall d w, good (d, w) -> 0 < f d) -> 0 < wsum f l.
Proof.
  intros Hn Hf H. apply lsum_pos; [now destruct l|]. apply Forall_map. eapply Forall_impl; [|exact Hf].
  intros [d w] G. cbn. pose proof (H d w G). destruct G as (_ & _ & _ & ?). cbn in *. now apply Rmult_lt_0_compat.
Qed.

(** Mole fractions are positive and sum to one. *)
Theorem C22_molefrac : forall l, l <> [] -> Forall good l ->
  Forall (fun x => 0 < x) (molefrac l) /\ lsum (molefrac l) = 1.
Proof.
  intros l Hn Hf. pose proof (moles_pos l Hn Hf) as Hm. rewrite molefrac_eq by auto. split.
  - apply Forall_map. eapply Forall_impl; [|exact Hf]. intros c Hc. pose proof (cMn_pos c Hc).
    destruct Hc as (_ & _ & _ & ?). apply Rdiv_lt_0_compat; auto. now apply Rdiv_lt_0_compat.
  - transitivity (moles l / moles l); [|field; lra]. unfold moles at 2, wsum. rewrite <- lsum_div, map_map.
    reflexivity.
Qed.

(** Averages of a mixture: Mn harmonic, Mw and Mz mass-weighted. *)
Theorem C22_averages : forall l, l <> [] -> Forall good l ->
  let W := lsum (map snd l) in
  exists Mn, av_Mn (mix_moment_mass l) = Ok Mn /\ 0 < Mn /\ / Mn = wsum (fun d => / cMn d) l / W /\
    av_Mw (mix_moment_mass l) = Ok (wsum cMw l / W) /\
    av_Mz (mix_moment_mass l) = Ok (wsum (fun d => cMw d * cMz d) l / wsum cMw l).
Proof.
  intros l Hn Hf W. pose proof (moles_pos l Hn Hf) as Hm.
  assert (EW : W = wsum (fun _ => 1) l).
  { unfold W, wsum. f_equal. apply map_ext. intros; ring. }
  assert (HW : 0 < W) by (rewrite EW; apply wsum_pos; auto; intros; lra).
  assert (S0 : mix_moment_mass l 0 0 = 1).
  { unfold mix_moment_mass. rewrite mixsum by auto. rewrite (wsum_ext _ (fun d => / cMn d)); auto.
    - fold (moles l). field. lra.
    - intros d w (A & _). cbn in A. rewrite mm00, A. unfold Rdiv. ring. }
  assert (S1 : mix_moment_mass l 1 0 = W / moles l).
  { unfold mix_moment_mass. rewrite mixsum by auto. f_equal. rewrite EW. apply wsum_ext; auto.
    intros d w (A & B & C & D). cbn in *. rewrite mm_pow. unfold cMn. rewrite A. specialize (B 1%nat). field. lra. }
  assert (S2 : mix_moment_mass l 2 0 = wsum cMw l / moles l).
  { unfold mix_moment_mass. rewrite mixsum by auto. f_equal. apply wsum_ext; auto.
    intros d w (A & B & C & D). cbn in *. rewrite mm_pow. unfold cMn, cMw. rewrite A. specialize (B 1%nat). field. lra. }
  assert (S3 : mix_moment_mass l 3 0 = wsum (fun d => cMw d * cMz d) l / moles l).
  { unfold mix_moment_mass. rewrite mixsum by auto. f_equal. apply wsum_ext; auto.
    intros d w (A & B & C & D). cbn in *. rewrite mm_pow. unfold cMn, cMw, cMz. rewrite A.
    pose proof (B 1%nat). pose proof (B 2%nat). field. lra. }
  assert (H2 : 0 < wsum cMw l).
  { apply wsum_pos; auto. intros d w (A & B & C & D). cbn in *. unfold cMw. apply Rmult_lt_0_compat; auto.
    apply Rdiv_lt_0_compat; auto. }
  assert (Hwm : 0 < W / moles l) by now apply Rdiv_lt_0_compat.
  assert (Hcm : 0 < wsum cMw l / moles l) by now apply Rdiv_lt_0_compat.
  exists (W / moles l). unfold av_Mn, av_Mw, av_Mz. rewrite S0, S1, S2, S3.
  rewrite !pydiv_ok by lra. fold (moles l).
  repeat split; auto; try f_equal; field; lra.
Qed.

(** pdf and cdf: order 1 is mass weighted, order 0 mole weighted (any component pdf/cdf). *)
Theorem C22_pdf_cdf : forall l size s, l <> [] -> Forall good l ->
  let W := lsum (map snd l) in let N := moles l in
  mix_pdf l size 1 s = wsum (fun d => ind_pdf d size 1 s) l / W /\
  mix_cdf l size 1 s = wsum (fun d => ind_cdf d size 1 s) l / W /\
  mix_pdf l size 0 s = wsum (fun d => ind_pdf d size 0 s / cMn d) l / N /\
  mix_cdf l size 0 s = wsum (fun d => ind_cdf d size 0 s / cMn d) l / N.
Proof.
  intros l size s Hn Hf W N. pose proof (moles_pos l Hn Hf) as Hm.
  assert (EW : W = wsum (fun _ => 1) l).
  { unfold W, wsum. f_equal. apply map_ext. intros; ring. }
  assert (HW : 0 < W) by (rewrite EW; apply wsum_pos; auto; intros; lra).
  assert (M1 : forall f, zipsum (fun x d => x * moment_mass d 1 0 * f d) (molefrac l) l = wsum f l / N).
  { intros f. rewrite (zipsum_ext _ (fun x d => x * (moment_mass d 1 0 * f d))) by (intros; ring).
    rewrite mixsum by auto. fold N. f_equal. apply wsum_ext; auto. intros d w (A & B & C & D). cbn in *.
    rewrite mm_pow. unfold cMn. rewrite A. specialize (B 1%nat). field. lra. }
  assert (M0 : forall f, zipsum (fun x d => x * moment_mass d 0 0 * f d) (molefrac l) l = wsum (fun d => f d / cMn d) l / N).
  { intros f. rewrite (zipsum_ext _ (fun x d => x * (moment_mass d 0 0 * f d))) by (intros; ring).
    rewrite mixsum by auto. fold N. f_equal. apply wsum_ext; auto. intros d w (A & B & C & D). cbn in *.
    rewrite mm00, A. f_equal. ring. }
  assert (D1 : zipsum (fun x d => x * moment_mass d 1 0) (molefrac l) l = W / N).
  { rewrite (zipsum_ext _ (fun x d => x * moment_mass d 1 0 * 1)) by (intros; ring). rewrite (M1 (fun _ => 1)), EW. reflexivity. }
  assert (D0 : zipsum (fun x d => x * moment_mass d 0 0) (molefrac l) l = 1).
  { rewrite (zipsum_ext _ (fun x d => x * moment_mass d 0 0 * 1)) by (intros; ring). rewrite (M0 (fun _ => 1)).
    rewrite (wsum_ext _ (fun d => / cMn d)); auto.
    - fold (moles l). fold N. unfold N. field. lra.
    - intros; unfold Rdiv; ring. }
  unfold mix_pdf, mix_cdf. rewrite D1, D0.
  rewrite (M1 (fun d => ind_pdf d size 1 s)), (M1 (fun d => ind_cdf d size 1 s)).
  rewrite (M0 (fun d => ind_pdf d size 0 s)), (M0 (fun d => ind_cdf d size 0 s)).
  unfold N in *. repeat split; field; lra.
Qed.

(** Everything depends only on the components as a multiset. *)
Lemma lsum_perm a b : Permutation a b -> lsum a = lsum b.
Proof. induction 1; lcbn; lra. Qed.
Lemma zip_self_map f (l : list (idist * R)) : Forall good l ->
  zipsum f (molefrac l) l = lsum (map (fun c => f (snd c / cMn (fst c) / moles l) (fst c)) l).
Proof. intros. now rewrite molefrac_eq, zipsum_map by auto. Qed.
Lemma zip_perm f l l' : Forall good l -> Permutation l l' ->
  zipsum f (molefrac l) l = zipsum f (molefrac l') l'.
Proof.
  intros Hf HP. assert (Hf' : Forall good l') by (eapply Permutation_Forall; eauto).
  rewrite !zip_self_map by auto.
  assert (moles l = moles l') as <- by (unfold moles, wsum; apply lsum_perm, Permutation_map; auto).
  apply lsum_perm, Permutation_map; auto.
Qed.
Theorem C22_order_irrelevant : forall l l', Forall good l -> Permutation l l' ->
  (forall o s, mix_moment_mass l o s = mix_moment_mass l' o s) /\
  (forall z o s, mix_pdf l z o s = mix_pdf l' z o s /\ mix_cdf l z o s = mix_cdf l' z o s).
Proof.
  intros l l' Hf HP. split; intros; unfold mix_moment_mass, mix_pdf, mix_cdf.
  - now apply zip_perm.
  - split; f_equal; now apply zip_perm.
Qed.

Example C22_case :
  let d n := mkI (fun _ => 0) (fun _ _ => 0) (fun k => n ^ k) 1 in
  av_Mw (mix_moment_mass [(d 10, 1); (d 30, 3)]) = Ok 25.
Proof.
  intros d.
  assert (Hf : Forall good [(d 10, 1); (d 30, 3)]).
  { repeat constructor; cbn; try lra; intros; apply pow_lt; lra. }
  destruct (C22_averages [(d 10, 1); (d 30, 3)] ltac:(easy) Hf) as (Mn & _ & _ & _ & -> & _).
  f_equal. unfold wsum, cMw. lcbn. field.
Qed.

(* ------------------------------------------------------------------ *)
(** ** C22 / C23: blending expressions on the heap *)
(* ------------------------------------------------------------------ *)
(** Leaves of an expression with their weights (a bare distribution counts as 1,
    non-positive multiples are dropped). *)
Fixpoint leaves (e : expr) : list (nat * R) :=
  match e with
  | EInd id => [(id, 1)]
  | EScale c id => if Rltb 0 c then [(id, c)] else []
  | EPlus a b => leaves a ++ leaves b
  end.
(** Total weight of an identity in a list of leaves; None if absent. *)
Definition total (l : list (nat * R)) (k : nat) : option R :=
  match filter (fun p => (fst p =? k)%nat) l with
  | [] => None
  | f => Some (lsum (map snd f))
  end.

Definition represents (d : dict) (l : list (nat * R)) : Prop :=
  NoDup (map fst d) /\ forall k, dget d k = total l k.

Lemma dget_dset d k v j : dget (dset d k v) j = if (k =? j)%nat then Some v else dget d j.
Proof.
  induction d as [|[k' v'] d IH]; cbn.
  - destruct (k =? j)%nat; reflexivity.
  - destruct (Nat.eqb_spec k' k) as [->|N]; cbn.
    + destruct (k =? j)%nat; reflexivity.
    + rewrite IH. destruct (Nat.eqb_spec k' j) as [->|]; [|reflexivity].
      destruct (Nat.eqb_spec k j); [congruence|reflexivity].
Qed.
Lemma dset_keys d k v x : In x (map fst (dset d k v)) <-> x = k \/ In x (map fst d).
Proof.
  induction d as [|[k' v'] d IH]; cbn; [intuition|].
  destruct (Nat.eqb_spec k' k) as [->|N]; cbn; [intuition|]. rewrite IH. intuition.
Qed.
Lemma dset_nodup d k v : NoDup (map fst d) -> NoDup (map fst (dset d k v)).
Proof.
  induction d as [|[k' v'] d IH]; cbn; intros H.
  - repeat constructor. easy.
  - inversion H; subst. destruct (Nat.eqb_spec k' k) as [->|N]; cbn; constructor; auto.
    rewrite dset_keys. intuition.
Qed.

Lemma total_app_one l kv k : total (l ++ [kv]) k =
  if (fst kv =? k)%nat then Some ((match total l k with Some v => v | None => 0 end) + snd kv) else total l k.
Proof.
  unfold total. rewrite filter_app. cbn [filter]. destruct (fst kv =? k)%nat.
  - assert (S : forall f (x : nat * R), lsum (map snd (f ++ [x])) = lsum (map snd f) + snd x).
    { intros f x. induction f as [|y f IH]; lcbn; [ring|]. rewrite IH. ring. }
    destruct (filter _ l) as [|y f].
    + lcbn. f_equal. ring.
    + cbn [app]. f_equal. exact (S (y :: f) kv).
  - now rewrite app_nil_r.
Qed.

Lemma rep_add_item d l kv : represents d l -> represents (add_item d kv) (l ++ [kv]).
Proof.
  intros [H1 H2]. unfold add_item. split; [now apply dset_nodup|].
  intros k. rewrite dget_dset, total_app_one, H2.
  destruct (Nat.eqb_spec (fst kv) k) as [<-|]; [reflexivity|apply H2].
Qed.
Lemma rep_fold l2 : forall d l, represents d l -> represents (fold_left add_item l2 d) (l ++ l2).
Proof.
  induction l2 as [|kv l2 IH]; intros d l H; cbn.
  - now rewrite app_nil_r.
  - replace (l ++ kv :: l2) with ((l ++ [kv]) ++ l2) by now rewrite <- app_assoc. apply IH. now apply rep_add_item.
Qed.

(** A dictionary has the same totals as the leaves it represents. *)
Lemma dget_notin d k : ~ In k (map fst d) -> dget d k = None.
Proof.
  induction d as [|[a b] d IH]; cbn; intros H; [reflexivity|].
  destruct (Nat.eqb_spec a k); [exfalso; auto|]. auto.
Qed.
Lemma filter_notin (d : dict) k : ~ In k (map fst d) -> filter (fun p => (fst p =? k)%nat) d = [].
Proof.
  induction d as [|[a b] d IH]; cbn; intros H; [reflexivity|].
  destruct (Nat.eqb_spec a k); [exfalso; auto|]. auto.
Qed.
Lemma total_dict d k : NoDup (map fst d) -> total d k = dget d k.
Proof.
  unfold total. induction d as [|[a b] d IH]; cbn; intros H; [reflexivity|]. inversion H; subst.
  destruct (Nat.eqb_spec a k) as [->|N]; cbn.
  - rewrite (filter_notin d k) by auto. lcbn. f_equal. ring.
  - apply IH; auto.
Qed.
Lemma total_app l1 l2 k : total (l1 ++ l2) k =
  match total l1 k, total l2 k with
  | None, t => t | t, None => t | Some a, Some b => Some (a + b) end.
Proof.
  unfold total. rewrite filter_app.
  assert (S : forall f g : list (nat * R), lsum (map snd (f ++ g)) = lsum (map snd f) + lsum (map snd g)).
  { intros f g. induction f as [|y f IH]; lcbn; [ring|]. rewrite IH. ring. }
  destruct (filter _ l1) as [|x f]; [reflexivity|]. destruct (filter _ l2) as [|y g].
  - now rewrite app_nil_r.
  - cbn [app]. f_equal. exact (S (x :: f) (y :: g)).
Qed.
Lemma rep_add_dicts d1 d2 l1 l2 : represents d1 l1 -> represents d2 l2 -> represents (add_dicts d1 d2) (l1 ++ l2).
Proof.
  intros H1 [N2 G2]. destruct (rep_fold d2 d1 l1 H1) as [A B]. split; [exact A|].
  intros k. unfold add_dicts. rewrite B, !total_app, (total_dict d2 k N2), G2. reflexivity.
Qed.
Lemma rep_single id c : represents [(id, c)] [(id, c)].
Proof. split; [repeat constructor; easy|]. intros k. cbn. unfold total; cbn. destruct (id =? k)%nat; lcbn; [f_equal; ring|reflexivity]. Qed.
Lemma rep_perm d l l' : Permutation l l' -> represents d l -> represents d l'.
Proof.
  intros P [A B]. split; auto. intros k. rewrite B. unfold total.
  assert (Q : Permutation (filter (fun p => (fst p =? k)%nat) l) (filter (fun p => (fst p =? k)%nat) l')).
  { clear - P. induction P as [|x l l' P IH|x y l|l l1 l' P1 IH1 P2 IH2]; cbn.
    - constructor.
    - destruct (fst x =? k)%nat; auto.
    - destruct (fst x =? k)%nat, (fst y =? k)%nat; auto. apply perm_swap.
    - eapply perm_trans; eauto. }
  destruct (filter _ l) as [|a f] eqn:E1, (filter _ l') as [|b g] eqn:E2; auto.
  - apply Permutation_nil in Q. easy.
  - apply Permutation_sym, Permutation_nil in Q. easy.
  - f_equal. apply lsum_perm, Permutation_map. auto.
Qed.

Lemma hset_len h l d : length (hset h l d) = length h.
Proof. revert l. induction h; intros [|l]; cbn; auto. Qed.
Lemma hget_hset_same h l d : (l < length h)%nat -> hget (hset h l d) l = d.
Proof. revert l. induction h; intros [|l] H; cbn in *; try lia; auto. apply IHh. lia. Qed.
Lemma hget_hset_other h l m d : l <> m -> hget (hset h l d) m = hget h m.
Proof.
  revert l m. induction h as [|x h IH]; intros [|l] [|m] H; cbn; try congruence; auto; try reflexivity.
  apply IH. congruence.
Qed.
Lemma hget_app_old h d m : (m < length h)%nat -> hget (h ++ d) m = hget h m.
Proof. intros. unfold hget. now rewrite app_nth1. Qed.
Lemma hget_app_new h d : hget (h ++ [d]) (length h) = d.
Proof. unfold hget. rewrite app_nth2, Nat.sub_diag by lia. reflexivity. Qed.

(** Result of an operand: an individual, or a mixture at a fresh location that
    represents the leaves. *)
Definition result_ok (h h' : heap) (r : operand) (l : list (nat * R)) : Prop :=
  match r with
  | OInd id => h' = h /\ l = [(id, 1)]
  | OMix loc => (length h <= loc < length h')%nat /\ represents (hget h' loc) l
  | ONum _ => False
  end /\ (length h <= length h')%nat /\ (forall m, (m < length h)%nat -> hget h' m = hget h m).

Lemma eval_ok e : forall h, exists h' r, eval_expr h e = Some (h', r) /\ result_ok h h' r (leaves e).
Proof.
  induction e as [id|c id|a IHa b IHb]; intros h; cbn [eval_expr leaves].
  - do 2 eexists. split; [reflexivity|]. split; [now split|]. split; auto.
  - unfold op_mul. do 2 eexists. split; [reflexivity|]. split; [|split].
    + rewrite app_length, hget_app_new. cbn [length]. split; [lia|].
      destruct (Rltb 0 c); [apply rep_single|]. split; [constructor|reflexivity].
    + rewrite app_length. lia.
    + intros m Hm. now apply hget_app_old.
  - destruct (IHa h) as (h1 & x & -> & (Rx & L1 & P1)).
    destruct (IHb h1) as (h2 & y & -> & (Ry & L2 & P2)).
    destruct x as [ia|la|nx]; [| |easy]; destruct y as [ib|lb|ny]; try easy; cbn [op_add].
    + destruct Rx as [-> ->], Ry as [-> ->]. do 2 eexists. split; [reflexivity|]. split; [|split].
      * rewrite app_length, hget_app_new. cbn [length]. split; [lia|].
        apply rep_add_dicts; apply rep_single.
      * rewrite app_length. lia.
      * intros m Hm. now apply hget_app_old.
    + destruct Rx as [-> ->], Ry as [[B1 B2] Ry]. do 2 eexists. split; [reflexivity|]. split; [|split].
      * rewrite hset_len, hget_hset_same by lia. split; [lia|].
        eapply rep_perm; [|apply rep_add_dicts; [exact Ry|apply rep_single]].
        apply Permutation_app_comm.
      * rewrite hset_len. lia.
      * intros m Hm. rewrite hget_hset_other by lia. rewrite P2 by lia. reflexivity.
    + destruct Rx as [[A1 A2] Rx], Ry as [-> ->]. do 2 eexists. split; [reflexivity|]. split; [|split].
      * rewrite hset_len, hget_hset_same by lia. split; [lia|]. apply rep_add_dicts; [exact Rx|apply rep_single].
      * rewrite hset_len. lia.
      * intros m Hm. rewrite hget_hset_other by lia. auto.
    + destruct Rx as [[A1 A2] Rx], Ry as [[B1 B2] Ry]. do 2 eexists. split; [reflexivity|]. split; [|split].
      * rewrite hset_len, hget_hset_same by lia. split; [lia|].
        destruct (Nat.eqb_spec la lb); [lia|]. rewrite (P2 la) by lia. apply rep_add_dicts; auto.
      * rewrite hset_len. lia.
      * intros m Hm. rewrite hget_hset_other by lia. rewrite P2 by lia. auto.
Qed.

(** C22: every sum built from individual distributions evaluates to a new mixture whose
    weight for each distribution is the total of its leaf weights (each present once);
    nothing that existed before is modified. *)
Theorem C22_blending_weights : forall h a b, exists h' loc,
  eval_expr h (EPlus a b) = Some (h', OMix loc) /\ (length h <= loc)%nat /\
  NoDup (map fst (hget h' loc)) /\
  (forall k, dget (hget h' loc) k = total (leaves a ++ leaves b) k) /\
  (forall m, (m < length h)%nat -> hget h' m = hget h m).
Proof.
  intros h a b. destruct (eval_ok (EPlus a b) h) as (h' & r & E & (Rr & L & P)).
  assert (exists loc, r = OMix loc) as [loc ->].
  { cbn [eval_expr] in E. destruct (eval_expr h a) as [[h1 x]|]; [|easy]. destruct (eval_expr h1 b) as [[h2 y]|]; [|easy].
    destruct x, y; cbn in E; inversion E; eauto. }
  destruct Rr as [[L1 L2] [N G]]. exists h', loc. repeat split; auto.
Qed.

Lemma dget_in d k v : NoDup (map fst d) -> dget d k = Some v <-> In (k, v) d.
Proof.
  induction d as [|[a b] d IH]; cbn; intros H; [easy|]. inversion H; subst. specialize (IH H3).
  destruct (Nat.eqb_spec a k) as [->|N].
  - split; [intros [= ->]; now left|]. intros [[= ->]|I]; [reflexivity|].
    exfalso. apply H2. apply (in_map fst) in I. exact I.
  - rewrite IH. split; [now right|]. intros [[= -> ->]|]; [easy|auto].
Qed.
Lemma nodup_dict (d : dict) : NoDup (map fst d) -> NoDup d.
Proof.
  induction d as [|x d IH]; cbn; intros H; [constructor|]. inversion H; subst. constructor; auto.
  intros I. apply H2. now apply in_map.
Qed.

(** Order and grouping do not matter: same leaves (as a multiset) give the same
    components up to the order of the dictionary. *)
Theorem C22_grouping_irrelevant : forall h a b h2 c d, Permutation (leaves a ++ leaves b) (leaves c ++ leaves d) ->
  exists h' l h2' l2, eval_expr h (EPlus a b) = Some (h', OMix l) /\ eval_expr h2 (EPlus c d) = Some (h2', OMix l2) /\
    Permutation (hget h' l) (hget h2' l2).
Proof.
  intros h a b h2 c d P.
  destruct (C22_blending_weights h a b) as (h' & l & E1 & _ & N1 & G1 & _).
  destruct (C22_blending_weights h2 c d) as (h2' & l2 & E2 & _ & N2 & G2 & _).
  exists h', l, h2', l2. repeat split; auto.
  assert (R1 : represents (hget h' l) (leaves c ++ leaves d)).
  { eapply rep_perm; [exact P|]. now split. }
  apply NoDup_Permutation; try now apply nodup_dict.
  intros [k v]. rewrite <- !dget_in by auto. destruct R1 as [_ G]. rewrite G, G2. reflexivity.
Qed.

Example C22_blend_case : exists h' l,
  eval_expr [] (EPlus (EPlus (EScale 2 7%nat) (EScale 3 8%nat)) (EInd 7%nat)) = Some (h', OMix l)
  /\ dget (hget h' l) 7%nat = Some 3 /\ dget (hget h' l) 8%nat = Some 3.
Proof.
  destruct (C22_blending_weights [] (EPlus (EScale 2 7%nat) (EScale 3 8%nat)) (EInd 7%nat)) as (h' & l & E & _ & _ & G & _).
  exists h', l. split; [exact E|]. rewrite !G. cbn [leaves].
  assert (Rltb 0 2 = true) as -> by (rdec; lra). assert (Rltb 0 3 = true) as -> by (rdec; lra).
  unfold total. lcbn. split; f_equal; ring.
Qed.

(** ** C23 *)
(** Adding two individual distributions modifies no existing mixture. *)
Theorem C23_individuals_pure : forall h a b, exists h' l,
  op_add h (OInd a) (OInd b) = Some (h', OMix l) /\ forall m, (m < length h)%nat -> hget h' m = hget h m.
Proof. intros h a b. do 2 eexists. split; [reflexivity|]. intros; now apply hget_app_old. Qed.

(** Finding: whenever an operand is a mixture that lacks the other operand, the mixture
    is changed, on either side of +; the result shares its dictionary. *)
Theorem C23_mixture_left_refuted : exists h m b h' r,
  op_add h (OMix m) (OInd b) = Some (h', r) /\ hget h' m <> hget h m /\ r = OMix m.
Proof.
  exists [[(1%nat, /2)]], 0%nat, 2%nat. do 2 eexists. split; [reflexivity|]. split; [|reflexivity]. cbn. easy.
Qed.
Theorem C23_mixture_right_refuted : exists h a m h' r,
  op_add h (OInd a) (OMix m) = Some (h', r) /\ hget h' m <> hget h m.
Proof.
  exists [[(1%nat, /2)]], 2%nat, 0%nat. do 2 eexists. split; [reflexivity|]. cbn. easy.
Qed.
(** Consequence: with m = a/2, the blends m + b and m + c share one dictionary: after
    both are built, m + b also contains c. *)
Theorem C23_reuse_refuted : exists h m b c h1 r1 h2 r2,
  b <> c /\ dget (hget h m) b = None /\ dget (hget h m) c = None /\
  op_add h (OMix m) (OInd b) = Some (h1, OMix r1) /\ op_add h1 (OMix m) (OInd c) = Some (h2, OMix r2) /\
  dget (hget h1 r1) c = None /\ dget (hget h2 r1) c = Some (0 + 1).
Proof.
  exists [[(1%nat, /2)]], 0%nat, 2%nat, 3%nat. do 4 eexists.
  split; [easy|]. split; [reflexivity|]. split; [reflexivity|]. split; [reflexivity|]. split; [reflexivity|].
  split; reflexivity.
Qed.
(** In general: mixture + individual always changes the weight of that individual. *)
Theorem C23_always_changes : forall h m b, (m < length h)%nat ->
  exists h', op_add h (OMix m) (OInd b) = Some (h', OMix m) /\
  dget (hget h' m) b = Some ((match dget (hget h m) b with Some v => v | None => 0 end) + 1).
Proof.
  intros h m b Hm. eexists. split; [reflexivity|]. rewrite hget_hset_same by auto.
  unfold add_dicts, add_item; cbn. now rewrite dget_dset, Nat.eqb_refl.
Qed.

Print Assumptions C21_individual. Print Assumptions C21_averages. Print Assumptions C21_mixture.
Print Assumptions C22_molefrac. Print Assumptions C22_averages. Print Assumptions C22_pdf_cdf.
Print Assumptions C22_order_irrelevant. Print Assumptions C22_blending_weights. Print Assumptions C22_grouping_irrelevant.
Print Assumptions C23_individuals_pure. Print Assumptions C23_mixture_left_refuted.
Print Assumptions C23_mixture_right_refuted. Print Assumptions C23_reuse_refuted. Print Assumptions C23_always_changes.
