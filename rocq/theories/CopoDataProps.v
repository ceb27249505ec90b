(** Copolymer data sets and parameter estimation: C35, C36, C76, C77. *)
From Coq Require Import Reals Lra Lia List Bool Arith String Ascii FunctionalExtensionality.
From Verif Require Import Prelude UtilsModel RootsModel DiffModel DiffProps CopoModel CopoProps CopoDataModel.
Import ListNotations.
Open Scope R_scope.

(* ------------------------------------------------------------------ *)
(** * C35 Fineman-Ross                                                *)
(* ------------------------------------------------------------------ *)

(** Least squares reproduces a line exactly. *)
Lemma linregress_line N x y a b : (1 <= N)%nat -> (forall i, (i < N)%nat -> y i = a * x i + b) ->
  (exists i j, (i < N)%nat /\ (j < N)%nat /\ x i <> x j) -> linregress N x y = Ok (a, b).
Proof.
  intros HN HL (i & j & Hi & Hj & Hne). unfold linregress. cbv zeta.
  assert (NP : 0 < INR N) by (apply lt_0_INR; lia).
  set (xm := sumn N x / INR N).
  assert (YM : sumn N y / INR N = a * xm + b).
  { rewrite (sumn_ext N y (fun i => a * x i + b)) by auto. rewrite sumn_plus, sumn_scal, sumn_const.
    unfold xm. field. lra. }
  rewrite YM.
  set (sxx := sumn N (fun i => (x i - xm) ^ 2)).
  assert (SXY : sumn N (fun i => (x i - xm) * (y i - (a * xm + b))) = a * sxx).
  { unfold sxx. rewrite <- sumn_scal. apply sumn_ext. intros k Hk. rewrite HL by auto. ring. }
  rewrite SXY. destruct (Req_EM_T sxx 0) as [E|E].
  - exfalso. apply Hne.
    assert (Z : forall k, (k < N)%nat -> (x k - xm) ^ 2 = 0).
    { apply sumn_nonneg_zero; auto. intros; apply pow2_ge_0. }
    assert (Z' : forall k, (k < N)%nat -> x k = xm).
    { intros k Hk. specialize (Z k Hk). apply Rminus_diag_uniq. destruct (Req_dec (x k - xm) 0); auto.
      exfalso. apply (pow_nonzero _ 2) in H. auto. }
    rewrite Z', (Z' j) by auto. reflexivity.
  - f_equal. f_equal; field; auto.
Qed.

(** In the variables x = f/(1-f), the Mayo-Lewis equation reads y = x (r1 x + 1)/(x + r2). *)
Lemma mayo_xy f r1 r2 : 0 < f < 1 -> 0 < r1 -> 0 < r2 ->
  let x := f / (1 - f) in let F := F1val f r1 r2 in
  0 < x /\ 0 < F < 1 /\ F / (1 - F) = x * (r1 * x + 1) / (x + r2).
Proof.
  intros Hf H1 H2 x F. assert (D := den_pos f r1 r2 ltac:(repeat split; lra)).
  assert (X : 0 < x) by (apply Rdiv_lt_0_compat; lra). split; auto.
  assert (A : 0 < r1 * f + (1 - f)) by (assert (0 < r1 * f) by (apply Rmult_lt_0_compat; lra); lra).
  assert (B : 0 < f + r2 * (1 - f)) by (assert (0 < r2 * (1 - f)) by (apply Rmult_lt_0_compat; lra); lra).
  assert (EF : F = f * (r1 * f + (1 - f)) / (r1 * f ^ 2 + 2 * f * (1 - f) + r2 * (1 - f) ^ 2)).
  { unfold F, F1val. f_equal. ring. }
  assert (EC : 1 - F = (1 - f) * (f + r2 * (1 - f)) / (r1 * f ^ 2 + 2 * f * (1 - f) + r2 * (1 - f) ^ 2)).
  { rewrite EF. field. simpl in D |- *. lra. }
  assert (PF : 0 < F) by (rewrite EF; apply Rdiv_lt_0_compat; auto; apply Rmult_lt_0_compat; lra).
  assert (PC : 0 < 1 - F) by (rewrite EC; apply Rdiv_lt_0_compat; auto; apply Rmult_lt_0_compat; lra).
  split; [lra|]. rewrite EC, EF. unfold x.
  replace (f / (1 - f) + r2) with ((f + r2 * (1 - f)) / (1 - f)) by (field; lra).
  field. simpl in D |- *. repeat split; lra.
Qed.

(** The abscissa H = x^2/y is strictly increasing in f. *)
Lemma FR_H f r1 r2 : 0 < f < 1 -> 0 < r1 -> 0 < r2 ->
  let x := f / (1 - f) in let y := F1val f r1 r2 / (1 - F1val f r1 r2) in
  x ^ 2 / y = x * (x + r2) / (r1 * x + 1) /\ x * (y - 1) / y = r1 * (x ^ 2 / y) + - r2.
Proof.
  intros Hf H1 H2 x y. destruct (mayo_xy f r1 r2 Hf H1 H2) as (X & _ & E). cbv zeta in *.
  change (0 < x) in X. unfold y. rewrite E. fold x.
  assert (0 < r1 * x) by (apply Rmult_lt_0_compat; lra). split; field; lra.
Qed.
Lemma FR_H_inj f g r1 r2 : 0 < f < 1 -> 0 < g < 1 -> 0 < r1 -> 0 < r2 -> f <> g ->
  (f / (1 - f)) * (f / (1 - f) + r2) / (r1 * (f / (1 - f)) + 1) <>
  (g / (1 - g)) * (g / (1 - g) + r2) / (r1 * (g / (1 - g)) + 1).
Proof.
  intros Hf Hg H1 H2 Hne.
  set (x := f / (1 - f)). set (z := g / (1 - g)).
  assert (X : 0 < x) by (apply Rdiv_lt_0_compat; lra). assert (Z : 0 < z) by (apply Rdiv_lt_0_compat; lra).
  assert (XZ : x <> z).
  { intros E. apply Hne. assert (f = x / (1 + x)) by (unfold x; field; lra).
    assert (g = z / (1 + z)) by (unfold z; field; lra). congruence. }
  clearbody x z. intros E.
  assert (0 < r1 * x) by (apply Rmult_lt_0_compat; lra). assert (0 < r1 * z) by (apply Rmult_lt_0_compat; lra).
  assert (K : x * (x + r2) * (r1 * z + 1) = z * (z + r2) * (r1 * x + 1)).
  { apply (Rmult_eq_reg_r (/ ((r1 * x + 1) * (r1 * z + 1)))).
    2:{ apply Rinv_neq_0_compat. apply Rmult_integral_contrapositive_currified; lra. }
    transitivity (x * (x + r2) / (r1 * x + 1)); [field; lra|]. rewrite E. field. lra. }
  assert (M : (x - z) * (r1 * (x * z) + x + z + r2) = 0) by lra.
  assert (0 < r1 * (x * z)) by (apply Rmult_lt_0_compat; auto; apply Rmult_lt_0_compat; auto).
  apply Rmult_integral in M. lra.
Qed.

Theorem C35_recovers N f1 F1 r1 r2 : 0 < r1 -> 0 < r2 ->
  (forall i, (i < N)%nat -> 0 < f1 i < 1 /\ inst_copolymer_binary (f1 i) r1 r2 = Fin (F1 i)) ->
  (exists i j, (i < N)%nat /\ (j < N)%nat /\ f1 i <> f1 j) ->
  fit_Finemann_Ross N f1 F1 = Ok (r1, r2).
Proof.
  intros H1 H2 HD (i & j & Hi & Hj & Hne).
  assert (HF : forall k, (k < N)%nat -> F1 k = F1val (f1 k) r1 r2).
  { intros k Hk. destruct (HD k Hk) as (A & B). rewrite inst_val in B by (repeat split; lra). now injection B. }
  unfold fit_Finemann_Ross. cbv zeta.
  rewrite (linregress_line N _ _ r1 (- r2)).
  - cbn [bind fst snd]. now rewrite Ropp_involutive.
  - lia.
  - intros k Hk. rewrite (HF k Hk). destruct (HD k Hk) as (A & _). now apply FR_H.
  - exists i, j. repeat split; auto. rewrite (HF i Hi), (HF j Hj).
    destruct (HD i Hi) as (A & _). destruct (HD j Hj) as (B & _).
    rewrite (proj1 (FR_H _ _ _ A H1 H2)), (proj1 (FR_H _ _ _ B H1 H2)). now apply FR_H_inj.
Qed.

(** A single composition cannot be fitted. *)
Theorem C35_identical N f1 F1 : (1 <= N)%nat -> (forall i, (i < N)%nat -> f1 i = f1 0%nat /\ F1 i = F1 0%nat) ->
  fit_Finemann_Ross N f1 F1 = Err ValueError.
Proof.
  intros HN H. unfold fit_Finemann_Ross, linregress. cbv zeta.
  assert (NP : 0 < INR N) by (apply lt_0_INR; lia).
  match goal with |- context [Req_EM_T ?s 0] => assert (E : s = 0) end.
  { apply sumn_zero'. intros i Hi. destruct (H i Hi) as (-> & ->).
    rewrite (sumn_ext N _ (fun _ => (f1 0%nat / (1 - f1 0%nat)) ^ 2 / (F1 0%nat / (1 - F1 0%nat)))).
    - rewrite sumn_const. set (c := _ / (F1 0%nat / _)).
      replace (INR N * c / INR N) with c by (field; lra). ring.
    - intros k Hk. destruct (H k Hk) as (-> & ->). reflexivity. }
  match goal with |- context [Req_EM_T ?s 0] => destruct (Req_EM_T s 0) end; [reflexivity|tauto].
Qed.

Example C35_case : fit_Finemann_Ross 2 (fun i => match i with O => 1 / 2 | _ => 1 / 4 end)
  (fun i => match i with O => 3 / 5 | _ => 5 / 17 end) = Ok (2, 1).
Proof.
  apply C35_recovers; try lra.
  - intros [|[|i]] Hi; try lia; split; try lra; rewrite inst_val by (repeat split; lra); f_equal; unfold F1val; field.
  - exists 0%nat, 1%nat. repeat split; try lia. lra.
Qed.

(* ------------------------------------------------------------------ *)
(** * C36 Data sets and labels                                        *)
(* ------------------------------------------------------------------ *)

(** Relabelling: the same data set with the monomers swapped and complemented values gives
    the same answer for each monomer name. *)
Definition swapped (d : dataset) : dataset :=
  mkDS (ds_id d) (ds_kind d) (ds_M2 d) (ds_M1 d) (map (fun a => 1 - a) (ds_x d)) (map (fun a => 1 - a) (ds_y d)).

Theorem C36_getvar d v b : varmap (ds_kind d) v = Some b -> names_ok (ds_M1 d) (ds_M2 d) = true ->
  let x := if b then ds_x d else ds_y d in
  getvar d v (ds_M1 d) = Ok x /\ getvar d v "" = Ok x /\
  getvar d v (ds_M2 d) = Ok (map (fun a => 1 - a) x) /\
  (forall M, M <> ""%string -> M <> ds_M1 d -> M <> ds_M2 d -> getvar d v M = Err ValueError) /\
  (forall M, M <> ""%string -> getvar (swapped d) v M = getvar d v M).
Proof.
  intros HV HN x. unfold names_ok in HN. apply andb_prop in HN. destruct HN as (HN & N3).
  apply andb_prop in HN. destruct HN as (N1 & N2). apply negb_true_iff in N1, N2, N3.
  assert (NE : String.eqb (ds_M1 d) (ds_M2 d) = false).
  { apply String.eqb_neq. intros E. rewrite E, String.eqb_refl in N3. discriminate. }
  assert (NE' : String.eqb (ds_M2 d) (ds_M1 d) = false) by (rewrite String.eqb_sym; auto).
  unfold getvar. rewrite HV. cbn [ds_kind swapped]. cbv zeta. fold x.
  split; [|split; [|split; [|split]]].
  - rewrite N1, String.eqb_refl. reflexivity.
  - reflexivity.
  - rewrite N2, NE', String.eqb_refl. reflexivity.
  - intros M E0 E1 E2. apply String.eqb_neq in E0, E1, E2. now rewrite E0, E1, E2.
  - intros M E0. apply String.eqb_neq in E0. rewrite E0. cbn [swapped ds_kind ds_M1 ds_M2 ds_x ds_y]. rewrite HV.
    assert (INV : map (fun a => 1 - a) (map (fun a => 1 - a) x) = x).
    { rewrite map_map. rewrite <- (map_id x) at 2. apply map_ext. intros; ring. }
    assert (EX : (if b then map (fun a => 1 - a) (ds_x d) else map (fun a => 1 - a) (ds_y d)) = map (fun a => 1 - a) x)
      by (unfold x; destruct b; reflexivity).
    rewrite EX, INV.
    destruct (String.eqb_spec M (ds_M2 d)) as [->|]; [now rewrite NE'|].
    destruct (String.eqb_spec M (ds_M1 d)); reflexivity.
Qed.

(** Finding: the complement is applied to every variable, so conversion and propagation
    coefficients "of monomer 2" come out as 1 - x and 1 - kp. *)
Theorem C36_getvar_kp_refuted : exists d, make_dataset 0 Kp "A" "B" [1 / 2] [1000] = Ok d /\
  getvar d "kp" "A" = Ok [1000] /\ getvar d "kp" "B" = Ok [1 - 1000].
Proof. eexists. repeat split. Qed.

(** Membership in the accepted set, as a proposition. *)
Definition accepts (M1 M2 : string) (d : dataset) : Prop :=
  (ds_M1 d = M1 /\ ds_M2 d = M2) \/ (ds_M1 d = M2 /\ ds_M2 d = M1).

Lemma same_pair_spec d M1 M2 : M1 <> M2 -> same_pair (ds_M1 d) (ds_M2 d) M1 M2 = true <-> accepts M1 M2 d.
Proof.
  intros HN. unfold same_pair, accepts. rewrite !orb_true_iff, !andb_true_iff, !String.eqb_eq. split.
  - intros [[?|?]|((? & ?) & ?)]; auto. congruence.
  - intros [?|?]; auto.
Qed.

(** The store after one call: every stored object was there before or belongs to the call;
    ids stay distinct; only acceptable data sets are stored; nothing is lost. *)
Lemma add_data_inv M1 M2 : M1 <> M2 -> forall l store,
  NoDup (map ds_id store) -> (forall d, In d store -> accepts M1 M2 d) ->
  let s := fst (add_data M1 M2 store l) in
  NoDup (map ds_id s) /\ (forall d, In d s -> accepts M1 M2 d) /\
  (forall d, In d s -> In d store \/ In d l) /\ exists t, s = (store ++ t)%list.
Proof.
  intros HN. induction l as [|d l IH]; intros store ND HA s; [subst s; cbn; repeat split; auto; exists []; now rewrite app_nil_r|].
  subst s. cbn [add_data]. destruct (same_pair _ _ _ _) eqn:E.
  - apply (same_pair_spec d) in E; auto. destruct (existsb _ store) eqn:EX.
    + destruct (IH store ND HA) as (A & B & C & D). repeat split; auto.
      intros e He. destruct (C e He); auto. right. now right.
    + destruct (IH (store ++ [d])%list) as (A & B & C & (t & D)).
      * rewrite map_app. cbn.
        assert (NI : ~ In (ds_id d) (map ds_id store)).
        { intros K. apply in_map_iff in K. destruct K as (e & K1 & K2).
          assert (existsb (fun e => Nat.eqb (ds_id e) (ds_id d)) store = true); [|congruence].
          apply existsb_exists. exists e. split; auto. now apply Nat.eqb_eq. }
        apply (NoDup_Add (a := ds_id d) (l := map ds_id store)); [|auto].
        rewrite <- (app_nil_r (map ds_id store)) at 1. apply Add_app.
      * intros e He. apply in_app_or in He. destruct He as [He|[<-|[]]]; auto.
      * repeat split; auto.
        -- intros e He. destruct (C e He) as [K|K].
           ++ apply in_app_or in K. destruct K as [K|[<-|[]]]; auto. right. now left.
           ++ right. now right.
        -- exists ([d] ++ t)%list. rewrite D, app_assoc. reflexivity.
  - repeat split; auto. exists []. now rewrite app_nil_r.
Qed.

(** Every history of calls: no data set is stored twice, all stored data sets carry the
    model's two monomers (in either order). *)
Theorem C36_history M1 M2 h : names_ok M1 M2 = true ->
  let s := add_history M1 M2 [] h in
  NoDup (map ds_id s) /\ (forall d, In d s -> accepts M1 M2 d) /\
  (forall d, In d s -> exists l, In l h /\ In d l).
Proof.
  intros HN.
  assert (NE : M1 <> M2).
  { intros ->. unfold names_ok in HN. rewrite String.eqb_refl in HN. now rewrite andb_false_r in HN. }
  assert (G : forall h store, NoDup (map ds_id store) -> (forall d, In d store -> accepts M1 M2 d) ->
     let s := add_history M1 M2 store h in NoDup (map ds_id s) /\ (forall d, In d s -> accepts M1 M2 d) /\
     (forall d, In d s -> In d store \/ exists l, In l h /\ In d l)).
  { clear h. induction h as [|l h IH]; intros store ND HA; cbn [add_history]; [repeat split; auto|].
    destruct (add_data_inv M1 M2 NE l store ND HA) as (A & B & C & _).
    destruct (IH _ A B) as (D & E & F). repeat split; auto. intros d Hd. destruct (F d Hd) as [K|(l' & K1 & K2)].
    - destruct (C d K); auto. right. exists l. split; auto. now left.
    - right. exists l'. split; auto. now right. }
  destruct (G h []) as (A & B & C); [constructor|intros ? []|]. repeat split; auto.
  intros d Hd. destruct (C d Hd) as [[]|]; auto.
Qed.

(** A single call succeeds exactly when all its data sets carry the two monomers, and then
    each of them is stored. *)
Theorem C36_accepts M1 M2 store l : M1 <> M2 ->
  (snd (add_data M1 M2 store l) = Ok tt <-> forall d, In d l -> accepts M1 M2 d) /\
  (snd (add_data M1 M2 store l) <> Ok tt -> snd (add_data M1 M2 store l) = Err ValueError) /\
  (snd (add_data M1 M2 store l) = Ok tt ->
     forall d, In d l -> In (ds_id d) (map ds_id (fst (add_data M1 M2 store l)))).
Proof.
  intros HN. revert store. induction l as [|d l IH]; intros store; cbn [add_data].
  - cbn. split; [split; auto; intros _ ? []|]. split; [tauto|]. intros _ ? [].
  - destruct (same_pair _ _ _ _) eqn:E.
    + apply (same_pair_spec d) in E; auto.
      assert (KEEP : forall s' l', In (ds_id d) (map ds_id s') -> In (ds_id d) (map ds_id (fst (add_data M1 M2 s' l')))).
      { intros s' l' K. revert s' K. induction l' as [|e l' IHl]; intros s' K; cbn [add_data]; auto.
        destruct (same_pair _ _ _ _); auto. destruct (existsb _ s'); auto. apply IHl. rewrite map_app. apply in_or_app. now left. }
      destruct (existsb _ store) eqn:EX.
      * destruct (IH store) as (A & B & C). repeat split; auto.
        -- intros K e [<-|He]; auto. now apply A.
        -- intros K. apply A. intros e He. apply K. now right.
        -- intros K e [<-|He]; auto. apply KEEP. apply existsb_exists in EX. destruct EX as (e & E1 & E2).
           apply Nat.eqb_eq in E2. rewrite <- E2. now apply in_map.
      * destruct (IH (store ++ [d])%list) as (A & B & C). repeat split; auto.
        -- intros K e [<-|He]; auto. now apply A.
        -- intros K. apply A. intros e He. apply K. now right.
        -- intros K e [<-|He]; auto. apply KEEP. rewrite map_app. apply in_or_app. right. now left.
    + cbn [snd fst]. repeat split; try discriminate; auto.
      intros K. assert (accepts M1 M2 d) by (apply K; now left). apply same_pair_spec in H; auto. congruence.
Qed.

(** Finding: a call that raises may have stored some of its data sets. *)
Theorem C36_atomic_refuted : exists M1 M2 l, names_ok M1 M2 = true /\
  snd (add_data M1 M2 [] l) = Err ValueError /\ fst (add_data M1 M2 [] l) <> [].
Proof.
  exists "A"%string, "B"%string, [mkDS 0 Mayo "A" "B" [] []; mkDS 1 Mayo "A" "C" [] []].
  repeat split. discriminate.
Qed.

Example C36_case : add_history "A" "B" [] [[mkDS 0 Mayo "A" "B" [] []]; [mkDS 0 Mayo "A" "B" [] []; mkDS 1 Drift "B" "A" [] []]] =
  [mkDS 0 Mayo "A" "B" [] []; mkDS 1 Drift "B" "A" [] []].
Proof. reflexivity. Qed.

(* ------------------------------------------------------------------ *)
(** * C76 Least-squares objective and covariance                      *)
(* ------------------------------------------------------------------ *)

Lemma rsum_nonneg l : (forall a, In a l -> 0 <= a) -> 0 <= rsum_list l.
Proof. induction l; intros H; cbn; [lra|]. assert (0 <= a) by (apply H; now left). assert (0 <= rsum_list l) by (apply IHl; intros; apply H; now right). lra. Qed.
Lemma rsum_zero l : (forall a, In a l -> 0 <= a) -> rsum_list l = 0 -> forall a, In a l -> a = 0.
Proof.
  induction l as [|b l IH]; intros H S a Ha; [destruct Ha|]. cbn in S.
  assert (0 <= b) by (apply H; now left). assert (0 <= rsum_list l) by (apply rsum_nonneg; intros; apply H; now right).
  destruct Ha as [<-|Ha]; [lra|]. apply IH; auto; [intros; apply H; now right|lra].
Qed.
Lemma rsum_all_zero l : (forall a, In a l -> a = 0) -> rsum_list l = 0.
Proof. induction l; intros H; cbn; [reflexivity|]. rewrite IHl by (intros; apply H; now right). rewrite (H a) by now left. ring. Qed.

Lemma sse_sq_nonneg (F : R -> R) l : 0 <= rsum_list (map (fun p : R * R * R => let '(f, y, s) := p in ((y - F f) / s) * ((y - F f) / s)) l).
Proof.
  apply rsum_nonneg. intros a Ha. apply in_map_iff in Ha. destruct Ha as (((f & y) & s) & <- & _).
  apply Rle_0_sqr.
Qed.

(** The objective is nonnegative, and vanishes exactly when the curve passes through all
    points. *)
Lemma sse_zero_iff data F : (forall d, In d data -> 0 < ff_weight d) ->
  (forall d f y s, In d data -> In (f, y, s) (ff_pts d) -> s <> 0) ->
  (sse_NLLS data F = 0 <-> forall d f y s, In d data -> In (f, y, s) (ff_pts d) -> y = F f).
Proof.
  intros HW HS. unfold sse_NLLS. split.
  - intros E d f y s Hd Hp.
    assert (Z := in_map (fun d => ff_weight d * rsum_list (map (fun p : R * R * R => let '(f, y, s) := p in (y - F f) / s * ((y - F f) / s)) (ff_pts d))) data d Hd).
    apply (rsum_zero _) in Z; [| |exact E].
    2:{ intros a Ha. apply in_map_iff in Ha. destruct Ha as (e & <- & He). apply Rmult_le_pos; [left; apply HW; exact He|apply sse_sq_nonneg]. } specialize (HW d Hd).
    apply Rmult_integral in Z. destruct Z as [Z|Z]; [lra|].
    assert (Z' := in_map (fun p : R * R * R => let '(f, y, s) := p in (y - F f) / s * ((y - F f) / s)) _ _ Hp).
    apply (rsum_zero _) in Z'; [| |exact Z].
    2:{ intros a Ha. apply in_map_iff in Ha. destruct Ha as (((f' & y') & s') & <- & _). apply Rle_0_sqr. }
    cbn beta iota in Z'. specialize (HS d f y s Hd Hp).
    assert (Q : (y - F f) / s = 0) by (destruct (Rmult_integral _ _ Z'); auto).
    apply Rmult_integral in Q. destruct Q as [Q|Q]; [lra|]. exfalso. now apply (Rinv_neq_0_compat s).
  - intros H. apply rsum_all_zero. intros a Ha. apply in_map_iff in Ha. destruct Ha as (d & <- & Hd).
    rewrite rsum_all_zero; [ring|]. intros b Hb. apply in_map_iff in Hb. destruct Hb as (((f & y) & s) & <- & Hp).
    rewrite (H d f y s Hd Hp). unfold Rdiv. ring.
Qed.

(** Identifiability: for noise-free data with at least two distinct compositions, the
    objective of the least-squares fit vanishes at the generating reactivity ratios and at
    no other positive pair. *)
Theorem C76_identifiable data r1 r2 q1 q2 : 0 < r1 -> 0 < r2 -> 0 < q1 -> 0 < q2 ->
  (forall d, In d data -> 0 < ff_weight d) ->
  (forall d f y s, In d data -> In (f, y, s) (ff_pts d) ->
     s <> 0 /\ 0 < f < 1 /\ inst_copolymer_binary f r1 r2 = Fin y) ->
  (exists d f y s d' f' y' s', In d data /\ In (f, y, s) (ff_pts d) /\
      In d' data /\ In (f', y', s') (ff_pts d') /\ f <> f') ->
  (sse_NLLS data (fun f => F1val f q1 q2) = 0 <-> (q1 = r1 /\ q2 = r2)) /\
  0 <= sse_NLLS data (fun f => F1val f q1 q2).
Proof.
  intros R1 R2 Q1 Q2 HW HD (d & f & y & s & d' & f' & y' & s' & D1 & P1 & D2 & P2 & NE). split.
  - rewrite sse_zero_iff; auto.
    2:{ intros e g z t He Hg. now destruct (HD e g z t He Hg). }
    assert (HF : forall e g z t, In e data -> In (g, z, t) (ff_pts e) -> 0 < g < 1 /\ z = F1val g r1 r2).
    { intros e g z t He Hg. destruct (HD e g z t He Hg) as (_ & A & B). split; auto.
      rewrite inst_val in B by (repeat split; lra). now injection B. }
    split.
    + intros H. destruct (HF _ _ _ _ D1 P1) as (A & E). destruct (HF _ _ _ _ D2 P2) as (A' & E').
      pose proof (H _ _ _ _ D1 P1) as G. pose proof (H _ _ _ _ D2 P2) as G'. rewrite E in G. rewrite E' in G'.
      destruct (FR_H f r1 r2 A R1 R2) as (h1 & h2). destruct (FR_H f' r1 r2 A' R1 R2) as (h1' & h2').
      destruct (FR_H f q1 q2 A Q1 Q2) as (k1 & k2). destruct (FR_H f' q1 q2 A' Q1 Q2) as (k1' & k2').
      cbv zeta in *. rewrite <- G in k1, k2. rewrite <- G' in k1', k2'.
      rewrite h2 in k2. rewrite h2' in k2'.
      pose proof (FR_H_inj f f' r1 r2 A A' R1 R2 NE) as INJ. rewrite <- h1, <- h1' in INJ.
      set (u := (f / (1 - f)) ^ 2 / _) in *. set (v := (f' / (1 - f')) ^ 2 / _) in *.
      assert (K : (r1 - q1) * (u - v) = 0) by lra.
      apply Rmult_integral in K. destruct K as [K|K]; [|exfalso; apply INJ; lra].
      assert (q1 = r1) by lra. subst q1. split; lra.
    + intros (-> & ->) e g z t He Hg. now destruct (HF e g z t He Hg).
  - unfold sse_NLLS. apply rsum_nonneg. intros a Ha. apply in_map_iff in Ha. destruct Ha as (e & <- & He).
    apply Rmult_le_pos; [left; auto|apply sse_sq_nonneg].
Qed.

(** numpy.linalg.inv: on an invertible 2x2 matrix a two-sided inverse. *)
Definition mmul (A B : M2x2) : M2x2 :=
  let '(a, b, c, d) := A in let '(e, f, g, h) := B in
  (a * e + b * g, a * f + b * h, c * e + d * g, c * f + d * h).
Definition inv_spec (inv : M2x2 -> res M2x2) : Prop := forall a b c d, a * d - b * c <> 0 ->
  exists M, inv (a, b, c, d) = Ok M /\ mmul (a, b, c, d) M = (1, 0, 0, 1).

(** Covariance of a linear(ised) model: if the objective is the quadratic form
    S0 + (r - ropt)^T A (r - ropt) (A = X^T X of the normal equations), the reported
    matrix is s^2 A^{-1} with s^2 = S0/(ndata - 2). *)
Theorem C76_covariance inv S0 a11 a12 a22 o1 o2 ndata : inv_spec inv -> (2 < ndata)%nat ->
  a11 * a22 - a12 * a12 <> 0 ->
  let sse := fun r : R * R => let '(u, v) := r in
    S0 + a11 * (u - o1) ^ 2 + 2 * a12 * (u - o1) * (v - o2) + a22 * (v - o2) ^ 2 in
  exists cov, fit_cov inv sse (o1, o2) (sse (o1, o2)) ndata = Ok (Some cov) /\
    mmul (a11, a12, a12, a22) cov = (S0 / (INR ndata - 2), 0, 0, S0 / (INR ndata - 2)).
Proof.
  intros HI Hn Hd sse. unfold fit_cov. apply Nat.ltb_lt in Hn. rewrite Hn. apply Nat.ltb_lt in Hn. cbv zeta.
  assert (E : hessian2_centered sse (o1, o2) (1 / 10 ^ 4) = (2 * a11, 2 * a12, 2 * a12, 2 * a22)).
  { pose proof (C11_centered_exact (S0 + a11 * o1 ^ 2 + 2 * a12 * o1 * o2 + a22 * o2 ^ 2)
      (-2 * a11 * o1 - 2 * a12 * o2) (-2 * a22 * o2 - 2 * a12 * o1) (2 * a11) (2 * a12) (2 * a22) 0 0 0 0 o1 o2 (1 / 10 ^ 4)) as H.
    transitivity (2 * a11 + 0 * o1 + 0 * o2, 2 * a12 + 0 * o1 + 0 * o2, 2 * a12 + 0 * o1 + 0 * o2, 2 * a22 + 0 * o1 + 0 * o2).
    - rewrite <- H. f_equal. apply FunctionalExtensionality.functional_extensionality. intros (u & v). unfold sse. field.
    - f_equal; [f_equal; [f_equal|]|]; ring. }
  rewrite E. destruct (HI (2 * a11) (2 * a12) (2 * a12) (2 * a22)) as ((((e & f) & g) & h) & EI & EM).
  { replace (2 * a11 * (2 * a22) - 2 * a12 * (2 * a12)) with (4 * (a11 * a22 - a12 * a12)) by ring.
    apply Rmult_integral_contrapositive_currified; lra. }
  rewrite EI. cbn [bind]. eexists. split; [reflexivity|].
  assert (S : sse (o1, o2) = S0) by (unfold sse; ring). rewrite S.
  set (q := S0 / (INR ndata - 2)). cbn [mmul] in EM |- *. injection EM as E1 E2 E3 E4.
  f_equal; [f_equal; [f_equal|]|].
  - transitivity ((2 * a11 * e + 2 * a12 * g) * q); [ring|]. rewrite E1. ring.
  - transitivity ((2 * a11 * f + 2 * a12 * h) * q); [ring|]. rewrite E2. ring.
  - transitivity ((2 * a12 * e + 2 * a22 * g) * q); [ring|]. rewrite E3. ring.
  - transitivity ((2 * a12 * f + 2 * a22 * h) * q); [ring|]. rewrite E4. ring.
Qed.

(** Two points or fewer: no covariance. *)
Theorem C76_no_covariance inv sse r s n : (n <= 2)%nat -> fit_cov inv sse r s n = Ok None.
Proof. intros H. unfold fit_cov. apply Nat.ltb_ge in H. now rewrite H. Qed.

(** The explicit inverse meets the specification. *)
Definition inv2 (M : M2x2) : res M2x2 :=
  let '(a, b, c, d) := M in
  let D := a * d - b * c in
  if Req_EM_T D 0 then Err LinAlgError else Ok (d / D, - b / D, - c / D, a / D).
Lemma inv2_spec : inv_spec inv2.
Proof.
  intros a b c d H. unfold inv2. cbv zeta. destruct (Req_EM_T (a * d - b * c) 0); [tauto|].
  eexists. split; [reflexivity|]. cbn [mmul]. repeat f_equal; field; auto.
Qed.
Example C76_case : exists cov, fit_cov inv2 (fun r : R * R => let '(u, v) := r in 3 + 1 * (u - 1) ^ 2 + 2 * 0 * (u - 1) * (v - 2) + 2 * (v - 2) ^ 2)
   (1, 2) 3 5 = Ok (Some cov) /\ mmul (1, 0, 0, 2) cov = (1, 0, 0, 1).
Proof.
  destruct (C76_covariance inv2 3 1 0 2 1 2 5 inv2_spec) as (cov & E & M); [lia|lra|].
  cbv zeta in E. replace (3 + 1 * (1 - 1) ^ 2 + 2 * 0 * (1 - 1) * (2 - 2) + 2 * (2 - 2) ^ 2) with 3 in E by ring.
  exists cov. split; [exact E|]. rewrite M. replace (INR 5) with 5 by (simpl; ring). repeat f_equal; field.
Qed.

(* ------------------------------------------------------------------ *)
(** * C77 Meaning of the data set weight                              *)
(* ------------------------------------------------------------------ *)

(** The two objectives agree for unit weights up to the regularisation constant 1e-10 ... *)
Theorem C77_unit_weight l F :
  sse_ODR [mkFf l 1] F = (1 + 1 / 10 ^ 10) ^ 2 * sse_NLLS [mkFf l 1] F.
Proof.
  unfold sse_ODR, sse_NLLS. cbn [map rsum_list ff_pts ff_weight]. rewrite !Rplus_0_r, Rmult_1_l.
  induction l as [|((f & y) & s) l IH]; cbn [map rsum_list]; [ring|]. rewrite IH.
  set (c := 1 + 1 / 10 ^ 10). assert (c <> 0) by (unfold c; lra). clearbody c.
  unfold Rdiv. rewrite Rinv_mult, Rinv_inv. ring.
Qed.

(** Finding: ... but a weight w multiplies the contribution of a data set by w in the NLLS
    objective and by (w + 1e-10)^2 in the ODR objective, so the relative weights of data
    sets mean different things in the two methods. *)
Theorem C77_weight_refuted : exists l F w, 0 < w /\
  sse_NLLS [mkFf l w] F = w * sse_NLLS [mkFf l 1] F /\
  sse_ODR [mkFf l w] F > 3 / 2 * (w * sse_ODR [mkFf l 1] F) /\ 0 < sse_ODR [mkFf l 1] F.
Proof.
  exists [(1 / 2, 1, 1)], (fun _ => 0), 2. unfold sse_ODR, sse_NLLS. cbn [map rsum_list ff_pts ff_weight].
  assert (K : forall c : R, c <> 0 -> (1 - 0) / (1 / c) * ((1 - 0) / (1 / c)) = c * c) by (intros; field; auto).
  rewrite !K by lra. repeat split; lra.
Qed.

Print Assumptions C35_recovers.
Print Assumptions C35_identical.
Print Assumptions C36_getvar.
Print Assumptions C36_getvar_kp_refuted.
Print Assumptions C36_history.
Print Assumptions C36_accepts.
Print Assumptions C36_atomic_refuted.
Print Assumptions C76_identifiable.
Print Assumptions C76_covariance.
Print Assumptions C76_no_covariance.
Print Assumptions C77_unit_weight.
Print Assumptions C77_weight_refuted.
