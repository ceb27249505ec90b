(** C110: inputs and plots of the distributions. *)
From Coq Require Import Reals Lra Lia List Bool Arith String Psatz.
From Verif Require Import Prelude UtilsModel CopoDataModel DistModel DataModel DistPlotModel.
Import ListNotations.
Open Scope R_scope.

(** the name of a kind *)
Definition kname (k : kind) : string := match k with Number => "number" | Mass => "mass" | Gpc => "gpc" end.

Lemma ksome s : existsb (String.eqb s) kind_names = true <-> exists k, s = kname k.
Proof.
  unfold kind_names. cbn [existsb]. rewrite !orb_true_iff, !String.eqb_eq. split.
  - intros [H|[H|[H|H]]]; [exists Number|exists Mass|exists Gpc|discriminate]; exact H.
  - intros ([| |] & H); cbn in H; auto.
Qed.
Lemma kl k : kind_lookup (kname k) = Ok (kind_order k).
Proof. now destruct k. Qed.

(** A string is accepted by pdf exactly when it is the name of a kind, in any case of its
    letters; the subclass method is called with the order of that kind; everything else is a
    TypeError or a ValueError. *)
Theorem C110_pdf_inputs {A} (f : nat -> bool -> A) kd sm :
  (forall v, pdf_call f kd sm = Ok v <-> exists s b k, kd = KStr s /\ sm = KBool b /\ lower s = kname k /\ v = f (kind_order k) b) /\
  (forall e, pdf_call f kd sm = Err e -> e = TypeError \/ e = ValueError).
Proof.
  unfold pdf_call, verify_sizeasmass, verify_kind, check_in_set. split.
  - intros v. split.
    + destruct sm as [| |b|]; try discriminate. cbn [bind]. destruct kd as [s| | |]; cbn [bind]; try discriminate. cbn [elems forallb].
      rewrite andb_true_r. destruct (existsb _ _) eqn:E; cbn [bind]; [|discriminate]. apply ksome in E. destruct E as (k & E). rewrite E, kl. cbn [bind].
      intros [= <-]. exists s, b, k. auto.
    + intros (s & b & k & -> & -> & E & ->). cbn [bind elems forallb]. rewrite E. rewrite (proj2 (ksome (kname k))) by eauto. cbn [andb bind]. now rewrite kl.
  - intros e. destruct sm as [| |b|]; cbn [bind]; try (intros [= <-]; auto; fail). destruct kd as [s| | |]; cbn [bind]; try (intros [= <-]; auto; fail).
    cbn [elems forallb]. rewrite andb_true_r. destruct (existsb _ _) eqn:E; cbn [bind]; [|intros [= <-]; auto]. apply ksome in E. destruct E as (k & E). rewrite E, kl. discriminate.
Qed.

Theorem C110_cdf_inputs {A} (f : nat -> bool -> A) kd sm :
  (forall v, cdf_call f kd sm = Ok v <-> exists s b k, kd = KStr s /\ sm = KBool b /\ lower s = kname k /\ k <> Gpc /\ v = f (kind_order k) b) /\
  (forall e, cdf_call f kd sm = Err e -> e = TypeError \/ e = ValueError).
Proof.
  unfold cdf_call, verify_kind, check_in_set. split.
  - intros v. split.
    + destruct kd as [s| | |]; cbn [bind]; try discriminate. cbn [elems forallb].
      rewrite andb_true_r. destruct (existsb _ _) eqn:E; cbn [bind]; [|discriminate]. apply ksome in E. destruct E as (k & E). rewrite E.
      destruct (String.eqb_spec (kname k) "gpc") as [G|G]; [discriminate|]. rewrite kl. cbn [bind]. destruct sm as [| |b|]; try discriminate. cbn [verify_sizeasmass bind].
      intros [= <-]. exists s, b, k. repeat split; auto. intros ->. now apply G.
    + intros (s & b & k & -> & -> & E & G & ->). cbn [bind elems forallb]. rewrite E. rewrite (proj2 (ksome (kname k))) by eauto. cbn [andb bind].
      destruct k; [reflexivity|reflexivity|easy].
  - intros e. destruct kd as [s| | |]; cbn [bind]; try (intros [= <-]; auto; fail).
    cbn [elems forallb]. rewrite andb_true_r. destruct (existsb _ _) eqn:E; cbn [bind]; [|intros [= <-]; auto]. apply ksome in E. destruct E as (k & E). rewrite E.
    destruct (String.eqb _ _); [intros [= <-]; auto|]. rewrite kl. cbn [bind]. destruct sm; cbn [verify_sizeasmass bind]; intros [= <-]; auto.
Qed.

(** The axis is logarithmic when asked for, or when every curve is of kind gpc. *)
Theorem C110_scale xs kinds : logscale xs kinds = true <->
  (xs = "log"%string \/ (xs = "auto"%string /\ kinds <> [] /\ forall k, In k kinds -> k = "gpc"%string)).
Proof.
  unfold logscale. destruct (String.eqb_spec xs "auto") as [->|N]; cbn [andb].
  - destruct kinds as [|k0 r].
    + cbn. split; [discriminate|intros [H|(_ & H & _)]; [discriminate|easy]].
    + cbn [List.length Nat.eqb negb andb]. destruct (forallb _ _) eqn:E.
      * split; auto. intros _. right. split; [reflexivity|]. split; [discriminate|]. rewrite forallb_forall in E. intros k Hk. specialize (E k Hk). apply String.eqb_eq in E. now rewrite E.
      * split; [discriminate|]. intros [H|(_ & _ & H)]; [discriminate|]. exfalso. rewrite <- not_true_iff_false in E. apply E. apply forallb_forall. intros k Hk. rewrite (H k Hk). reflexivity.
  - rewrite String.eqb_eq. split; [auto|]. intros [H|(H & _)]; [exact H|easy].
Qed.

(** * The x vector *)
Lemma seq_sorted_map (g : nat -> R) n : (forall i j, (i < j < n)%nat -> g i < g j) ->
  forall i j, (i < j < n)%nat -> nth i (map g (seq 0 n)) 0 < nth j (map g (seq 0 n)) 0.
Proof.
  intros H i j Hij. rewrite (nth_indep _ 0 (g 0%nat)), (nth_indep (map g (seq 0 n)) 0 (g 0%nat)) by (rewrite map_length, seq_length; lia).
  rewrite !map_nth, !seq_nth by lia. apply H. lia.
Qed.
Lemma nth_map_seq (g : nat -> R) n i : (i < n)%nat -> nth i (map g (seq 0 n)) 0 = g i.
Proof. intros H. rewrite (nth_indep _ 0 (g 0%nat)) by (rewrite map_length, seq_length; lia). rewrite map_nth, seq_nth by lia. f_equal. Qed.

(** strictly increasing from [lo] to [hi] in [n] points *)
Definition spans (x : list R) (lo hi : R) (n : nat) : Prop :=
  List.length x = n /\ nth 0 x 0 = lo /\ nth (n - 1) x 0 = hi /\ forall i j, (i < j < n)%nat -> nth i x 0 < nth j x 0.

Lemma linspace_spans a b n : a < b -> (1 < n)%nat -> spans (linspace a b n) a b n.
Proof.
  intros H N. assert (P : 0 < INR (n - 1)) by (apply lt_0_INR; lia). unfold linspace. split; [now rewrite map_length, seq_length|].
  split; [rewrite nth_map_seq by lia; cbn [INR]; ring|]. split; [rewrite nth_map_seq by lia; field; lra|].
  apply seq_sorted_map. intros i j Hij. assert (INR i < INR j) by (apply lt_INR; lia).
  assert (0 < (b - a) / INR (n - 1)) by (apply Rdiv_lt_0_compat; lra). nra.
Qed.
Lemma geomspace_spans a b n : 0 < a < b -> (1 < n)%nat -> exists x, geomspace a b n = Ok x /\ spans x a b n.
Proof.
  intros H N. assert (P : 0 < INR (n - 1)) by (apply lt_0_INR; lia). unfold geomspace.
  rewrite (proj2 (Reqb_false a 0)) by lra. rewrite (proj2 (Reqb_false b 0)) by lra. cbn [orb]. eexists. split; [reflexivity|].
  assert (L : 0 < ln (b / a)). { rewrite <- ln_1. apply ln_increasing; [lra|]. apply (Rmult_lt_reg_r a); [lra|]. unfold Rdiv. rewrite Rmult_assoc, Rinv_l by lra. lra. }
  split; [now rewrite map_length, seq_length|].
  split; [rewrite nth_map_seq by lia; cbn [INR]; unfold Rdiv at 1; rewrite !Rmult_0_l, exp_0; ring|].
  split. { rewrite nth_map_seq by lia. replace (INR (n - 1) / INR (n - 1)) with 1 by (field; lra). rewrite Rmult_1_l, exp_ln; [field; lra|]. apply Rdiv_lt_0_compat; lra. }
  apply seq_sorted_map. intros i j Hij. assert (INR i < INR j) by (apply lt_INR; lia). apply Rmult_lt_compat_l; [lra|]. apply exp_increasing.
  apply Rmult_lt_compat_r; [exact L|]. unfold Rdiv. apply Rmult_lt_compat_r; [now apply Rinv_0_lt_compat|exact H0].
Qed.
Lemma np2 t : (1 < npoints t)%nat.
Proof. destruct t as [i|ids]; cbn -[Nat.mul]; lia. Qed.

(** * The ranges *)
(** the range which an object will report *)
Definition range_of (h : heap) (i : nat) : R * R := match o_cache (h i) with Some v => v | None => o_default (h i) end.
Definition stretch (m : R) (p : R * R) : R * R := (fst p * m, snd p * m).

Lemma hset_same h i o : hset h i o i = o.
Proof. unfold hset. now rewrite Nat.eqb_refl. Qed.
Lemma hset_other h i o j : j <> i -> hset h i o j = h j.
Proof. unfold hset. intros N. destruct (Nat.eqb_spec j i); easy. Qed.

(** what a caller can see of the objects is the same *)
Definition same_view (h h' : heap) : Prop :=
  forall i, o_analytic (h' i) = o_analytic (h i) /\ o_M0 (h' i) = o_M0 (h i) /\ o_default (h' i) = o_default (h i) /\ range_of h' i = range_of h i.
Lemma sv_refl h : same_view h h.
Proof. now intros i. Qed.
Lemma sv_trans h1 h2 h3 : same_view h1 h2 -> same_view h2 h3 -> same_view h1 h3.
Proof. intros A B i. destruct (A i) as (a & b & c & d), (B i) as (a' & b' & c' & d'). now rewrite a', b', c', d'. Qed.

Lemma cached_range_spec h i : let '(v, h1) := cached_range h i in v = range_of h i /\ o_cache (h1 i) = Some v /\ same_view h h1.
Proof.
  unfold cached_range, range_of. destruct (o_cache (h i)) as [v|] eqn:E.
  - split; [reflexivity|]. split; [exact E|]. apply sv_refl.
  - rewrite hset_same. cbn. split; [reflexivity|]. split; [reflexivity|]. intros j. destruct (Nat.eq_dec j i) as [->|N].
    + unfold range_of. rewrite hset_same, E. now cbn.
    + unfold range_of. now rewrite hset_other.
Qed.

Lemma xrange_ind_spec h i sam : let '(a, h1) := xrange_ind h i sam in
  same_view h h1 /\ aread h1 a = (if sam then stretch (o_M0 (h i)) (range_of h i) else range_of h i) /\
  (sam = true -> exists p, a = Fresh p) /\ (sam = false -> a = Cell i /\ o_cache (h1 i) = Some (range_of h i)).
Proof.
  unfold xrange_ind. pose proof (cached_range_spec h i) as S. destruct (cached_range h i) as (v, h1). destruct S as (V & C & S).
  destruct sam; cbn [aread].
  - split; [exact S|]. split; [rewrite V; reflexivity|]. split; [eauto|discriminate].
  - split; [exact S|]. split; [now rewrite C|]. split; [discriminate|]. intros _. rewrite C, V. auto.
Qed.

Lemma xranges_spec h ids sam : let '(l, h1) := xranges h ids sam in
  same_view h h1 /\ l = map (fun i => if sam then stretch (o_M0 (h i)) (range_of h i) else range_of h i) ids.
Proof.
  revert h. induction ids as [|i r IH]; intros h; cbn [xranges map]; [split; [apply sv_refl|reflexivity]|].
  pose proof (xrange_ind_spec h i sam) as S. destruct (xrange_ind h i sam) as (a, h1). destruct S as (S & V & _).
  specialize (IH h1). destruct (xranges h1 r sam) as (l, h2). destruct IH as (S2 & E). split; [eapply sv_trans; eauto|].
  rewrite V, E. f_equal. apply map_ext. intros j. destruct (S j) as (_ & m & _ & d). now rewrite m, d.
Qed.

Lemma fold_min l : forall a, (list_min a l <= a /\ forall y, In y l -> list_min a l <= y) /\ (list_min a l = a \/ In (list_min a l) l).
Proof.
  induction l as [|x l IH]; intros a; unfold list_min in *; cbn [fold_left]; [split; [split; [lra|now intros]|auto]|].
  destruct (IH (Rmin a x)) as ((H1 & H2) & H3). pose proof (Rmin_l a x). pose proof (Rmin_r a x). split; [split; [lra|]|].
  - intros y [->|Hy]; [lra|now apply H2].
  - destruct H3 as [H3|H3]; [|right; now right]. rewrite H3. unfold Rmin. destruct (Rle_dec a x); [auto|right; now left].
Qed.
Lemma fold_max l : forall a, (a <= list_max a l /\ forall y, In y l -> y <= list_max a l) /\ (list_max a l = a \/ In (list_max a l) l).
Proof.
  induction l as [|x l IH]; intros a; unfold list_max in *; cbn [fold_left]; [split; [split; [lra|now intros]|auto]|].
  destruct (IH (Rmax a x)) as ((H1 & H2) & H3). pose proof (Rmax_l a x). pose proof (Rmax_r a x). split; [split; [lra|]|].
  - intros y [->|Hy]; [lra|now apply H2].
  - destruct H3 as [H3|H3]; [|right; now right]. rewrite H3. unfold Rmax. destruct (Rle_dec a x); [right; now left|auto].
Qed.

(** The range of a mixture is the smallest interval that contains the ranges of its
    components; it is computed without changing any object; an empty mixture has none. *)
Theorem C110_mixture_range h ids sam :
  let '(h1, r) := xrange_mix h ids sam in same_view h h1 /\
  match ids with
  | [] => r = Err ValueError
  | _ => exists lo hi, r = Ok (Fresh (lo, hi)) /\
      (forall i, In i ids -> let m := if sam then o_M0 (h i) else 1 in lo <= fst (range_of h i) * m /\ snd (range_of h i) * m <= hi) /\
      (exists i, In i ids /\ lo = fst (range_of h i) * if sam then o_M0 (h i) else 1) /\
      (exists i, In i ids /\ hi = snd (range_of h i) * if sam then o_M0 (h i) else 1)
  end.
Proof.
  unfold xrange_mix. pose proof (xranges_spec h ids sam) as S. destruct (xranges h ids sam) as (l, h1). destruct S as (S & ->). split; [exact S|].
  destruct ids as [|i0 r]; [reflexivity|]. cbn [map].
  set (g := fun i => if sam then stretch (o_M0 (h i)) (range_of h i) else range_of h i).
  assert (F : forall i, fst (g i) = fst (range_of h i) * (if sam then o_M0 (h i) else 1)) by (intros i; unfold g, stretch; destruct sam; cbn; ring).
  assert (F2 : forall i, snd (g i) = snd (range_of h i) * (if sam then o_M0 (h i) else 1)) by (intros i; unfold g, stretch; destruct sam; cbn; ring).
  change (if sam then stretch (o_M0 (h i0)) (range_of h i0) else range_of h i0) with (g i0). rewrite !map_map.
  destruct (fold_min (map (fun x => fst (g x)) r) (fst (g i0))) as ((A1 & A2) & A3). destruct (fold_max (map (fun x => snd (g x)) r) (snd (g i0))) as ((B1 & B2) & B3).
  do 2 eexists. split; [reflexivity|]. split; [|split].
  - intros i Hi. cbn zeta. rewrite <- F, <- F2. destruct Hi as [->|Hi]; [now split|]. split; [apply A2|apply B2]; apply in_map_iff; eauto.
  - destruct A3 as [A3|A3]; [exists i0; split; [now left|rewrite A3; apply F]|]. apply in_map_iff in A3. destruct A3 as (i & E & Hi). exists i. split; [now right|]. rewrite <- E. apply F.
  - destruct B3 as [B3|B3]; [exists i0; split; [now left|rewrite B3; apply F2]|]. apply in_map_iff in B3. destruct B3 as (i & E & Hi). exists i. split; [now right|]. rewrite <- E. apply F2.
Qed.

(** the range is wide: more than three decades *)
Definition wide (p : R * R) : Prop := 1000 * fst p < snd p.
Lemma log10_wide p : 0 < fst p -> 0 < snd p -> (3 < log10 (snd p / fst p) <-> wide p).
Proof.
  intros A B. unfold log10, wide. assert (L : 0 < ln 10) by (rewrite <- ln_1; apply ln_increasing; lra).
  assert (Q : 0 < snd p / fst p) by now apply Rdiv_lt_0_compat.
  assert (E : ln 1000 = 3 * ln 10). { replace 1000 with (10 * (10 * 10)) by lra. rewrite !ln_mult by lra. ring. }
  assert (H1 : 3 < ln (snd p / fst p) / ln 10 <-> ln 1000 < ln (snd p / fst p)).
  { rewrite E. split; intros H.
    - apply (Rmult_lt_compat_r (ln 10)) in H; [|lra]. unfold Rdiv in H at 1. rewrite Rmult_assoc, Rinv_l, Rmult_1_r in H by lra. exact H.
    - apply (Rmult_lt_reg_r (ln 10)); [lra|]. unfold Rdiv at 1. rewrite Rmult_assoc, Rinv_l, Rmult_1_r by lra. exact H. }
  rewrite H1. assert (M : snd p / fst p * fst p = snd p) by (field; lra). split; intros H.
  - apply ln_lt_inv in H; [|lra|exact Q]. rewrite <- M. apply Rmult_lt_compat_r; lra.
  - apply ln_increasing; [lra|]. apply (Rmult_lt_reg_r (fst p)); [lra|]. rewrite M. exact H.
Qed.

(** * Plots that leave the objects alone *)
Lemma plot_fst pdf cdf h t kd sm xs xr nc :
  fst (plot pdf cdf h t kd sm xs xr nc) = h \/
  exists k sam, verify_kind kd true = Ok k /\ sm = KBool sam /\ fst (plot pdf cdf h t kd sm xs xr nc) = fst (plot_range h t (logscale xs (elems k)) sam xr).
Proof.
  unfold plot. destruct (verify_kind kd true) as [k|e]; [|now left]. destruct sm as [| |sam|]; cbn [verify_sizeasmass]; try now left.
  destruct (check_in_set _ _); [|now left]. destruct (Nat.ltb _ _); [now left|]. right. exists k, sam. split; [reflexivity|]. split; [reflexivity|].
  destruct (plot_range h t (logscale xs (elems k)) sam xr). reflexivity.
Qed.

Definition base_range (h : heap) (i : nat) (sam : bool) : R * R := if sam then stretch (o_M0 (h i)) (range_of h i) else range_of h i.
(** admissible objects: positive ends of the range, positive molar mass *)
Definition good (h : heap) : Prop := forall i, 0 < fst (range_of h i) < snd (range_of h i) /\ 0 < o_M0 (h i).
Lemma base_good h i sam : good h -> 0 < fst (base_range h i sam) < snd (base_range h i sam).
Proof. intros G. destruct (G i) as (A & B). unfold base_range, stretch. destruct sam; cbn; [nra|exact A]. Qed.
Lemma base_wide h i sam : good h -> (wide (base_range h i sam) <-> wide (range_of h i)).
Proof. intros G. destruct (G i) as (A & B). unfold base_range, stretch, wide. destruct sam; cbn; [split; nra|easy]. Qed.
Lemma good_view h h' : same_view h h' -> good h -> good h'.
Proof. intros S G i. destruct (S i) as (_ & m & _ & d). rewrite m, d. apply G. Qed.
Lemma base_view h h' i sam : same_view h h' -> base_range h' i sam = base_range h i sam.
Proof. intros S. destruct (S i) as (_ & m & _ & d). unfold base_range. now rewrite m, d. Qed.

Definition ten (p : R * R) : R * R := (fst p, snd p * 10).
(** The range of the first plot of an individual distribution: its default range, stretched
    tenfold at the upper end on a logarithmic axis when it exceeds three decades. *)
Lemma plot_range_ind h i lg sam : good h ->
  (lg = true -> o_analytic (h i) = true -> wide (range_of h i) ->
     snd (plot_range h (Ind i) lg sam None) = Ok (ten (base_range h i sam)) /\
     (sam = true -> same_view h (fst (plot_range h (Ind i) lg sam None))) /\
     (sam = false -> let h' := fst (plot_range h (Ind i) lg sam None) in range_of h' i = ten (range_of h i) /\
        o_analytic (h' i) = o_analytic (h i) /\ o_M0 (h' i) = o_M0 (h i) /\ o_default (h' i) = o_default (h i) /\ forall j, j <> i -> h' j = h j)) /\
  (lg = false \/ o_analytic (h i) = false \/ ~ wide (range_of h i) ->
     snd (plot_range h (Ind i) lg sam None) = Ok (base_range h i sam) /\ same_view h (fst (plot_range h (Ind i) lg sam None))).
Proof.
  intros G. unfold plot_range, xrange_plot. pose proof (xrange_ind_spec h i sam) as S.
  assert (OT : forall j, j <> i -> snd (xrange_ind h i sam) j = h j).
  { intros j N. unfold xrange_ind, cached_range. destruct (o_cache (h i)); destruct sam; cbn [snd]; try reflexivity; now apply hset_other. }
  destruct (xrange_ind h i sam) as (a, h1). cbn [snd] in OT. destruct S as (S & V & F & C). fold (base_range h i sam) in V. rewrite V.
  pose proof (base_good h i sam G) as BG. pose proof (log10_wide (base_range h i sam) ltac:(lra) ltac:(lra)) as LW. rewrite (base_wide h i sam G) in LW.
  destruct (S i) as (SA & SM & SD & SR). cbn [widenable]. rewrite SA. split.
  - intros -> HA HW. rewrite HA. rewrite (proj2 (Rltb_true _ _)) by now apply LW. cbn [andb]. destruct sam.
    + destruct (F eq_refl) as (p & ->). cbn [aread] in V. rewrite V. cbn [widen aread fst snd]. split; [reflexivity|]. split; [auto|discriminate].
    + destruct (C eq_refl) as (-> & C2). cbn [widen aread]. rewrite C2. rewrite hset_same. cbn [o_cache fst snd]. split; [reflexivity|]. split; [discriminate|].
      intros _. cbn zeta. unfold range_of at 1. rewrite hset_same. cbn. split; [reflexivity|]. split; [rewrite SA; auto|]. split; [auto|]. split; [auto|]. intros j N. rewrite hset_other by auto. auto.
  - intros H. assert (E : lg && Rltb 3 (log10 (snd (base_range h i sam) / fst (base_range h i sam))) && o_analytic (h i) = false).
    { destruct H as [->|[->|H]]; [reflexivity|apply andb_false_r|]. rewrite (proj2 (Rltb_false _ _)); [now rewrite andb_false_r|]. destruct (Rle_lt_dec (log10 (snd (base_range h i sam) / fst (base_range h i sam))) 3) as [Q|Q]; [exact Q|]. exfalso. apply H. now apply LW. }
    rewrite E. cbn [fst snd]. split; [reflexivity|exact S].
Qed.

(** The range of a plot of a mixture; no object changes. *)
Lemma plot_range_mix h ids lg sam : good h ->
  same_view h (fst (plot_range h (Mix ids) lg sam None)) /\
  match ids with
  | [] => snd (plot_range h (Mix ids) lg sam None) = Err ValueError
  | _ => exists p, snd (xrange_mix h ids sam) = Ok (Fresh p) /\ 0 < fst p < snd p /\
         (lg = true -> wide p -> snd (plot_range h (Mix ids) lg sam None) = Ok (ten p)) /\
         (lg = false \/ ~ wide p -> snd (plot_range h (Mix ids) lg sam None) = Ok p)
  end.
Proof.
  intros G. pose proof (C110_mixture_range h ids sam) as M. unfold plot_range, xrange_plot. destruct (xrange_mix h ids sam) as (h1, r). destruct M as (S & M).
  destruct ids as [|i0 ids]; [subst r; now split|]. destruct M as (lo & hi & -> & B & (i & Hi & L) & (j & Hj & U)). cbn [aread fst snd widenable widen].
  assert (P : 0 < lo < hi).
  { destruct (B i Hi) as (_ & B2). destruct (B j Hj) as (B1 & _). destruct (G i) as (G1 & G2). destruct (G j) as (G3 & G4). cbn zeta in B2. rewrite L.
    assert (Q : 0 < if sam then o_M0 (h i) else 1) by (destruct sam; lra). split; [nra|]. rewrite <- L. rewrite L. eapply Rlt_le_trans; [|exact B2]. nra. }
  pose proof (log10_wide (lo, hi) ltac:(cbn; lra) ltac:(cbn; lra)) as LW. cbn [fst snd] in LW. rewrite andb_true_r. split.
  - destruct (lg && _); cbn [fst]; exact S.
  - exists (lo, hi). split; [reflexivity|]. split; [exact P|]. split.
    + intros -> HW. rewrite (proj2 (Rltb_true _ _)) by now apply LW. reflexivity.
    + intros H. assert (E : lg && Rltb 3 (log10 (hi / lo)) = false). { destruct H as [->|H]; [reflexivity|]. rewrite (proj2 (Rltb_false _ _)); [now rewrite andb_false_r|]. destruct (Rle_lt_dec (log10 (hi / lo)) 3) as [Q|Q]; [exact Q|]. exfalso. apply H. now apply LW. }
      rewrite E. reflexivity.
Qed.

(** The plots that alter the plotted object: chain lengths, logarithmic axis, default range,
    analytical distribution whose range exceeds three decades. *)
Definition widening (h : heap) (t : target) (kd sm : karg) (xs : string) (xr : option (R * R)) : Prop :=
  exists i k, t = Ind i /\ sm = KBool false /\ xr = None /\ verify_kind kd true = Ok k /\ logscale xs (elems k) = true /\ o_analytic (h i) = true /\ wide (range_of h i).

(** All other plots leave every object as it was. *)
Theorem C110_pure pdf cdf h t kd sm xs xr nc : good h -> ~ widening h t kd sm xs xr ->
  same_view h (fst (plot pdf cdf h t kd sm xs xr nc)).
Proof.
  intros G NW. destruct (plot_fst pdf cdf h t kd sm xs xr nc) as [->|(k & sam & K & -> & ->)]; [apply sv_refl|].
  destruct xr as [r|]; [apply sv_refl|]. destruct t as [i|ids]; [|apply plot_range_mix; auto].
  destruct (plot_range_ind h i (logscale xs (elems k)) sam G) as (A & B).
  destruct (logscale xs (elems k)) eqn:LG; [|apply B; auto]. destruct (o_analytic (h i)) eqn:AN; [|apply B; auto].
  destruct (Rlt_dec (1000 * fst (range_of h i)) (snd (range_of h i))) as [W|W]; [|apply B; auto].
  destruct sam; [apply A; auto|]. exfalso. apply NW. exists i, k. now repeat split.
Qed.

(** The figure depends on the objects only through what a caller can see of them. *)
Lemma plot_range_view h h' t lg sam xr : good h -> same_view h h' -> snd (plot_range h' t lg sam xr) = snd (plot_range h t lg sam xr).
Proof.
  intros G S. pose proof (good_view h h' S G) as G'. destruct xr as [r|]; [reflexivity|]. destruct t as [i|ids].
  - destruct (plot_range_ind h i lg sam G) as (A & B). destruct (plot_range_ind h' i lg sam G') as (A' & B'). destruct (S i) as (SA & _ & _ & SR).
    assert (HB : base_range h' i sam = base_range h i sam) by now apply base_view. rewrite SA, SR in A', B'. rewrite HB in A', B'.
    destruct lg; [|destruct (B ltac:(auto)) as (-> & _), (B' ltac:(auto)) as (-> & _); reflexivity].
    destruct (o_analytic (h i)) eqn:AN; [|destruct (B ltac:(auto)) as (-> & _), (B' ltac:(auto)) as (-> & _); reflexivity].
    destruct (Rlt_dec (1000 * fst (range_of h i)) (snd (range_of h i))) as [W|W]; [|destruct (B ltac:(auto)) as (-> & _), (B' ltac:(auto)) as (-> & _); reflexivity].
    destruct (A eq_refl eq_refl W) as (-> & _), (A' eq_refl eq_refl W) as (-> & _). reflexivity.
  - destruct (plot_range_mix h ids lg sam G) as (_ & A). destruct (plot_range_mix h' ids lg sam G') as (_ & A'). destruct ids as [|i0 ids]; [congruence|].
    destruct A as (p & P & _ & A1 & A2). destruct A' as (p' & P' & _ & A1' & A2').
    assert (E : p' = p).
    { unfold xrange_mix in P, P'. pose proof (xranges_spec h (i0 :: ids) sam) as X. pose proof (xranges_spec h' (i0 :: ids) sam) as X'.
      destruct (xranges h (i0 :: ids) sam) as (l, h1). destruct (xranges h' (i0 :: ids) sam) as (l', h1'). destruct X as (_ & X), X' as (_ & X').
      assert (E : l' = l). { rewrite X, X'. apply map_ext. intros j. apply (base_view h h' j sam S). }
      cbn [snd] in P, P'. rewrite E in P'. congruence. }
    subst p'. destruct lg; [|rewrite A2, A2' by auto; reflexivity].
    destruct (Rlt_dec (1000 * fst p) (snd p)) as [W|W]; [rewrite A1, A1' by auto; reflexivity|rewrite A2, A2' by auto; reflexivity].
Qed.

Theorem C110_same_figure pdf cdf h h' t kd sm xs xr nc : good h -> same_view h h' ->
  snd (plot pdf cdf h' t kd sm xs xr nc) = snd (plot pdf cdf h t kd sm xs xr nc).
Proof.
  intros G S. unfold plot. destruct (verify_kind kd true) as [k|e]; [|reflexivity]. destruct (verify_sizeasmass sm) as [sam|e]; [|reflexivity].
  destruct (check_in_set _ _); [|reflexivity]. destruct (Nat.ltb _ _); [reflexivity|]. pose proof (plot_range_view h h' t (logscale xs (elems k)) sam xr G S) as E.
  destruct (plot_range h t _ sam xr) as (h1, r), (plot_range h' t _ sam xr) as (h1', r'). cbn [snd] in *. now rewrite E.
Qed.

(** So that, except for the widening plots, the same call gives the same figure again, and any
    other plot in between has no influence. *)
Theorem C110_repeatable pdf cdf h t kd sm xs xr nc t2 kd2 sm2 xs2 xr2 nc2 : good h -> ~ widening h t2 kd2 sm2 xs2 xr2 ->
  snd (plot pdf cdf (fst (plot pdf cdf h t2 kd2 sm2 xs2 xr2 nc2)) t kd sm xs xr nc) = snd (plot pdf cdf h t kd sm xs xr nc).
Proof. intros G NW. apply C110_same_figure; [exact G|]. now apply C110_pure. Qed.

(** * The widening plots *)
Lemma plot_ok_args pdf cdf h t kd xs sam nc k : verify_kind kd true = Ok k -> In xs ["linear"; "log"; "auto"]%string -> (nc <= 2)%nat ->
  fst (plot pdf cdf h t kd (KBool sam) xs None nc) = fst (plot_range h t (logscale xs (elems k)) sam None).
Proof.
  intros K X N. unfold plot. rewrite K. cbn [verify_sizeasmass]. unfold check_in_set. cbn [elems forallb]. rewrite andb_true_r.
  rewrite (proj2 (existsb_exists _ _)) by (exists xs; split; [exact X|apply String.eqb_refl]). rewrite (proj2 (Nat.ltb_ge 2 nc)) by lia.
  destruct (plot_range h t _ sam None). reflexivity.
Qed.

(** Every widening plot multiplies the upper end of the stored range by ten: after n of them it
    is 10^n times what the parameters of the distribution give. *)
Theorem C110_growth pdf cdf n h i kd xs nc k : good h -> verify_kind kd true = Ok k -> In xs ["linear"; "log"; "auto"]%string -> (nc <= 2)%nat ->
  logscale xs (elems k) = true -> o_analytic (h i) = true -> wide (range_of h i) ->
  let h' := plots pdf cdf n h (Ind i) kd (KBool false) xs nc in
  range_of h' i = (fst (range_of h i), snd (range_of h i) * 10 ^ n) /\ o_default (h' i) = o_default (h i) /\ o_analytic (h' i) = true /\ o_M0 (h' i) = o_M0 (h i) /\ forall j, j <> i -> h' j = h j.
Proof.
  intros G K X N L A W. induction n as [|n IH]; cbn [plots].
  - cbn zeta. cbn [pow]. rewrite Rmult_1_r. repeat split; auto. now destruct (range_of h i).
  - destruct IH as (R1 & D1 & A1 & M1 & O1). set (h1 := plots pdf cdf n h (Ind i) kd (KBool false) xs nc) in *. cbn zeta.
    assert (P : 1 <= 10 ^ n) by (apply pow_R1_Rle; lra).
    assert (G1 : good h1). { intros j. destruct (Nat.eq_dec j i) as [->|NE]; [rewrite R1, M1; destruct (G i) as (Q1 & Q2); cbn; split; [nra|auto]|]. unfold range_of. rewrite O1 by auto. apply G. }
    rewrite (plot_ok_args pdf cdf h1 (Ind i) kd xs false nc k K X N).
    destruct (plot_range_ind h1 i (logscale xs (elems k)) false G1) as (B & _). destruct B as (_ & _ & B); [exact L|exact A1|unfold wide; rewrite R1; cbn; unfold wide in W; destruct (G i); nra|].
    specialize (B eq_refl). cbn zeta in B. destruct B as (B1 & B2 & B3 & B4 & B5). rewrite B1, B2, B3, B4, R1, D1, A1, M1. unfold ten. cbn [fst snd].
    split; [f_equal; cbn [pow]; ring|]. split; [reflexivity|]. split; [reflexivity|]. split; [reflexivity|]. intros j NE. rewrite B5 by auto. auto.
Qed.

(** Assigning a parameter restores the default. *)
Theorem C110_reset h i d : range_of (update_parameters h i d) i = d /\ forall j, j <> i -> update_parameters h i d j = h j.
Proof. unfold update_parameters, range_of. rewrite hset_same. cbn. split; [reflexivity|]. intros j N. now apply hset_other. Qed.

(** Every Flory distribution with DPn >= 200 is concerned: its default range exceeds three
    decades. *)
Theorem C110_flory_wide DPn geom_ppf : 200 <= DPn ->
  (forall q p, 0 < q < 1 -> 0 < p < 1 -> q <= 1 - (1 - p) ^ geom_ppf q p /\ forall m, (m < geom_ppf q p)%nat -> 1 - (1 - p) ^ m < q) ->
  wide (flory_range geom_ppf (flory_a DPn)) /\ 0 < fst (flory_range geom_ppf (flory_a DPn)).
Proof.
  intros HD HG. set (a := flory_a DPn). assert (A : 199 / 200 <= a < 1).
  { unfold a, flory_a. assert (0 < / DPn) by (apply Rinv_0_lt_compat; lra). assert (/ DPn <= / 200) by (apply Rinv_le_contravar; lra). unfold Rdiv. lra. }
  destruct (HG ppf_lo (1 - a) ltac:(unfold ppf_lo; lra) ltac:(lra)) as (L1 & L2). destruct (HG ppf_hi (1 - a) ltac:(unfold ppf_hi; lra) ltac:(lra)) as (H1 & H2).
  replace (1 - (1 - a)) with a in * by ring. unfold flory_range, wide. cbn [fst snd]. unfold ppf_lo, ppf_hi in *.
  set (l := geom_ppf (1 / 10000) (1 - a)) in *. set (u := geom_ppf (9999 / 10000) (1 - a)) in *.
  assert (l1 : (0 < l)%nat). { destruct l; [cbn in L1; lra|lia]. }
  split; [|now apply lt_0_INR].
  replace 1000 with (INR 1000) by (rewrite INR_IZR_INZ; reflexivity). rewrite <- mult_INR. apply lt_INR. apply Nat.nle_gt. intros C.
  assert (a100 : / 2 <= a ^ 100).
  { eapply Rle_trans; [|apply (pow_incr (199 / 200) a 100); lra].
    assert (B : forall n, 1 - INR n / 200 <= (199 / 200) ^ n).
    { induction n as [|n IH]; [cbn; lra|]. rewrite S_INR. cbn [pow]. pose proof (pos_INR n). destruct (Rle_lt_dec (1 - INR n / 200) 0) as [Q|Q]; [|nra]. assert (0 < (199 / 200) ^ n) by (apply pow_lt; lra). lra. }
    pose proof (B 100%nat) as B100. replace (INR 100) with 100 in B100 by (rewrite INR_IZR_INZ; reflexivity). lra. }
  assert (a1000 : / 1024 <= a ^ 1000).
  { replace 1000%nat with (100 * 10)%nat by reflexivity. rewrite pow_mult. replace (/ 1024) with ((/ 2) ^ 10) by (cbn [pow]; lra). apply pow_incr. lra. }
  assert (al : 9 / 10 <= (a ^ (l - 1)) ^ 1000).
  { specialize (L2 (l - 1)%nat ltac:(lia)). assert (B : forall n, 1 - INR n / 10000 <= (9999 / 10000) ^ n).
    { induction n as [|n IH]; [cbn; lra|]. rewrite S_INR. cbn [pow]. pose proof (pos_INR n). destruct (Rle_lt_dec (1 - INR n / 10000) 0) as [Q|Q]; [|nra]. assert (0 < (9999 / 10000) ^ n) by (apply pow_lt; lra). lra. }
    eapply Rle_trans; [|apply (pow_incr (9999 / 10000)); lra]. eapply Rle_trans; [|apply B]. replace (INR 1000) with 1000 by (rewrite INR_IZR_INZ; reflexivity). lra. }
  assert (E : a ^ (1000 * l) = (a ^ (l - 1)) ^ 1000 * a ^ 1000).
  { rewrite <- pow_mult, <- pow_add. f_equal. lia. }
  assert (M : a ^ (1000 * l) <= a ^ u).
  { replace (1000 * l)%nat with (u + (1000 * l - u))%nat by lia. rewrite pow_add. assert (0 < a ^ u) by (apply pow_lt; lra).
    assert (a ^ (1000 * l - u) <= 1) by (rewrite <- (pow1 (1000 * l - u)); apply pow_incr; lra). nra. }
  nra.
Qed.

(** * The figure *)
Lemma all_str_spec l ls : all_str l = Ok ls -> l = map KStr ls.
Proof.
  revert ls. induction l as [|a l IH]; intros ls; cbn [all_str]; [intros [= <-]; reflexivity|]. destruct a; try discriminate.
  destruct (all_str l) as [rs|e]; cbn [bind]; [|discriminate]. intros [= <-]. cbn [map]. now rewrite (IH rs).
Qed.
Lemma kinds_of (l : list string) : forallb (fun s => existsb (String.eqb s) kind_names) l = true -> exists ks, l = map kname ks.
Proof.
  induction l as [|s l IH]; cbn [forallb]; [exists []; reflexivity|]. rewrite andb_true_iff. intros (A & B). apply ksome in A. destruct A as (k & ->).
  destruct (IH B) as (ks & ->). exists (k :: ks). reflexivity.
Qed.
(** the requested kinds *)
Definition asks (kd : karg) (ks : list kind) : Prop :=
  (exists s k, kd = KStr s /\ ks = [k] /\ lower s = kname k) \/ (exists l, kd = KList (map KStr l) /\ map lower l = map kname ks).
Lemma verify_kind_spec kd k : verify_kind kd true = Ok k -> exists ks, asks kd ks /\ elems k = map kname ks.
Proof.
  unfold verify_kind, check_in_set. destruct kd as [s|l| |]; try discriminate.
  - cbn [elems]. destruct (forallb _ _) eqn:E; [|discriminate]. intros [= <-]. destruct (kinds_of _ E) as (ks & EK). exists ks. split; [|exact EK]. left.
    destruct ks as [|k [|? ?]]; try discriminate. injection EK as EK. now exists s, k.
  - destruct (all_str l) as [ls|e] eqn:AS; cbn [bind]; [|discriminate]. cbn [elems]. destruct (forallb _ _) eqn:E; [|discriminate]. intros [= <-].
    destruct (kinds_of _ E) as (ks & EK). exists ks. split; [|exact EK]. right. exists ls. split; [|exact EK]. f_equal. now apply all_str_spec.
Qed.

Lemma lower_kname k : lower (kname k) = kname k.
Proof. now destruct k. Qed.
(** order of the cumulative distribution drawn for a kind: gpc is a mass distribution *)
Definition cdf_order (k : kind) : nat := match k with Number => 0 | _ => 1 end.
(** the curves that belong to one kind *)
Definition figure_of (pdf cdf : nat -> bool -> R -> R) (x : list R) (sam : bool) (nc : nat) (k : kind) : list curve :=
  match nc with
  | O => [mkC 1 x (map (pdf (kind_order k) sam) x)]
  | S O => [mkC 1 x (map (cdf (cdf_order k) sam) x)]
  | _ => [mkC 1 x (map (pdf (kind_order k) sam) x); mkC 2 x (map (cdf (cdf_order k) sam) x)]
  end.
Lemma curves_of_eq pdf cdf x sam nc k : (nc <= 2)%nat -> curves_of pdf cdf x sam nc (kname k) = Ok (figure_of pdf cdf x sam nc k).
Proof. intros N. destruct nc as [|[|[|nc]]]; [destruct k; reflexivity|destruct k; reflexivity|destruct k; reflexivity|lia]. Qed.
Lemma curves_all_eq pdf cdf x sam nc ks : (nc <= 2)%nat -> curves_all pdf cdf x sam nc (map kname ks) = Ok (flat_map (figure_of pdf cdf x sam nc) ks).
Proof. intros N. induction ks as [|k ks IH]; cbn [map curves_all flat_map]; [reflexivity|]. rewrite curves_of_eq by auto. cbn [bind]. rewrite IH. reflexivity. Qed.

Lemma check_range_ok a b : (exists r, check_valid_range (RTuple [Some (Fin a); Some (Fin b)]) (Fin 0) PInf = Ok r) <-> 0 <= a < b.
Proof.
  unfold check_valid_range, check_bounds, between. cbn [forallb fltb fleb]. split.
  - intros (r & H). destruct (Rltb a b) eqn:E; [|discriminate]. apply Rltb_true in E. destruct (Rleb 0 a) eqn:E2; cbn in H; [apply Rleb_true in E2; lra|discriminate].
  - intros H. rewrite (proj2 (Rltb_true a b)) by lra. rewrite (proj2 (Rleb_true 0 a)), (proj2 (Rleb_true 0 b)) by lra. cbn. eauto.
Qed.

(** The range that is drawn. *)
Definition drawn_range (h : heap) (t : target) (lg sam : bool) (xr : option (R * R)) (r : R * R) : Prop :=
  match xr with
  | Some q => r = q
  | None => exists p, (match t with Ind i => p = base_range h i sam | Mix ids => snd (xrange_mix h ids sam) = Ok (Fresh p) end) /\
            ((lg = true /\ widenable h t = true /\ wide p /\ r = ten p) \/ (~ (lg = true /\ widenable h t = true /\ wide p) /\ r = p))
  end.
Lemma drawn h t lg sam xr r : good h -> snd (plot_range h t lg sam xr) = Ok r -> drawn_range h t lg sam xr r /\ 0 <= fst r < snd r /\ (xr = None -> 0 < fst r).
Proof.
  intros G. destruct xr as [q|].
  - cbn [plot_range snd]. pose proof (check_range_ok (fst q) (snd q)) as C. destruct (check_valid_range _ _ _) as [v|e]; cbn [bind]; [|discriminate].
    intros [= <-]. split; [reflexivity|]. split; [apply C; eauto|discriminate].
  - intros H. unfold drawn_range. destruct t as [i|ids].
    + destruct (plot_range_ind h i lg sam G) as (A & B). pose proof (base_good h i sam G) as P. pose proof (base_wide h i sam G) as BW. cbn [widenable].
      destruct (bool_dec lg true) as [->|NL]; [destruct (bool_dec (o_analytic (h i)) true) as [AN|AN];
        [destruct (Rlt_dec (1000 * fst (range_of h i)) (snd (range_of h i))) as [W|W]|]|].
      * destruct (A eq_refl AN W) as (E & _). rewrite E in H. injection H as <-. unfold ten. cbn [fst snd]. split; [|split; [lra|lra]]. exists (base_range h i sam). split; [reflexivity|]. left. rewrite BW. auto.
      * destruct (B ltac:(auto)) as (E & _). rewrite E in H. injection H as <-. split; [|split; [lra|lra]]. exists (base_range h i sam). split; [reflexivity|]. right. split; [|reflexivity]. rewrite BW. now intros (_ & _ & Q).
      * destruct (B ltac:(right; left; now apply not_true_is_false)) as (E & _). rewrite E in H. injection H as <-. split; [|split; [lra|lra]]. exists (base_range h i sam). split; [reflexivity|]. right. split; [|reflexivity]. now intros (_ & Q & _).
      * destruct (B ltac:(left; now apply not_true_is_false)) as (E & _). rewrite E in H. injection H as <-. split; [|split; [lra|lra]]. exists (base_range h i sam). split; [reflexivity|]. right. split; [|reflexivity]. now intros (Q & _).
    + destruct (plot_range_mix h ids lg sam G) as (_ & A). destruct ids as [|i0 ids]; [congruence|]. destruct A as (p & P & Q & A1 & A2). cbn [widenable].
      destruct (bool_dec lg true) as [->|NL]; [destruct (Rlt_dec (1000 * fst p) (snd p)) as [W|W]|].
      * rewrite A1 in H by auto. injection H as <-. unfold ten. cbn [fst snd]. split; [|split; [lra|lra]]. exists p. split; [exact P|]. left. auto.
      * rewrite A2 in H by auto. injection H as <-. split; [|split; [lra|lra]]. exists p. split; [exact P|]. right. split; [|reflexivity]. now intros (_ & _ & Z).
      * rewrite A2 in H by (left; now apply not_true_is_false). injection H as <-. split; [|split; [lra|lra]]. exists p. split; [exact P|]. right. split; [|reflexivity]. now intros (Z & _).
Qed.

(** Every figure: for each requested kind the density, the cumulative distribution or both, at
    points that increase strictly from the lower to the upper end of the range. *)
Theorem C110_figure pdf cdf h t kd sm xs xr nc lg cs : good h -> snd (plot pdf cdf h t kd sm xs xr nc) = Ok (lg, cs) ->
  exists ks sam r x, asks kd ks /\ sm = KBool sam /\ (nc <= 2)%nat /\ (lg = true <-> xs = "log"%string \/ (xs = "auto"%string /\ ks <> [] /\ forall k, In k ks -> k = Gpc)) /\
    drawn_range h t lg sam xr r /\ spans x (fst r) (snd r) (npoints t) /\ cs = flat_map (figure_of pdf cdf x sam nc) ks.
Proof.
  intros G. unfold plot. destruct (verify_kind kd true) as [k|e] eqn:K; [|discriminate]. destruct sm as [| |sam|]; cbn [verify_sizeasmass]; try discriminate.
  destruct (check_in_set _ _); [|discriminate]. destruct (Nat.ltb 2 nc) eqn:N; [discriminate|]. apply Nat.ltb_ge in N.
  destruct (verify_kind_spec kd k K) as (ks & AK & EK). rewrite EK. pose proof (drawn h t (logscale xs (map kname ks)) sam xr) as DR.
  destruct (plot_range h t (logscale xs (map kname ks)) sam xr) as (h1, r). cbn [snd] in *. destruct r as [r|e]; cbn [bind]; [|discriminate]. destruct (DR r G eq_refl) as (D1 & D2 & D3).
  pose proof (np2 t) as NP. intros H.
  assert (X : exists x, (if logscale xs (map kname ks) then geomspace (fst r) (snd r) (npoints t) else Ok (linspace (fst r) (snd r) (npoints t))) = Ok x /\ spans x (fst r) (snd r) (npoints t)).
  { destruct (logscale xs (map kname ks)); [|eexists; split; [reflexivity|apply linspace_spans; [lra|exact NP]]].
    destruct (Rle_lt_or_eq_dec 0 (fst r) ltac:(lra)) as [P|P]; [apply geomspace_spans; [lra|exact NP]|].
    exfalso. unfold geomspace in H. rewrite <- P in H. rewrite (proj2 (Reqb_true 0 0) eq_refl) in H. discriminate. }
  destruct X as (x & EX & SX). rewrite EX in H. cbn [bind] in H. rewrite curves_all_eq in H by exact N. cbn [bind] in H. injection H as <- <-.
  exists ks, sam, r, x. split; [exact AK|]. split; [reflexivity|]. split; [exact N|]. split; [|auto].
  rewrite C110_scale. split; (intros [H|(H1 & H2 & H3)]; [now left|right; split; [exact H1|]]); (split; [destruct ks; [now contradict H2|discriminate]|]).
  - intros q Hq. specialize (H3 (kname q) (in_map kname ks q Hq)). now destruct q.
  - intros s0 Hs. apply in_map_iff in Hs. destruct Hs as (q & <- & Hq). now rewrite (H3 q Hq).
Qed.

Lemma plot_one pdf cdf h t k sam xr : snd (plot pdf cdf h t (KStr (kname k)) (KBool sam) "auto" xr 0) =
  do r <- snd (plot_range h t (match k with Gpc => true | _ => false end) sam xr);
  do x <- (match k with Gpc => geomspace (fst r) (snd r) (npoints t) | _ => Ok (linspace (fst r) (snd r) (npoints t)) end);
  Ok (match k with Gpc => true | _ => false end, figure_of pdf cdf x sam 0 k).
Proof.
  unfold plot. replace (verify_kind (KStr (kname k)) true) with (@Ok (string + list string) (inl (kname k))) by now destruct k. cbn [verify_sizeasmass elems].
  replace (check_in_set (inl "auto"%string) ["linear"; "log"; "auto"]%string) with (@Ok (string + list string) (inl "auto"%string)) by reflexivity.
  replace (Nat.ltb 2 0) with false by reflexivity. replace (logscale "auto" [kname k]) with (match k with Gpc => true | _ => false end) by now destruct k.
  destruct (plot_range h t _ sam xr) as (h1, r). cbn [snd]. destruct r as [r|e]; [|reflexivity]. cbn [bind].
  assert (CA : forall x, curves_all pdf cdf x sam 0 [kname k] = Ok (figure_of pdf cdf x sam 0 k)). { intros x. cbn [curves_all]. rewrite curves_of_eq by lia. cbn [bind]. now rewrite app_nil_r. }
  destruct k; cbn [bind]; try (rewrite CA; reflexivity). destruct (geomspace _ _ _); [|reflexivity]. cbn [bind]. rewrite CA. reflexivity.
Qed.

(** * Findings *)
(** A Flory distribution with DPn = 1000 and M0 = 0.1: the default range is 1 to 9206. *)
Definition flory_heap : heap := fun _ => mkO true (1 / 10) (1, 9206) None.
Lemma flory_good : good flory_heap.
Proof. intros i. unfold range_of. cbn. lra. Qed.

(** Plotting modifies the distribution: the same call, repeated, gives another figure, and the
    plots in molar mass and those of any mixture that contains the object change as well. *)
Theorem C110_repeat_refuted : exists h i, good h /\ forall pdf cdf,
  let h1 := fst (plot pdf cdf h (Ind i) (KStr "gpc") (KBool false) "auto" None 0) in
  snd (plot_range h (Ind i) true false None) = Ok (1, 92060) /\ snd (plot_range h1 (Ind i) true false None) = Ok (1, 920600) /\
  snd (plot_range h (Ind i) false true None) = Ok (1 / 10, 4603 / 5) /\ snd (plot_range h1 (Ind i) false true None) = Ok (1 / 10, 9206) /\
  snd (plot_range h (Mix [i]) false false None) = Ok (1, 9206) /\ snd (plot_range h1 (Mix [i]) false false None) = Ok (1, 92060) /\
  snd (plot pdf cdf h1 (Ind i) (KStr "gpc") (KBool false) "auto" None 0) <> snd (plot pdf cdf h (Ind i) (KStr "gpc") (KBool false) "auto" None 0).
Proof.
  exists flory_heap, 0%nat. split; [apply flory_good|]. intros pdf cdf. pose proof flory_good as G.
  set (h1 := fst (plot pdf cdf flory_heap (Ind 0) (KStr "gpc") (KBool false) "auto" None 0)).
  assert (W0 : wide (range_of flory_heap 0)) by (unfold wide, range_of; cbn; lra).
  destruct (C110_growth pdf cdf 1 flory_heap 0 (KStr "gpc") "auto" 0 (inl "gpc"%string) G eq_refl ltac:(cbn; auto) ltac:(lia) eq_refl eq_refl W0) as (R1 & D1 & A1 & M1 & O1).
  change (plots pdf cdf 1 flory_heap (Ind 0) (KStr "gpc") (KBool false) "auto" 0) with h1 in R1, D1, A1, M1, O1. cbn [fst snd range_of flory_heap o_cache o_default o_M0] in R1, M1.
  change (range_of flory_heap 0) with (1, 9206) in R1. cbn [fst snd] in R1. replace (9206 * 10 ^ 1) with 92060 in R1 by (cbn [pow]; lra).
  assert (G1 : good h1). { intros j. destruct (Nat.eq_dec j 0) as [->|NE]; [rewrite R1, M1; cbn; lra|]. unfold range_of. rewrite O1 by auto. cbn. lra. }
  assert (W1 : wide (range_of h1 0)) by (unfold wide; rewrite R1; cbn; lra).
  destruct (plot_range_ind flory_heap 0 true false G) as (P1 & _). destruct (P1 eq_refl eq_refl W0) as (E1 & _).
  destruct (plot_range_ind h1 0 true false G1) as (P2 & _). destruct (P2 eq_refl A1 W1) as (E2 & _).
  destruct (plot_range_ind flory_heap 0 false true G) as (_ & P3). destruct (P3 ltac:(auto)) as (E3 & _).
  destruct (plot_range_ind h1 0 false true G1) as (_ & P4). destruct (P4 ltac:(auto)) as (E4 & _).
  destruct (plot_range_mix flory_heap [0%nat] false false G) as (_ & p5 & E5 & _ & _ & F5). destruct (plot_range_mix h1 [0%nat] false false G1) as (_ & p6 & E6 & _ & _ & F6).
  specialize (F5 ltac:(auto)). specialize (F6 ltac:(auto)).
  assert (p5 = (1, 9206)). { pose proof (C110_mixture_range flory_heap [0%nat] false) as M. destruct (xrange_mix flory_heap [0%nat] false) as (hh, rr). cbn [snd] in E5. subst rr.
    destruct M as (_ & lo & hi & E & _ & (i & [<-|[]] & ->) & (j & [<-|[]] & ->)). injection E as ->. unfold range_of. cbn. f_equal; ring. }
  assert (p6 = (1, 92060)). { pose proof (C110_mixture_range h1 [0%nat] false) as M. destruct (xrange_mix h1 [0%nat] false) as (hh, rr). cbn [snd] in E6. subst rr.
    destruct M as (_ & lo & hi & E & _ & (i & [<-|[]] & ->) & (j & [<-|[]] & ->)). injection E as ->. rewrite R1. cbn. f_equal; ring. }
  subst p5 p6. unfold base_range, ten, stretch in *. rewrite R1 in E2, E4. rewrite M1 in E4. change (range_of flory_heap 0) with (1, 9206) in E1, E3. cbn [fst snd flory_heap o_M0] in *.
  split; [rewrite E1; do 2 f_equal; lra|]. split; [rewrite E2; do 2 f_equal; lra|]. split; [rewrite E3; do 2 f_equal; lra|]. split; [rewrite E4; do 2 f_equal; lra|]. split; [exact F5|]. split; [exact F6|].
  intros EQ.
  assert (OK : forall h, snd (plot_range h (Ind 0) true false None) = Ok (1, 92060) \/ snd (plot_range h (Ind 0) true false None) = Ok (1, 920600) ->
     exists c cs, snd (plot pdf cdf h (Ind 0) (KStr "gpc") (KBool false) "auto" None 0) = Ok (true, c :: cs)).
  { intros h H. pose proof (plot_one pdf cdf h (Ind 0) Gpc false None) as PO. cbn [kname] in PO. rewrite PO.
    assert (exists b, snd (plot_range h (Ind 0) true false None) = Ok (1, b) /\ 1 < b) as (b & -> & B) by (destruct H as [->| ->]; eexists; split; try reflexivity; lra).
    cbn [bind fst snd]. destruct (geomspace_spans 1 b (npoints (Ind 0)) ltac:(lra) (np2 _)) as (x & -> & _). cbn [bind figure_of]. eauto. }
  destruct (OK flory_heap) as (c & cs & F). { left. rewrite E1. do 2 f_equal. lra. }
  rewrite F in EQ. destruct (C110_figure pdf cdf flory_heap _ _ _ _ _ _ _ _ G F) as (ks & sam & r & x & K & S & _ & _ & DR & SP & CE).
  destruct (C110_figure pdf cdf h1 _ _ _ _ _ _ _ _ G1 EQ) as (ks' & sam' & r' & x' & K' & S' & _ & _ & DR' & SP' & CE').
  injection S as <-. injection S' as <-.
  assert (KK : forall q, asks (KStr "gpc") q -> q = [Gpc]). { intros q [(s & k & [= <-] & -> & E)|(l & E & _)]; [|discriminate]. destruct k; try discriminate. reflexivity. }
  rewrite (KK _ K) in CE. rewrite (KK _ K') in CE'. cbn [flat_map figure_of app] in CE, CE'. injection CE as CE _. injection CE' as CE' _. rewrite CE in CE'. injection CE' as XX _. subst x'.
  destruct SP as (_ & _ & Q1 & _). destruct SP' as (_ & _ & Q2 & _). rewrite Q1 in Q2.
  assert (RU : snd r = 92060). { destruct DR as (p & -> & [(_ & _ & _ & ->)|(NN & _)]); [unfold base_range, range_of; cbn; lra|]. exfalso. apply NN. split; [reflexivity|]. split; [reflexivity|]. unfold base_range, wide, range_of. cbn. lra. }
  assert (RU' : snd r' = 920600). { destruct DR' as (p & -> & [(_ & _ & _ & ->)|(NN & _)]); [unfold base_range; rewrite R1; cbn; lra|]. exfalso. apply NN. split; [reflexivity|]. split; [exact A1|]. unfold base_range, wide. rewrite R1. cbn. lra. }
  lra.
Qed.

(** A range that starts at zero is accepted by the check of the arguments, but not drawable
    on the logarithmic axis which kind = 'gpc' selects. *)
Theorem C110_zero_refuted : exists xr, (exists v, check_valid_range (RTuple [Some (Fin (fst xr)); Some (Fin (snd xr))]) (Fin 0) PInf = Ok v) /\
  forall pdf cdf h i, snd (plot pdf cdf h (Ind i) (KStr "gpc") (KBool false) "auto" (Some xr) 0) = Err ValueError /\
    exists f, snd (plot pdf cdf h (Ind i) (KStr "mass") (KBool false) "auto" (Some xr) 0) = Ok f.
Proof.
  exists (0, 1000). destruct (proj2 (check_range_ok 0 1000) ltac:(lra)) as (v & E). cbn [fst snd]. split; [now exists v|].
  intros pdf cdf h i. pose proof (plot_one pdf cdf h (Ind i) Gpc false (Some (0, 1000))) as P1. pose proof (plot_one pdf cdf h (Ind i) Mass false (Some (0, 1000))) as P2. cbn [kname] in P1, P2.
  rewrite P1, P2. cbn [plot_range snd fst]. rewrite E. cbn [bind fst snd]. unfold geomspace. rewrite (proj2 (Reqb_true 0 0) eq_refl). cbn [orb bind]. split; [reflexivity|]. eauto.
Qed.

(** A mixture is not iterable although it defines the protocol: [for d in mixture] is a
    TypeError, while the loops inside the class go over its components. *)
Theorem C110_iter_refuted : exists ids, mix_bool ids = true /\ (forall i, In i ids <-> mix_contains ids i = true) /\
  for_in (mix_iter ids) = Err TypeError /\ for_in_iter (mix_iter ids) = ids.
Proof.
  exists [3; 5]%nat. split; [reflexivity|]. split; [|now split]. intros i. unfold mix_contains. rewrite existsb_exists. split.
  - intros H. exists i. split; [exact H|apply Nat.eqb_refl].
  - intros (x & H & E). apply Nat.eqb_eq in E. now subst.
Qed.

(** The components are found by identity, in any mixture. *)
Theorem C110_contains ids i : (mix_contains ids i = true <-> In i ids) /\ (mix_bool ids = false <-> ids = []).
Proof.
  split.
  - unfold mix_contains. rewrite existsb_exists. split; [intros (x & H & E); apply Nat.eqb_eq in E; now subst|]. intros H. exists i. split; [exact H|apply Nat.eqb_refl].
  - unfold mix_bool. destruct ids; cbn; split; easy.
Qed.

(** A data distribution from 1 to 9206 and the Flory distribution above, in one mixture. *)
Example C110_case : exists h, good h /\
  snd (plot_range h (Ind 1) true false None) = Ok (1, 9206) /\ same_view h (fst (plot_range h (Ind 1) true false None)) /\
  snd (plot_range h (Mix [0; 1]%nat) true false None) = Ok (1, 92060) /\ same_view h (fst (plot_range h (Mix [0; 1]%nat) true false None)) /\
  pdf_call (fun m b => (m, b)) (KStr "GPC") (KBool true) = Ok (2%nat, true) /\
  cdf_call (fun m b => (m, b)) (KStr "gpc") (KBool true) = Err ValueError /\
  pdf_call (fun m b => (m, b)) (KList [KStr "mass"]) (KBool true) = Err TypeError /\
  linspace 1 5 3 = [1; 3; 5].
Proof.
  set (h := fun i => mkO (Nat.eqb i 0) (1 / 10) (1, 9206) None : dobj). exists h.
  assert (G : good h) by (intros i; unfold range_of; cbn; lra). split; [exact G|].
  destruct (plot_range_ind h 1 true false G) as (_ & B). destruct (B ltac:(right; left; reflexivity)) as (B1 & B2). split; [rewrite B1; reflexivity|]. split; [exact B2|].
  destruct (plot_range_mix h [0%nat; 1%nat] true false G) as (M1 & p & M2 & _ & M3 & _). pose proof (C110_mixture_range h [0%nat; 1%nat] false) as M.
  destruct (xrange_mix h [0%nat; 1%nat] false) as (hh, rr). cbn [snd] in M2. subst rr. destruct M as (_ & lo & hi & E & _ & (i & Hi & L) & (j & Hj & U)). injection E as ->.
  replace (fst (range_of h i) * 1) with 1 in L by (unfold range_of; cbn; ring). replace (snd (range_of h j) * 1) with 9206 in U by (unfold range_of; cbn; ring). subst lo hi.
  split. { rewrite M3 by (auto; unfold wide; cbn; lra). unfold ten. cbn [fst snd]. do 2 f_equal. lra. }
  split; [exact M1|]. split; [reflexivity|]. split; [reflexivity|]. split; [reflexivity|].
  unfold linspace. cbn. repeat (f_equal; try lra).
Qed.

Print Assumptions C110_figure.
Print Assumptions C110_growth.
Print Assumptions C110_repeat_refuted.
Print Assumptions C110_flory_wide.
