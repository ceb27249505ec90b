(** Final statements for utils/tools.py: C01, C02, C64, C65. *)
From Coq Require Import Reals Lra Lia List Bool Arith String.
From Verif Require Import Prelude UtilsModel.
Import ListNotations.
Open Scope R_scope.

(** Order on floats, as a specification: NaN is related to nothing. *)
Inductive fl_le : fl -> fl -> Prop :=
| le_fin r s : r <= s -> fl_le (Fin r) (Fin s)
| le_ninf x : x <> NaN -> fl_le NInf x
| le_pinf x : x <> NaN -> fl_le x PInf.
Inductive fl_lt : fl -> fl -> Prop :=
| lt_fin r s : r < s -> fl_lt (Fin r) (Fin s)
| lt_ninf r : fl_lt NInf (Fin r)
| lt_pinf r : fl_lt (Fin r) PInf
| lt_inf : fl_lt NInf PInf.

Lemma fleb_iff a b : fleb a b = true <-> fl_le a b.
Proof.
  split.
  - destruct a, b; cbn; intros H; try discriminate; try (constructor; discriminate).
    constructor. now rdec.
  - intros H; destruct H; cbn; [now rdec| |]; destruct x; easy.
Qed.
Lemma fltb_iff a b : fltb a b = true <-> fl_lt a b.
Proof.
  split.
  - destruct a, b; cbn; intros H; try discriminate; constructor. now rdec.
  - intros H; destruct H; cbn; try easy. now rdec.
Qed.
Lemma between_iff lo hi x : between lo hi x = true <-> fl_le lo x /\ fl_le x hi.
Proof. unfold between. now rewrite andb_true_iff, !fleb_iff. Qed.

(** The numbers contained in a value, if it is numeric. *)
Definition numbers (v : pyval) : option (list fl) :=
  match v with
  | VNum x | VArr0 x => Some [x]
  | VArr1 l | VList l => Some l
  | VArr2 rows => Some (List.concat rows)
  | VOther => None
  end.

Lemma forallb_false {A} (p : A -> bool) l : forallb p l = false -> exists x, In x l /\ p x = false.
Proof.
  induction l as [|a l IH]; cbn; [discriminate|].
  destruct (p a) eqn:E; [|intros _; exists a; auto].
  intros H. destruct (IH H) as [x [Hx Hp]]. exists x; auto.
Qed.
Lemma forallb_concat (p : fl -> bool) rows :
  forallb (forallb p) rows = true <-> forall x, In x (List.concat rows) -> p x = true.
Proof.
  rewrite forallb_forall. split.
  - intros H x Hx. apply in_concat in Hx. destruct Hx as [l [Hl Hx]].
    specialize (H l Hl). rewrite forallb_forall in H. auto.
  - intros H l Hl. rewrite forallb_forall. intros x Hx. apply H, in_concat. eauto.
Qed.

(** A 2-D rejected array can never be accepted by the second test. *)
Lemma all_rows_true lo hi rows : all_rows lo hi rows = Ok true -> forallb (forallb (between lo hi)) rows = true.
Proof.
  induction rows as [|r rs IH]; [easy|]. cbn [all_rows]. unfold bind at 1.
  destruct (row_test lo hi r) as [b|] eqn:E; [|discriminate]. destruct b; [|discriminate].
  intros H. cbn [forallb]. rewrite (IH H), andb_true_r. clear - E.
  unfold row_test, bind in E.
  destruct r as [|x [|y r]]; cbn in E; [discriminate| |discriminate].
  destruct (fleb lo x) eqn:E1; [|discriminate]. injection E as E.
  cbn. unfold between. now rewrite E1, E.
Qed.

(** C01: the accepted values are exactly those all of whose numbers lie in
    [xmin, xmax]; the value is returned unchanged; anything else raises.  Numbers,
    1-D arrays, lists/tuples and one-column 2-D arrays are rejected with RangeError.
    Missing for the full property: 2-D arrays with two or more columns and 0-d
    arrays, refuted below. *)
Theorem C01_check_bounds_partial : forall v lo hi,
  (forall w, check_bounds v lo hi = Ok w <->
     w = v /\ exists l, numbers v = Some l /\ forall x, In x l -> fl_le lo x /\ fl_le x hi) /\
  (forall e, check_bounds v lo hi = Err e ->
     match v with
     | VNum _ | VArr1 _ | VList _ => e = RangeError
     | VArr2 rows => (forall r, In r rows -> List.length r = 1%nat) -> e = RangeError
     | VArr0 _ => True
     | VOther => e = TypeError
     end).
Proof.
  intros v lo hi. split.
  - intros w. destruct v as [x|x|l|rows|l|]; cbn [check_bounds numbers].
    1,2: destruct (between lo hi x) eqn:E; split.
    1,5: intros H; injection H as <-; split; auto; exists [x]; split; auto;
         intros y [<-|[]]; now apply between_iff.
    2,5: discriminate.
    1,3: intros [-> _]; easy.
    1,2: intros [-> (l & Hl & H)]; injection Hl as <-;
         assert (between lo hi x = true) by (apply between_iff, H; left; auto); congruence.
    1,3: destruct (forallb (between lo hi) l) eqn:E; split;
      [ intros H; injection H as <-; split; auto; exists l; split; auto;
        intros y Hy; rewrite forallb_forall in E; apply between_iff; auto
      | intros [-> _]; easy
      | discriminate
      | intros [-> (l' & Hl & H)]; injection Hl as <-;
        assert (forallb (between lo hi) l = true)
          by (apply forallb_forall; intros y Hy; apply between_iff; auto); congruence ].
    + destruct (forallb (forallb (between lo hi)) rows) eqn:E; split.
      * intros H; injection H as <-; split; auto. exists (List.concat rows); split; auto.
        intros y Hy. apply between_iff. revert y Hy. now apply forallb_concat.
      * intros [-> _]; easy.
      * unfold bind. destruct (all_rows lo hi rows) as [[|]|] eqn:E2; try discriminate.
        apply all_rows_true in E2. congruence.
      * intros [-> (l' & Hl & H)]; injection Hl as <-.
        assert (forallb (forallb (between lo hi)) rows = true); [|congruence].
        apply forallb_concat. intros y Hy. apply between_iff; auto.
    + split; [discriminate|]. intros [_ (l & Hl & _)]; discriminate.
  - intros e. destruct v as [x|x|l|rows|l|]; cbn [check_bounds]; auto.
    + destruct (between _ _ _); congruence.
    + destruct (forallb _ _); congruence.
    + intros H Hr. destruct (forallb _ _); [discriminate|]. unfold bind in H.
      assert (exists b, all_rows lo hi rows = Ok b) as [b Eb].
      { clear H. induction rows as [|r rs IH]; [cbn; eauto|]. cbn [all_rows].
        assert (exists b, row_test lo hi r = Ok b) as [b Eb].
        { specialize (Hr r (or_introl eq_refl)). destruct r as [|x [|]]; try discriminate.
          unfold row_test; cbn. destruct (fleb lo x); eauto. }
        rewrite Eb. cbn [bind]. destruct b; [|eauto]. apply IH. intros; apply Hr; right; auto. }
      rewrite Eb in H. destruct b; congruence.
    + destruct (forallb _ _); congruence.
    + congruence.
Qed.

(** Finding: every out-of-range 2-D array with at least two columns is rejected with
    ValueError, and every out-of-range 0-d array with TypeError, instead of
    RangeError. *)
Theorem C01_two_dim_arrays : forall rows lo hi n,
  (forall r, In r rows -> List.length r = S (S n)) ->
  (exists x, In x (List.concat rows) /\ ~ (fl_le lo x /\ fl_le x hi)) ->
  check_bounds (VArr2 rows) lo hi = Err ValueError.
Proof.
  intros rows lo hi n Hr [x [Hx Hn]]. cbn [check_bounds].
  destruct (forallb _ rows) eqn:E.
  - exfalso. apply Hn, between_iff. revert x Hx Hn. intros x Hx _.
    now apply (proj1 (forallb_concat (between lo hi) rows) E).
  - destruct rows as [|r rs]; [destruct Hx|].
    specialize (Hr r (or_introl eq_refl)). destruct r as [|a [|b r]]; try discriminate.
    reflexivity.
Qed.

Theorem C01_range_error_refuted : exists rows lo hi,
  (exists x, In x (List.concat rows) /\ ~ (fl_le lo x /\ fl_le x hi)) /\
  check_bounds (VArr2 rows) lo hi <> Err RangeError /\
  check_bounds (VArr0 (Fin 5)) lo hi = Err TypeError.
Proof.
  exists [[Fin 0; Fin 5]], (Fin 0), (Fin 1).
  assert (N : ~ (fl_le (Fin 0) (Fin 5) /\ fl_le (Fin 5) (Fin 1))).
  { intros [_ H]; inversion H; lra. }
  split; [exists (Fin 5); split; [cbn; auto|auto]|]. split.
  - rewrite (C01_two_dim_arrays _ _ _ 0); [discriminate| |].
    + intros r [<-|[]]; easy.
    + exists (Fin 5); split; [cbn; auto|auto].
  - cbn. destruct (between (Fin 0) (Fin 1) (Fin 5)) eqn:E; auto. apply between_iff in E. tauto.
Qed.

Example C01_case : check_bounds (VArr1 [Fin 0; Fin 1; Fin (1/2)]) (Fin 0) PInf = Ok (VArr1 [Fin 0; Fin 1; Fin (1/2)])
  /\ check_bounds (VNum NaN) NInf PInf = Err RangeError.
Proof.
  split; [|reflexivity]. apply C01_check_bounds_partial. split; auto. eexists; split; [reflexivity|].
  intros x [<-|[<-|[<-|[]]]]; split; constructor; try lra; discriminate.
Qed.

(* ------------------------------------------------------------------ *)
(** ** C02 *)
(* ------------------------------------------------------------------ *)
(** SI value of a temperature or pressure given in a unit. *)
Inductive si_temp : string -> fl -> fl -> Prop :=
| si_K x : si_temp "K" x x
| si_C r : si_temp "C" (Fin r) (Fin (r + 27315 / 100))
| si_Cx x : (forall r, x <> Fin r) -> si_temp "C" x x.
Inductive si_pres : string -> fl -> fl -> Prop :=
| si_Pa x : si_pres "Pa" x x
| si_bar r : si_pres "bar" (Fin r) (Fin (100000 * r))
| si_barx x : (forall r, x <> Fin r) -> si_pres "bar" x x
| si_MPa r : si_pres "MPa" (Fin r) (Fin (1000000 * r))
| si_MPax x : (forall r, x <> Fin r) -> si_pres "MPa" x x.

Lemma existsb_false_iff {A} (p : A -> bool) l :
  existsb p l = false <-> forall x, In x l -> p x = false.
Proof.
  split.
  - intros H x Hx. destruct (p x) eqn:E; auto.
    assert (existsb p l = true) by (apply existsb_exists; eauto). congruence.
  - intros H. destruct (existsb p l) eqn:E; auto. apply existsb_exists in E.
    destruct E as [x [Hx E]]. rewrite H in E; auto.
Qed.

Definition conv_spec (si : string -> fl -> fl -> Prop) (valid : string -> Prop)
    (f : list fl -> string -> fl -> fl -> res (list fl * bool)) : Prop :=
  forall l u lo hi,
  (~ valid u -> f l u lo hi = Err ValueError) /\
  (valid u -> exists si_l, Forall2 (si u) l si_l /\
     ((exists x, In x si_l /\ fl_lt x (Fin 0)) -> f l u lo hi = Err RangeError) /\
     ((forall x, In x si_l -> ~ fl_lt x (Fin 0)) ->
        exists w, f l u lo hi = Ok (si_l, w) /\
          (w = true <-> exists x, In x si_l /\ (fl_lt x lo \/ fl_lt hi x)))).

Lemma conv_finish (TK : list fl) lo hi (P : res (list fl * bool)) :
  P = (if existsb (fun t => fltb t (Fin 0)) TK then Err RangeError
   else Ok (TK, existsb (fun t => fltb t lo) TK || existsb (fun t => fltb hi t) TK)) ->
  ((exists x, In x TK /\ fl_lt x (Fin 0)) -> P = Err RangeError) /\
  ((forall x, In x TK -> ~ fl_lt x (Fin 0)) ->
     exists w, P = Ok (TK, w) /\
       (w = true <-> exists x, In x TK /\ (fl_lt x lo \/ fl_lt hi x))).
Proof.
  intros ->. split.
  - intros [x [Hx Hl]].
    assert (existsb (fun t => fltb t (Fin 0)) TK = true) as ->; auto.
    apply existsb_exists. exists x. split; auto. now apply fltb_iff.
  - intros H.
    assert (existsb (fun t => fltb t (Fin 0)) TK = false) as ->.
    { apply existsb_false_iff. intros x Hx. destruct (fltb x (Fin 0)) eqn:E; auto.
      apply fltb_iff in E. now apply H in Hx. }
    eexists. split; [reflexivity|]. rewrite orb_true_iff, !existsb_exists. split.
    + intros [[x [Hx E]]|[x [Hx E]]]; exists x; rewrite fltb_iff in E; auto.
    + intros [x [Hx [E|E]]]; [left|right]; exists x; rewrite fltb_iff; auto.
Qed.

Lemma Forall2_map_r {A B} (R : A -> B -> Prop) (f : A -> B) l :
  (forall x, R x (f x)) -> Forall2 R l (map f l).
Proof. intros H; induction l; cbn; constructor; auto. Qed.

Theorem C02_temperature : conv_spec si_temp (fun u => u = "K"%string \/ u = "C"%string) convert_check_temperature.
Proof.
  intros l u lo hi. unfold convert_check_temperature.
  destruct (String.eqb_spec u "K") as [->|Hk].
  - split; [intros H; exfalso; apply H; auto|]. intros _. exists l.
    split; [|now apply conv_finish].
    clear. induction l; constructor; auto. constructor.
  - destruct (String.eqb_spec u "C") as [->|Hc].
    + split; [intros H; exfalso; apply H; auto|]. intros _.
      exists (map (fl_map (fun r => r + 27315 / 100)) l).
      split; [|now apply conv_finish].
      apply Forall2_map_r. intros [r| | |]; constructor; discriminate.
    + split; [reflexivity|]. intros [|]; congruence.
Qed.

Theorem C02_pressure :
  conv_spec si_pres (fun u => u = "Pa"%string \/ u = "bar"%string \/ u = "MPa"%string) convert_check_pressure.
Proof.
  intros l u lo hi. unfold convert_check_pressure.
  destruct (String.eqb_spec u "Pa") as [->|Hk].
  - split; [intros H; exfalso; apply H; auto|]. intros _.
    exists (map (fl_map (fun r => r * 1)) l).
    split; [|now apply conv_finish].
    apply Forall2_map_r. intros [r| | |]; cbn; try constructor. rewrite Rmult_1_r. constructor.
  - destruct (String.eqb_spec u "bar") as [->|Hb].
    + split; [intros H; exfalso; apply H; auto|]. intros _.
      exists (map (fl_map (fun r => r * 10 ^ 5)) l).
      split; [|now apply conv_finish].
      apply Forall2_map_r. intros [r| | |]; cbn; try (constructor; discriminate).
      replace (r * (10 * (10 * (10 * (10 * (10 * 1)))))) with (100000 * r) by ring. constructor.
    + destruct (String.eqb_spec u "MPa") as [->|Hm].
      * split; [intros H; exfalso; apply H; auto|]. intros _.
        exists (map (fl_map (fun r => r * 10 ^ 6)) l).
        split; [|now apply conv_finish].
        apply Forall2_map_r. intros [r| | |]; cbn; try (constructor; discriminate).
        replace (r * (10 * (10 * (10 * (10 * (10 * (10 * 1))))))) with (1000000 * r) by ring. constructor.
      * split; [reflexivity|]. intros [|[|]]; congruence.
Qed.

Theorem C02_valid_range : forall r lo hi,
  (forall r', check_valid_range r lo hi = Ok r' <->
     r' = r /\ exists a b, r = RTuple [Some a; Some b] /\ fl_lt a b /\ fl_le lo a /\ fl_le b hi) /\
  (forall e, check_valid_range r lo hi = Err e -> e = RangeError).
Proof.
  assert (Tr : forall a b c, fl_le a b -> fl_lt b c -> fl_le a c).
  { intros a b c H1 H2. destruct H1; inversion H2; subst; constructor; try discriminate; lra. }
  assert (Tr2 : forall a b c, fl_lt a b -> fl_le b c -> fl_le a c).
  { intros a b c H1 H2. destruct H1; inversion H2; subst; constructor; try discriminate; try easy; lra. }
  intros r lo hi. split.
  - intros r'. split.
    + destruct r as [[|[a|] [|[b|] [|]]]|]; cbn [check_valid_range]; try discriminate.
      destruct (fltb a b) eqn:E; [|discriminate]. unfold bind.
      destruct (check_bounds (VList [a; b]) lo hi) eqn:E2; [|discriminate].
      intros H; injection H as <-. split; auto. exists a, b. split; auto.
      apply fltb_iff in E. split; auto.
      apply C01_check_bounds_partial in E2. destruct E2 as [_ (l & Hl & H)].
      injection Hl as <-. split; apply H; cbn; auto.
    + intros [-> (a & b & -> & H1 & H2 & H3)]. cbn [check_valid_range].
      assert (fltb a b = true) as -> by now apply fltb_iff.
      assert (check_bounds (VList [a; b]) lo hi = Ok (VList [a; b])) as ->; [|easy].
      apply C01_check_bounds_partial. split; auto. exists [a; b]. split; auto.
      intros x [<-|[<-|[]]]; split; eauto.
  - intros e. destruct r as [[|[a|] [|[b|] [|]]]|]; cbn [check_valid_range]; try congruence.
    destruct (fltb a b); [|congruence]. unfold bind.
    destruct (check_bounds (VList [a; b]) lo hi) eqn:E2; [discriminate|].
    apply C01_check_bounds_partial in E2. cbn in E2. congruence.
Qed.

Example C02_case : convert_check_temperature [Fin 25] "C" (Fin 300) (Fin 400) = Ok ([Fin (25 + 27315/100)], true)
  /\ convert_check_temperature [Fin (-300)] "C" NInf PInf = Err RangeError
  /\ convert_check_pressure [Fin 2] "psi" NInf PInf = Err ValueError.
Proof.
  unfold convert_check_temperature; cbn. split; [|split; [|reflexivity]].
  - replace (Rltb (25 + 27315 / 100) 0) with false by (symmetry; rdec; lra).
    replace (Rltb (25 + 27315 / 100) 300) with true by (symmetry; rdec; lra). reflexivity.
  - replace (Rltb (-300 + 27315 / 100) 0) with true by (symmetry; rdec; lra). reflexivity.
Qed.

(* ------------------------------------------------------------------ *)
(** ** C64 — shapes; C65 — membership *)
(* ------------------------------------------------------------------ *)
Lemma shape_eqb_iff s t : shape_eqb s t = true <-> s = t.
Proof. unfold shape_eqb. destruct (list_eq_dec _ _ _); split; congruence. Qed.
Lemma one_value_iff s l : one_value (s :: l) = true <-> forall t, In t (s :: l) -> t = s.
Proof.
  cbn. rewrite forallb_forall. split.
  - intros H t [->|Ht]; auto. symmetry. apply shape_eqb_iff, H; auto.
  - intros H t Ht. apply shape_eqb_iff. symmetry. auto.
Qed.
Lemma filter_len_le {A} (p : A -> bool) l : (List.length (filter p l) <= List.length l)%nat.
Proof. induction l as [|a l IH]; cbn; [lia|]. destruct (p a); cbn; lia. Qed.
Lemma filter_length_all {A} (p : A -> bool) l :
  List.length (filter p l) = List.length l <-> forall x, In x l -> p x = true.
Proof.
  split.
  - induction l as [|a l IH]; cbn; [easy|]. pose proof (filter_len_le p l).
    destruct (p a) eqn:E; cbn; intros Hl; [|lia].
    intros x [<-|Hx]; auto.
  - intros H. f_equal. induction l as [|a l IH]; cbn; auto.
    rewrite (H a (or_introl eq_refl)). f_equal. apply IH. intros; apply H; right; auto.
Qed.
Lemma nonscalar_iff s : nonscalar s = true <-> s <> [].
Proof. destruct s; cbn; split; congruence. Qed.

(** check_shapes succeeds with a common shape [s] exactly when [a] is a nonempty list
    of arrays of shape [s] and the arrays in [b] all have shape [s]; it succeeds with
    no shape exactly when neither list contains an array; otherwise ShapeError. *)
Theorem C64_check_shapes : forall a b,
  (forall s, check_shapes a b = Ok (Some s) <->
     s <> [] /\ a <> [] /\ (forall t, In t a -> t = s) /\ (forall t, In t b -> t = [] \/ t = s)) /\
  (check_shapes a b = Ok None <-> (forall t, In t a \/ In t b -> t = [])) /\
  (forall e, check_shapes a b = Err e -> e = ShapeError).
Proof.
  intros a b. unfold check_shapes.
  remember (filter nonscalar a) as sa eqn:Ea. remember (filter nonscalar b) as sb eqn:Eb.
  assert (Ia : forall t, In t sa <-> In t a /\ t <> []).
  { intros t. rewrite Ea, filter_In, nonscalar_iff. tauto. }
  assert (Ib : forall t, In t sb <-> In t b /\ t <> []).
  { intros t. rewrite Eb, filter_In, nonscalar_iff. tauto. }
  assert (La : (List.length sa =? List.length a)%nat = true <-> forall t, In t a -> t <> []).
  { rewrite Nat.eqb_eq, Ea, filter_length_all. split; intros H t Ht; apply nonscalar_iff; auto. }
  clear Ea Eb.
  destruct sa as [|s0 sa].
  - assert (Za : forall t, In t a -> t = []).
    { intros t Ht. destruct t; auto. assert (In (n :: t) []) by (apply Ia; split; easy). easy. }
    destruct sb as [|t0 sb]; cbn.
    + assert (Zb : forall t, In t b -> t = []).
      { intros t Ht. destruct t; auto. assert (In (n :: t) []) by (apply Ib; split; easy). easy. }
      split; [|split; [|easy]].
      * intros s. split; [easy|]. intros (H1 & H2 & H3 & _). exfalso. apply H1.
        destruct a as [|x a]; [easy|]. rewrite <- (H3 x (or_introl eq_refl)). apply Za; left; auto.
      * split; auto. intros _ t [H|H]; auto.
    + assert (Hb : In t0 b /\ t0 <> []) by (apply Ib; left; auto).
      split; [|split; [|congruence]].
      * intros s. split; [easy|]. intros (H1 & H2 & H3 & _). exfalso. apply H1.
        destruct a as [|x a]; [easy|]. rewrite <- (H3 x (or_introl eq_refl)). apply Za; left; auto.
      * split; [easy|]. intros H. exfalso. apply (proj2 Hb). apply H. right; apply Hb.
  - set (cb := match sb with [] => true | _ => one_value ((s0 :: sa) ++ sb) end).
    assert (H0 : In s0 a /\ s0 <> []) by (apply Ia; left; auto).
    assert (Char : ((List.length (s0 :: sa) =? List.length a)%nat && one_value (s0 :: sa)) && cb = true
       <-> (forall t, In t a -> t = s0) /\ (forall t, In t b -> t = [] \/ t = s0)).
    { rewrite !andb_true_iff, La, one_value_iff. split.
      - intros [[Hn Hu] Hb]. split.
        + intros t Ht. apply Hu, Ia. auto.
        + intros t Ht. destruct t as [|k t]; auto. right.
          assert (Hin : In (k :: t) sb) by (apply Ib; split; easy).
          unfold cb in Hb. destruct sb as [|x sb]; [easy|].
          change ((s0 :: sa) ++ x :: sb) with (s0 :: (sa ++ x :: sb)) in Hb.
          rewrite one_value_iff in Hb. apply Hb. right. apply in_or_app. auto.
      - intros [Ha Hb]. split; [split|].
        + intros t Ht. rewrite (Ha t Ht). apply H0.
        + intros t Ht. apply Ha. now apply Ia.
        + unfold cb. destruct sb as [|x sb]; auto.
          change ((s0 :: sa) ++ x :: sb) with (s0 :: (sa ++ x :: sb)).
          rewrite one_value_iff. intros t [<-|Ht]; auto. apply in_app_or in Ht. destruct Ht as [Ht|Ht].
          * apply Ha. apply Ia. right; auto.
          * apply Ib in Ht. destruct (Hb t (proj1 Ht)); tauto. }
    rewrite <- negb_andb. fold cb.
    destruct (((List.length (s0 :: sa) =? List.length a)%nat && one_value (s0 :: sa)) && cb) eqn:E.
    + pose proof (proj1 Char eq_refl) as [Ha Hb]. cbn [negb]. split; [|split; [|easy]].
      * intros s. split.
        -- intros H; injection H as <-. split; [apply H0|]. split; auto.
           intros ->. easy.
        -- intros (H1 & H2 & H3 & H4). rewrite <- (H3 s0 (proj1 H0)). easy.
      * split; [easy|]. intros H. exfalso. apply (proj2 H0). apply H. left; apply H0.
    + cbn [negb]. split; [|split; [|congruence]].
      * intros s. split; [easy|]. intros (H1 & H2 & H3 & H4). exfalso.
        assert (s0 = s) by (apply H3, H0). subst s.
        assert (false = true) by (apply Char; auto). easy.
      * split; [easy|]. intros H. exfalso. apply (proj2 H0). apply H. left; apply H0.
Qed.

Example C64_case : check_shapes [[3]; [3]]%nat [[]; [3]]%nat = Ok (Some [3%nat]) /\ check_shapes [[]] [[2%nat]] = Err ShapeError.
Proof. split; reflexivity. Qed.

Theorem C65_check_in_set : forall v valid,
  (forall w, check_in_set v valid = Ok w <-> w = v /\ forall s, In s (elems v) -> In s valid) /\
  (forall e, check_in_set v valid = Err e -> e = ValueError).
Proof.
  intros v valid. unfold check_in_set.
  assert (H : forallb (fun s => existsb (String.eqb s) valid) (elems v) = true <->
              forall s, In s (elems v) -> In s valid).
  { rewrite forallb_forall. split; intros H s Hs.
    - specialize (H s Hs). apply existsb_exists in H. destruct H as [x [Hx E]].
      apply String.eqb_eq in E. now subst.
    - apply existsb_exists. exists s. split; [auto|apply String.eqb_refl]. }
  destruct (forallb _ _).
  - split; [|easy]. intros w. split; [intros E; injection E as <-; split; auto; now apply H|intros [-> _]; easy].
  - split; [|congruence]. intros w. split; [easy|]. intros [_ K]. apply H in K. easy.
Qed.
Example C65_case : check_in_set (inr ["A"; "B"]%string) ["B"; "A"; "C"]%string = Ok (inr ["A"; "B"]%string)
  /\ check_in_set (inl "D"%string) ["B"; "A"]%string = Err ValueError.
Proof. split; reflexivity. Qed.

Print Assumptions C01_check_bounds_partial.
Print Assumptions C02_temperature.
Print Assumptions C64_check_shapes.
Print Assumptions C65_check_in_set.
