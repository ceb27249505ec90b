(** C111: construction, evaluation and plots of the property equations. *)
From Coq Require Import Reals Lra Lia List Bool Arith String Psatz.
From Verif Require Import Prelude RootsModel UtilsModel CopoModel PropModel DistPlotModel DistPlotProps EqPlotModel.
Import ListNotations.
Open Scope R_scope.

Lemma eps_pos : 0 < eps.
Proof. unfold eps. apply Rinv_0_lt_compat. apply pow_lt. lra. Qed.

(** A validity range: finite non-negative lower end, upper end infinite or above it. *)
Definition valid (Tmin Tmax : fl) : Prop :=
  exists a, Tmin = Fin a /\ 0 <= a /\ (Tmax = PInf \/ exists b, Tmax = Fin b /\ eps <= b - a).
Theorem C111_range Tmin Tmax :
  (forall r, eq_init Tmin Tmax = Ok r <-> valid Tmin Tmax /\ r = (Tmin, Tmax)) /\ (forall e, eq_init Tmin Tmax = Err e -> e = RangeError).
Proof.
  pose proof eps_pos as EP. unfold eq_init, check_bounds, between. split.
  - intros r. split.
    + destruct Tmin as [a| | |]; cbn [fleb andb bind]; try discriminate.
      * destruct (Rleb 0 a) eqn:A; cbn [andb bind]; [|discriminate]. apply Rleb_true in A. destruct Tmax as [b| | |]; cbn [fleb andb bind fl_sub]; try discriminate.
        -- destruct (Rleb 0 b) eqn:B; cbn [andb bind]; [|discriminate]. destruct (Rleb eps (b - a)) eqn:C; cbn [andb bind]; [|discriminate]. apply Rleb_true in C.
           intros [= <-]. split; [|reflexivity]. exists a. split; [reflexivity|]. split; [exact A|]. right. eauto.
        -- intros [= <-]. split; [|reflexivity]. exists a. auto.
      * destruct Tmax as [b| | |]; cbn [fleb andb bind fl_sub]; try discriminate. destruct (Rleb 0 b); cbn; discriminate.
    + intros ((a & -> & A & B) & ->). cbn [fleb andb]. rewrite (proj2 (Rleb_true 0 a)) by lra. cbn [andb bind]. destruct B as [->|(b & -> & B)]; cbn [fleb fl_sub andb bind]; [reflexivity|].
      rewrite (proj2 (Rleb_true 0 b)) by lra. rewrite (proj2 (Rleb_true eps (b - a))) by lra. reflexivity.
  - intros e. destruct (fleb _ _ && _); cbn [bind]; [|now intros [= <-]]. destruct (fleb _ _ && _); cbn [bind]; [|now intros [= <-]].
    destruct (fleb _ _ && _); cbn [bind]; [discriminate|now intros [= <-]].
Qed.

(** T lies outside the range *)
Definition outside (T : R) (Tmin Tmax : fl) : bool := fltb (Fin T) Tmin || fltb Tmax (Fin T).
Lemma conv1 T Tmin Tmax : 0 <= T -> convert_check_temperature [Fin T] "K" Tmin Tmax = Ok ([Fin T], outside T Tmin Tmax).
Proof. intros H. unfold convert_check_temperature, outside. cbn. rewrite (proj2 (Rltb_false T 0)) by lra. now rewrite !orb_false_r. Qed.
Lemma conv1C T Tmin Tmax : - (27315 / 100) <= T -> convert_check_temperature [Fin T] "C" Tmin Tmax = Ok ([Fin (T + 27315 / 100)], outside (T + 27315 / 100) Tmin Tmax).
Proof. intros H. unfold convert_check_temperature, outside. cbn. rewrite (proj2 (Rltb_false (T + 27315 / 100) 0)) by lra. now rewrite !orb_false_r. Qed.

(** Every object evaluates its documented formula with the arguments of its constructor, in
    kelvin or in degrees Celsius, and warns exactly outside the validity range. *)
Definition evaluates (m : res eobj) (Tmin Tmax : fl) (T : R) (y : R) : Prop :=
  exists o, m = Ok o /\ eq_call o T "K" = Ok (Flt y, outside T Tmin Tmax) /\ eq_call o (T - 27315 / 100) "C" = Ok (Flt y, outside T Tmin Tmax).
Lemma make_eval c p Tmin Tmax T y : valid Tmin Tmax -> 0 <= T -> equation c p T = Ok (Flt y) -> evaluates (make c p Tmin Tmax) Tmin Tmax T y.
Proof.
  intros V HT E. unfold make. rewrite (proj2 (proj1 (C111_range Tmin Tmax) (Tmin, Tmax))) by auto. cbn [bind]. exists (mkE c p (Tmin, Tmax)). split; [reflexivity|].
  unfold eq_call. cbn [e_range e_cls e_p fst snd]. rewrite conv1 by lra. rewrite conv1C by lra. cbn [bind]. replace (T - 27315 / 100 + 27315 / 100) with T by ring. rewrite E. now split.
Qed.
Lemma fpow_pos x y : 0 < x -> fpow x y = Flt (Rpower x y).
Proof. intros H. unfold fpow. rewrite (proj2 (Rltb_true 0 x)) by lra. reflexivity. Qed.

Theorem C111_objects Tmin Tmax T A B C D E Tc Pc (b10 : bool) : valid Tmin Tmax -> 0 < T ->
  evaluates (init_DIPPR100 A B C D E Tmin Tmax) Tmin Tmax T (A + B * T + C * T ^ 2 + D * T ^ 3 + E * T ^ 4) /\
  evaluates (init_DIPPR101 A B C D E Tmin Tmax) Tmin Tmax T (exp (A + B / T + C * ln T + D * Rpower T E)) /\
  evaluates (init_DIPPR102 A B C D Tmin Tmax) Tmin Tmax T (A * Rpower T B / (1 + C / T + D / T ^ 2)) /\
  evaluates (init_DIPPR104 A B C D E Tmin Tmax) Tmin Tmax T (A + B / T + C / T ^ 3 + D / T ^ 8 + E / T ^ 9) /\
  (T < C -> evaluates (init_DIPPR105 A B C D Tmin Tmax) Tmin Tmax T (A / Rpower B (1 + Rpower (1 - T / C) D))) /\
  (T < Tc -> evaluates (init_DIPPR106 Tc A B C D E Tmin Tmax) Tmin Tmax T
     (A * Rpower (1 - T / Tc) (B + C * (T / Tc) + D * (T / Tc) ^ 2 + E * (T / Tc) ^ 3))) /\
  evaluates (init_DIPPR107 A B C D E Tmin Tmax) Tmin Tmax T (A + B * (C / T / sinh (C / T)) ^ 2 + D * (E / T / cosh (E / T)) ^ 2) /\
  evaluates (init_Antoine A B C b10 Tmin Tmax) Tmin Tmax T (if b10 then Rpower 10 (A - B / (T + C)) else exp (A - B / (T + C))) /\
  evaluates (init_Yaws A B C D b10 Tmin Tmax) Tmin Tmax T (if b10 then Rpower 10 (A + B / T + C * T + D * T ^ 2) else exp (A + B / T + C * T + D * T ^ 2)) /\
  (T < Tc -> let t := 1 - T / Tc in
     evaluates (init_Wagner25 A B C D Pc Tc Tmin Tmax) Tmin Tmax T (Pc * exp ((A * t + B * Rpower t (3 / 2) + C * Rpower t (5 / 2) + D * t ^ 5) / (T / Tc))) /\
     evaluates (init_Wagner36 A B C D Pc Tc Tmin Tmax) Tmin Tmax T (Pc * exp ((A * t + B * Rpower t (3 / 2) + C * t ^ 3 + D * t ^ 6) / (T / Tc)))).
Proof.
  intros V HT.
  assert (Q : forall c, T < c -> 0 < 1 - T / c). { intros c H. assert (T / c < 1); [|lra]. apply (Rmult_lt_reg_r c); [lra|]. unfold Rdiv. rewrite Rmult_assoc, Rinv_l by lra. lra. }
  split; [apply make_eval; auto; lra|]. split; [apply make_eval; auto; lra|]. split; [apply make_eval; auto; lra|]. split; [apply make_eval; auto; lra|].
  split. { intros HC. apply make_eval; auto; [lra|]. cbn. unfold DIPPR105. rewrite fpow_pos by now apply Q. reflexivity. }
  split. { intros HC. apply make_eval; auto; [lra|]. cbn. unfold DIPPR106. rewrite fpow_pos by now apply Q. cbn [pmap]. do 4 f_equal. ring. }
  split; [apply make_eval; auto; lra|]. split; [apply make_eval; auto; lra|]. split; [apply make_eval; auto; lra|].
  intros HC t. split.
  - apply make_eval; auto; [lra|]. cbn. unfold Wagner25. rewrite !fpow_pos by now apply Q. reflexivity.
  - apply make_eval; auto; [lra|]. cbn. unfold Wagner36. rewrite !fpow_pos by now apply Q. reflexivity.
Qed.

(** * Plots *)
(** the i-th temperature of the plot, in kelvin *)
Definition Tpt (lo hi : R) (i : nat) : R := lo + INR i * ((hi - lo) / 99).
(** how a temperature is shown *)
Definition shown (kind : pkind) (Tunit : string) (T : R) : fl :=
  match kind with
  | ArrheniusK => np_div 1 T
  | _ => Fin (if String.eqb Tunit "C" then T - 27315 / 100 else T)
  end.
(** the points of the curve between [lo] and [hi] *)
Definition curve_of (eqn : fl -> fl) (kind : pkind) (Tunit : string) (lo hi : R) : list (fl * fl) :=
  map (fun i => (shown kind Tunit (Tpt lo hi i), eqn (Fin (Tpt lo hi i)))) (seq 0 100).
Lemma INR99 : INR (100 - 1) = 99.
Proof. cbn [Nat.sub]. rewrite INR_IZR_INZ. reflexivity. Qed.
Lemma Tpt_in lo hi i : lo < hi -> (i < 100)%nat -> lo <= Tpt lo hi i <= hi.
Proof.
  intros H Hi. unfold Tpt. assert (0 <= INR i <= 99). { split; [apply pos_INR|]. rewrite <- INR99. apply le_INR. lia. }
  split; [assert (0 <= INR i * ((hi - lo) / 99)); [|lra]; apply Rmult_le_pos; lra|].
  replace hi with (lo + 99 * ((hi - lo) / 99)) at 2 by field. apply Rplus_le_compat_l. apply Rmult_le_compat_r; lra.
Qed.
Lemma Tpt_ends lo hi : Tpt lo hi 0 = lo /\ Tpt lo hi 99 = hi.
Proof. unfold Tpt. split; [cbn [INR]; ring|]. change 99%nat with (100 - 1)%nat. rewrite INR99. field. Qed.

Lemma existsb_pts (P : R -> bool) lo hi : existsb (fun t => match t with Fin r => P r | _ => false end) (map Fin (linspace lo hi 100)) = existsb (fun i => P (Tpt lo hi i)) (seq 0 100).
Proof.
  unfold linspace. rewrite INR99. rewrite map_map. induction (seq 0 100) as [|i l IH]; cbn [map existsb]; [reflexivity|]. rewrite IH. reflexivity.
Qed.
Lemma existsb_false {A} (f : A -> bool) l : existsb f l = false <-> forall x, In x l -> f x = false.
Proof.
  split.
  - intros H x Hx. destruct (f x) eqn:E; [|reflexivity]. rewrite <- H. symmetry. apply existsb_exists. eauto.
  - intros H. destruct (existsb f l) eqn:E; [|reflexivity]. apply existsb_exists in E. destruct E as (x & Hx & E). now rewrite (H x Hx) in E.
Qed.

(** temperatures outside the validity range are on the curve *)
Definition beyond (lo hi : R) (range : fl * fl) : bool := fltb (Fin lo) (fst range) || fltb (snd range) (Fin hi).
Lemma conv_pts lo hi range : 0 <= lo < hi ->
  convert_check_temperature (linspace_fl (Fin lo) (Fin hi) 100) "K" (fst range) (snd range) = Ok (linspace_fl (Fin lo) (Fin hi) 100, beyond lo hi range).
Proof.
  intros H. unfold convert_check_temperature. cbn [bind String.eqb Ascii.eqb Bool.eqb]. cbn [linspace_fl].
  assert (L : forall x, In x (map Fin (linspace lo hi 100)) <-> exists i, (i < 100)%nat /\ x = Fin (Tpt lo hi i)).
  { intros x. unfold linspace. rewrite INR99, map_map, in_map_iff. split.
    - intros (i & <- & Hi). apply in_seq in Hi. exists i. split; [lia|reflexivity].
    - intros (i & Hi & ->). exists i. split; [reflexivity|]. apply in_seq. lia. }
  rewrite (proj2 (existsb_false (fun t => fltb t (Fin 0)) _)).
  2:{ intros x Hx. apply L in Hx. destruct Hx as (i & Hi & ->). cbn. apply Rltb_false. pose proof (Tpt_in lo hi i ltac:(lra) Hi). lra. }
  do 2 f_equal. destruct (Tpt_ends lo hi) as (E0 & E99). unfold beyond. f_equal.
  - destruct (fltb (Fin lo) (fst range)) eqn:Q.
    + apply existsb_exists. exists (Fin lo). split; [|exact Q]. apply L. exists 0%nat. split; [lia|]. now rewrite E0.
    + apply existsb_false. intros x Hx. apply L in Hx. destruct Hx as (i & Hi & ->). pose proof (Tpt_in lo hi i ltac:(lra) Hi). destruct (fst range) as [a| | |]; cbn in *; auto. apply Rltb_false. apply Rltb_false in Q. lra.
  - destruct (fltb (snd range) (Fin hi)) eqn:Q.
    + apply existsb_exists. exists (Fin hi). split; [|exact Q]. apply L. exists 99%nat. split; [lia|]. now rewrite E99.
    + apply existsb_false. intros x Hx. apply L in Hx. destruct Hx as (i & Hi & ->). pose proof (Tpt_in lo hi i ltac:(lra) Hi). destruct (snd range) as [a| | |]; cbn in *; auto. apply Rltb_false. apply Rltb_false in Q. lra.
Qed.
Lemma combine_map {A B C} (f : A -> B) (g : A -> C) l : combine (map f l) (map g l) = map (fun i => (f i, g i)) l.
Proof. induction l; cbn; [reflexivity|]. now rewrite IHl. Qed.
Lemma tail_eq eqn kind Tunit lo hi range : In Tunit ["K"; "C"]%string -> 0 <= lo < hi ->
  (do yw <- convert_check_temperature (linspace_fl (Fin lo) (Fin hi) 100) "K" (fst range) (snd range);
   let y := map eqn (fst yw) in
   let T := if String.eqb (match kind with ArrheniusK => "K"%string | _ => Tunit end) "C" then map (fl_map (fun x => x - 27315 / 100)) (linspace_fl (Fin lo) (Fin hi) 100) else linspace_fl (Fin lo) (Fin hi) 100 in
   let x := match kind with ArrheniusK => map fl_inv (linspace_fl (Fin lo) (Fin hi) 100) | _ => T end in
   Ok (combine x y, snd yw)) = Ok (curve_of eqn kind Tunit lo hi, beyond lo hi range).
Proof.
  intros U H. rewrite conv_pts by exact H. cbn [bind fst snd linspace_fl]. unfold linspace, curve_of. rewrite INR99. destruct U as [<-|[<-|[]]]; destruct kind; cbn [String.eqb Ascii.eqb Bool.eqb]; rewrite !map_map, combine_map; reflexivity.
Qed.

Lemma plot_units_ok u : In u ["K"; "C"]%string -> check_in_set (inl u) ["K"; "C"]%string = Ok (inl u).
Proof. intros [<-|[<-|[]]]; reflexivity. Qed.

(** A plot over a given range: accepted exactly when the range is increasing and above absolute
    zero; it then shows one hundred points from end to end, each with the value of the equation
    at that temperature, and warns exactly when the range leaves the validity range. *)
Theorem C111_plot eqn range kind Tunit a b : In Tunit ["K"; "C"]%string ->
  let z := if String.eqb Tunit "C" then 27315 / 100 else 0 in
  (- z <= a < b -> eq_plot eqn range kind (Some (Fin a, Fin b)) Tunit = Ok (curve_of eqn kind Tunit (a + z) (b + z), beyond (a + z) (b + z) range)) /\
  (~ (- z <= a < b) -> eq_plot eqn range kind (Some (Fin a, Fin b)) Tunit = Err RangeError).
Proof.
  intros U z. unfold eq_plot. rewrite plot_units_ok by exact U. cbn [bind fst snd].
  replace (if String.eqb Tunit "C" then - (27315 / 100) else 0) with (- z) by (unfold z; destruct (String.eqb Tunit "C"); ring).
  assert (Z : 0 <= z) by (unfold z; destruct (String.eqb Tunit "C"); lra). split.
  - intros H. unfold check_valid_range, check_bounds, between. cbn [fltb forallb fleb]. rewrite (proj2 (Rltb_true a b)), (proj2 (Rleb_true (- z) a)), (proj2 (Rleb_true (- z) b)) by lra. cbn [andb bind].
    replace (if String.eqb Tunit "C" then (fl_map (fun x => x + 27315 / 100) (Fin a), fl_map (fun x => x + 27315 / 100) (Fin b)) else (Fin a, Fin b)) with (Fin (a + z), Fin (b + z))
      by (unfold z; destruct (String.eqb Tunit "C"); cbn; [reflexivity|now rewrite !Rplus_0_r]).
    cbn [fst snd]. apply tail_eq; [exact U|lra].
  - intros H. unfold check_valid_range, check_bounds, between. cbn [fltb forallb fleb]. destruct (Rltb a b) eqn:E; [|reflexivity]. apply Rltb_true in E.
    rewrite (proj2 (Rleb_false (- z) a)) by lra. cbn. reflexivity.
Qed.

(** The default range is the validity range, without warning; without a validity range it is
    0 to 100 degrees Celsius. *)
Theorem C111_default eqn kind Tunit a b : In Tunit ["K"; "C"]%string -> 0 <= a < b ->
  eq_plot eqn (Fin a, Fin b) kind None Tunit = Ok (curve_of eqn kind Tunit a b, false) /\
  eq_plot eqn (Fin 0, PInf) kind None Tunit = Ok (curve_of eqn kind Tunit (27315 / 100) (37315 / 100), false).
Proof.
  intros U H. unfold eq_plot. rewrite plot_units_ok by exact U. cbn [bind]. split.
  - etransitivity; [exact (tail_eq eqn kind Tunit a b (Fin a, Fin b) U H)|]. unfold beyond. cbn. rewrite (proj2 (Rltb_false a a)), (proj2 (Rltb_false b b)) by lra. reflexivity.
  - rewrite (proj2 (Reqb_true 0 0) eq_refl). etransitivity; [refine (tail_eq eqn kind Tunit (27315 / 100) (37315 / 100) (Fin 0, PInf) U _); lra|]. unfold beyond. cbn. rewrite (proj2 (Rltb_false (27315 / 100) 0)) by lra. reflexivity.
Qed.

(** The points of a curve: one hundred; the ends are the ends of the range; the abscissae are
    monotonic; a point shows the value at its own temperature. *)
Theorem C111_points eqn kind Tunit lo hi : In Tunit ["K"; "C"]%string -> 0 < lo < hi ->
  let c := curve_of eqn kind Tunit lo hi in
  let back := fun x => match kind with ArrheniusK => 1 / x | _ => if String.eqb Tunit "C" then x + 27315 / 100 else x end in
  List.length c = 100%nat /\
  (forall i, (i < 100)%nat -> exists x, fst (nth i c (NaN, NaN)) = Fin x /\ lo <= back x <= hi /\ snd (nth i c (NaN, NaN)) = eqn (Fin (back x)) /\ (i = 0%nat -> back x = lo) /\ (i = 99%nat -> back x = hi)) /\
  (forall i j x y, (i < j < 100)%nat -> fst (nth i c (NaN, NaN)) = Fin x -> fst (nth j c (NaN, NaN)) = Fin y -> match kind with ArrheniusK => y < x | _ => x < y end).
Proof.
  intros U H c back. assert (N : forall i, (i < 100)%nat -> nth i c (NaN, NaN) = (shown kind Tunit (Tpt lo hi i), eqn (Fin (Tpt lo hi i)))).
  { intros i Hi. unfold c, curve_of. set (g := fun i : nat => (shown kind Tunit (Tpt lo hi i), eqn (Fin (Tpt lo hi i)))). rewrite (nth_indep _ _ (g 0%nat)) by (rewrite map_length, seq_length; lia).
    rewrite map_nth, seq_nth by lia. reflexivity. }
  assert (S : forall i, (i < 100)%nat -> exists x, shown kind Tunit (Tpt lo hi i) = Fin x /\ back x = Tpt lo hi i).
  { intros i Hi. pose proof (Tpt_in lo hi i ltac:(lra) Hi) as P. unfold shown, back. destruct kind; [eexists; split; [reflexivity|destruct (String.eqb Tunit "C"); ring]|eexists; split; [reflexivity|destruct (String.eqb Tunit "C"); ring]|].
    unfold np_div. rewrite (proj2 (Reqb_false (Tpt lo hi i) 0)) by lra. eexists. split; [reflexivity|]. field. lra. }
  assert (M : forall i j, (i < j)%nat -> Tpt lo hi i < Tpt lo hi j). { intros i j Hij. unfold Tpt. apply Rplus_lt_compat_l. apply Rmult_lt_compat_r; [lra|]. now apply lt_INR. }
  destruct (Tpt_ends lo hi) as (E0 & E99).
  split; [unfold c, curve_of; now rewrite map_length, seq_length|]. split.
  - intros i Hi. destruct (S i Hi) as (x & X1 & X2). exists x. rewrite (N i Hi). cbn [fst snd]. rewrite X2. split; [exact X1|]. split; [apply Tpt_in; auto; lra|]. split; [reflexivity|]. split; intros ->; auto.
  - intros i j x y Hij. rewrite !N by lia. cbn [fst]. pose proof (M i j ltac:(lia)) as LT. pose proof (Tpt_in lo hi i ltac:(lra) ltac:(lia)) as P1. pose proof (Tpt_in lo hi j ltac:(lra) ltac:(lia)) as P2. unfold shown.
    destruct kind; [intros [= <-] [= <-]; destruct (String.eqb Tunit "C"); lra|intros [= <-] [= <-]; destruct (String.eqb Tunit "C"); lra|].
    unfold np_div. rewrite !(proj2 (Reqb_false _ 0)) by lra. intros [= <-] [= <-]. unfold Rdiv. rewrite !Rmult_1_l. apply Rinv_lt_contravar; [apply Rmult_lt_0_compat; lra|exact LT].
Qed.

Lemma in_combine_repeat {A B C} (f : A -> B) (g : A -> C) (a : A) n p : In p (combine (map f (repeat a n)) (map g (repeat a n))) -> p = (f a, g a).
Proof. induction n as [|n IH]; cbn [repeat map combine]; [intros []|]. intros [H|H]; [now symmetry|exact (IH H)]. Qed.

(** * Findings *)
(** An equation that is valid above some temperature has a validity range which is accepted, but
    its default plot has no point with a finite abscissa other than infinity itself. *)
Theorem C111_unbounded_refuted : exists Tmin Tmax, eq_init Tmin Tmax = Ok (Tmin, Tmax) /\ forall eqn kind, exists pts,
  eq_plot eqn (Tmin, Tmax) kind None "K" = Ok (pts, false) /\
  forall p, In p pts -> (fst p = NaN /\ snd p = eqn NaN) \/ (fst p = match kind with ArrheniusK => Fin 0 | _ => PInf end /\ snd p = eqn PInf).
Proof.
  exists (Fin 300), PInf. split. { apply (proj1 (C111_range (Fin 300) PInf)). split; [|reflexivity]. exists 300. split; [reflexivity|]. split; [lra|]. now left. }
  intros eqn kind. unfold eq_plot. rewrite plot_units_ok by (now left). cbn [bind]. rewrite (proj2 (Reqb_false 300 0)) by lra. cbn [fst snd]. cbn [linspace_fl].
  assert (CV : convert_check_temperature (NaN :: repeat PInf (100 - 1)) "K" (Fin 300) PInf = Ok (NaN :: repeat PInf (100 - 1), false)).
  { unfold convert_check_temperature. cbn [bind String.eqb Ascii.eqb Bool.eqb existsb fltb orb].
    assert (E : forall f : fl -> bool, f PInf = false -> existsb f (repeat PInf (100 - 1)) = false) by (intros f Hf; induction (100 - 1)%nat; cbn [repeat existsb]; [reflexivity|rewrite Hf; exact IHn]).
    rewrite !E by reflexivity. reflexivity. }
  rewrite CV. cbn [bind fst snd]. eexists. split; [reflexivity|]. intros p Hp.
  assert (L : forall f : fl -> fl, In p (combine (map f (NaN :: repeat PInf (100 - 1))) (map eqn (NaN :: repeat PInf (100 - 1)))) -> p = (f NaN, eqn NaN) \/ p = (f PInf, eqn PInf)).
  { intros f Q. cbn [map combine] in Q. destruct Q as [Q|Q]; [left; now symmetry|right; now apply in_combine_repeat in Q]. }
  destruct kind; cbn [String.eqb Ascii.eqb Bool.eqb] in Hp.
  - rewrite <- (map_id (NaN :: repeat PInf (100 - 1))) in Hp at 1. destruct (L _ Hp) as [->| ->]; [left|right]; now split.
  - rewrite <- (map_id (NaN :: repeat PInf (100 - 1))) in Hp at 1. destruct (L _ Hp) as [->| ->]; [left|right]; now split.
  - destruct (L _ Hp) as [->| ->]; [left|right]; now split.
Qed.

(** An equation with an upper limit only: its Arrhenius plot starts at an infinite abscissa. *)
Theorem C111_zero_refuted : exists Tmin Tmax, eq_init Tmin Tmax = Ok (Tmin, Tmax) /\ forall eqn, exists pts,
  eq_plot eqn (Tmin, Tmax) ArrheniusK None "K" = Ok (pts, false) /\ nth 0 pts (NaN, NaN) = (PInf, eqn (Fin 0)).
Proof.
  exists (Fin 0), (Fin 366). pose proof eps_pos as EP. assert (EU : eps <= 1) by (unfold eps; rewrite <- Rinv_1; apply Rinv_le_contravar; [lra|apply pow_R1_Rle; lra]).
  split. { apply (proj1 (C111_range (Fin 0) (Fin 366))). split; [|reflexivity]. exists 0. split; [reflexivity|]. split; [lra|]. right. exists 366. split; [reflexivity|lra]. }
  intros eqn. eexists. split; [apply C111_default; [now left|lra]|]. unfold curve_of. cbn [seq map nth]. destruct (Tpt_ends 0 366) as (E & _). rewrite E. unfold shown, np_div.
  rewrite (proj2 (Reqb_true 0 0) eq_refl), (proj2 (Reqb_false 1 0)) by lra. rewrite (proj2 (Rltb_true 0 1)) by lra. reflexivity.
Qed.

(** DIPPR100 with A = 1, B = 2 between 300 and 400 K: value at 350 K, and the ends of the plot in
    degrees Celsius; a constant range and a negative temperature are rejected. *)
Example C111_case : exists o, init_DIPPR100 1 2 0 0 0 (Fin 300) (Fin 400) = Ok o /\ eq_call o 350 "K" = Ok (Flt 701, false) /\ eq_call o 500 "K" = Ok (Flt 1001, true) /\
  eq_init (Fin 300) (Fin 300) = Err RangeError /\ eq_init PInf PInf = Err RangeError /\
  (forall eqn, exists c, eq_plot eqn (Fin 300, Fin 400) Linear None "C" = Ok (c, false) /\ fst (nth 0 c (NaN, NaN)) = Fin (2685 / 100) /\ fst (nth 99 c (NaN, NaN)) = Fin (12685 / 100)) /\
  (forall eqn, eq_plot eqn (Fin 300, Fin 400) Linear (Some (Fin (-1), Fin 5)) "K" = Err RangeError).
Proof.
  pose proof eps_pos as EP. assert (EU : eps <= 1) by (unfold eps; rewrite <- Rinv_1; apply Rinv_le_contravar; [lra|apply pow_R1_Rle; lra]).
  assert (V : valid (Fin 300) (Fin 400)) by (exists 300; split; [reflexivity|]; split; [lra|]; right; exists 400; split; [reflexivity|lra]).
  assert (I : eq_init (Fin 300) (Fin 400) = Ok (Fin 300, Fin 400)) by (apply (proj1 (C111_range (Fin 300) (Fin 400))); auto).
  exists (mkE D100 [("A", PNum 1); ("B", PNum 2); ("C", PNum 0); ("D", PNum 0); ("E", PNum 0)]%string (Fin 300, Fin 400)).
  unfold init_DIPPR100, init_P5, make. rewrite I. cbn [bind]. split; [reflexivity|].
  assert (CA : forall T w, 0 <= T -> outside T (Fin 300) (Fin 400) = w -> eq_call (mkE D100 [("A", PNum 1); ("B", PNum 2); ("C", PNum 0); ("D", PNum 0); ("E", PNum 0)]%string (Fin 300, Fin 400)) T "K" = Ok (Flt (1 + 2 * T), w)).
  { intros T w HT <-. unfold eq_call. cbn [e_range fst snd]. rewrite conv1 by lra. cbn. unfold DIPPR100. do 3 f_equal. ring. }
  split. { rewrite (CA 350 false); [do 3 f_equal; lra|lra|]. unfold outside. cbn. rewrite (proj2 (Rltb_false 350 300)), (proj2 (Rltb_false 400 350)) by lra. reflexivity. }
  split. { rewrite (CA 500 true); [do 3 f_equal; lra|lra|]. unfold outside. cbn. rewrite (proj2 (Rltb_true 400 500)) by lra. apply orb_true_r. }
  split. { destruct (eq_init (Fin 300) (Fin 300)) as [r|e] eqn:E; [exfalso|f_equal; now apply (C111_range (Fin 300) (Fin 300))]. apply (proj1 (C111_range (Fin 300) (Fin 300))) in E. destruct E as ((a & [= <-] & _ & [Q|(b & [= <-] & Q)]) & _); [discriminate|lra]. }
  split. { destruct (eq_init PInf PInf) as [r|e] eqn:E; [exfalso|f_equal; now apply (C111_range PInf PInf)]. apply (proj1 (C111_range PInf PInf)) in E. destruct E as ((a & Q & _) & _). discriminate. }
  split.
  - intros eqn. eexists. split; [apply C111_default; [right; now left|lra]|]. unfold curve_of. set (g := fun i : nat => (shown Linear "C" (Tpt 300 400 i), eqn (Fin (Tpt 300 400 i)))).
    rewrite !(nth_indep _ (NaN, NaN) (g 0%nat)) by (rewrite map_length, seq_length; lia). rewrite !map_nth, !seq_nth by lia. unfold g. destruct (Tpt_ends 300 400) as (E0 & E99). rewrite !Nat.add_0_l, E0, E99. cbn [fst shown String.eqb Ascii.eqb Bool.eqb]. split; f_equal; lra.
  - intros eqn. apply (C111_plot eqn (Fin 300, Fin 400) Linear "K" (-1) 5); [now left|]. cbn. lra.
Qed.

Print Assumptions C111_objects.
Print Assumptions C111_plot.
Print Assumptions C111_points.
Print Assumptions C111_unbounded_refuted.
