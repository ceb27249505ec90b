(** Properties of the rate coefficients, of the emulsion models and of the reaction
    classes: C26, C27, C69-C71. *)
From Coq Require Import Reals Lra Lia List Bool Arith String.
From Verif Require Import Prelude UtilsModel KinModel.
Import ListNotations.
Open Scope R_scope.

(* ------------------------------------------------------------------ *)
(** * Auxiliary facts                                                 *)
(* ------------------------------------------------------------------ *)

Definition fl_ok (x : fl) : Prop := x <> NaN.

Local Ltac flc := repeat (match goal with
  | |- context [Rleb ?a ?b] => unfold Rleb; destruct (Rle_dec a b)
  | |- context [Rltb ?a ?b] => unfold Rltb; destruct (Rlt_dec a b)
  | |- context [Rle_dec ?a ?b] => destruct (Rle_dec a b)
  | |- context [Rlt_dec ?a ?b] => destruct (Rlt_dec a b)
  end; cbn -[Rle_dec Rlt_dec]); try reflexivity; try lra.

Lemma lt_max t a b : fl_ok a -> fl_ok b -> fltb t (fl_max a b) = fltb t a || fltb t b.
Proof.
  unfold fl_ok; intros Ha Hb.
  destruct t, a, b; try easy; cbn -[Rleb Rltb]; flc.
Qed.
Lemma min_lt t a b : fl_ok a -> fl_ok b -> fltb (fl_min a b) t = fltb a t || fltb b t.
Proof.
  unfold fl_ok; intros Ha Hb.
  destruct t, a, b; try easy; cbn -[Rleb Rltb]; flc.
Qed.

Lemma between_ok lo hi x : between lo hi x = true -> fl_ok x.
Proof. unfold between, fl_ok; destruct lo, hi, x; cbn; easy. Qed.

Lemma check_num x lo hi v : check_bounds (VNum x) lo hi = Ok v -> between lo hi x = true.
Proof. cbn. destruct (between lo hi x); easy. Qed.

(** An object that comes out of the constructor. *)
Definition constructed (a : arrh) : Prop :=
  exists sh k0 EaR T0 Tmin Tmax, Arrhenius sh k0 EaR T0 Tmin Tmax = Ok a.

Lemma Arrhenius_inv sh k0 EaR T0 Tmin Tmax a :
  Arrhenius sh k0 EaR T0 Tmin Tmax = Ok a ->
  a = mkArrh sh k0 EaR T0 Tmin Tmax /\
  (forall i, (i < nelem sh)%nat -> 0 <= k0 i) /\
  between (Fin 0) PInf T0 = true /\
  between (Fin 0) PInf Tmin = true /\ between (Fin 0) PInf Tmax = true /\
  between (Fin eps64) PInf (fl_sub Tmax Tmin) = true.
Proof.
  unfold Arrhenius, check_Trange, check_bounds_n; intros H.
  destruct (forallb _ _) eqn:E1; [|easy]. cbn [bind] in H.
  destruct (check_bounds (VNum T0) (Fin 0) PInf) eqn:E2; [|easy]. cbn [bind] in H.
  destruct (check_bounds (VNum Tmin) (Fin 0) PInf) eqn:E3; [|easy]. cbn [bind] in H.
  destruct (check_bounds (VNum Tmax) (Fin 0) PInf) eqn:E4; [|easy]. cbn [bind] in H.
  destruct (check_bounds (VNum (fl_sub Tmax Tmin)) (Fin eps64) PInf) eqn:E5; [|easy]. cbn [bind] in H.
  injection H as <-. repeat split; eauto using check_num.
  intros i Hi. rewrite forallb_forall in E1.
  specialize (E1 i ltac:(apply in_seq; lia)). unfold between in E1; cbn in E1.
  rewrite andb_true_r in E1. now apply Rleb_true in E1.
Qed.

Lemma Arrhenius_intro sh k0 EaR T0 Tmin Tmax :
  (forall i, (i < nelem sh)%nat -> 0 <= k0 i) ->
  between (Fin 0) PInf T0 = true ->
  between (Fin 0) PInf Tmin = true -> between (Fin 0) PInf Tmax = true ->
  between (Fin eps64) PInf (fl_sub Tmax Tmin) = true ->
  Arrhenius sh k0 EaR T0 Tmin Tmax = Ok (mkArrh sh k0 EaR T0 Tmin Tmax).
Proof.
  intros H1 H2 H3 H4 H5. unfold Arrhenius, check_Trange, check_bounds_n.
  assert (forallb (fun i => between (Fin 0) PInf (Fin (k0 i))) (seq 0 (nelem sh)) = true) as ->.
  { apply forallb_forall. intros i Hi. apply in_seq in Hi. unfold between; cbn.
    rewrite andb_true_r. apply (proj2 (Rleb_true _ _)). apply H1; lia. }
  cbn [bind]. cbn [check_bounds]. rewrite H2, H3, H4. cbn [bind]. now rewrite H5.
Qed.

Lemma constructed_facts a : constructed a ->
  (forall i, (i < a_n a)%nat -> 0 <= a_k0 a i) /\
  between (Fin 0) PInf (a_T0 a) = true /\
  between (Fin 0) PInf (a_Tmin a) = true /\ between (Fin 0) PInf (a_Tmax a) = true /\
  between (Fin eps64) PInf (fl_sub (a_Tmax a) (a_Tmin a)) = true.
Proof.
  intros (sh & k0 & E & T0 & Tm & TM & H). destruct (Arrhenius_inv _ _ _ _ _ _ _ H) as (-> & R).
  exact R.
Qed.

(** value of 1/T *)
Definition ivl (x : fl) : R := match x with Fin r => / r | _ => 0 end.
Definition nz (x : fl) : Prop := x <> Fin 0.

Lemma fl_inv_ok x : nz x -> fl_inv x = Ok (ivl x).
Proof.
  unfold nz; intros H; destruct x; cbn; auto.
  rewrite pydiv_ok by congruence. f_equal; unfold Rdiv; ring.
Qed.

Definition tkelvin (T : fl) (u : string) : res fl :=
  do TK <- (if String.eqb u "K" then Ok T
            else if String.eqb u "C" then Ok (fl_map (fun r => r + 27315 / 100) T)
            else Err ValueError);
  if fltb TK (Fin 0) then Err RangeError else Ok TK.

Lemma call_char a T u : nz (a_T0 a) ->
  arrh_call a T u =
  match tkelvin T u with
  | Err e => Err e
  | Ok TK => match fl_inv TK with
             | Err e => Err e
             | Ok it => Ok (fun i => a_k0 a i * exp (- a_EaR a i * (it - ivl (a_T0 a))),
                            fltb TK (a_Tmin a) || fltb (a_Tmax a) TK)
             end
  end.
Proof.
  intros Hz. unfold arrh_call, convert_check_temperature, tkelvin, arrh_equation.
  rewrite (fl_inv_ok _ Hz).
  destruct (String.eqb u "K"); [|destruct (String.eqb u "C")]; cbn [bind map existsb]; auto;
    rewrite ?orb_false_r;
    match goal with |- context [fltb ?x (Fin 0)] => destruct (fltb x (Fin 0)) end; cbn [bind fst snd nth]; auto;
    match goal with |- context [fl_inv ?x] => destruct (fl_inv x) end; reflexivity.
Qed.

Lemma A_char a : nz (a_T0 a) ->
  arrh_A a = Ok (fun i => a_k0 a i * exp (- a_EaR a i * (0 - ivl (a_T0 a)))).
Proof. intros H. unfold arrh_A. rewrite (call_char _ _ _ H). reflexivity. Qed.

Lemma tkelvin_range T u TK : tkelvin T u = Ok TK -> fltb TK (Fin 0) = false.
Proof.
  unfold tkelvin. destruct (String.eqb u "K"); [|destruct (String.eqb u "C")]; cbn [bind]; try easy;
    match goal with |- context [fltb ?x (Fin 0)] => destruct (fltb x (Fin 0)) eqn:E end; try easy;
    intros H; injection H as <-; auto.
Qed.

Lemma Reqb_refl_true x : Reqb x x = true.
Proof. now apply Reqb_true. Qed.

(** The range of both operands, and the requirement that they overlap. *)
Definition covers (a : arrh) (t : R) : Prop :=
  fleb (a_Tmin a) (Fin t) = true /\ fleb (Fin t) (a_Tmax a) = true.
Definition overlap (a b : arrh) : Prop :=
  exists t s, t + / 2 ^ 52 <= s /\ covers a t /\ covers a s /\ covers b t /\ covers b s.

Lemma eps64_pos : 0 < eps64.
Proof. unfold eps64. apply Rinv_0_lt_compat. apply pow_lt; lra. Qed.

Lemma range_mul a b : constructed a -> constructed b -> overlap a b ->
  between (Fin 0) PInf (fl_max (a_Tmin a) (a_Tmin b)) = true /\
  between (Fin 0) PInf (fl_min (a_Tmax a) (a_Tmax b)) = true /\
  between (Fin eps64) PInf (fl_sub (fl_min (a_Tmax a) (a_Tmax b)) (fl_max (a_Tmin a) (a_Tmin b))) = true.
Proof.
  intros Ha Hb (t & s & Hts & (A1 & A2) & (A3 & A4) & (B1 & B2) & (B3 & B4)). change (/ 2 ^ 52) with eps64 in Hts.
  destruct (constructed_facts _ Ha) as (_ & _ & X1 & X2 & _).
  destruct (constructed_facts _ Hb) as (_ & _ & Y1 & Y2 & _).
  unfold between in *.
  destruct (a_Tmin a) as [p| | |], (a_Tmin b) as [q| | |], (a_Tmax a) as [r| | |], (a_Tmax b) as [w| | |];
    cbn -[Rleb] in *; try discriminate; rewrite ?andb_true_r in *;
    repeat match goal with H : Rleb _ _ = true |- _ => apply (proj1 (Rleb_true _ _)) in H end;
    repeat split; flc; exfalso; lra.
Qed.

(* ------------------------------------------------------------------ *)
(** * C26 Arrhenius coefficient algebra                               *)
(* ------------------------------------------------------------------ *)

(** [agree n op c ra rb]: the outcome of evaluating [c] is the element-wise [op] of the
    outcomes of evaluating the operands, including errors and range warnings. *)
Definition agree2 (n : nat) (op : R -> R -> R) (rc ra rb : res ((nat -> R) * bool)) : Prop :=
  match ra, rb with
  | Ok (x, wx), Ok (y, wy) =>
      exists z, rc = Ok (z, wx || wy) /\ forall i, (i < n)%nat -> z i = op (x i) (y i)
  | Err e, Err e' => e = e' /\ rc = Err e
  | _, _ => False
  end.
Definition agree1 (n : nat) (op : R -> R) (rc ra : res ((nat -> R) * bool)) : Prop :=
  match ra with
  | Ok (x, wx) => exists z, rc = Ok (z, wx) /\ forall i, (i < n)%nat -> z i = op (x i)
  | Err e => rc = Err e
  end.

Lemma oshape_refl s : oshape_eqb s s = true.
Proof. destruct s; cbn; auto. unfold shape_eqb. now destruct (list_eq_dec _ _ _). Qed.

Lemma agree2_gen a b c op :
  nz (a_T0 a) -> nz (a_T0 b) -> nz (a_T0 c) -> constructed a -> constructed b ->
  a_Tmin c = fl_max (a_Tmin a) (a_Tmin b) -> a_Tmax c = fl_min (a_Tmax a) (a_Tmax b) ->
  (forall i it, (i < a_n a)%nat ->
     a_k0 c i * exp (- a_EaR c i * (it - ivl (a_T0 c))) =
     op (a_k0 a i * exp (- a_EaR a i * (it - ivl (a_T0 a))))
        (a_k0 b i * exp (- a_EaR b i * (it - ivl (a_T0 b))))) ->
  forall T u, agree2 (a_n a) op (arrh_call c T u) (arrh_call a T u) (arrh_call b T u).
Proof.
  intros Za Zb Zc Ca Cb E1 E2 H T u. rewrite !call_char by auto.
  destruct (constructed_facts _ Ca) as (_ & _ & X1 & X2 & _).
  destruct (constructed_facts _ Cb) as (_ & _ & Y1 & Y2 & _).
  destruct (tkelvin T u) as [TK|e]; [|now cbn].
  destruct (fl_inv TK) as [it|e]; [|now cbn]. cbn [agree2].
  eexists; split.
  - f_equal. f_equal; [reflexivity|]. rewrite E1, E2, lt_max, min_lt by eauto using between_ok.
    destruct (fltb TK (a_Tmin a)), (fltb TK (a_Tmin b)), (fltb (a_Tmax a) TK), (fltb (a_Tmax b) TK); reflexivity.
  - intros i Hi. cbv beta. now apply H.
Qed.

Lemma agree1_gen a c op :
  nz (a_T0 a) -> nz (a_T0 c) -> a_Tmin c = a_Tmin a -> a_Tmax c = a_Tmax a ->
  (forall i it, (i < a_n a)%nat ->
     a_k0 c i * exp (- a_EaR c i * (it - ivl (a_T0 c))) =
     op (a_k0 a i * exp (- a_EaR a i * (it - ivl (a_T0 a))))) ->
  forall T u, agree1 (a_n a) op (arrh_call c T u) (arrh_call a T u).
Proof.
  intros Za Zc E1 E2 H T u. rewrite !call_char by auto.
  destruct (tkelvin T u) as [TK|e]; [|now cbn].
  destruct (fl_inv TK) as [it|e]; [|now cbn]. cbn [agree1].
  eexists; split.
  - f_equal. f_equal; [reflexivity|]. now rewrite E1, E2.
  - intros i Hi. now apply H.
Qed.

Lemma nz_PInf : nz PInf. Proof. discriminate. Qed.

(** Product of two coefficients of the same shape whose validity ranges overlap. *)
Theorem C26_product a b :
  constructed a -> constructed b -> a_T0 a <> Fin 0 -> a_T0 b <> Fin 0 ->
  a_shape a = a_shape b -> overlap a b ->
  exists c, arrh_mul a b = Ok c /\ a_shape c = a_shape a /\
    (forall t, covers c t <-> covers a t /\ covers b t) /\
    forall T u, agree2 (a_n a) Rmult (arrh_call c T u) (arrh_call a T u) (arrh_call b T u).
Proof.
  intros Ca Cb Za Zb Hs Ho.
  destruct (range_mul _ _ Ca Cb Ho) as (R1 & R2 & R3).
  destruct (constructed_facts _ Ca) as (Ka & _ & X1 & X2 & _).
  destruct (constructed_facts _ Cb) as (Kb & _ & Y1 & Y2 & _).
  unfold arrh_mul. rewrite <- Hs, oshape_refl, !A_char by auto. cbn [bind].
  rewrite Arrhenius_intro; auto.
  2:{ intros i Hi. apply Rmult_le_pos; apply Rmult_le_pos; try (left; apply exp_pos).
      - now apply Ka. - apply Kb. unfold a_n; now rewrite <- Hs. }
  eexists; split; [reflexivity|]. cbn [a_shape]. split; [reflexivity|]. split.
  - intros t. unfold covers. cbn [a_Tmin a_Tmax].
    apply between_ok in X1, X2, Y1, Y2. unfold fl_ok in *. clear - X1 X2 Y1 Y2.
    destruct (a_Tmin a), (a_Tmin b); try easy; destruct (a_Tmax a), (a_Tmax b); try easy;
      cbn -[Rleb]; flc; intuition (try easy; lra).
  - apply agree2_gen; cbn; auto using nz_PInf.
    intros i it _. cbn.
    replace (a_k0 a i * exp (- a_EaR a i * (0 - ivl (a_T0 a))) *
             (a_k0 b i * exp (- a_EaR b i * (0 - ivl (a_T0 b)))) *
             exp (- (a_EaR a i + a_EaR b i) * (it - 0)))
      with (a_k0 a i * a_k0 b i * (exp (- a_EaR a i * (0 - ivl (a_T0 a))) *
            exp (- a_EaR b i * (0 - ivl (a_T0 b))) * exp (- (a_EaR a i + a_EaR b i) * (it - 0)))) by ring.
    replace (a_k0 a i * exp (- a_EaR a i * (it - ivl (a_T0 a))) *
             (a_k0 b i * exp (- a_EaR b i * (it - ivl (a_T0 b)))))
      with (a_k0 a i * a_k0 b i * (exp (- a_EaR a i * (it - ivl (a_T0 a))) *
            exp (- a_EaR b i * (it - ivl (a_T0 b))))) by ring.
    f_equal. rewrite <- !exp_plus. f_equal. ring.
Qed.

(** Incompatible shapes and disjoint validity ranges are rejected. *)
Theorem C26_product_errors a b :
  constructed a -> constructed b -> a_T0 a <> Fin 0 -> a_T0 b <> Fin 0 ->
  (a_shape a <> a_shape b -> arrh_mul a b = Err ShapeError /\ arrh_div a b = Err ShapeError) /\
  (a_shape a = a_shape b -> ~ overlap a b -> arrh_mul a b = Err RangeError).
Proof.
  intros Ca Cb Za Zb. split.
  - intros Hs. unfold arrh_mul, arrh_div.
    assert (oshape_eqb (a_shape a) (a_shape b) = false) as ->; [|easy].
    destruct (a_shape a), (a_shape b); cbn; try easy.
    unfold shape_eqb. destruct (list_eq_dec _ _ _); congruence.
  - intros Hs Ho. unfold arrh_mul. rewrite <- Hs, oshape_refl, !A_char by auto. cbn [bind].
    match goal with |- ?X = _ => destruct X as [c|e] eqn:E end.
    + exfalso. apply Ho. destruct (Arrhenius_inv _ _ _ _ _ _ _ E) as (_ & _ & _ & R1 & R2 & R3).
      destruct (constructed_facts _ Ca) as (_ & _ & X1 & X2 & _).
      destruct (constructed_facts _ Cb) as (_ & _ & Y1 & Y2 & _).
      unfold overlap, covers. change (/ 2 ^ 52) with eps64. clear - R1 R2 R3 X1 X2 Y1 Y2. pose proof eps64_pos as He.
      unfold between in *.
      destruct (a_Tmin a) as [p| | |], (a_Tmin b) as [q| | |], (a_Tmax a) as [r| | |], (a_Tmax b) as [w| | |];
        cbn -[Rleb] in *; try discriminate;
        repeat match type of R3 with context [Rleb ?a ?b] => destruct (Rleb a b) eqn:?; cbn -[Rleb] in R3 end;
        try discriminate; rewrite ?andb_true_r in *;
        repeat match goal with
        | H : Rleb _ _ = true |- _ => apply (proj1 (Rleb_true _ _)) in H
        | H : Rleb _ _ = false |- _ => apply (proj1 (Rleb_false _ _)) in H end;
        exists (Rmax p q), (Rmax p q + eps64);
        pose proof (Rmax_l p q); pose proof (Rmax_r p q);
        destruct (Rmax_case_strong p q (fun z => z = p \/ z = q)) as [Hm|Hm]; auto;
        rewrite ?Hm in *;
        repeat split; try reflexivity; try (apply (proj2 (Rleb_true _ _))); try lra.
    + revert E. unfold Arrhenius, check_Trange, check_bounds_n.
      assert (forallb (fun i => between (Fin 0) PInf (Fin
          (a_k0 a i * exp (- a_EaR a i * (0 - ivl (a_T0 a))) *
           (a_k0 b i * exp (- a_EaR b i * (0 - ivl (a_T0 b))))))) (seq 0 (nelem (a_shape a))) = true) as ->.
      { apply forallb_forall. intros i Hi. apply in_seq in Hi. unfold between; cbn -[Rleb].
        rewrite andb_true_r. apply (proj2 (Rleb_true _ _)).
        apply Rmult_le_pos; apply Rmult_le_pos; try (left; apply exp_pos).
        - apply (proj1 (constructed_facts _ Ca)). unfold a_n; lia.
        - apply (proj1 (constructed_facts _ Cb)). unfold a_n. rewrite <- Hs; lia. }
      cbn [bind]. cbn [check_bounds].
      repeat match goal with |- context [between ?a ?b ?c] => destruct (between a b c) end; cbn [bind]; congruence.
Qed.

(** Quotient of two coefficients; the divisor must be non-zero. *)
Theorem C26_quotient a b :
  constructed a -> constructed b -> a_T0 a <> Fin 0 -> a_T0 b <> Fin 0 ->
  a_shape a = a_shape b -> overlap a b -> (forall i, (i < a_n a)%nat -> 0 < a_k0 b i) ->
  exists c, arrh_div a b = Ok c /\ a_shape c = a_shape a /\
    (forall t, covers c t <-> covers a t /\ covers b t) /\
    forall T u, agree2 (a_n a) Rdiv (arrh_call c T u) (arrh_call a T u) (arrh_call b T u).
Proof.
  intros Ca Cb Za Zb Hs Ho Kb.
  destruct (range_mul _ _ Ca Cb Ho) as (R1 & R2 & R3).
  destruct (constructed_facts _ Ca) as (Ka & _ & X1 & X2 & _).
  destruct (constructed_facts _ Cb) as (_ & _ & Y1 & Y2 & _).
  unfold arrh_div. rewrite <- Hs, oshape_refl, !A_char by auto. cbn [bind].
  unfold div_n.
  assert (forallb (fun i => negb (Reqb (a_k0 b i * exp (- a_EaR b i * (0 - ivl (a_T0 b)))) 0))
            (seq 0 (a_n a)) = true) as ->.
  { apply forallb_forall. intros i Hi. apply in_seq in Hi. apply negb_true_iff. apply Reqb_false.
    apply Rgt_not_eq. apply Rmult_lt_0_compat; [apply Kb; lia|apply exp_pos]. }
  cbn [bind]. rewrite Arrhenius_intro; auto.
  2:{ intros i Hi. apply Rmult_le_pos; [apply Rmult_le_pos; [now apply Ka|left; apply exp_pos]|].
      left. apply Rinv_0_lt_compat. apply Rmult_lt_0_compat; [apply Kb; exact Hi|apply exp_pos]. }
  eexists; split; [reflexivity|]. cbn [a_shape]. split; [reflexivity|]. split.
  - intros t. unfold covers. cbn [a_Tmin a_Tmax].
    apply between_ok in X1, X2, Y1, Y2. unfold fl_ok in *. clear - X1 X2 Y1 Y2.
    destruct (a_Tmin a), (a_Tmin b); try easy; destruct (a_Tmax a), (a_Tmax b); try easy;
      cbn -[Rleb]; flc; intuition (try easy; lra).
  - apply agree2_gen; cbn; auto using nz_PInf.
    intros i it Hi. cbn. specialize (Kb i Hi).
    replace (exp (- (a_EaR a i - a_EaR b i) * (it - 0)))
      with (exp (- a_EaR a i * it) / exp (- a_EaR b i * it)).
    2:{ unfold Rdiv. rewrite <- exp_Ropp, <- exp_plus. f_equal; ring. }
    replace (- a_EaR a i * (it - ivl (a_T0 a))) with
      (- a_EaR a i * it + - a_EaR a i * (0 - ivl (a_T0 a))) by ring.
    replace (- a_EaR b i * (it - ivl (a_T0 b))) with
      (- a_EaR b i * it + - a_EaR b i * (0 - ivl (a_T0 b))) by ring.
    rewrite !exp_plus.
    pose proof (exp_pos (- a_EaR b i * it)). pose proof (exp_pos (- a_EaR b i * (0 - ivl (a_T0 b)))).
    field. repeat split; lra.
Qed.

(** Multiplication and division by numbers. *)
Theorem C26_scalar a c :
  constructed a -> a_T0 a <> Fin 0 -> 0 <= c ->
  (exists d, arrh_smul a c = Ok d /\
    forall T u, agree1 (a_n a) (fun x => c * x) (arrh_call d T u) (arrh_call a T u)) /\
  (0 < c -> exists d, arrh_sdiv a c = Ok d /\
    forall T u, agree1 (a_n a) (fun x => x / c) (arrh_call d T u) (arrh_call a T u)) /\
  ((forall i, (i < a_n a)%nat -> 0 < a_k0 a i) -> exists d, arrh_rdiv c a = Ok d /\
    forall T u, agree1 (a_n a) (fun x => c / x) (arrh_call d T u) (arrh_call a T u)).
Proof.
  intros Ca Za Hc. destruct (constructed_facts _ Ca) as (Ka & T0 & X1 & X2 & X3).
  repeat split.
  - unfold arrh_smul. rewrite Arrhenius_intro; auto.
    2:{ intros i Hi. apply Rmult_le_pos; auto. }
    eexists; split; [reflexivity|]. apply agree1_gen; cbn; auto. intros; ring.
  - intros Hp. unfold arrh_sdiv, div_n.
    assert (forallb (fun i => negb (Reqb c 0)) (seq 0 (a_n a)) = true) as ->.
    { apply forallb_forall. intros i _. apply negb_true_iff, Reqb_false. lra. }
    cbn [bind]. rewrite Arrhenius_intro; auto.
    2:{ intros i Hi. apply Rmult_le_pos; auto. left. now apply Rinv_0_lt_compat. }
    eexists; split; [reflexivity|]. apply agree1_gen; cbn; auto. intros; field. lra.
  - intros Kp. unfold arrh_rdiv, div_n.
    assert (forallb (fun i => negb (Reqb (a_k0 a i) 0)) (seq 0 (a_n a)) = true) as ->.
    { apply forallb_forall. intros i Hi. apply in_seq in Hi.
      apply negb_true_iff, Reqb_false, Rgt_not_eq, Kp. lia. }
    cbn [bind]. rewrite Arrhenius_intro; auto.
    2:{ intros i Hi. apply Rmult_le_pos; auto. left. now apply Rinv_0_lt_compat, Kp. }
    eexists; split; [reflexivity|]. apply agree1_gen; cbn; auto.
    intros i it Hi. specialize (Kp i Hi). cbn in *.
    replace (- - a_EaR a i * (it - ivl (a_T0 a))) with (- (- a_EaR a i * (it - ivl (a_T0 a)))) by ring.
    rewrite exp_Ropp. pose proof (exp_pos (- a_EaR a i * (it - ivl (a_T0 a)))).
    field. repeat split; lra.
Qed.

(** A negative factor is rejected by the bounds on k0. *)
Theorem C26_negative_scalar a c i :
  constructed a -> c < 0 -> (i < a_n a)%nat -> 0 < a_k0 a i ->
  arrh_smul a c = Err RangeError.
Proof.
  intros Ca Hc Hi Ki. unfold arrh_smul, Arrhenius, check_bounds_n.
  assert (forallb (fun i => between (Fin 0) PInf (Fin (a_k0 a i * c))) (seq 0 (nelem (a_shape a))) = false) as ->;
    [|reflexivity].
  apply not_true_is_false. rewrite forallb_forall. intros H.
  specialize (H i ltac:(apply in_seq; unfold a_n in Hi; lia)).
  unfold between in H; cbn -[Rleb] in H. rewrite andb_true_r in H.
  apply (proj1 (Rleb_true _ _)) in H. nra.
Qed.

(** Powers. *)
Theorem C26_power a e :
  constructed a -> a_T0 a <> Fin 0 -> (forall i, (i < a_n a)%nat -> 0 < a_k0 a i) ->
  exists d, arrh_pow a e = Ok d /\
    forall T u, agree1 (a_n a) (fun x => Rpower x e) (arrh_call d T u) (arrh_call a T u).
Proof.
  intros Ca Za Kp. destruct (constructed_facts _ Ca) as (Ka & T0 & X1 & X2 & X3).
  unfold arrh_pow, pow_n.
  assert (forallb (fun i => match py_pow (a_k0 a i) e with Ok _ => true | _ => false end)
            (seq 0 (a_n a)) = true) as ->.
  { apply forallb_forall. intros i Hi. apply in_seq in Hi. unfold py_pow.
    assert (Reqb (a_k0 a i) 0 = false) as ->; auto.
    apply Reqb_false, Rgt_not_eq, Kp. lia. }
  cbn [bind].
  assert (PV : forall i, (i < a_n a)%nat -> pow_val (a_k0 a i) e = Rpower (a_k0 a i) e).
  { intros i Hi. unfold pow_val. assert (Reqb (a_k0 a i) 0 = false) as ->; auto.
    apply Reqb_false, Rgt_not_eq, Kp; lia. }
  rewrite Arrhenius_intro; auto.
  2:{ intros i Hi. rewrite PV by exact Hi. left. apply exp_pos. }
  eexists; split; [reflexivity|]. apply agree1_gen; cbn; auto.
  intros i it Hi. specialize (Kp i Hi). rewrite PV by exact Hi. unfold Rpower.
  rewrite <- exp_plus. f_equal. rewrite ln_mult by (auto using exp_pos). rewrite ln_exp. ring.
Qed.

(** Zero to a negative power, and division by a zero coefficient, raise. *)
Theorem C26_zero_errors a :
  a_n a = 1%nat -> a_k0 a 0%nat = 0 ->
  (forall c, arrh_rdiv c a = Err ZeroDivisionError) /\
  (forall e, e < 0 -> arrh_pow a e = Err ZeroDivisionError).
Proof.
  intros Hn Hk. split.
  - intros c. unfold arrh_rdiv, div_n. rewrite Hn. cbn. rewrite Hk, Reqb_refl_true. reflexivity.
  - intros e He. unfold arrh_pow, pow_n. rewrite Hn. cbn. unfold py_pow. rewrite Hk, Reqb_refl_true.
    assert (Rltb e 0 = true) as -> by (apply Rltb_true; lra). reflexivity.
Qed.

(** Value at the reference temperature, limit value and monotonicity. *)
Theorem C26_reference a T0 :
  a_T0 a = Fin T0 -> 0 < T0 ->
  exists w k, arrh_call a (Fin T0) "K" = Ok (k, w) /\ forall i, k i = a_k0 a i.
Proof.
  intros E HT. rewrite call_char by (unfold nz; rewrite E; intros H; injection H; lra).
  unfold tkelvin. cbn -[Rltb]. assert (Rltb T0 0 = false) as -> by (apply Rltb_false; lra).
  cbn -[Rltb pydiv]. rewrite pydiv_ok by lra. rewrite E. do 2 eexists; split; [reflexivity|].
  intros i. cbn. replace (1 / T0 - / T0) with 0 by (field; lra).
  rewrite Rmult_0_r, exp_0. ring.
Qed.

Theorem C26_monotone a i T1 T2 :
  a_T0 a <> Fin 0 -> 0 < a_k0 a i -> 0 < T1 < T2 ->
  exists k1 w1 k2 w2, arrh_call a (Fin T1) "K" = Ok (k1, w1) /\
    arrh_call a (Fin T2) "K" = Ok (k2, w2) /\
    (0 < a_EaR a i -> k1 i < k2 i) /\ (a_EaR a i = 0 -> k1 i = k2 i) /\
    (a_EaR a i < 0 -> k2 i < k1 i) /\ 0 < k1 i.
Proof.
  intros Z K (H1 & H2). rewrite !call_char by auto. unfold tkelvin; cbn -[Rltb].
  assert (Rltb T1 0 = false) as -> by (apply Rltb_false; lra).
  assert (Rltb T2 0 = false) as -> by (apply Rltb_false; lra).
  cbn -[Rltb pydiv]. rewrite !pydiv_ok by lra.
  do 4 eexists. split; [reflexivity|]. split; [reflexivity|].
  assert (HI : 1 / T2 < 1 / T1).
  { unfold Rdiv. rewrite !Rmult_1_l. apply Rinv_lt_contravar; [|lra]. apply Rmult_lt_0_compat; lra. }
  repeat split.
  - intros E. apply Rmult_lt_compat_l; auto. apply exp_increasing.
    assert (0 < a_EaR a i * (1 / T1 - 1 / T2)) by (apply Rmult_lt_0_compat; lra). lra.
  - intros E. rewrite E. f_equal. f_equal. ring.
  - intros E. apply Rmult_lt_compat_l; auto. apply exp_increasing.
    assert (0 < - a_EaR a i * (1 / T1 - 1 / T2)) by (apply Rmult_lt_0_compat; lra). lra.
  - apply Rmult_lt_0_compat; auto using exp_pos.
Qed.

(** A reference temperature of 0 K passes the bounds check of the constructor, but the
    coefficient can then never be evaluated. *)
Theorem C26_T0_zero_refuted :
  exists a, constructed a /\ a_T0 a = Fin 0 /\
    forall T, arrh_call a (Fin T) "K" = Err ZeroDivisionError \/
              arrh_call a (Fin T) "K" = Err RangeError.
Proof.
  exists (mkArrh None (fun _ => 1) (fun _ => 1) (Fin 0) (Fin 0) PInf).
  split; [|split; [reflexivity|]].
  - exists None, (fun _ => 1), (fun _ => 1), (Fin 0), (Fin 0), PInf.
    apply Arrhenius_intro; auto; try (intros; lra); unfold between; cbn -[Rleb]; rewrite ?andb_true_r; auto;
      apply (proj2 (Rleb_true _ _)); lra.
  - intros T. unfold arrh_call, convert_check_temperature. cbn -[Rltb pydiv].
    destruct (Rltb T 0) eqn:E; cbn -[Rltb pydiv]; auto.
    unfold arrh_equation. cbn -[Rltb pydiv]. left.
    destruct (Req_dec T 0) as [->|H]; [now rewrite (pydiv_zero 1 0)|].
    rewrite pydiv_ok by auto. cbn [bind]. now rewrite (pydiv_zero 1 0).
Qed.

Definition ex_a := mkArrh None (fun _ => 2) (fun _ => 1000) (Fin 300) (Fin 250) (Fin 400).
Definition ex_b := mkArrh None (fun _ => 3) (fun _ => 500) (Fin 320) (Fin 300) (Fin 500).
Lemma ex_constructed : constructed ex_a /\ constructed ex_b.
Proof.
  assert (eps64 < 1).
  { unfold eps64. rewrite <- Rinv_1. apply Rinv_lt_contravar; [rewrite Rmult_1_l; apply pow_lt; lra|].
    apply Rlt_pow_R1; [lra|lia]. }
  split; do 6 eexists; [unfold ex_a|unfold ex_b]; apply Arrhenius_intro; try (intros; lra);
    unfold between; cbn -[Rleb eps64]; rewrite ?andb_true_r; apply (proj2 (Rleb_true _ _)); lra.
Qed.
Example C26_product_case : exists c, arrh_mul ex_a ex_b = Ok c /\
  covers c 350 /\ ~ covers c 260 /\ ~ covers c 450.
Proof.
  destruct ex_constructed as (Ha & Hb).
  assert (eps64 < 1).
  { unfold eps64. rewrite <- Rinv_1. apply Rinv_lt_contravar; [rewrite Rmult_1_l; apply pow_lt; lra|].
    apply Rlt_pow_R1; [lra|lia]. }
  assert (Za : a_T0 ex_a <> Fin 0) by (intros E; injection E; lra).
  assert (Zb : a_T0 ex_b <> Fin 0) by (intros E; injection E; lra).
  destruct (C26_product ex_a ex_b Ha Hb Za Zb eq_refl) as (c & E & _ & C & _).
  { exists 310, 390. unfold covers; cbn -[Rleb eps64]. repeat split; try (apply (proj2 (Rleb_true _ _))); lra. }
  exists c. split; auto. rewrite !C. unfold covers; cbn -[Rleb].
  repeat split; try (apply (proj2 (Rleb_true _ _)); lra).
  - intros (_ & K & _). apply (proj1 (Rleb_true _ _)) in K. lra.
  - intros ((_ & K) & _). apply (proj1 (Rleb_true _ _)) in K. lra.
Qed.

Print Assumptions C26_product.
Print Assumptions C26_product_errors.
Print Assumptions C26_quotient.
Print Assumptions C26_scalar.
Print Assumptions C26_power.
