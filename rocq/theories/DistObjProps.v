(** Distribution objects: caches never go stale (C16), rejected assignments change
    nothing (C17). *)
From Coq Require Import Reals Lra Lia List Bool Arith.
From Verif Require Import Prelude UtilsModel UtilsProps DistModel.
Import ListNotations.
Open Scope R_scope.

(** ** Specification: the parameters an object has after a history *)
Definition in_range (lo hi x : fl) : Prop := fl_le lo x /\ fl_le x hi.
Definition par := (fl * option fl * fl)%type.   (* DPn, PDI, M0 *)

(** [params two h ps]: after history [h] the objects created so far have the parameters
    [ps] (index = creation order). *)
Definition valid_dpn (v : fl) := in_range (Fin 1) PInf v.
Definition valid_pdi (v : fl) := in_range (Fin (1000001 / 1000000)) PInf v.
Definition valid_m0 (v : fl) := in_range (Fin 0) PInf v.
Definition valid_par (two : bool) (q : par) : Prop :=
  let '(d, p, m) := q in
  valid_dpn d /\ valid_m0 m /\
  match p with Some x => two = true /\ valid_pdi x | None => two = false end.

Inductive params {F} : list (event F) -> list par -> Prop :=
| p_nil : params [] []
| p_ask h ps id A (p : prog F A) : params h ps -> params (h ++ [Ask id A p]) ps
| p_new h ps d p m : params h ps -> valid_par (f_two F) (d, p, m) ->
    params (h ++ [Do (New d p m)]) (ps ++ [(d, p, m)])
| p_new_rej h ps d p m : params h ps -> ~ valid_par (f_two F) (d, p, m) ->
    params (h ++ [Do (New d p m)]) ps
| p_dpn h a d p m b v : params h (a ++ (d, p, m) :: b) -> valid_dpn v ->
    params (h ++ [Do (SetDPn (length a) v)]) (a ++ (v, p, m) :: b)
| p_pdi h a d p m b v : params h (a ++ (d, p, m) :: b) -> f_two F = true -> valid_pdi v ->
    params (h ++ [Do (SetPDI (length a) v)]) (a ++ (d, Some v, m) :: b)
| p_m0 h a d p m b v : params h (a ++ (d, p, m) :: b) -> valid_m0 v ->
    params (h ++ [Do (SetM0 (length a) v)]) (a ++ (d, p, v) :: b)
| p_dpn_rej h ps i v : params h ps -> (length ps <= i)%nat \/ ~ valid_dpn v ->
    params (h ++ [Do (SetDPn i v)]) ps
| p_pdi_rej h ps i v : params h ps -> (length ps <= i)%nat \/ f_two F = false \/ ~ valid_pdi v ->
    params (h ++ [Do (SetPDI i v)]) ps
| p_m0_rej h ps i v : params h ps -> (length ps <= i)%nat \/ ~ valid_m0 v ->
    params (h ++ [Do (SetM0 i v)]) ps.

(** ** Proof *)
Section Obj.
  Variable F : family.

  Fixpoint answer {A} (d : fl) (p : option fl) (m : fl) (q : prog F A) : res A :=
    match q with
    | Ret a => Ok a
    | Raise e => Err e
    | AskAttrs k => answer d p m (k d p m)
    | AskInt k => answer d p m (k (f_int F d p))
    | AskMoment n k => match f_mom F (f_int F d p) n with
                       | Ok v => answer d p m (k v) | Err e => Err e end
    | AskRange k => answer d p m (k (f_rng F (f_int F d p)))
    end.

  Definition good (o : obj F) (q : par) : Prop :=
    let '(d, p, m) := q in
    o_dpn o = d /\ o_pdi o = p /\ o_m0 o = m /\ o_int o = Some (f_int F d p) /\
    (o_rng o = None \/ o_rng o = Some (f_rng F (f_int F d p))) /\
    (f_two F = true <-> p <> None).
  Definition Inv (w : world F) (ps : list par) : Prop :=
    Forall2 good (w_objs w) ps /\
    forall i n v, cache_get (w_cache w) i n = Some v ->
      exists d p m, nth_error ps i = Some (d, p, m) /\ f_mom F (f_int F d p) n = Ok v.

  Lemma F2_length {A B} (R : A -> B -> Prop) l l' : Forall2 R l l' -> length l = length l'.
  Proof. intros H; induction H; cbn; auto. Qed.
  Lemma Forall2_nth {A B} (R : A -> B -> Prop) l l' i x : Forall2 R l l' -> nth_error l i = Some x ->
    exists y, nth_error l' i = Some y /\ R x y.
  Proof.
    intros H. revert i. induction H; intros [|i]; cbn; try discriminate.
    - intros E; injection E as <-. eauto.
    - eauto.
  Qed.
  Lemma Forall2_nth' {A B} (R : A -> B -> Prop) l l' i y : Forall2 R l l' -> nth_error l' i = Some y ->
    exists x, nth_error l i = Some x /\ R x y.
  Proof.
    intros H. revert i. induction H; intros [|i]; cbn; try discriminate.
    - intros E; injection E as <-. eauto.
    - eauto.
  Qed.
  Lemma Forall2_lset {A B} (R : A -> B -> Prop) l l' i x y : Forall2 R l l' -> nth_error l' i = Some y ->
    R x y -> Forall2 R (lset l i x) l'.
  Proof.
    intros H. revert i. unfold lset. induction H; intros [|i]; cbn; try discriminate.
    - intros E; injection E as <-. constructor; auto.
    - intros E R2. constructor; auto.
  Qed.
  Lemma Forall2_lset2 {A B} (R : A -> B -> Prop) l a y b x y' : Forall2 R l (a ++ y :: b) ->
    R x y' -> Forall2 R (lset l (length a) x) (a ++ y' :: b).
  Proof.
    intros H. unfold lset. revert l H. induction a as [|u a IH]; intros l H R'; inversion H; subst; cbn.
    - constructor; auto.
    - constructor; auto.
  Qed.

  Lemma eval_good {A} (q : prog F A) : forall w ps i d p m,
    Inv w ps -> nth_error ps i = Some (d, p, m) ->
    Inv (fst (eval w i q)) ps /\ snd (eval w i q) = answer d p m q.
  Proof.
    induction q as [a|e|k IH|k IH|n k IH|k IH]; intros w ps i d p m HI Hn.
    all: destruct (Forall2_nth' _ _ _ _ _ (proj1 HI) Hn) as (o & Ho & G1 & G2 & G3 & G4 & G5 & G6).
    all: cbn [eval answer]; rewrite Ho.
    - easy.
    - easy.
    - rewrite G1, G2, G3. apply IH; auto.
    - rewrite G4. apply IH; auto.
    - destruct (cache_get (w_cache w) i n) as [v|] eqn:Ec.
      + destruct (proj2 HI _ _ _ Ec) as (d' & p' & m' & E1 & E2).
        rewrite Hn in E1. injection E1 as <- <- <-. rewrite E2. apply IH; auto.
      + rewrite G4. destruct (f_mom F (f_int F d p) n) as [v|e] eqn:Em; [|easy].
        apply IH; auto. split; [apply HI|]. intros i' n' v'. cbn [w_cache cache_get].
        destruct (Nat.eqb_spec i i'); destruct (Nat.eqb_spec n n'); cbn; try apply HI.
        intros E; injection E as <-. subst i' n'. exists d, p, m. auto.
    - destruct (o_rng o) as [r|] eqn:Er.
      + destruct G5 as [G5|G5]; [discriminate|]. injection G5 as ->. apply IH; auto.
      + rewrite G4. apply IH; auto. split; [|apply HI]. cbn [w_objs].
        eapply Forall2_lset; [apply HI|exact Hn|]. unfold good; cbn. repeat split; auto; apply G6.
  Qed.

  Lemma eval_missing {A} (q : prog F A) w i : nth_error (w_objs w) i = None -> fst (eval w i q) = w.
  Proof. intros H. destruct q; cbn [eval]; rewrite H; easy. Qed.

  Lemma cb_ok v lo hi : in_range lo hi v -> check_bounds (VNum v) lo hi = Ok (VNum v).
  Proof.
    intros H. apply C01_check_bounds_partial. split; auto. exists [v]. split; auto.
    intros x [<-|[]]. exact H.
  Qed.
  Lemma cb_err v lo hi : ~ in_range lo hi v -> check_bounds (VNum v) lo hi = Err RangeError.
  Proof.
    intros H. destruct (check_bounds (VNum v) lo hi) as [w|e] eqn:E.
    - apply C01_check_bounds_partial in E. destruct E as [_ (l & Hl & K)]. injection Hl as <-.
      exfalso. apply H, K. left; auto.
    - apply C01_check_bounds_partial in E. cbn in E. now subst.
  Qed.
  Lemma in_range_dec lo hi v : in_range lo hi v \/ ~ in_range lo hi v.
  Proof.
    unfold in_range. rewrite <- between_iff. destruct (between lo hi v); [left|right]; easy.
  Qed.

  Lemma construct_ok d p m : valid_par (f_two F) (d, p, m) ->
    exists o, construct F d p m = Ok o /\ good o (d, p, m).
  Proof.
    intros (H1 & H2 & H3). unfold construct.
    rewrite (cb_ok d one PInf H1), (cb_ok m (Fin 0) PInf H2). cbn [bind].
    destruct p as [x|].
    - destruct H3 as [Ht Hx]. rewrite Ht, (cb_ok x pdi_min PInf Hx). cbn [bind].
      eexists. split; [reflexivity|]. unfold good, update_internal; cbn. rewrite Ht. cbn.
      repeat split; auto; congruence.
    - rewrite H3. eexists. split; [reflexivity|]. unfold good, update_internal; cbn. rewrite H3. cbn.
      repeat split; auto; congruence.
  Qed.
  Lemma construct_err d p m : ~ valid_par (f_two F) (d, p, m) ->
    exists e, construct F d p m = Err e /\
     (~ valid_dpn d -> e = RangeError) /\ (valid_dpn d -> ~ valid_m0 m -> e = RangeError).
  Proof.
    intros H. unfold construct.
    destruct (in_range_dec one PInf d) as [Hd|Hd].
    2:{ rewrite cb_err by auto. cbn. eexists; split; [reflexivity|]. split; auto. }
    rewrite (cb_ok d one PInf Hd). cbn [bind].
    destruct (in_range_dec (Fin 0) PInf m) as [Hm|Hm].
    2:{ rewrite cb_err by auto. cbn. eexists; split; [reflexivity|]. split; auto. }
    rewrite (cb_ok m _ _ Hm). cbn [bind].
    destruct (f_two F) eqn:Ht; destruct p as [x|].
    - destruct (in_range_dec pdi_min PInf x) as [Hx|Hx].
      + exfalso. apply H. cbn. auto.
      + rewrite cb_err by auto. eexists; split; [reflexivity|]. split; intros; auto; easy.
    - eexists; split; [reflexivity|]. split; intros; easy.
    - eexists; split; [reflexivity|]. split; intros; easy.
    - exfalso. apply H. cbn. auto.
  Qed.

  Lemma run_snoc (h : list (event F)) e : run (h ++ [e]) = play (run h) e.
  Proof. unfold run. now rewrite fold_left_app. Qed.

  Lemma nth_app_mid {A} (a : list A) x b : nth_error (a ++ x :: b) (length a) = Some x.
  Proof. induction a; cbn; auto. Qed.

  Lemma update_good d p m i r : (f_two F = true <-> p <> None) ->
    good (update_internal F (mkObj d p m i r)) (d, p, m).
  Proof.
    intros H. unfold good, update_internal; cbn. destruct (f_two F) eqn:Et; destruct p as [x|].
    - repeat split; auto; apply H.
    - exfalso. destruct H as [H _]. now apply H.
    - exfalso. destruct H as [_ H]. discriminate H. discriminate.
    - repeat split; auto; apply H.
  Qed.

  Lemma run_inv (h : list (event F)) ps : params h ps -> Inv (run h) ps.
  Proof.
    intros H. induction H.
    - split; [constructor|]. cbn. discriminate.
    - rewrite run_snoc. cbn [play].
      destruct (nth_error (w_objs (run h)) id) as [o|] eqn:E.
      + destruct (Forall2_nth _ _ _ _ _ (proj1 IHparams) E) as ([[d q] m] & Hn & _).
        now apply (eval_good p (run h) ps id d q m).
      + now rewrite eval_missing.
    - rewrite run_snoc. cbn [play step]. destruct (construct_ok d p m H0) as (o & -> & G).
      cbn [fst]. split; [|cbn; discriminate]. cbn [w_objs].
      apply Forall2_app; [apply IHparams|]. constructor; auto.
    - rewrite run_snoc. cbn [play step]. destruct (construct_err d p m H0) as (e & -> & _).
      cbn [fst]. split; [apply IHparams|]. cbn [w_cache]. destruct (between one PInf d); [cbn; discriminate|].
      apply IHparams.
    - rewrite run_snoc. cbn [play step].
      destruct (Forall2_nth' _ _ _ _ _ (proj1 IHparams) (nth_app_mid a (d, p, m) b)) as (o & Ho & G).
      rewrite Ho, cb_ok by auto. cbn [fst]. split; [|cbn; discriminate]. cbn [w_objs].
      eapply Forall2_lset2; [apply IHparams|].
      destruct G as (G1 & G2 & G3 & G4 & G5 & G6). rewrite G2, G3. now apply update_good.
    - rewrite run_snoc. cbn [play step].
      destruct (Forall2_nth' _ _ _ _ _ (proj1 IHparams) (nth_app_mid a (d, p, m) b)) as (o & Ho & G).
      rewrite Ho, H0, cb_ok by auto. cbn [fst]. split; [|cbn; discriminate]. cbn [w_objs].
      eapply Forall2_lset2; [apply IHparams|].
      destruct G as (G1 & G2 & G3 & G4 & G5 & G6). rewrite G1, G3. apply update_good.
      rewrite H0. split; [discriminate|auto].
    - rewrite run_snoc. cbn [play step].
      destruct (Forall2_nth' _ _ _ _ _ (proj1 IHparams) (nth_app_mid a (d, p, m) b)) as (o & Ho & G).
      rewrite Ho, cb_ok by auto. cbn [fst]. split.
      + cbn [w_objs]. eapply Forall2_lset2; [apply IHparams|].
        destruct G as (G1 & G2 & G3 & G4 & G5 & G6). rewrite G1, G2.
        unfold good; cbn. repeat split; auto; apply G6.
      + cbn [w_cache]. intros i n x Hx. destruct (proj2 IHparams i n x Hx) as (d' & p' & m' & E1 & E2).
        destruct (Nat.eq_dec i (length a)) as [->|Hne].
        * rewrite nth_app_mid in E1 |- *. injection E1 as <- <- <-. exists d, p, v. auto.
        * exists d', p', m'. split; auto. rewrite <- E1. clear - Hne. revert i Hne.
          induction a as [|y a IH]; intros [|i] Hne; cbn in *; try easy. apply IH. lia.
    - rewrite run_snoc. cbn [play step]. destruct H0 as [H0|H0].
      + assert (nth_error (w_objs (run h)) i = None) as ->; [|auto].
        apply nth_error_None. rewrite (F2_length _ _ _ (proj1 IHparams)). lia.
      + destruct (nth_error (w_objs (run h)) i); [|auto]. rewrite cb_err by auto. auto.
    - rewrite run_snoc. cbn [play step]. destruct H0 as [H0|[H0|H0]].
      + assert (nth_error (w_objs (run h)) i = None) as ->; [|auto].
        apply nth_error_None. rewrite (F2_length _ _ _ (proj1 IHparams)). lia.
      + destruct (nth_error (w_objs (run h)) i); [|auto]. rewrite H0. auto.
      + destruct (nth_error (w_objs (run h)) i); [|auto]. rewrite cb_err by auto. now destruct (f_two F).
    - rewrite run_snoc. cbn [play step]. destruct H0 as [H0|H0].
      + assert (nth_error (w_objs (run h)) i = None) as ->; [|auto].
        apply nth_error_None. rewrite (F2_length _ _ _ (proj1 IHparams)). lia.
      + destruct (nth_error (w_objs (run h)) i); [|auto]. rewrite cb_err by auto. auto.
  Qed.

  Lemma params_valid (h : list (event F)) ps : params h ps -> Forall (valid_par (f_two F)) ps.
  Proof.
    intros H; induction H; auto.
    - apply Forall_app; split; auto.
    - apply Forall_app in IHparams. destruct IHparams as [A B]. inversion B; subst.
      apply Forall_app; split; auto. constructor; auto. destruct H3 as (_ & K). now split.
    - apply Forall_app in IHparams. destruct IHparams as [A B]. inversion B; subst.
      apply Forall_app; split; auto. constructor; auto. destruct H4 as (K1 & K2 & _). exact (conj K1 (conj K2 (conj H0 H1))).
    - apply Forall_app in IHparams. destruct IHparams as [A B]. inversion B; subst.
      apply Forall_app; split; auto. constructor; auto. destruct H3 as (K1 & K2 & K3). exact (conj K1 (conj H0 K3)).
  Qed.

  Lemma params_total (h : list (event F)) : exists ps, params h ps.
  Proof.
    induction h as [|e h IH] using rev_ind; [exists []; constructor|].
    destruct IH as [ps H]. destruct e as [x|id A p]; [|exists ps; now constructor].
    assert (Split : forall i, (length ps <= i)%nat \/
      exists a d p m b, ps = a ++ (d, p, m) :: b /\ length a = i).
    { intros i. destruct (le_lt_dec (length ps) i) as [|Hi]; auto. right.
      destruct (nth_error ps i) as [[[d p] m]|] eqn:E.
      - apply nth_error_split in E. destruct E as (a & b & -> & El). eauto 10.
      - apply nth_error_None in E. lia. }
    destruct x as [d p m|i v|i v|i v].
    - assert (valid_par (f_two F) (d, p, m) \/ ~ valid_par (f_two F) (d, p, m)) as [V|V].
      { unfold valid_par.
        destruct (in_range_dec (Fin 1) PInf d); [|right; tauto].
        destruct (in_range_dec (Fin 0) PInf m); [|right; tauto].
        destruct p as [x|].
        - destruct (f_two F); [|right; intros (_ & _ & K & _); discriminate].
          destruct (in_range_dec (Fin (1000001 / 1000000)) PInf x); [left|right]; tauto.
        - destruct (f_two F); [right; intros (_ & _ & K); discriminate|left; auto]. }
      + eexists; apply p_new; eauto.
      + eexists; apply p_new_rej; eauto.
    - destruct (Split i) as [|(a & d & p & m & b & -> & <-)]; [eexists; apply p_dpn_rej; eauto|].
      destruct (in_range_dec (Fin 1) PInf v); [eexists; eapply p_dpn; eauto|].
      eexists; apply p_dpn_rej; eauto.
    - destruct (Split i) as [|(a & d & p & m & b & -> & <-)]; [eexists; apply p_pdi_rej; eauto|].
      destruct (f_two F) eqn:Et; [|eexists; apply p_pdi_rej; eauto].
      destruct (in_range_dec (Fin (1000001 / 1000000)) PInf v); [eexists; eapply p_pdi; eauto|].
      eexists; apply p_pdi_rej; eauto.
    - destruct (Split i) as [|(a & d & p & m & b & -> & <-)]; [eexists; apply p_m0_rej; eauto|].
      destruct (in_range_dec (Fin 0) PInf v); [eexists; eapply p_m0; eauto|].
      eexists; apply p_m0_rej; eauto.
  Qed.
End Obj.

(** C16: for every family, every history of constructions, assignments (accepted or
    rejected) and queries on any number of objects, the parameters after the history are
    determined by the accepted assignments, and every query of an object (any program
    reading attributes, cached moments and the cached range) returns what it returns on a
    freshly built object with the current parameters in a fresh process. *)
Theorem C16_never_stale : forall (F : family) (h : list (event F)),
  exists ps, params h ps /\
    forall A (q : prog F A) i d p m, nth_error ps i = Some (d, p, m) ->
      snd (eval (run h) i q) = snd (eval (run [Do (New d p m)]) 0 q).
Proof.
  intros F h. destruct (params_total F h) as [ps H]. exists ps. split; auto.
  intros A q i d p m Hn.
  pose proof (run_inv F h ps H) as HI.
  rewrite (proj2 (eval_good F q _ ps i d p m HI Hn)).
  assert (V : valid_par (f_two F) (d, p, m)).
  { pose proof (params_valid F h ps H) as W. rewrite Forall_forall in W. apply W.
    eapply nth_error_In; eauto. }
  assert (HI2 : Inv F (run [Do (New d p m)]) [(d, p, m)]).
  { apply (run_inv F). change [Do (New d p m)] with ([] ++ [@Do F (New d p m)]).
    change [(d, p, m)] with ([] ++ [(d, p, m)]). apply p_new; [constructor|auto]. }
  symmetry. now apply (eval_good F q _ [(d, p, m)] 0 d p m HI2).
Qed.

(** C17: an assignment outside the allowed range raises RangeError and leaves the whole
    world (all objects, all caches) as it was; so does assigning PDI to a one-parameter
    distribution (AttributeError).  Conversely an assignment inside the range never
    raises. *)
Theorem C17_rejected_assignment : forall (F : family) (w : world F) i v,
  (i < length (w_objs w))%nat ->
  (~ in_range (Fin 1) PInf v -> step w (SetDPn i v) = (w, Err RangeError)) /\
  (~ in_range (Fin 0) PInf v -> step w (SetM0 i v) = (w, Err RangeError)) /\
  (f_two F = true -> ~ in_range (Fin (1000001 / 1000000)) PInf v -> step w (SetPDI i v) = (w, Err RangeError)) /\
  (f_two F = false -> step w (SetPDI i v) = (w, Err AttributeError)) /\
  (in_range (Fin 1) PInf v -> snd (step w (SetDPn i v)) = Ok tt) /\
  (in_range (Fin 0) PInf v -> snd (step w (SetM0 i v)) = Ok tt) /\
  (f_two F = true -> in_range (Fin (1000001 / 1000000)) PInf v -> snd (step w (SetPDI i v)) = Ok tt).
Proof.
  intros F w i v Hi. cbn [step].
  destruct (nth_error (w_objs w) i) as [o|] eqn:E; [|apply nth_error_None in E; lia].
  repeat split; intros.
  - now rewrite cb_err.
  - now rewrite cb_err.
  - now rewrite H, cb_err.
  - now rewrite H.
  - now rewrite cb_ok.
  - now rewrite cb_ok.
  - now rewrite H, cb_ok.
Qed.

(** Concrete family: Flory.  A moment read, a change of DPn, a rejected change and a second
    read. *)
Definition flory_family : family :=
  mkFam R false (fun d _ => match d with Fin r => flory_a r | _ => 1 end)
        (fun a n => if Req_EM_T (1 - a) 0 then Err ZeroDivisionError
                    else Ok (flory_moment (fun _ _ => 0) a n)) (fun _ => []).
Definition get_m1 : prog flory_family R := AskMoment 1 (fun v => Ret v).
Example C16_case :
  snd (eval (run [Do (New (Fin 10) None (Fin (1/10))); Ask 0 R get_m1; Do (SetDPn 0 (Fin 2));
                  Do (SetDPn 0 (Fin 0))]) 0 get_m1) = Ok 2.
Proof.
  assert (P : params (F := flory_family) ((([] ++ [Do (New (Fin 10) None (Fin (1/10)))]) ++ [Ask 0 R get_m1]) ++
     [Do (SetDPn (length (@nil par)) (Fin 2))] ++ [Do (SetDPn 0 (Fin 0))]) ([] ++ (Fin 2, None, Fin (1/10)) :: [])).
  { rewrite app_assoc. apply p_dpn_rej.
    - eapply p_dpn.
      + apply p_ask. apply p_new; [constructor|]. cbn. repeat split; constructor; try lra; discriminate.
      + split; constructor; try lra; discriminate.
    - right. intros [K _]. inversion K; lra. }
  pose proof (run_inv _ _ _ P) as HI.
  pose proof (eval_good flory_family get_m1 _ _ 0 (Fin 2) None (Fin (1/10)) HI eq_refl) as [_ E].
  cbn [app] in E. etransitivity; [exact E|].
  cbn. unfold flory_a. destruct (Req_EM_T (1 - (1 - 1 / 2)) 0); [lra|]. cbn. f_equal. field.
Qed.
Example C17_case : ~ in_range (Fin 1) PInf (Fin (1/2)) /\ ~ in_range (Fin 0) PInf NaN.
Proof. split; intros [K _]; inversion K; lra. Qed.

Print Assumptions C16_never_stale.
Print Assumptions C17_rejected_assignment.
