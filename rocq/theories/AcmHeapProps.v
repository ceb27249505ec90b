(** C50, C51: what the activity-model constructors do to the caller's matrices, and what the models
    compute afterwards.  C82: PolyNRTL. *)
From Coq Require Import Reals Lra Lia List Bool Arith FunctionalExtensionality.
From Verif Require Import Prelude KinModel RootsModel AcmModel.
Import ListNotations.
Open Scope R_scope.

(* ------------------------------------------------------------------ *)
(** * In-place normalisation                                          *)
(* ------------------------------------------------------------------ *)

Ltac ext2 := apply functional_extensionality; intro; apply functional_extensionality; intro.
Ltac nats := repeat match goal with
  | |- context [Nat.eqb ?a ?b] => destruct (Nat.eqb_spec a b)
  | |- context [Nat.ltb ?a ?b] => destruct (Nat.ltb_spec a b) end; subst; try reflexivity; try lia.
Lemma zd_zd m : zero_diag (zero_diag m) = zero_diag m.
Proof. ext2. unfold zero_diag. nats. Qed.
Lemma zd_szd m : zero_diag (symm (zero_diag m)) = symm (zero_diag m).
Proof. ext2. unfold zero_diag, symm. nats. Qed.
Lemma s_szd m : symm (symm (zero_diag m)) = symm (zero_diag m).
Proof. ext2. unfold zero_diag, symm. nats. Qed.

(** the state of an array that has been passed as an argument / as a symmetric argument *)
Definition norm (any sym : bool) (m : mat) : mat := if sym then symm (zero_diag m) else if any then zero_diag m else m.
Definition passed (p : nat) (l : list (pspec * nat)) : bool := existsb (fun q => Nat.eqb (snd q) p) l.
Definition passed_sym (p : nat) (l : list (pspec * nat)) : bool := existsb (fun q => Nat.eqb (snd q) p && p_sym (fst q)) l.
Lemma passed_sym_le p l : passed_sym p l = true -> passed p l = true.
Proof.
  unfold passed, passed_sym. rewrite !existsb_exists. intros (q & I & E). apply andb_prop in E. exists q. tauto.
Qed.

Lemma fix_one_next h q : h_next (fix_one h q) = h_next h.
Proof. unfold fix_one. now destruct (p_sym (fst q)). Qed.
Lemma fix_one_shape h q p : a_shape (h_arr (fix_one h q) p) = a_shape (h_arr h p).
Proof.
  assert (St : forall h p v x, a_shape (h_arr (store h p v) x) = a_shape (h_arr h x)).
  { intros g r v x. cbn. unfold upd. destruct (Nat.eq_dec x r) as [->|]; reflexivity. }
  unfold fix_one. destruct (p_sym (fst q)); now rewrite !St.
Qed.
Lemma dat_store h p v x : dat (store h p v) x = if Nat.eqb p x then v else dat h x.
Proof. unfold dat, store. cbn. unfold upd. destruct (Nat.eq_dec x p); destruct (Nat.eqb_spec p x); subst; try congruence; reflexivity. Qed.
Lemma fix_one_dat h q p : dat (fix_one h q) p =
  norm (Nat.eqb (snd q) p) (Nat.eqb (snd q) p && p_sym (fst q)) (dat h p).
Proof.
  unfold fix_one. destruct (p_sym (fst q)); rewrite !dat_store; destruct (Nat.eqb_spec (snd q) p) as [<-|]; cbn; auto.
  now rewrite Nat.eqb_refl.
Qed.
Lemma norm_norm a s a' s' m : (s = true -> a = true) -> (s' = true -> a' = true) -> norm a s (norm a' s' m) = norm (a' || a) (s' || s) m.
Proof.
  intros H H'. unfold norm. destruct s, s', a, a'; cbn; auto; try (now specialize (H eq_refl)); try (now specialize (H' eq_refl));
    rewrite ?zd_szd, ?s_szd, ?zd_zd; auto.
Qed.
Lemma fix_all_dat l : forall h p, dat (fold_left fix_one l h) p = norm (passed p l) (passed_sym p l) (dat h p).
Proof.
  induction l as [|q l IH]; intros h p; [reflexivity|]. cbn [fold_left]. rewrite IH, fix_one_dat, norm_norm.
  - reflexivity.
  - apply passed_sym_le.
  - intros E. now apply andb_prop in E.
Qed.
Lemma fix_all_next l : forall h, h_next (fold_left fix_one l h) = h_next h.
Proof. induction l as [|q l IH]; intros h; [reflexivity|]. cbn. now rewrite IH, fix_one_next. Qed.
Lemma fix_all_shape l : forall h p, a_shape (h_arr (fold_left fix_one l h) p) = a_shape (h_arr h p).
Proof. induction l as [|q l IH]; intros h p; [reflexivity|]. cbn. now rewrite IH, fix_one_shape. Qed.
Lemma existsb_partition {A} (f g : A -> bool) l : existsb f (filter (fun s => negb (g s)) l ++ filter g l) = existsb f l.
Proof.
  apply eq_true_iff_eq. rewrite !existsb_exists. setoid_rewrite in_app_iff. setoid_rewrite filter_In. split.
  - intros (x & [(I & _)|(I & _)] & F); eauto.
  - intros (x & I & F). exists x. split; auto. destruct (g x) eqn:E; [right|left]; rewrite ?E; auto.
Qed.

(** ** Defaults *)
Definition valid (h : heap) (l : list (pspec * option nat)) : Prop := forall s p, In (s, Some p) l -> (p < h_next h)%nat.
(** what argument number k contains when the constructor is called *)
Definition given (h : heap) (q : pspec * option nat) : mat :=
  match snd q with Some p => dat h p | None => fun _ _ => p_def (fst q) end.

Lemma defaults_spec N l : forall h q h1, defaults N l h = (q, h1) -> valid h l ->
  (h_next h <= h_next h1)%nat /\
  (forall p, (p < h_next h)%nat -> h_arr h1 p = h_arr h p) /\
  map fst q = map fst l /\
  (forall k, (k < length l)%nat ->
     let e := nth k l (mkP 0 None false, None) in
     let r := nth k q (mkP 0 None false, O) in
     dat h1 (snd r) = given h e /\
     match snd e with
     | Some p => snd r = p
     | None => (h_next h <= snd r < h_next h1)%nat /\ a_shape (h_arr h1 (snd r)) = (N, N) /\
               forall k', (k' < length l)%nat -> k' <> k -> snd (nth k' q (mkP 0 None false, O)) <> snd r
     end).
Proof.
  induction l as [|[s o] l IH]; intros h q h1 E V.
  - injection E as <- <-. split; [lia|]. split; [auto|]. split; [reflexivity|]. cbn. intros k Hk. lia.
  - assert (Vt : valid h l) by (intros a b I; apply (V a b); right; exact I).
    destruct o as [p|]; cbn [defaults] in E.
    + destruct (defaults N l h) as (r, h') eqn:E'. injection E as <- <-.
      destruct (IH h r h' E' Vt) as (A & B & C & D0).
      split; [auto|]. split; [auto|]. split; [cbn; now f_equal|].
      assert (Hp : (p < h_next h)%nat) by (apply (V s p); now left).
      intros [|k] Hk; cbn [nth snd fst length] in *.
      * split; [|reflexivity]. unfold dat, given. cbn. now rewrite B.
      * destruct (D0 k ltac:(lia)) as (D1 & D2). split; [exact D1|].
        destruct (snd (nth k l (mkP 0 None false, None))) eqn:Es; [exact D2|].
        destruct D2 as (R1 & R2 & R3). split; [exact R1|]. split; [exact R2|]. intros [|k'] Hk' Ne; cbn.
        -- intros X. rewrite <- X in R1. cbn in R1. lia.
        -- apply R3; lia.
    + set (v := mkArr (N, N) (fun _ _ => p_def s)) in *. cbn [alloc] in E.
      destruct (defaults N l (snd (alloc h v))) as (r, h') eqn:E'. unfold alloc in E, E'. cbn [snd] in E'. rewrite E' in E. injection E as <- <-.
      set (hh := mkHeap (upd (h_arr h) (h_next h) v) (S (h_next h))) in *.
      assert (Vh : valid hh l) by (intros a b I; specialize (Vt a b I); cbn; lia).
      destruct (IH hh r h' E' Vh) as (A & B & C & D0). cbn [h_next hh] in A.
      split; [lia|]. split.
      { intros p Hp. rewrite B by (cbn; lia). cbn. rewrite upd_other by lia. reflexivity. }
      split; [cbn; now f_equal|].
      intros [|k] Hk; cbn [nth snd fst length] in *.
      * split; [|split; [lia|split]].
        -- unfold dat. rewrite B by (cbn; lia). cbn. now rewrite upd_same.
        -- rewrite B by (cbn; lia). cbn. now rewrite upd_same.
        -- intros [|k'] Hk' Ne; [lia|]. cbn. destruct (D0 k' ltac:(lia)) as (_ & D2).
           destruct (snd (nth k' l (mkP 0 None false, None))) eqn:Es.
           ++ rewrite D2. assert (n < h_next h)%nat; [|lia]. apply (Vt (fst (nth k' l (mkP 0 None false, None))) n).
              rewrite <- Es, <- surjective_pairing. apply nth_In. lia.
           ++ destruct D2 as (R1 & _). cbn in R1. lia.
      * destruct (D0 k ltac:(lia)) as (D1 & D2). split.
        { rewrite D1. unfold given. destruct (snd (nth k l (mkP 0 None false, None))) eqn:Es; auto. unfold dat. cbn.
          rewrite upd_other; auto. assert (n < h_next h)%nat; [|lia]. apply (Vt (fst (nth k l (mkP 0 None false, None))) n).
          rewrite <- Es, <- surjective_pairing. apply nth_In. lia. }
        destruct (snd (nth k l (mkP 0 None false, None))) eqn:Es; [exact D2|].
        destruct D2 as (R1 & R2 & R3). cbn in R1. split; [lia|]. split; [exact R2|]. intros [|k'] Hk' Ne; cbn.
        -- lia.
        -- apply R3; lia.
Qed.

(** argument number k shares its array with a symmetrised argument *)
Definition shared_sym (l : list (pspec * option nat)) (k : nat) : Prop :=
  exists k', (k' < length l)%nat /\ p_sym (fst (nth k' l (mkP 0 None false, None))) = true /\
    (k' = k \/ exists p, snd (nth k l (mkP 0 None false, None)) = Some p /\ snd (nth k' l (mkP 0 None false, None)) = Some p).

Lemma acm_init_spec N l h refs h' : valid h l -> acm_init N l h = Ok (refs, h') ->
  length refs = length l /\ (h_next h <= h_next h')%nat /\
  (forall r, In r refs -> (r < h_next h')%nat) /\
  forall k, (k < length l)%nat -> exists any sym, any = true /\ (sym = true <-> shared_sym l k) /\
    dat h' (nth k refs O) = norm any sym (given h (nth k l (mkP 0 None false, None))).
Proof.
  intros V E. unfold acm_init in E. destruct (defaults N l h) as (q, h1) eqn:Ed.
  destruct (defaults_spec N l h q h1 Ed V) as (A & B & C & D0).
  destruct (forallb (shape_ok N h1) q) eqn:Sh; [|discriminate]. destruct (forallb (bounds_ok N h1) q) eqn:Bo; [|discriminate].
  injection E as <- <-.
  assert (Lq : length q = length l) by (rewrite <- (map_length fst q), C, map_length; reflexivity).
  split; [now rewrite map_length|]. rewrite fix_all_next. split; [auto|].
  assert (Hn : forall k, nth k (map snd q) O = snd (nth k q (mkP 0 None false, O))) by (intros; now rewrite <- (map_nth snd)).
  assert (Hf : forall k, fst (nth k q (mkP 0 None false, O)) = fst (nth k l (mkP 0 None false, None))).
  { intros k. rewrite <- (map_nth fst), <- (map_nth fst l). now rewrite C. }
  split.
  { intros r I. apply (In_nth _ _ O) in I. destruct I as (k & Hk & <-). rewrite map_length, Lq in Hk. rewrite Hn. destruct (D0 k Hk) as (_ & D2).
    destruct (snd (nth k l (mkP 0 None false, None))) eqn:Es; [|lia]. rewrite D2.
    assert (n < h_next h)%nat; [|lia]. apply (V (fst (nth k l (mkP 0 None false, None))) n). rewrite <- Es, <- surjective_pairing. now apply nth_In. }
  intros k Hk. rewrite Hn. rewrite fix_all_dat. unfold passed, passed_sym.
  rewrite (existsb_partition _ (fun s => p_sym (fst s)) q), (existsb_partition _ (fun s => p_sym (fst s)) q).
  destruct (D0 k Hk) as (D1 & D2). rewrite D1. eexists. eexists. split; [|split; [|reflexivity]].
  - apply existsb_exists. exists (nth k q (mkP 0 None false, O)). split; [apply nth_In; lia|apply Nat.eqb_refl].
  - rewrite existsb_exists. split.
    + intros (x & I & F). apply andb_prop in F. destruct F as (F1 & F2). apply Nat.eqb_eq in F1.
      apply (In_nth _ _ (mkP 0 None false, O)) in I. destruct I as (k' & Hk' & <-). rewrite Lq in Hk'. rewrite Hf in F2.
      exists k'. split; [auto|]. split; [auto|]. destruct (Nat.eq_dec k' k) as [->|Ne]; [now left|right].
      destruct (snd (nth k l (mkP 0 None false, None))) eqn:Es.
      * exists n. split; auto. destruct (D0 k' Hk') as (_ & D3). destruct (snd (nth k' l (mkP 0 None false, None))) eqn:Es'; [congruence|].
        exfalso. destruct D3 as (R1 & _). rewrite F1, D2 in R1. assert (n < h_next h)%nat; [|lia].
        apply (V (fst (nth k l (mkP 0 None false, None))) n). rewrite <- Es, <- surjective_pairing. now apply nth_In.
      * exfalso. destruct D2 as (_ & _ & R3). now apply (R3 k' Hk' Ne).
    + intros (k' & Hk' & P & Sh'). exists (nth k' q (mkP 0 None false, O)). split; [apply nth_In; lia|]. rewrite Hf, P, andb_true_r.
      apply Nat.eqb_eq. destruct Sh' as [->|(p & S1 & S2)]; auto. rewrite S1 in D2. destruct (D0 k' Hk') as (_ & D3). rewrite S2 in D3. congruence.
Qed.

(* ------------------------------------------------------------------ *)
(** * C51: the matrices of a constructed model                        *)
(* ------------------------------------------------------------------ *)

Theorem C51_stored N l h refs h' k : valid h l -> acm_init N l h = Ok (refs, h') -> (k < length l)%nat ->
  let e := nth k l (mkP 0 None false, None) in
  let m := dat h' (nth k refs O) in
  (forall i, m i i = 0) /\
  (p_sym (fst e) = true -> forall i j, m i j = m j i) /\
  (forall i j, (i < j)%nat -> m i j = given h e i j) /\
  (~ shared_sym l k -> forall i j, i <> j -> m i j = given h e i j).
Proof.
  intros V E Hk. destruct (acm_init_spec N l h refs h' V E) as (_ & _ & _ & H). destruct (H k Hk) as (any & sym & A & S1 & Q). cbv zeta. rewrite Q. subst any.
  unfold norm, symm, zero_diag. split; [|split; [|split]].
  - intros i. destruct sym; nats.
  - intros P i j. destruct sym; [nats|]. exfalso. assert (Y : shared_sym l k) by (exists k; auto). apply S1 in Y. discriminate.
  - intros i j Hij. destruct sym; nats.
  - intros N1 i j Hij. destruct sym; [exfalso; apply N1; now apply S1|]. nats.
Qed.

Lemma comb_nth specs (args : list (option nat)) k : length args = length specs -> (k < length specs)%nat ->
  nth k (combine specs args) (mkP 0 None false, None) = (nth k specs (mkP 0 None false), nth k args None).
Proof. intros L Hk. apply combine_nth. now symmetry. Qed.

(** what an argument contains at the call: the caller's matrix or the default *)
Definition arg_val (h : heap) (d : R) (o : option nat) : mat := match o with Some p => dat h p | None => fun _ _ => d end.
Lemma given_arg h s o : given h (s, o) = arg_val h (p_def s) o.
Proof. destruct o; reflexivity. Qed.
Definition args_valid (h : heap) (args : list (option nat)) : Prop := forall p, In (Some p) args -> (p < h_next h)%nat.
Lemma valid_combine h specs args : args_valid h args -> valid h (combine specs args).
Proof. intros V s p I. apply in_combine_r in I. now apply V. Qed.

Theorem C51_NRTL N args h refs h' T : length args = 6%nat -> args_valid h args -> NRTL_init N args h = Ok (refs, h') ->
  let alpha := NRTL_form 1 (map (dat h') refs) T in
  let tau := NRTL_form 0 (map (dat h') refs) T in
  (forall i, alpha i i = 0 /\ tau i i = 0) /\ (forall i j, alpha i j = alpha j i) /\
  (forall i j, (i < j)%nat ->
     alpha i j = arg_val h (3 / 10) (nth 2 args None) i j + arg_val h 0 (nth 3 args None) i j * (T - 27315 / 100) /\
     tau i j = arg_val h 0 (nth 0 args None) i j + arg_val h 0 (nth 1 args None) i j / T + arg_val h 0 (nth 4 args None) i j * ln T + arg_val h 0 (nth 5 args None) i j * T).
Proof.
  intros L AV E. unfold NRTL_init in E. pose proof (valid_combine h NRTL_specs args AV) as V.
  assert (LL : length (combine NRTL_specs args) = 6%nat) by (rewrite combine_length, L; reflexivity).
  destruct (acm_init_spec _ _ _ _ _ V E) as (LR & _).
  assert (K : forall k, (k < 6)%nat -> nthm (map (dat h') refs) k = dat h' (nth k refs O)).
  { intros k Hk. unfold nthm. rewrite (nth_indep _ _ (dat h' O)) by (rewrite map_length; lia). apply map_nth. }
  assert (Q := fun k (Hk : (k < 6)%nat) => C51_stored _ _ _ _ _ k V E (eq_ind_r (fun n => (k < n)%nat) Hk LL)). cbv zeta in Q.
  assert (G : forall k, (k < 6)%nat -> nth k (combine NRTL_specs args) (mkP 0 None false, None) = (nth k NRTL_specs (mkP 0 None false), nth k args None)) by (intros; apply comb_nth; auto).
  pose proof (Q 0%nat ltac:(lia)) as Q0. pose proof (Q 1%nat ltac:(lia)) as Q1. pose proof (Q 2%nat ltac:(lia)) as Q2.
  pose proof (Q 3%nat ltac:(lia)) as Q3. pose proof (Q 4%nat ltac:(lia)) as Q4. pose proof (Q 5%nat ltac:(lia)) as Q5. clear Q.
  rewrite G in Q0, Q1, Q2, Q3, Q4, Q5 by lia. rewrite !given_arg in *. cbn [fst snd nth NRTL_specs p_sym p_def] in *.
  cbv zeta. unfold NRTL_form, NRTL_tau, NRTL_alpha. rewrite !K by lia.
  destruct Q0 as (Z0 & _ & U0 & _), Q1 as (Z1 & _ & U1 & _), Q2 as (Z2 & S2 & U2 & _), Q3 as (Z3 & S3 & U3 & _), Q4 as (Z4 & _ & U4 & _), Q5 as (Z5 & _ & U5 & _).
  split; [|split].
  - intros i. rewrite Z0, Z1, Z2, Z3, Z4, Z5. unfold Rdiv. split; ring.
  - intros i j. now rewrite (S2 eq_refl i j), (S3 eq_refl i j).
  - intros i j Hij. now rewrite U0, U1, U2, U3, U4, U5.
Qed.

(** below the diagonal, tau keeps the supplied entries only if no array is shared with c or d *)
Theorem C51_NRTL_lower N args h refs h' T : length args = 6%nat -> args_valid h args -> NRTL_init N args h = Ok (refs, h') ->
  (forall k k' p, In k [0; 1; 4; 5]%nat -> In k' [2; 3]%nat -> nth k args None = Some p -> nth k' args None <> Some p) ->
  forall i j, i <> j -> NRTL_form 0 (map (dat h') refs) T i j =
     arg_val h 0 (nth 0 args None) i j + arg_val h 0 (nth 1 args None) i j / T + arg_val h 0 (nth 4 args None) i j * ln T + arg_val h 0 (nth 5 args None) i j * T.
Proof.
  intros L AV E NS i j Hij. unfold NRTL_init in E. pose proof (valid_combine h NRTL_specs args AV) as V.
  assert (LL : length (combine NRTL_specs args) = 6%nat) by (rewrite combine_length, L; reflexivity).
  destruct (acm_init_spec _ _ _ _ _ V E) as (LR & _).
  assert (K : forall k, (k < 6)%nat -> nthm (map (dat h') refs) k = dat h' (nth k refs O)).
  { intros k Hk. unfold nthm. rewrite (nth_indep _ _ (dat h' O)) by (rewrite map_length; lia). apply map_nth. }
  assert (G : forall k, (k < 6)%nat -> nth k (combine NRTL_specs args) (mkP 0 None false, None) = (nth k NRTL_specs (mkP 0 None false), nth k args None)) by (intros; apply comb_nth; auto).
  assert (W : forall k, In k [0; 1; 4; 5]%nat -> dat h' (nth k refs O) i j = arg_val h 0 (nth k args None) i j).
  { intros k Ik. assert (Hk : (k < 6)%nat) by (cbn in Ik; lia).
    pose proof (C51_stored _ _ _ _ _ k V E ltac:(lia)) as Q. cbv zeta in Q. rewrite G, given_arg in Q by auto. destruct Q as (_ & _ & _ & Q).
    rewrite Q; auto.
    - f_equal. cbn in Ik. destruct Ik as [<-|[<-|[<-|[<-|[]]]]]; reflexivity.
    - intros (k' & Hk' & P & Sh). rewrite LL in Hk'. rewrite G in P by auto. cbn [fst] in P.
      assert (I' : In k' [2; 3]%nat).
      { do 6 (destruct k' as [|k']; [cbn in P; try discriminate; cbn; tauto|]). lia. }
      destruct Sh as [->|(p & S1 & S2)]; [cbn in Ik, I'; lia|]. rewrite G in S1, S2 by auto. cbn in S1, S2. exact (NS k k' p Ik I' S1 S2). }
  unfold NRTL_form, NRTL_tau. rewrite !K by lia. now rewrite !W by (cbn; tauto).
Qed.

Theorem C51_FH N args h refs h' T : length args = 5%nat -> args_valid h args -> FH_init N args h = Ok (refs, h') ->
  let chi := FH_form 0 (map (dat h') refs) T in
  (forall i, chi i i = 0) /\ (forall i j, chi i j = chi j i) /\
  (forall i j, (i < j)%nat -> chi i j = FH_chi (arg_val h 0 (nth 0 args None)) (arg_val h 0 (nth 1 args None)) (arg_val h 0 (nth 2 args None)) (arg_val h 0 (nth 3 args None)) (arg_val h 0 (nth 4 args None)) T i j).
Proof.
  intros L AV E. unfold FH_init in E. pose proof (valid_combine h FH_specs args AV) as V.
  assert (LL : length (combine FH_specs args) = 5%nat) by (rewrite combine_length, L; reflexivity).
  destruct (acm_init_spec _ _ _ _ _ V E) as (LR & _).
  assert (K : forall k, (k < 5)%nat -> nthm (map (dat h') refs) k = dat h' (nth k refs O)).
  { intros k Hk. unfold nthm. rewrite (nth_indep _ _ (dat h' O)) by (rewrite map_length; lia). apply map_nth. }
  assert (G : forall k, (k < 5)%nat -> nth k (combine FH_specs args) (mkP 0 None false, None) = (nth k FH_specs (mkP 0 None false), nth k args None)) by (intros; apply comb_nth; auto).
  assert (W : forall k, (k < 5)%nat -> (forall i, dat h' (nth k refs O) i i = 0) /\ (forall i j, dat h' (nth k refs O) i j = dat h' (nth k refs O) j i) /\
     (forall i j, (i < j)%nat -> dat h' (nth k refs O) i j = arg_val h 0 (nth k args None) i j)).
  { intros k Hk. pose proof (C51_stored _ _ _ _ _ k V E ltac:(lia)) as Q. cbv zeta in Q. rewrite G, given_arg in Q by auto. destruct Q as (Z & S1 & U & _).
    split; [exact Z|]. split.
    - apply S1. do 5 (destruct k as [|k]; [reflexivity|]). lia.
    - intros i j Hij. rewrite U by auto. f_equal. do 5 (destruct k as [|k]; [reflexivity|]). lia. }
  cbv zeta. unfold FH_form, FH_chi. rewrite !K by lia.
  destruct (W 0%nat ltac:(lia)) as (Z0 & S0 & U0), (W 1%nat ltac:(lia)) as (Z1 & S1 & U1), (W 2%nat ltac:(lia)) as (Z2 & S2 & U2), (W 3%nat ltac:(lia)) as (Z3 & S3 & U3), (W 4%nat ltac:(lia)) as (Z4 & S4 & U4).
  split; [|split].
  - intros i. rewrite Z0, Z1, Z2, Z3, Z4. unfold Rdiv. ring.
  - intros i j. now rewrite (S0 i j), (S1 i j), (S2 i j), (S3 i j), (S4 i j).
  - intros i j Hij. now rewrite U0, U1, U2, U3, U4.
Qed.

(** Wilson / UNIQUAC: the interaction matrix has unit diagonal and the supplied off-diagonals *)
Theorem C51_Wilson N args h refs h' T : length args = 4%nat -> args_valid h args -> Wilson_init N args h = Ok (refs, h') ->
  let L := Wilson_form 0 (map (dat h') refs) T in
  (forall i, L i i = 1) /\
  (forall i j, i <> j -> L i j = exp_par (arg_val h 0 (nth 0 args None)) (arg_val h 0 (nth 1 args None)) (arg_val h 0 (nth 2 args None)) (arg_val h 0 (nth 3 args None)) T i j).
Proof.
  intros L AV E. unfold Wilson_init in E. pose proof (valid_combine h Wilson_specs args AV) as V.
  assert (LL : length (combine Wilson_specs args) = 4%nat) by (rewrite combine_length, L; reflexivity).
  destruct (acm_init_spec _ _ _ _ _ V E) as (LR & _).
  assert (K : forall k, (k < 4)%nat -> nthm (map (dat h') refs) k = dat h' (nth k refs O)).
  { intros k Hk. unfold nthm. rewrite (nth_indep _ _ (dat h' O)) by (rewrite map_length; lia). apply map_nth. }
  assert (G : forall k, (k < 4)%nat -> nth k (combine Wilson_specs args) (mkP 0 None false, None) = (nth k Wilson_specs (mkP 0 None false), nth k args None)) by (intros; apply comb_nth; auto).
  assert (W : forall k, (k < 4)%nat -> (forall i, dat h' (nth k refs O) i i = 0) /\ (forall i j, i <> j -> dat h' (nth k refs O) i j = arg_val h 0 (nth k args None) i j)).
  { intros k Hk. pose proof (C51_stored _ _ _ _ _ k V E ltac:(lia)) as Q. cbv zeta in Q. rewrite G, given_arg in Q by auto. destruct Q as (Z & _ & _ & U).
    split; [exact Z|]. intros i j Hij. rewrite U; auto.
    - f_equal. do 4 (destruct k as [|k]; [reflexivity|]). lia.
    - intros (k' & Hk' & P & _). rewrite LL in Hk'. rewrite G in P by auto. do 4 (destruct k' as [|k']; [discriminate|]). lia. }
  cbv zeta. unfold Wilson_form, exp_par. rewrite !K by lia.
  destruct (W 0%nat ltac:(lia)) as (Z0 & U0), (W 1%nat ltac:(lia)) as (Z1 & U1), (W 2%nat ltac:(lia)) as (Z2 & U2), (W 3%nat ltac:(lia)) as (Z3 & U3).
  split.
  - intros i. rewrite Z0, Z1, Z2, Z3. rewrite <- exp_0. f_equal. unfold Rdiv. ring.
  - intros i j Hij. now rewrite U0, U1, U2, U3.
Qed.

(* ------------------------------------------------------------------ *)
(** * C50: the caller's matrices                                      *)
(* ------------------------------------------------------------------ *)

(** Arrays that are not passed keep their contents; passed arrays keep everything above the
    diagonal, lose their diagonal, and are symmetrised iff passed as a symmetric argument. *)
Theorem C50_frame N l h refs h' p : valid h l -> acm_init N l h = Ok (refs, h') -> (p < h_next h)%nat ->
  ((forall s, ~ In (s, Some p) l) -> dat h' p = dat h p) /\
  (forall i j, (i < j)%nat -> dat h' p i j = dat h p i j) /\
  ((forall s, In (s, Some p) l -> (forall i, dat h p i i = 0) /\ (p_sym s = true -> forall i j, dat h p i j = dat h p j i)) -> dat h' p = dat h p).
Proof.
  intros V E Hp. unfold acm_init in E. destruct (defaults N l h) as (q, h1) eqn:Ed.
  destruct (defaults_spec N l h q h1 Ed V) as (A & B & C & D0).
  destruct (forallb (shape_ok N h1) q) eqn:Sh; [|discriminate]. destruct (forallb (bounds_ok N h1) q) eqn:Bo; [|discriminate].
  injection E as <- <-. rewrite fix_all_dat. unfold passed, passed_sym.
  rewrite (existsb_partition _ (fun s => p_sym (fst s)) q), (existsb_partition _ (fun s => p_sym (fst s)) q).
  assert (Ep : dat h1 p = dat h p) by (unfold dat; now rewrite B). rewrite Ep.
  assert (Lq : length q = length l) by (rewrite <- (map_length fst q), C, map_length; reflexivity).
  assert (IN : forall x, In x q -> snd x = p -> In (fst x, Some p) l).
  { intros x I Ex. apply (In_nth _ _ (mkP 0 None false, O)) in I. destruct I as (k & Hk & Ek). rewrite Lq in Hk.
    destruct (D0 k Hk) as (_ & D2). rewrite Ek, Ex in D2.
    destruct (snd (nth k l (mkP 0 None false, None))) eqn:Es; [|lia]. subst n.
    assert (Ef : fst x = fst (nth k l (mkP 0 None false, None))) by (rewrite <- Ek, <- (map_nth fst), <- (map_nth fst l), C; reflexivity).
    rewrite Ef, <- Es, <- surjective_pairing. now apply nth_In. }
  split; [|split].
  - intros NI. assert (X1 : existsb (fun x => Nat.eqb (snd x) p) q = false).
    { apply not_true_is_false. rewrite existsb_exists. intros (x & I & Ex). apply Nat.eqb_eq in Ex. exact (NI (fst x) (IN x I Ex)). }
    assert (X2 : existsb (fun x => Nat.eqb (snd x) p && p_sym (fst x)) q = false).
    { apply not_true_is_false. rewrite existsb_exists. intros (x & I & Ex). apply andb_prop in Ex. destruct Ex as (Ex & _). apply Nat.eqb_eq in Ex. exact (NI (fst x) (IN x I Ex)). }
    now rewrite X1, X2.
  - intros i j Hij. match goal with |- norm ?a ?b _ _ _ = _ => generalize a b end. intros a b. unfold norm, symm, zero_diag. destruct a, b; nats.
  - intros H. unfold norm. destruct (existsb (fun x => Nat.eqb (snd x) p && p_sym (fst x)) q) eqn:X2.
    + apply existsb_exists in X2. destruct X2 as (x & I & Ex). apply andb_prop in Ex. destruct Ex as (Ex & Es). apply Nat.eqb_eq in Ex.
      destruct (H _ (IN x I Ex)) as (H1 & H2). specialize (H2 Es). ext2. unfold symm, zero_diag. nats; rewrite ?H1; auto.
    + destruct (existsb (fun x => Nat.eqb (snd x) p) q) eqn:X1; auto.
      apply existsb_exists in X1. destruct X1 as (x & I & Ex). apply Nat.eqb_eq in Ex. destruct (H _ (IN x I Ex)) as (H1 & _).
      ext2. unfold zero_diag. nats. now rewrite H1.
Qed.

(** Histories: as long as the program writes only to arrays it owned before the construction and
    did not pass to the constructor, every query returns the formula of the construction values. *)
Definition writes_outside (refs : list nat) (bound : nat) (o : op) : Prop :=
  match o with OWrite p _ _ _ => (p < bound)%nat /\ ~ In p refs | OQuery _ _ => True end.
Definition cache_ok (form : nat -> list mat -> R -> mat) (refs : list nat) (bound : nat) (vals : list mat) (s : obj) : Prop :=
  map (dat (o_heap s)) refs = vals /\ (bound <= h_next (o_heap s))%nat /\ (forall r, In r refs -> (r < bound)%nat) /\
  forall k T p, lookup k T (o_cache s) = Some p -> (bound <= p < h_next (o_heap s))%nat /\ dat (o_heap s) p = form k vals T.

Theorem C50_history form N refs bound vals l : forall s, cache_ok form refs bound vals s -> Forall (writes_outside refs bound) l ->
  Forall (fun r => snd r = form (fst (fst r)) vals (snd (fst r))) (fst (run form N refs l s)).
Proof.
  induction l as [|o l IH]; intros s OK W; [constructor|]. inversion W as [|? ? Wo Wl]; subst. destruct OK as (O1 & O2 & O3 & O4).
  destruct o as [k T|p i j v]; cbn [run].
  - unfold query. destruct (lookup k T (o_cache s)) eqn:Lk.
    + destruct (run form N refs l s) as (r, s2) eqn:Er. cbn [fst]. constructor.
      * cbn. now destruct (O4 k T n Lk).
      * specialize (IH s (conj O1 (conj O2 (conj O3 O4))) Wl). now rewrite Er in IH.
    + cbn [alloc]. set (v := mkArr (N, N) (form k (map (dat (o_heap s)) refs) T)).
      set (h := mkHeap (upd (h_arr (o_heap s)) (h_next (o_heap s)) v) (S (h_next (o_heap s)))).
      set (s1 := mkObj h ((k, T, h_next (o_heap s)) :: o_cache s)).
      assert (OK1 : cache_ok form refs bound vals s1).
      { split; [|split; [|split; [exact O3|]]].
        - rewrite <- O1. apply map_ext_in. intros r I. specialize (O3 r I). unfold dat. cbn. now rewrite upd_other by lia.
        - cbn. lia.
        - intros k' T' p'. cbn [s1 o_cache lookup]. destruct (Nat.eqb k' k && Reqb T' T) eqn:Eq.
          + intros [= <-]. cbn. split; [lia|]. unfold dat; cbn. rewrite upd_same. cbn. apply andb_prop in Eq. destruct Eq as (Ek & ET).
            apply Nat.eqb_eq in Ek. apply Reqb_true in ET. subst. reflexivity.
          + intros Lk'. destruct (O4 k' T' p' Lk') as (Q1 & Q2). cbn. split; [lia|]. unfold dat in *; cbn. now rewrite upd_other by lia. }
      specialize (IH s1 OK1 Wl).
      match goal with |- context [run form N refs l ?z] => change z with s1 end. destruct (run form N refs l s1) as (r, s2) eqn:Er. cbn [fst]. constructor; auto.
      cbn. unfold dat; cbn. rewrite upd_same. cbn. now rewrite O1.
  - apply IH; auto. cbn in Wo. destruct Wo as (Wp & Wn). split; [|split; [exact O2|split; [exact O3|]]].
    + rewrite <- O1. apply map_ext_in. intros r I. cbn. rewrite dat_store. destruct (Nat.eqb_spec p r); subst; tauto.
    + intros k T q Lk. cbn in Lk. destruct (O4 k T q Lk) as (Q1 & Q2). split; [exact Q1|]. cbn. rewrite dat_store.
      destruct (Nat.eqb_spec p q); [lia|auto].
Qed.
(** a freshly constructed model satisfies the premise *)
Theorem C50_history_init N l h refs h' form : valid h l -> acm_init N l h = Ok (refs, h') ->
  cache_ok form refs (h_next h') (map (dat h') refs) (mkObj h' []).
Proof.
  intros V E. destruct (acm_init_spec N l h refs h' V E) as (_ & _ & B & _).
  split; [reflexivity|]. split; [cbn; lia|]. split; [exact B|]. intros k T p. discriminate.
Qed.

(** ** Findings *)

(** a heap holding one caller matrix at address 0 *)
Definition m22 (a b c d : R) : mat := fun i j => match i, j with 0%nat, 0%nat => a | 0%nat, 1%nat => b | 1%nat, 0%nat => c | 1%nat, 1%nat => d | _, _ => 0 end.
Definition heap1 (m : mat) : heap := mkHeap (fun _ => mkArr (2, 2)%nat m) 1.

Lemma init_ok N l h q h1 : defaults N l h = (q, h1) -> forallb (shape_ok N h1) q = true -> forallb (bounds_ok N h1) q = true ->
  acm_init N l h = Ok (map snd q, fold_left fix_one (filter (fun s => negb (p_sym (fst s))) q ++ filter (fun s => p_sym (fst s)) q) h1).
Proof. intros E A B. unfold acm_init. now rewrite E, A, B. Qed.

Ltac boundsdec := cbn; unfold Rleb; repeat match goal with |- context [Rle_dec ?a ?b] => destruct (Rle_dec a b); [|exfalso; lra] end; reflexivity.

(** NRTL(2, a = [[1, 2], [3, 1]]) erases the diagonal of the caller's matrix *)
Theorem C50_diagonal_refuted : exists h refs h', NRTL_init 2 [Some 0%nat; None; None; None; None; None] h = Ok (refs, h') /\
  dat h 0%nat 0%nat 0%nat = 1 /\ dat h' 0%nat 0%nat 0%nat = 0.
Proof.
  exists (heap1 (m22 1 2 3 1)). eexists. eexists. split; [|split].
  - unfold NRTL_init. apply init_ok; [reflexivity|reflexivity|boundsdec].
  - reflexivity.
  - rewrite fix_all_dat. reflexivity.
Qed.
(** NRTL(2, a = [[0, 2], [3, 0]]) *)
Lemma NRTL_ex : exists h1, NRTL_init 2 [Some 0%nat; None; None; None; None; None] (heap1 (m22 0 2 3 0)) = Ok ([0; 1; 2; 3; 4; 5]%nat, h1) /\
     dat h1 0%nat = m22 0 2 3 0 /\ a_shape (h_arr h1 0%nat) = (2, 2)%nat /\ forall p, In p [1; 4; 5]%nat -> dat h1 p = zero_diag (fun _ _ => 0).
Proof.
  eexists. split; [unfold NRTL_init; etransitivity; [apply init_ok; [reflexivity|reflexivity|boundsdec]|cbn [map snd]; reflexivity]|].
    split; [|split].
    - rewrite fix_all_dat. cbn. unfold norm, zero_diag, m22. ext2. nats. destruct x0 as [|[|?]]; reflexivity.
    - rewrite fix_all_shape. reflexivity.
    - intros p [<-|[<-|[<-|[]]]]; rewrite fix_all_dat; reflexivity.
Qed.
(** FloryHuggins(2, a = [[0, 2], [3, 0]]) overwrites the lower triangle of the caller's matrix, and an
    NRTL model built before from the same matrix changes its tau although its documentation lets a be
    asymmetric. *)
Lemma bounds_true N h s p lo hi : p_bnd s = Some (lo, hi) -> (forall i j, lo <= dat h p i j <= hi) -> bounds_ok N h (s, p) = true.
Proof.
  intros E B. unfold bounds_ok. cbn [fst snd]. rewrite E. unfold allm. apply forallb_forall. intros i _. apply forallb_forall. intros j _.
  destruct (B i j). unfold Rleb. destruct (Rle_dec lo (dat h p i j)), (Rle_dec (dat h p i j) hi); auto; lra.
Qed.
Theorem C50_sharing_refuted : exists h refs h1 refs2 h2,
  NRTL_init 2 [Some 0%nat; None; None; None; None; None] h = Ok (refs, h1) /\
  FH_init 2 [Some 0%nat; Some 0%nat; Some 0%nat; Some 0%nat; Some 0%nat] h1 = Ok (refs2, h2) /\
  dat h1 0%nat 1%nat 0%nat = 3 /\ dat h2 0%nat 1%nat 0%nat = 2 /\
  NRTL_form 0 (map (dat h1) refs) 1 1%nat 0%nat = 3 /\ NRTL_form 0 (map (dat h2) refs) 1 1%nat 0%nat = 2.
Proof.
  destruct NRTL_ex as (h1 & E1 & D1 & S1 & Z1).
  assert (BB : forall M i j, 10 <= M -> - M <= dat h1 0%nat i j <= M).
  { intros M i j HM. rewrite D1. unfold m22. destruct i as [|[|i]], j as [|[|j]]; lra. }
  assert (E2 : exists h2, FH_init 2 [Some 0%nat; Some 0%nat; Some 0%nat; Some 0%nat; Some 0%nat] h1 = Ok ([0; 0; 0; 0; 0]%nat, h2) /\
     dat h2 0%nat = symm (zero_diag (m22 0 2 3 0)) /\ forall p, p <> 0%nat -> dat h2 p = dat h1 p).
  { eexists. split; [unfold FH_init; etransitivity; [apply init_ok; [reflexivity| |]|cbn [map snd]; reflexivity]|].
    - cbn. unfold shape_ok. cbn [snd]. rewrite S1. reflexivity.
    - cbn [combine FH_specs repeat forallb].
      rewrite (bounds_true 2 h1 (mkP 0 (Some (-100, 100)) true) 0 (-100) 100 eq_refl) by (intros; apply BB; lra).
      rewrite (bounds_true 2 h1 (mkP 0 (Some (-1000000, 1000000)) true) 0 (-1000000) 1000000 eq_refl) by (intros; apply BB; lra). reflexivity.
    - split; [rewrite fix_all_dat, D1; reflexivity|]. intros p Hp. rewrite fix_all_dat. destruct p; [lia|reflexivity]. }
  destruct E2 as (h2 & E2 & D2 & K2).
  exists (heap1 (m22 0 2 3 0)), [0; 1; 2; 3; 4; 5]%nat, h1, [0; 0; 0; 0; 0]%nat, h2. split; [exact E1|]. split; [exact E2|].
  rewrite D1, D2. split; [reflexivity|]. split; [reflexivity|].
  unfold NRTL_form, NRTL_tau, nthm. cbn [map nth]. rewrite D1, D2, !K2, !Z1 by (cbn; tauto || lia).
  unfold zero_diag, symm, m22. cbn. rewrite ln_1. split; field.
Qed.
(** One matrix m = [[0, 1/4], [1/2, 0]] used as a, b and c of NRTL: tau_10(1 K) should be m_10 + m_10/1 = 1,
    but symmetrising c changes a and b as well. *)
Theorem C50_alias_refuted : exists h refs h',
  NRTL_init 2 [Some 0%nat; Some 0%nat; Some 0%nat; Some 1%nat; Some 1%nat; Some 1%nat] h = Ok (refs, h') /\
  dat h 0%nat 1%nat 0%nat = 1 / 2 /\ NRTL_form 0 (map (dat h') refs) 1 1%nat 0%nat = 1 / 2.
Proof.
  set (h := mkHeap (fun p => mkArr (2, 2)%nat (if Nat.eqb p 0 then m22 0 (1 / 4) (1 / 2) 0 else fun _ _ => 0)) 2).
  exists h, [0; 0; 0; 1; 1; 1]%nat. eexists. split; [|split].
  - unfold NRTL_init. etransitivity; [apply init_ok; [reflexivity|reflexivity|boundsdec]|cbn [map snd]; reflexivity].
  - reflexivity.
  - unfold NRTL_form, NRTL_tau, nthm. cbn [map nth]. rewrite !fix_all_dat. cbn. unfold norm, zero_diag, symm. cbn. rewrite ln_1. field.
Qed.
(** Later assignments to the caller's matrix change the model. *)
Theorem C50_capture_refuted : exists h refs h',
  NRTL_init 2 [Some 0%nat; None; None; None; None; None] h = Ok (refs, h') /\
  exists r, run NRTL_form 2 refs [OWrite 0 0 1 7; OQuery 0 1] (mkObj h' []) = r /\
    NRTL_form 0 (map (dat h') refs) 1 0%nat 1%nat = 2 /\
    match fst r with [(_, _, m)] => m 0%nat 1%nat = 7 | _ => False end.
Proof.
  destruct NRTL_ex as (h1 & E1 & D1 & S1 & Z1). exists (heap1 (m22 0 2 3 0)), [0; 1; 2; 3; 4; 5]%nat, h1. split; [exact E1|].
  eexists. split; [reflexivity|]. unfold NRTL_form, NRTL_tau, nthm. split.
  - cbn [map nth]. rewrite D1, !Z1 by (cbn; tauto). unfold zero_diag, m22. cbn. rewrite ln_1. field.
  - cbn [run query o_cache lookup alloc fst snd o_heap]. unfold dat at 1. cbn [h_arr]. rewrite upd_same. cbn [a_dat map nth].
    rewrite !dat_store. cbn [Nat.eqb]. rewrite D1, !Z1 by (cbn; tauto). unfold zero_diag, set_entry, upd. cbn. rewrite ln_1. field.
Qed.
(** The cached matrix is handed out: writing to a returned tau changes every later query at that T. *)
Theorem C50_returned_refuted : exists h refs h' s1 p,
  NRTL_init 2 [Some 0%nat; None; None; None; None; None] h = Ok (refs, h') /\
  query NRTL_form 2 refs 0 1 (mkObj h' []) = (p, s1) /\ dat (o_heap s1) p 0%nat 1%nat = 2 /\
  match fst (run NRTL_form 2 refs [OWrite p 0 1 9; OQuery 0 1] s1) with [(_, _, m)] => m 0%nat 1%nat = 9 | _ => False end.
Proof.
  destruct NRTL_ex as (h1 & E1 & D1 & S1 & Z1). exists (heap1 (m22 0 2 3 0)), [0; 1; 2; 3; 4; 5]%nat, h1. eexists. eexists. split; [exact E1|].
  split; [reflexivity|]. split.
  - cbn [o_heap]. unfold dat at 1. cbn [h_arr]. rewrite upd_same. cbn [a_dat].
    unfold NRTL_form, NRTL_tau, nthm. cbn [map nth o_heap]. rewrite D1, !Z1 by (cbn; tauto). unfold zero_diag, m22. cbn. rewrite ln_1. field.
  - cbn [run]. unfold query. cbn [o_cache lookup]. rewrite (proj2 (Reqb_true 1 1) eq_refl). cbn [Nat.eqb andb fst snd o_heap]. rewrite dat_store, Nat.eqb_refl.
    unfold set_entry, upd. reflexivity.
Qed.

(** non-vacuity: a history with an outside write and two queries *)
Example C50_example : Forall (writes_outside [0; 1]%nat 3) [OQuery 0 300; OWrite 2 0 1 5; OQuery 0 300].
Proof. repeat constructor; cbn; intros [H|[H|[]]]; discriminate. Qed.

(* ------------------------------------------------------------------ *)
(** * C82: PolyNRTL                                                   *)
(* ------------------------------------------------------------------ *)

(** PolyNRTL leaves the abstract method [activity] undefined: it cannot be instantiated. *)
Theorem C82_instantiate_refuted : exists e, instantiate PolymerActivityModel_abstract PolyNRTL_methods = Err e.
Proof. exists TypeError. reflexivity. Qed.
(** Even with the missing method, gE fails on every documented input: Ns small species, Np >= 1
    polymer components, one degree of polymerisation per polymer. *)
Theorem C82_gE_refuted : forall Ns Np, (1 <= Ns)%nat -> (1 <= Np)%nat -> PolyNRTL_gE_shapes Ns Np Np = Err ValueError.
Proof.
  intros Ns Np H1 H2. unfold PolyNRTL_gE_shapes, bcast, bind, assignsh, dotsh.
  destruct (Nat.eqb_spec (Ns + Np) Np); [lia|]. destruct (Nat.eqb_spec (Ns + Np) 1); [lia|].
  destruct (Nat.eqb_spec Np 1) as [->|]; [|reflexivity]. cbn. rewrite Nat.eqb_refl. destruct (Nat.eqb_spec (Ns + 1) 1); [lia|reflexivity].
Qed.
Theorem C82_mixing_refuted : forall T gE sE, Polymer_Dgmix T gE = Err TypeError /\ Polymer_Dsmix sE = Err TypeError.
Proof. intros. split; reflexivity. Qed.

(** the two conversions do return fractions *)
Theorem C82_convert N xs DP : (forall i, (i < N)%nat -> 0 <= xs i /\ 0 < DP i) -> 0 < sumn N xs ->
  sumn N (xs_to_x N xs DP) = 1 /\ (forall i, (i < N)%nat -> 0 <= xs_to_x N xs DP i) /\
  (forall i j, (i < N)%nat -> (j < N)%nat -> xs_to_x N xs DP i * (DP i * xs j) = xs_to_x N xs DP j * (DP j * xs i)).
Proof.
  intros H S. assert (P : 0 < sumn N (fun j => xs j / DP j)).
  { assert (Ex : exists i, (i < N)%nat /\ 0 < xs i).
    { apply Classical_Prop.NNPP. intros NE. assert (sumn N xs = 0); [|lra]. apply sumn_zero'. intros i Hi. destruct (H i Hi) as ([Q|Q] & _); auto. exfalso. eauto. }
    destruct Ex as (i & Hi & Pi). apply (sumn_pos N _ i); auto.
    - intros j Hj. destruct (H j Hj). apply Rmult_le_pos; auto. left. now apply Rinv_0_lt_compat.
    - destruct (H i Hi). now apply Rdiv_lt_0_compat. }
  split; [|split].
  - unfold xs_to_x. rewrite sumn_div. field. lra.
  - intros i Hi. destruct (H i Hi). unfold xs_to_x. apply Rmult_le_pos; [apply Rmult_le_pos; auto; left|left]; now apply Rinv_0_lt_compat.
  - intros i j Hi Hj. destruct (H i Hi), (H j Hj). unfold xs_to_x. field. lra.
Qed.
Lemma sumn_app a b f : sumn (a + b) f = sumn a f + sumn b (fun k => f (a + k)%nat).
Proof. induction b as [|b IH]; [rewrite Nat.add_0_r; cbn; ring|]. rewrite Nat.add_succ_r. cbn [sumn]. rewrite IH. ring. Qed.
Theorem C82_convert_units Ns Np Nru xs F : (forall i, (i < Ns + Np)%nat -> 0 <= xs i) -> 0 < sumn (Ns + Np) xs ->
  (forall k, (k < Np)%nat -> (forall a, 0 <= F k a) /\ sumn Nru (F k) = 1) ->
  sumn (Ns + Nru) (xs_to_X Ns Np Nru xs F) = 1 /\
  (forall i, (i < Ns)%nat -> xs_to_X Ns Np Nru xs F i = xs i / sumn (Ns + Np) xs).
Proof.
  intros H S HF. unfold xs_to_X.
  set (X := fun i => if Nat.ltb i Ns then xs i else sumn Np (fun k => xs (Ns + k)%nat * F k (i - Ns)%nat)).
  assert (E : sumn (Ns + Nru) X = sumn (Ns + Np) xs).
  { rewrite !sumn_app. f_equal.
    - apply sumn_ext. intros i Hi. unfold X. destruct (Nat.ltb_spec i Ns); [auto|lia].
    - rewrite (sumn_ext Nru _ (fun a => sumn Np (fun k => xs (Ns + k)%nat * F k a))).
      2:{ intros a Ha. unfold X. destruct (Nat.ltb_spec (Ns + a) Ns); [lia|]. apply sumn_ext. intros. do 2 f_equal. lia. }
      rewrite sumn_swap. apply sumn_ext. intros k Hk. rewrite sumn_scal. destruct (HF k Hk) as (_ & ->). ring. }
  rewrite E. split.
  - rewrite sumn_div. transitivity (sumn (Ns + Nru) X / sumn (Ns + Np) xs); [reflexivity|]. rewrite E. field. lra.
  - intros i Hi. unfold X. destruct (Nat.ltb_spec i Ns); [auto|lia].
Qed.

Print Assumptions C51_NRTL.
Print Assumptions C50_history.
Print Assumptions C50_returned_refuted.
Print Assumptions C82_convert_units.
