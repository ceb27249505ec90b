(** C51 (which matrices the constructors of the activity models accept) and C81 (entropies at the step actually used). *)
From Coq Require Import Reals Lra Lia List Bool Arith FunctionalExtensionality.
From Verif Require Import Prelude Deriv KinModel RootsModel AcmModel AcmProps AcmHeapProps AcmMixProps FlowProps.
Import ListNotations.
Open Scope R_scope.

(** * C51: accepted matrices *)
(** every supplied matrix is N x N *)
Definition square_args (N : nat) (h : heap) (l : list (pspec * option nat)) : Prop := forall s p, In (s, Some p) l -> a_shape (h_arr h p) = (N, N).
(** every entry, also on the diagonal, is within the bounds of its argument *)
Definition within_args (N : nat) (h : heap) (l : list (pspec * option nat)) : Prop :=
  forall s o lo hi, In (s, o) l -> p_bnd s = Some (lo, hi) -> forall i j, (i < N)%nat -> (j < N)%nat -> lo <= given h (s, o) i j <= hi.
Lemma allm_iff N t m : allm N t m = true <-> forall i j, (i < N)%nat -> (j < N)%nat -> t (m i j) = true.
Proof.
  unfold allm. rewrite forallb_forall. split.
  - intros H i j Hi Hj. assert (I : In i (seq 0 N)) by (apply in_seq; lia). specialize (H i I). rewrite forallb_forall in H. apply H. apply in_seq. lia.
  - intros H i I. rewrite forallb_forall. intros j J. apply in_seq in I. apply in_seq in J. apply H; lia.
Qed.
Theorem C51_accepts N l h : valid h l ->
  ((exists refs h', acm_init N l h = Ok (refs, h')) <-> square_args N h l /\ within_args N h l) /\
  (acm_init N l h = Err ShapeError <-> ~ square_args N h l) /\
  (square_args N h l -> ~ within_args N h l -> acm_init N l h = Err (if Nat.eqb N 1 then RangeError else ValueError)).
Proof.
  intros V. unfold acm_init. destruct (defaults N l h) as (q, h1) eqn:E. destruct (defaults_spec N l h q h1 E V) as (_ & FR & MF & K).
  assert (LQ : length q = length l) by (rewrite <- (map_length fst q), MF; apply map_length).
  assert (FQ : forall k, fst (nth k q (mkP 0 None false, O)) = fst (nth k l (mkP 0 None false, None))) by (intros k; rewrite <- (map_nth fst), <- (map_nth fst l), MF; reflexivity).
  assert (S1 : forallb (shape_ok N h1) q = true <-> square_args N h l).
  { rewrite forallb_forall. unfold square_args. split.
    - intros H s p I. destruct (In_nth _ _ (mkP 0 None false, None) I) as (k & Hk & Ek). destruct (K k Hk) as (_ & Q). rewrite Ek in Q. cbn [snd] in Q.
      assert (Iq : In (nth k q (mkP 0 None false, O)) q) by (apply nth_In; lia). specialize (H _ Iq). unfold shape_ok in H. rewrite Q in H. rewrite FR in H by (now apply (V s)).
      apply andb_prop in H. destruct H as (H1 & H2). apply Nat.eqb_eq in H1, H2. destruct (a_shape (h_arr h p)) as (r, c). cbn [fst snd] in *. congruence.
    - intros H x I. destruct (In_nth _ _ (mkP 0 None false, O) I) as (k & Hk & <-). rewrite LQ in Hk. destruct (K k Hk) as (_ & Q). unfold shape_ok.
      destruct (snd (nth k l (mkP 0 None false, None))) as [p|] eqn:Es.
      + assert (Il : In (fst (nth k l (mkP 0 None false, None)), Some p) l) by (rewrite <- Es, <- surjective_pairing; now apply nth_In).
        rewrite Q, FR by (eapply V; eauto). rewrite (H _ _ Il). cbn [fst snd]. now rewrite Nat.eqb_refl.
      + destruct Q as (_ & Q & _). rewrite Q. cbn [fst snd]. now rewrite Nat.eqb_refl. }
  assert (S2 : forallb (bounds_ok N h1) q = true <-> within_args N h l).
  { rewrite forallb_forall. unfold within_args. split.
    - intros H s o lo hi I Eb i j Hi Hj. destruct (In_nth _ _ (mkP 0 None false, None) I) as (k & Hk & Ek). destruct (K k Hk) as (Q & _). rewrite Ek in Q.
      assert (Iq : In (nth k q (mkP 0 None false, O)) q) by (apply nth_In; lia). specialize (H _ Iq). unfold bounds_ok in H. rewrite FQ, Ek in H. cbn [fst] in H. rewrite Eb, Q in H.
      rewrite allm_iff in H. specialize (H i j Hi Hj). apply andb_prop in H. destruct H as (H1 & H2). unfold Rleb in H1, H2. destruct (Rle_dec lo _); [|discriminate]. destruct (Rle_dec _ hi); [|discriminate]. auto.
    - intros H x I. destruct (In_nth _ _ (mkP 0 None false, O) I) as (k & Hk & <-). rewrite LQ in Hk. destruct (K k Hk) as (Q & _). unfold bounds_ok. rewrite FQ.
      destruct (p_bnd (fst (nth k l (mkP 0 None false, None)))) as [(lo, hi)|] eqn:Eb; [|reflexivity]. rewrite Q. apply allm_iff. intros i j Hi Hj.
      assert (Il : In (nth k l (mkP 0 None false, None)) l) by now apply nth_In. rewrite (surjective_pairing (nth k l _)) in Il. destruct (H _ _ lo hi Il Eb i j Hi Hj) as (A & B). rewrite <- surjective_pairing in A, B.
      rewrite (Rleb_t lo), (Rleb_t _ hi) by auto. reflexivity. }
  destruct (forallb (shape_ok N h1) q) eqn:E1.
  - assert (Sq : square_args N h l) by now apply S1. destruct (forallb (bounds_ok N h1) q) eqn:E2.
    + assert (Wi : within_args N h l) by now apply S2. split; [split; [auto|intros _; eauto]|]. split; [split; [discriminate|now intros []]|intros _ []; auto].
    + assert (NW : ~ within_args N h l) by (intros X; apply S2 in X; discriminate). split; [split; [intros (r & h' & X); discriminate|intros (_ & X); now destruct NW]|].
      split; [|reflexivity]. split; [destruct (Nat.eqb N 1); discriminate|now intros []].
  - assert (NS : ~ square_args N h l) by (intros X; apply S1 in X; discriminate). split; [split; [intros (r & h' & X); discriminate|intros (X & _); now destruct NS]|].
    split; [split; auto|]. intros X. now destruct NS.
Qed.
Lemma in_comb_nth (specs : list pspec) (args : list (option nat)) s o : length args = length specs -> In (s, o) (combine specs args) <->
  exists k, (k < length specs)%nat /\ s = nth k specs (mkP 0 None false) /\ o = nth k args None.
Proof.
  intros L. split.
  - intros I. destruct (In_nth _ _ (mkP 0 None false, None) I) as (k & Hk & E). rewrite combine_length in Hk. exists k. rewrite comb_nth in E by lia. injection E as <- <-. split; [lia|auto].
  - intros (k & Hk & -> & ->). rewrite <- comb_nth by auto. apply nth_In. rewrite combine_length. lia.
Qed.
Lemma square_comb N h specs args : length args = length specs -> square_args N h (combine specs args) <-> forall p, In (Some p) args -> a_shape (h_arr h p) = (N, N).
Proof.
  intros L. unfold square_args. split.
  - intros H p I. destruct (In_nth _ _ None I) as (k & Hk & E). apply (H (nth k specs (mkP 0 None false))). apply in_comb_nth; [auto|]. exists k. split; [lia|]. split; [reflexivity|auto].
  - intros H s p I. apply in_combine_r in I. now apply H.
Qed.
Lemma within_comb N h specs args : length args = length specs -> within_args N h (combine specs args) <->
  forall k lo hi, (k < length specs)%nat -> p_bnd (nth k specs (mkP 0 None false)) = Some (lo, hi) -> forall i j, (i < N)%nat -> (j < N)%nat -> lo <= arg_val h (p_def (nth k specs (mkP 0 None false))) (nth k args None) i j <= hi.
Proof.
  intros L. unfold within_args. split.
  - intros H k lo hi Hk E i j Hi Hj. rewrite <- given_arg. apply (H _ _ lo hi); auto. apply in_comb_nth; [auto|]. exists k. auto.
  - intros H s o lo hi I E i j Hi Hj. apply in_comb_nth in I; [|auto]. destruct I as (k & Hk & -> & ->). rewrite given_arg. now apply H.
Qed.
Lemma abs_bd c x : Rabs x <= c <-> - c <= x <= c.
Proof. split; [intros H; unfold Rabs in H; destruct (Rcase_abs x); lra|intros H; apply Rabs_le; lra]. Qed.
Definition given_sq (N : nat) (h : heap) (args : list (option nat)) : Prop := forall p, In (Some p) args -> a_shape (h_arr h p) = (N, N).
Theorem C51_NRTL_accepts N args h : length args = 6%nat -> args_valid h args ->
  let a k d := arg_val h d (nth k args None) in
  (exists refs h', NRTL_init N args h = Ok (refs, h')) <-> given_sq N h args /\
    forall i j, (i < N)%nat -> (j < N)%nat -> Rabs (a 0%nat 0 i j) <= 100 /\ Rabs (a 1%nat 0 i j) <= 30000 /\ 0 <= a 2%nat (3 / 10) i j <= 1 /\ Rabs (a 3%nat 0 i j) <= 2 / 100.
Proof.
  intros L AV a. destruct (C51_accepts N (combine NRTL_specs args) h (valid_combine h NRTL_specs args AV)) as (H & _). unfold NRTL_init. rewrite H, square_comb, within_comb by auto. unfold given_sq.
  assert (Q : forall A B C : Prop, (B <-> C) -> (A /\ B <-> A /\ C)) by tauto. apply Q. split.
  - intros K i j Hi Hj. rewrite !abs_bd. split; [|split; [|split]].
    + apply (K 0%nat (-100) 100); cbn; auto; lia. + apply (K 1%nat (-30000) 30000); cbn; auto; lia. + apply (K 2%nat 0 1); cbn; auto; lia. + apply (K 3%nat (- (2 / 100)) (2 / 100)); cbn; auto; lia.
  - intros K k lo hi Hk E i j Hi Hj. specialize (K i j Hi Hj). rewrite !abs_bd in K. destruct K as (K0 & K1 & K2 & K3). cbn [length NRTL_specs] in Hk.
    do 6 (destruct k as [|k]; [cbn [nth NRTL_specs p_bnd p_def] in *; first [discriminate | injection E as <- <-; assumption]|]). lia.
Qed.
Theorem C51_Wilson_accepts N args h : length args = 4%nat -> args_valid h args ->
  let a k := arg_val h 0 (nth k args None) in
  (exists refs h', Wilson_init N args h = Ok (refs, h')) <-> given_sq N h args /\
    forall i j, (i < N)%nat -> (j < N)%nat -> Rabs (a 0%nat i j) <= 50 /\ Rabs (a 1%nat i j) <= 15000.
Proof.
  intros L AV a. destruct (C51_accepts N (combine Wilson_specs args) h (valid_combine h Wilson_specs args AV)) as (H & _). unfold Wilson_init. rewrite H, square_comb, within_comb by auto. unfold given_sq.
  assert (Q : forall A B C : Prop, (B <-> C) -> (A /\ B <-> A /\ C)) by tauto. apply Q. split.
  - intros K i j Hi Hj. rewrite !abs_bd. split.
    + apply (K 0%nat (-50) 50); cbn; auto; lia. + apply (K 1%nat (-15000) 15000); cbn; auto; lia.
  - intros K k lo hi Hk E i j Hi Hj. specialize (K i j Hi Hj). rewrite !abs_bd in K. destruct K as (K0 & K1). cbn [length Wilson_specs] in Hk.
    do 4 (destruct k as [|k]; [cbn [nth Wilson_specs p_bnd p_def] in *; first [discriminate | injection E as <- <-; assumption]|]). lia.
Qed.
Theorem C51_FH_accepts N args h : length args = 5%nat -> args_valid h args ->
  let a k := arg_val h 0 (nth k args None) in
  (exists refs h', FH_init N args h = Ok (refs, h')) <-> given_sq N h args /\
    forall i j, (i < N)%nat -> (j < N)%nat -> Rabs (a 0%nat i j) <= 100 /\ forall k, (1 <= k <= 4)%nat -> Rabs (a k i j) <= 1000000.
Proof.
  intros L AV a. destruct (C51_accepts N (combine FH_specs args) h (valid_combine h FH_specs args AV)) as (H & _). unfold FH_init. rewrite H, square_comb, within_comb by auto. unfold given_sq.
  assert (Q : forall A B C : Prop, (B <-> C) -> (A /\ B <-> A /\ C)) by tauto. apply Q. split.
  - intros K i j Hi Hj. split; [rewrite abs_bd; apply (K 0%nat (-100) 100); cbn; auto; lia|]. intros k Hk. rewrite abs_bd.
    assert (C : k = 1%nat \/ k = 2%nat \/ k = 3%nat \/ k = 4%nat) by lia. destruct C as [->|[->|[->| ->]]]; [apply (K 1%nat (-1000000) 1000000)|apply (K 2%nat (-1000000) 1000000)|apply (K 3%nat (-1000000) 1000000)|apply (K 4%nat (-1000000) 1000000)]; cbn; auto; lia.
  - intros K k lo hi Hk E i j Hi Hj. specialize (K i j Hi Hj). rewrite !abs_bd in K. destruct K as (K0 & K1). cbn [length FH_specs repeat] in Hk.
    destruct k as [|k]; [cbn [nth FH_specs p_bnd p_def] in *; injection E as <- <-; assumption|]. specialize (K1 (S k) ltac:(lia)). rewrite abs_bd in K1.
    do 4 (destruct k as [|k]; [cbn [nth FH_specs p_bnd p_def repeat] in *; injection E as <- <-; assumption|]). lia.
Qed.

(** * C81 *)
(** UNIQUAC with constant tau: the entropy is exactly -gE/T and the enthalpy zero *)
Theorem C81_UNIQUAC_athermal N x q r a T : moles N x -> (forall i, (i < N)%nat -> 0 < q i) -> 0 < T ->
  let m := mixing N T x (UNIQUAC_gE N T x q r (exp_par a zmat zmat zmat T)) (UNIQUAC_sE N T x q r a zmat zmat zmat) in
  mx_sE m = - mx_gE m / T /\ mx_hE m = 0 /\ mx_Dh m = 0.
Proof.
  intros M Hq HT. assert (Pe : 0 < eps) by (unfold eps; apply Rinv_0_lt_compat, pow_lt; lra).
  assert (Q : UNIQUAC_sE N T x q r a zmat zmat zmat = - UNIQUAC_gE N T x q r (exp_par a zmat zmat zmat T) / T).
  { unfold UNIQUAC_sE, cstep, UNIQUAC_gEc, UNIQUAC_gE. cbv zeta.
    assert (EL : forall i j, exp_par a zmat zmat zmat T i j = exp (a i j)) by (intros; unfold exp_par, zmat; f_equal; unfold Rdiv; ring).
    pose proof (moles_wsum N x q M Hq) as PQ. set (Sq := sumn N (fun j => x j * q j)) in *.
    rewrite (csum_real N (fun i => if Rltb 0 (x i) then cscal (q i * x i) _ else cre 0) (fun i => if Rltb 0 (x i) then q i * x i * ln (sumn N (fun j => x j * q j / Sq * exp (a j i))) else 0)).
    2:{ intros i Hi. destruct (Rltb 0 (x i)) eqn:P; [|reflexivity]. rewrite (csum_real N _ (fun j => x j * q j / Sq * exp (a j i))) by (intros j Hj; rewrite ctau_const, cexp_real, cscal_real; auto).
        rewrite cln_real; [apply cscal_real|].
        rewrite (sumn_ext N _ (fun j => x j * (q j / Sq * exp (a j i)))) by (intros; unfold Rdiv; ring).
        apply (moles_wsum N x (fun j => q j / Sq * exp (a j i)) M). intros j Hj. apply Rmult_lt_0_compat; [apply Rdiv_lt_0_compat; auto|apply exp_pos]. }
    rewrite (sumn_ext N (fun i => if Rltb 0 (x i) then q i * x i * ln (sumn N (fun j => x j * q j / Sq * exp_par a zmat zmat zmat T j i)) else 0) (fun i => if Rltb 0 (x i) then q i * x i * ln (sumn N (fun j => x j * q j / Sq * exp (a j i))) else 0)).
    2:{ intros i Hi. destruct (Rltb 0 (x i)); [|reflexivity]. f_equal. f_equal. apply sumn_ext. intros. now rewrite EL. }
    unfold cmul, cscal, cadd, cre. cbn [fst snd]. field. lra. }
  unfold mixing. cbn. rewrite Q. split; [reflexivity|]. split; field; lra.
Qed.
(** the enthalpy of Flory-Huggins, with the step actually used *)
Theorem C81_FH_enthalpy_bound N phi m a b c d e T : 0 < T ->
  exists l, D (fun t => FH_Dgmix N t phi m (FH_chi a b c d e t)) T l /\
    Rabs (FH_Dhmix N T phi m a b c d e - (FH_Dgmix N T phi m (FH_chi a b c d e T) - T * l)) <=
      T * (eps ^ 2 * (Rgas / 2 * sumn N (fun i => sumn N (fun j => Rabs (phi i * phi j) * (Rabs (e j i) + Rabs (c j i) / T ^ 2))))).
Proof.
  intros HT. destruct (C81_FH_entropy_bound N phi m a b c d e T HT) as (l & H & B). exists l. split; [exact H|]. unfold FH_Dhmix.
  replace (_ - _) with (T * (FH_Dsmix N T phi m a b c d e - - l)) by ring. rewrite Rabs_mult, (Rabs_right T) by lra. apply Rmult_le_compat_l; [lra|exact B].
Qed.
Lemma csum_ext N f g : (forall i, (i < N)%nat -> f i = g i) -> csum N f = csum N g.
Proof. intros H. unfold csum. f_equal; apply sumn_ext; intros i Hi; now rewrite H. Qed.
Lemma cdiv_1 u : cdiv u (1, 0) = u.
Proof. destruct u as (p, q). unfold cdiv. cbn [fst snd]. f_equal; field. Qed.
Lemma cmul_1 u : cmul u (1, 0) = u.
Proof. destruct u as (p, q). unfold cmul. cbn [fst snd]. f_equal; ring. Qed.
(** NRTL with alpha = 0 (c = d = 0): the same bound for its entropy *)
Theorem C81_NRTL_entropy_bound N x a b e f T : (forall i, (i < N)%nat -> 0 <= x i) -> sumn N x = 1 -> 0 < T ->
  exists l, D (fun t => NRTL_gE N t x (NRTL_tau a b e f t) (NRTL_alpha zmat zmat t)) T l /\
    Rabs (NRTL_sE N T x a b zmat zmat e f - - l) <= eps ^ 2 * (Rgas * sumn N (fun i => sumn N (fun j => Rabs (x i * x j) * Rabs (e j i) / T ^ 2))).
Proof.
  intros Hx S1 HT. assert (Pe : 0 < eps) by (unfold eps; apply Rinv_0_lt_compat, pow_lt; lra).
  set (dbl := fun (m : mat) i j => 2 * m i j). set (one := fun _ : nat => 1).
  destruct (C81_FH_entropy_bound N x one (dbl a) (dbl b) (dbl e) (dbl f) zmat T HT) as (l & H & B).
  exists (l - Rgas * FH_comb N x one).
  assert (Za : forall t i j, NRTL_alpha zmat zmat t i j = 0) by (intros; unfold NRTL_alpha, zmat; ring).
  assert (G1 : forall t tau i j, NRTL_G tau (NRTL_alpha zmat zmat t) i j = 1) by (intros; unfold NRTL_G; rewrite Za, Ropp_0, Rmult_0_l; apply exp_0).
  assert (BN : forall t tau i, NRTL_B N x tau (NRTL_alpha zmat zmat t) i = 1).
  { intros. unfold NRTL_B. rewrite <- S1. apply sumn_ext. intros. rewrite G1. ring. }
  split.
  - apply (D_ext (fun t => FH_Dgmix N t x one (FH_chi (dbl a) (dbl b) (dbl e) (dbl f) zmat t) - Rgas * FH_comb N x one * t)).
    + intros t. unfold FH_Dgmix, NRTL_gE, FH_quad. 
      transitivity (Rgas * t * sumn N (fun i => x i * sumn N (fun j => x j * NRTL_tau a b e f t j i))).
      * rewrite (sumn_ext N (fun i => x i * sumn N (fun j => x j * FH_chi (dbl a) (dbl b) (dbl e) (dbl f) zmat t j i)) (fun i => 2 * (x i * sumn N (fun j => x j * NRTL_tau a b e f t j i)))).
        { rewrite sumn_scal. field. }
        intros i Hi. rewrite (sumn_ext N _ (fun j => 2 * (x j * NRTL_tau a b e f t j i))); [rewrite sumn_scal; ring|]. intros j Hj. unfold FH_chi, NRTL_tau, dbl, zmat, Rdiv. ring.
      * f_equal. apply sumn_ext. intros i Hi. f_equal. rewrite BN. unfold NRTL_A. unfold Rdiv at 1. rewrite Rinv_1, Rmult_1_r. apply sumn_ext. intros j Hj. rewrite G1. ring.
    + apply D_minus; [exact H|]. eapply D_eq; [apply (D_scal (Rgas * FH_comb N x one) (fun t => t)); apply D_id|ring].
  - replace (NRTL_sE N T x a b zmat zmat e f) with (FH_Dsmix N T x one (dbl a) (dbl b) (dbl e) (dbl f) zmat + Rgas * FH_comb N x one).
    + replace (_ - _) with (FH_Dsmix N T x one (dbl a) (dbl b) (dbl e) (dbl f) zmat - - l) by ring. eapply Rle_trans; [exact B|]. right. f_equal.
      transitivity (Rgas * (1 / 2 * sumn N (fun i => sumn N (fun j => Rabs (x i * x j) * (Rabs (zmat j i) + Rabs (dbl e j i) / T ^ 2))))); [field|]. f_equal. rewrite <- sumn_scal. apply sumn_ext. intros i Hi. rewrite <- sumn_scal. apply sumn_ext. intros j Hj.
      unfold zmat, dbl. rewrite Rabs_R0, (Rabs_mult 2), (Rabs_right 2) by lra. field. lra.
    + unfold NRTL_sE, FH_Dsmix, cstep, NRTL_gEc, FH_Dgmixc. cbv zeta.
      assert (GC : forall i j, cexp (cscal (-1) (cmul (calpha zmat zmat (T, eps) i j) (ctau a b e f (T, eps) i j))) = (1, 0)).
      { intros i j. assert (Z : calpha zmat zmat (T, eps) i j = (0, 0)) by (unfold calpha, zmat, cadd, cscal, cre; cbn [fst snd]; f_equal; ring). rewrite Z. unfold cmul, cscal. cbn [fst snd].
        replace (-1 * (0 * fst (ctau a b e f (T, eps) i j) - 0 * snd (ctau a b e f (T, eps) i j))) with 0 by ring. replace (-1 * (0 * snd (ctau a b e f (T, eps) i j) + 0 * fst (ctau a b e f (T, eps) i j))) with 0 by ring. rewrite cexp_real, exp_0. reflexivity. }
      set (t := ctau a b e f (T, eps)) in *.
      assert (EB : forall i, csum N (fun j => cscal (x j) (cexp (cscal (-1) (cmul (calpha zmat zmat (T, eps) j i) (t j i))))) = (1, 0)).
      { intros i. rewrite (csum_real N _ x); [now rewrite S1|]. intros j Hj. rewrite GC. unfold cscal. cbn. f_equal; ring. }
      assert (EN : csum N (fun i => cscal (x i) (cdiv (csum N (fun j => cscal (x j) (cmul (t j i) (cexp (cscal (-1) (cmul (calpha zmat zmat (T, eps) j i) (t j i))))))) (csum N (fun j => cscal (x j) (cexp (cscal (-1) (cmul (calpha zmat zmat (T, eps) j i) (t j i)))))))) =
                   csum N (fun i => cscal (x i) (csum N (fun j => cscal (x j) (t j i))))).
      { apply csum_ext. intros i Hi. f_equal. rewrite EB, cdiv_1. apply csum_ext. intros j Hj. f_equal. rewrite GC. apply cmul_1. }
      rewrite EN.
      assert (EF : csum N (fun i => cscal (x i) (csum N (fun j => cscal (x j) (cchi (dbl a) (dbl b) (dbl e) (dbl f) zmat (T, eps) j i)))) = cscal 2 (csum N (fun i => cscal (x i) (csum N (fun j => cscal (x j) (t j i)))))).
      { assert (X : forall i j, cchi (dbl a) (dbl b) (dbl e) (dbl f) zmat (T, eps) i j = cscal 2 (t i j)).
        { intros i j. unfold t, cchi, ctau, dbl, zmat, cadd, cscal, cdiv, cre. cbn [fst snd]. f_equal; unfold Rdiv; ring. }
        unfold csum, cscal. cbn [fst snd]. f_equal; rewrite <- sumn_scal; apply sumn_ext; intros i Hi.
        - transitivity (x i * (2 * sumn N (fun j => x j * fst (t j i)))); [|ring]. f_equal. rewrite <- sumn_scal. apply sumn_ext. intros j Hj. rewrite X. unfold cscal. cbn [fst]. ring.
        - transitivity (x i * (2 * sumn N (fun j => x j * snd (t j i)))); [|ring]. f_equal. rewrite <- sumn_scal. apply sumn_ext. intros j Hj. rewrite X. unfold cscal. cbn [snd]. ring. }
      rewrite EF. set (W := csum N _). unfold cmul, cadd, cscal, cre. cbn [fst snd]. field. lra.
Qed.

(** * C82: for which lengths of DP does PolyNRTL.gE get through — only without any solvent *)
Theorem C82_gE_shapes Ns Np d : (1 <= Np)%nat -> PolyNRTL_gE_shapes Ns Np d = Ok tt <-> Ns = 0%nat /\ d = Np.
Proof.
  intros HP. unfold PolyNRTL_gE_shapes, bcast, assignsh, dotsh, bind.
  repeat match goal with |- context [Nat.eqb ?a ?b] => destruct (Nat.eqb_spec a b); cbn [orb] end; split; intros H; try discriminate; try reflexivity; lia.
Qed.

(** a 2 x 2 NRTL model with b12 = 30000 is accepted, with b12 = 30001 refused *)
Example C51_accepts_case : let h v := mkHeap (fun _ => mkArr (2, 2)%nat (fun i j => if Nat.ltb i j then v else 0)) 1 in
  (exists refs h', NRTL_init 2 [None; Some 0%nat; None; None; None; None] (h 30000) = Ok (refs, h')) /\
  ~ (exists refs h', NRTL_init 2 [None; Some 0%nat; None; None; None; None] (h 30001) = Ok (refs, h')).
Proof.
  intros h. assert (AV : forall v, args_valid (h v) [None; Some 0%nat; None; None; None; None]).
  { intros v p I. cbn [In] in I. destruct I as [I|[I|[I|[I|[I|[I|[]]]]]]]; try discriminate. injection I as <-. cbn. lia. }
  split.
  - apply C51_NRTL_accepts; [reflexivity|apply AV|]. split.
    + intros p I. reflexivity.
    + intros i j Hi Hj. cbn [nth arg_val]. unfold dat, h. cbn [h_arr a_dat]. rewrite Rabs_R0. split; [lra|]. split; [|lra]. destruct (Nat.ltb i j); [rewrite Rabs_right; lra|rewrite Rabs_R0; lra].
  - rewrite C51_NRTL_accepts; [|reflexivity|apply AV]. intros (_ & H). destruct (H 0%nat 1%nat ltac:(lia) ltac:(lia)) as (_ & X & _). cbn [nth arg_val] in X. unfold dat, h in X. cbn [h_arr a_dat Nat.ltb Nat.leb] in X. rewrite Rabs_right in X; lra.
Qed.
Print Assumptions C51_accepts. Print Assumptions C51_NRTL_accepts. Print Assumptions C51_Wilson_accepts. Print Assumptions C51_FH_accepts.
Print Assumptions C81_UNIQUAC_athermal. Print Assumptions C81_FH_enthalpy_bound. Print Assumptions C81_NRTL_entropy_bound. Print Assumptions C82_gE_shapes.
