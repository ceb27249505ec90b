(** n-tuple fractions of multicomponent copolymers: C33. *)
From Coq Require Import Reals Lra Lia List Bool Arith Sorted.
From Verif Require Import Prelude UtilsModel RootsModel CopoModel CopoMultiModel LinAlg CopoMultiProps.
Import ListNotations.
Open Scope R_scope.

(* ------------------------------------------------------------------ *)
(** * Specification vocabulary                                        *)
(* ------------------------------------------------------------------ *)

(** A tuple of n monomers out of N. *)
Definition valid (N n : nat) (t : list nat) : Prop := length t = n /\ forall i, In i t -> (i < N)%nat.
(** Python's lexicographic order on tuples of equal length. *)
Fixpoint lexlt (s t : list nat) : Prop :=
  match s, t with
  | a :: s', b :: t' => (a < b)%nat \/ (a = b /\ lexlt s' t')
  | _, _ => False
  end.
(** Weight of a path under the transition matrix, and of a directed tuple. *)
Fixpoint weight (P : mat) (t : list nat) : R :=
  match t with
  | i :: ((j :: _) as t') => P i j * weight P t'
  | _ => 1
  end.
Definition directed (P : mat) (F : vec) (t : list nat) : R :=
  match t with [] => 0 | i :: _ => F i * weight P t end.

Fixpoint lsum {A : Type} (g : A -> R) (l : list A) : R :=
  match l with [] => 0 | a :: l' => g a + lsum g l' end.

(* ------------------------------------------------------------------ *)
(** * The enumeration of tuples                                       *)
(* ------------------------------------------------------------------ *)

Lemma in_product N n : forall t, In t (product N n) <-> valid N n t.
Proof.
  induction n as [|n IH]; intros t; cbn [product].
  - split.
    + intros [<-|[]]. split; [reflexivity|]. intros i [].
    + intros (L & _). destruct t; [now left|discriminate].
  - rewrite in_flat_map. split.
    + intros (i & Hi & Ht). apply in_seq in Hi. apply in_map_iff in Ht. destruct Ht as (s & <- & Hs).
      apply IH in Hs. destruct Hs as (L & H). split; [cbn; lia|]. intros j [<-|Hj]; [lia|auto].
    + intros (L & H). destruct t as [|i s]; [discriminate|]. exists i. split.
      * apply in_seq. specialize (H i (or_introl eq_refl)). lia.
      * apply in_map. apply IH. split; [cbn in L; lia|]. intros j Hj. apply H. now right.
Qed.

Lemma valid_rev N n t : valid N n t -> valid N n (rev t).
Proof. intros (L & H). split; [now rewrite rev_length|]. intros i Hi. apply H. now apply in_rev. Qed.

Lemma lexlt_irrefl t : ~ lexlt t t.
Proof. induction t; cbn; [tauto|]. intros [|(_ & H)]; [lia|auto]. Qed.
Lemma lexlt_trans : forall s t u, lexlt s t -> lexlt t u -> lexlt s u.
Proof.
  induction s as [|a s IH]; intros [|b t] [|c u]; cbn; try tauto.
  intros [?|(-> & ?)] [?|(-> & ?)]; try (left; lia). right. split; eauto.
Qed.
Lemma lexlt_total : forall s t, length s = length t -> lexlt s t \/ s = t \/ lexlt t s.
Proof.
  induction s as [|a s IH]; intros [|b t] L; cbn in *; try discriminate; auto.
  destruct (lt_eq_lt_dec a b) as [[?| ->]|?]; auto.
  destruct (IH t) as [?|[->|?]]; auto.
Qed.

Lemma sorted_app {A} (R : A -> A -> Prop) l m : StronglySorted R l -> StronglySorted R m ->
  (forall a b, In a l -> In b m -> R a b) -> StronglySorted R (l ++ m).
Proof.
  induction l; cbn; auto. intros H1 H2 H. inversion H1; subst. constructor.
  - apply IHl; auto.
  - apply Forall_forall. intros x Hx. apply in_app_or in Hx. destruct Hx.
    + rewrite Forall_forall in H5. auto.
    + auto.
Qed.

Lemma product_sorted N n : StronglySorted lexlt (product N n).
Proof.
  induction n as [|n IH]; cbn [product].
  - constructor; [constructor|constructor].
  - assert (G : forall m a, StronglySorted lexlt (flat_map (fun i => map (cons i) (product N n)) (seq a m))).
    { induction m as [|m IHm]; intros a; [constructor|]. cbn [seq flat_map]. apply sorted_app; auto.
      - clear - IH. induction IH as [|t l H IHl F]; cbn; constructor; auto.
        apply Forall_forall. intros x Hx. apply in_map_iff in Hx. destruct Hx as (s & <- & Hs).
        rewrite Forall_forall in F. cbn. right. split; auto.
      - intros s t Hs Ht. apply in_map_iff in Hs. destruct Hs as (s' & <- & _).
        apply in_flat_map in Ht. destruct Ht as (i & Hi & Ht). apply in_seq in Hi.
        apply in_map_iff in Ht. destruct Ht as (t' & <- & _). cbn. left. lia. }
    apply G.
Qed.

(* ------------------------------------------------------------------ *)
(** * The loop                                                        *)
(* ------------------------------------------------------------------ *)

Lemma fold_mult (g : nat -> R) (l : list nat) : forall a : R, fold_left (fun acc j => acc * g j) l a = a * fold_left (fun acc j => acc * g j) l 1.
Proof.
  induction l; intros b; cbn [fold_left]; [ring|]. rewrite (IHl (b * g a)), (IHl (1 * g a)). ring.
Qed.
Lemma fold_shift (g : nat -> R) n : forall a : R, fold_left (fun acc j => acc * g j) (seq 1 n) a =
  fold_left (fun acc j => acc * g (S j)) (seq 0 n) a.
Proof.
  intros a. rewrite <- seq_shift. generalize (seq 0 n). intros l. revert a.
  induction l; intros b; cbn; auto.
Qed.
Lemma P_product_weight P : forall t n, length t = n -> (1 <= n)%nat -> P_product P n t = weight P t.
Proof.
  induction t as [|i t IH]; intros n L Hn; [cbn in L; lia|]. subst n. cbn [length].
  unfold P_product. rewrite Nat.sub_succ, Nat.sub_0_r. destruct t as [|j t]; [reflexivity|].
  change (weight P (i :: j :: t)) with (P i j * weight P (j :: t)).
  cbn [length]. rewrite <- cons_seq. cbn [fold_left].
  rewrite fold_mult, fold_shift.
  specialize (IH (S (length t)) eq_refl ltac:(lia)). unfold P_product in IH.
  rewrite Nat.sub_succ, Nat.sub_0_r in IH. rewrite <- IH. rewrite Rmult_1_l. reflexivity.
Qed.

Lemma tuple_prob_directed P F n t : length t = n -> (1 <= n)%nat -> tuple_prob P F n t = Ok (directed P F t).
Proof.
  intros L Hn. unfold tuple_prob, directed. destruct t as [|i t]; [cbn in L; lia|].
  now rewrite P_product_weight.
Qed.

Lemma key_eqb_spec s t : reflect (s = t) (key_eqb s t).
Proof. unfold key_eqb. destruct (list_eq_dec Nat.eq_dec s t); constructor; auto. Qed.

Lemma tget_app d t k v : tget (d ++ [(k, v)]) t =
  match tget d t with Some w => Some w | None => if key_eqb k t then Some v else None end.
Proof.
  induction d as [|(s, w) d IH]; cbn [app tget]; auto. destruct (key_eqb s t); auto.
Qed.
Lemma tget_incr d k v t : tget (tincr d k v) t =
  match tget d t with Some w => Some (if key_eqb k t then w + v else w) | None => None end.
Proof.
  induction d as [|(s, w) d IH]; cbn [tincr tget]; auto.
  destruct (key_eqb_spec s k) as [->|N].
  - cbn [tget]. destruct (key_eqb_spec k t) as [->|]; auto. destruct (tget d t); auto.
  - cbn [tget]. destruct (key_eqb_spec s t) as [->|]; auto.
    destruct (key_eqb_spec k t); auto. congruence.
Qed.
Lemma tget_in d t : tget d t <> None <-> In t (map fst d).
Proof.
  induction d as [|(s, w) d IH]; cbn [tget map fst In]; [tauto|].
  destruct (key_eqb_spec s t) as [->|N]; [|rewrite IH; tauto]. split; auto. discriminate.
Qed.
Lemma incr_keys d k v : map fst (tincr d k v) = map fst d.
Proof. induction d as [|(s, w) d IH]; cbn; auto. destruct (key_eqb s k); cbn; congruence. Qed.
Lemma incr_total d k v : tget d k <> None -> lsum snd (tincr d k v) = lsum snd d + v.
Proof.
  induction d as [|(s, w) d IH]; cbn [tget tincr]; [tauto|]. destruct (key_eqb s k); cbn [lsum snd].
  - intros; ring.
  - intros H. rewrite IH by auto. ring.
Qed.
Lemma lsum_app {A} (g : A -> R) l m : lsum g (l ++ m) = lsum g l + lsum g m.
Proof. induction l; cbn; [ring|]. rewrite IHl. ring. Qed.

(** One step, in terms of [directed]. *)
Definition stepd (P : mat) (F : vec) (d : tdict) (t : list nat) : tdict :=
  match tget d (rev t) with
  | Some _ => tincr d (rev t) (directed P F t)
  | None => d ++ [(t, directed P F t)]
  end.
Lemma loop_stepd P F n l : forall d, (1 <= n)%nat -> (forall t, In t l -> length t = n) ->
  tuple_loop P F n l d = Ok (fold_left (stepd P F) l d).
Proof.
  induction l as [|t l IH]; intros d Hn HL; [reflexivity|]. cbn [tuple_loop fold_left].
  unfold tuple_step at 1. rewrite tuple_prob_directed by (auto; apply HL; now left). cbn [bind].
  unfold stepd at 2. destruct (tget d (rev t)); cbn [bind]; apply IH; auto; intros; apply HL; now right.
Qed.

Lemma stepd_total P F d t : lsum snd (stepd P F d t) = lsum snd d + directed P F t.
Proof.
  unfold stepd. destruct (tget d (rev t)) eqn:E.
  - apply incr_total. congruence.
  - rewrite lsum_app. cbn. ring.
Qed.
Lemma fold_total P F l : forall d, lsum snd (fold_left (stepd P F) l d) = lsum snd d + lsum (directed P F) l.
Proof.
  induction l; intros d; cbn [fold_left lsum]; [ring|]. rewrite IHl, stepd_total. ring.
Qed.

(** State of the dict after the tuples of the prefix p have been processed. *)
Definition inv (P : mat) (F : vec) (p : list (list nat)) (d : tdict) : Prop :=
  NoDup (map fst d) /\
  forall t,
    (In t p -> ~ lexlt (rev t) t ->
       tget d t = Some (directed P F t + (if in_dec (list_eq_dec Nat.eq_dec) (rev t) p then
                                            if key_eqb (rev t) t then 0 else directed P F (rev t) else 0))) /\
    (~ In t p \/ lexlt (rev t) t -> tget d t = None).

Lemma NoDup_app_single {A} (l : list A) x : NoDup l -> ~ In x l -> NoDup (l ++ [x]).
Proof.
  intros H N. apply (NoDup_Add (a := x) (l := l)); [|auto].
  replace (x :: l) with (x :: l) by auto. rewrite <- (app_nil_r l) at 1. apply Add_app.
Qed.

Lemma inv_step P F N n p x q d : StronglySorted lexlt (p ++ x :: q) ->
  (forall t, In t (p ++ x :: q) <-> valid N n t) -> inv P F p d -> inv P F (p ++ [x]) (stepd P F d x).
Proof.
  intros SS HV (ND & I).
  assert (LT : forall t, In t p -> lexlt t x).
  { clear - SS. induction p as [|a p IH]; intros t; [intros []|]. cbn in SS. inversion SS; subst.
    intros [<-|Ht]; [|auto]. rewrite Forall_forall in H2. apply H2. apply in_or_app. right. now left. }
  assert (GT : forall t, In t q -> lexlt x t).
  { clear - SS. induction p as [|a p IH]; intros t Ht; cbn in SS; inversion SS; subst.
    - rewrite Forall_forall in H2. auto.
    - auto. }
  assert (XP : ~ In x p) by (intros K; apply LT in K; now apply lexlt_irrefl in K).
  assert (VX : valid N n x) by (apply HV, in_or_app; right; now left).
  assert (RV : In (rev x) (p ++ x :: q)) by (apply HV, valid_rev; auto).
  unfold stepd. destruct (tget d (rev x)) as [w|] eqn:E.
  - (* rev x is a key, hence was processed and is smaller *)
    assert (RP : In (rev x) p).
    { destruct (in_dec (list_eq_dec Nat.eq_dec) (rev x) p) as [|NI]; auto.
      rewrite (proj2 (I (rev x)) (or_introl NI)) in E. discriminate. }
    pose proof (LT _ RP) as RL.
    split; [now rewrite incr_keys|]. intros t. rewrite tget_incr. split.
    + intros Ht NL. apply in_app_or in Ht. destruct Ht as [Ht|[<-|[]]]; [|now destruct NL].
      rewrite (proj1 (I t) Ht NL). destruct (key_eqb_spec (rev x) t) as [<-|Nt].
      * rewrite rev_involutive.
        destruct (in_dec _ x p) as [|_]; [tauto|]. destruct (in_dec _ x (p ++ [x])) as [_|K].
        2:{ destruct K. apply in_or_app. right. now left. }
        destruct (key_eqb_spec x (rev x)) as [K|_]; [rewrite <- K in RP; tauto|]. f_equal. ring.
      * f_equal. f_equal. destruct (in_dec _ (rev t) p) as [H1|H1], (in_dec _ (rev t) (p ++ [x])) as [H2|H2]; auto.
        -- destruct H2. apply in_or_app. now left.
        -- apply in_app_or in H2. destruct H2 as [|[K|[]]]; [tauto|].
           exfalso. apply Nt. rewrite K. apply rev_involutive.
    + intros [Nt|L].
      * rewrite (proj2 (I t)); auto. left. intros K. apply Nt, in_or_app. now left.
      * rewrite (proj2 (I t)); auto.
  - (* rev x was not processed: x is not larger than rev x *)
    assert (RP : ~ In (rev x) p).
    { intros K. assert (NL : ~ lexlt (rev (rev x)) (rev x)).
      { rewrite rev_involutive. intros L. apply (lexlt_irrefl x). eapply lexlt_trans; [exact L|auto]. }
      rewrite (proj1 (I (rev x)) K NL) in E. discriminate. }
    assert (NX : tget d x = None) by (apply I; auto).
    split.
    { rewrite map_app. cbn. apply NoDup_app_single; auto. intros K. apply tget_in in K. now rewrite NX in K. }
    intros t. rewrite tget_app. split.
    + intros Ht NL. apply in_app_or in Ht. destruct Ht as [Ht|[<-|[]]].
      * rewrite (proj1 (I t) Ht NL). f_equal. f_equal.
        destruct (in_dec _ (rev t) p) as [H1|H1], (in_dec _ (rev t) (p ++ [x])) as [H2|H2]; auto.
        -- destruct H2. apply in_or_app. now left.
        -- apply in_app_or in H2. destruct H2 as [|[K|[]]]; [tauto|].
           exfalso. apply RP. rewrite K, rev_involutive. auto.
      * rewrite NX. destruct (key_eqb_spec x x) as [_|]; [|tauto]. f_equal.
        destruct (in_dec _ (rev x) (p ++ [x])) as [H2|H2]; [|ring].
        apply in_app_or in H2. destruct H2 as [|[K|[]]]; [tauto|].
        destruct (key_eqb_spec (rev x) x); [ring|congruence].
    + intros H. assert (T : tget d t = None).
      { apply I. destruct H as [H|H]; [left|now right]. intros K. apply H, in_or_app. now left. }
      rewrite T. destruct (key_eqb_spec x t) as [<-|]; auto. exfalso. destruct H as [H|H].
      * apply H, in_or_app. right. now left.
      * apply in_app_or in RV. destruct RV as [|[K|K]]; [tauto| |].
        -- rewrite <- K in H. now apply lexlt_irrefl in H.
        -- apply (lexlt_irrefl x). eapply lexlt_trans; [apply GT; exact K|exact H].
Qed.

Lemma inv_all P F N n : forall q p d, StronglySorted lexlt (p ++ q) ->
  (forall t, In t (p ++ q) <-> valid N n t) -> inv P F p d -> inv P F (p ++ q) (fold_left (stepd P F) q d).
Proof.
  induction q as [|x q IH]; intros p d SS HV I; cbn [fold_left]; [now rewrite app_nil_r|].
  replace (p ++ x :: q) with ((p ++ [x]) ++ q) in * by (rewrite <- app_assoc; reflexivity).
  apply IH; auto. rewrite <- app_assoc in SS, HV. cbn in SS, HV. eapply inv_step; eauto.
Qed.

(* ------------------------------------------------------------------ *)
(** * Totals                                                          *)
(* ------------------------------------------------------------------ *)

Lemma lsum_ext {A} (g h : A -> R) l : (forall a, In a l -> g a = h a) -> lsum g l = lsum h l.
Proof. induction l; intros H; cbn; auto. rewrite H by now left. f_equal. apply IHl. intros; apply H; now right. Qed.
Lemma lsum_scal {A} c (g : A -> R) l : lsum (fun a => c * g a) l = c * lsum g l.
Proof. induction l; cbn; [ring|]. rewrite IHl. ring. Qed.
Lemma lsum_map {A B} (h : A -> B) (g : B -> R) l : lsum g (map h l) = lsum (fun a => g (h a)) l.
Proof. induction l; cbn; auto. now rewrite IHl. Qed.
Lemma lsum_product N n g : lsum g (product N (S n)) = sumn N (fun i => lsum (fun t => g (i :: t)) (product N n)).
Proof.
  cbn [product]. induction N as [|N IH] in n, g |- *; [reflexivity|]. cbn [sumn].
  rewrite seq_S. rewrite flat_map_app, lsum_app. cbn [flat_map Nat.add]. rewrite app_nil_r, lsum_map. f_equal.
  generalize (product (S N) n). intros l. clear IH.
  induction N as [|N IHN]; [reflexivity|]. rewrite seq_S. rewrite flat_map_app, lsum_app. cbn [flat_map Nat.add].
  rewrite app_nil_r, lsum_map, IHN. reflexivity.
Qed.

Lemma weight_total N P : stochastic N P -> forall n i, (i < N)%nat ->
  lsum (fun t => weight P (i :: t)) (product N n) = 1.
Proof.
  intros (_ & HR). induction n as [|n IH]; intros i Hi; [cbn; ring|].
  rewrite lsum_product. rewrite (sumn_ext N _ (P i)); [apply HR; auto|].
  intros j Hj. change (lsum (fun t => weight P (i :: j :: t)) (product N n)) with
    (lsum (fun t => P i j * weight P (j :: t)) (product N n)). rewrite lsum_scal, IH by auto. ring.
Qed.

Lemma directed_total N P F n : stochastic N P -> (1 <= n)%nat -> lsum (directed P F) (product N n) = sumn N F.
Proof.
  intros HS Hn. destruct n; [lia|]. rewrite lsum_product. apply sumn_ext. intros i Hi.
  change (lsum (fun t => directed P F (i :: t)) (product N n)) with (lsum (fun t => F i * weight P (i :: t)) (product N n)).
  rewrite lsum_scal, weight_total by auto. ring.
Qed.

Lemma weight_nonneg N P t : stochastic N P -> (forall i, In i t -> (i < N)%nat) -> 0 <= weight P t.
Proof.
  intros (HP & _). induction t as [|i t IH]; intros H; [cbn; lra|]. destruct t as [|j t]; [cbn; lra|].
  change (0 <= P i j * weight P (j :: t)). apply Rmult_le_pos.
  - apply HP; apply H; [now left|right; now left].
  - apply IH. intros k Hk. apply H. now right.
Qed.
Lemma directed_nonneg N n P F t : stochastic N P -> (forall i, (i < N)%nat -> 0 <= F i) -> valid N n t ->
  0 <= directed P F t.
Proof.
  intros HS HF (_ & H). destruct t as [|i t]; [cbn; lra|]. cbn [directed]. apply Rmult_le_pos.
  - apply HF, H. now left.
  - now apply (weight_nonneg N).
Qed.

(** The dict that is returned. *)
Lemma tuples_given solve N P n F : (1 <= n)%nat ->
  tuples_multi solve N P n (Some F) = Ok (fold_left (stepd P F) (product N n) []).
Proof.
  intros Hn. unfold tuples_multi. cbn [bind]. apply loop_stepd; auto.
  intros t Ht. apply in_product in Ht. apply Ht.
Qed.
Lemma tuples_inv N P n F : inv P F (product N n) (fold_left (stepd P F) (product N n) []).
Proof.
  apply (inv_all P F N n (product N n) [] []).
  - apply product_sorted.
  - apply in_product.
  - split; [constructor|]. intros t. split; [intros []|reflexivity].
Qed.

(** ** C33: the entries *)
(** Mirror images are merged under the lexicographically smaller member; palindromes count
    once; there are no other keys and none occurs twice. *)
Theorem C33_entries solve N P n F : (1 <= n)%nat ->
  exists d, tuples_multi solve N P n (Some F) = Ok d /\ NoDup (map fst d) /\
    forall t,
      (valid N n t -> t = rev t -> tget d t = Some (directed P F t)) /\
      (valid N n t -> lexlt t (rev t) -> tget d t = Some (directed P F t + directed P F (rev t))) /\
      (lexlt (rev t) t -> tget d t = None) /\
      (~ valid N n t -> tget d t = None).
Proof.
  intros Hn. rewrite tuples_given by auto. destruct (tuples_inv N P n F) as (ND & I).
  eexists. split; [reflexivity|]. split; [exact ND|]. intros t.
  destruct (I t) as (I1 & I2). repeat split.
  - intros V E. rewrite I1; [|now apply in_product|rewrite <- E; apply lexlt_irrefl].
    f_equal. rewrite <- E. destruct (in_dec _ t _); [|ring]. destruct (key_eqb_spec t t); [ring|tauto].
  - intros V L. rewrite I1; [|now apply in_product|].
    + f_equal. f_equal. destruct (in_dec _ (rev t) _) as [_|K].
      * destruct (key_eqb_spec (rev t) t) as [K|]; auto. rewrite K in L. now apply lexlt_irrefl in L.
      * destruct K. now apply in_product, valid_rev.
    + intros L'. apply (lexlt_irrefl t). eapply lexlt_trans; eauto.
  - intros L. apply I2. now right.
  - intros V. apply I2. left. intros K. apply V. now apply in_product.
Qed.

(** ** C33: total and sign *)
Theorem C33_total solve N P n F : (1 <= n)%nat -> stochastic N P -> (forall i, (i < N)%nat -> 0 <= F i) ->
  exists d, tuples_multi solve N P n (Some F) = Ok d /\
    lsum snd d = sumn N F /\ (forall t v, In (t, v) d -> 0 <= v).
Proof.
  intros Hn HS HF. destruct (C33_entries solve N P n F Hn) as (d & E & ND & H). exists d. split; [exact E|].
  rewrite tuples_given in E by auto. injection E as E. split.
  - rewrite <- E, fold_total, (directed_total N) by auto. cbn. ring.
  - intros t v K. assert (G : tget d t = Some v).
    { clear - ND K. induction d as [|(s, w) d IH]; [destruct K|]. cbn [map fst] in ND. inversion ND; subst.
      cbn [tget]. destruct K as [K|K].
      - injection K as -> ->. destruct (key_eqb_spec t t); tauto.
      - destruct (key_eqb_spec s t) as [->|]; auto. destruct H1. apply (in_map fst) in K. exact K. }
    destruct (H t) as (H1 & H2 & H3 & H4).
    assert (V : valid N n t).
    { destruct (in_dec (list_eq_dec Nat.eq_dec) t (product N n)) as [Y|Y]; [now apply in_product in Y|].
      exfalso. rewrite H4 in G; [discriminate|]. intros Z. apply Y. now apply in_product. }
    destruct (lexlt_total t (rev t)) as [L|[L|L]]; [now rewrite rev_length| | |].
    + rewrite H2 in G by auto. injection G as <-. apply Rplus_le_le_0_compat; apply (directed_nonneg N n); auto.
      now apply valid_rev.
    + rewrite H1 in G by auto. injection G as <-. now apply (directed_nonneg N n).
    + rewrite H3 in G by auto. discriminate.
Qed.

(** With the composition computed internally, the fractions sum to one. *)
Theorem C33_total_one solve N P n : solve_spec solve -> (1 <= N)%nat -> (1 <= n)%nat ->
  stochastic N P -> pos_column N P ->
  exists d, tuples_multi solve N P n None = Ok d /\ lsum snd d = 1 /\ (forall t v, In (t, v) d -> 0 <= v <= 1).
Proof.
  intros HS HN Hn HP HC. destruct (C32_stationary solve N P HS HN HP HC) as (F & EF & FB & FS & _).
  destruct (C33_total solve N P n F Hn HP) as (d & E & T & NN); [intros; now apply FB|].
  exists d. split; [|split].
  - unfold tuples_multi in *. rewrite EF. exact E.
  - now rewrite T.
  - intros t v K. split; [eauto|]. rewrite <- FS, <- T. clear - NN K.
    induction d as [|(s, w) d IH]; [destruct K|]. cbn [lsum snd].
    assert (0 <= lsum snd d).
    { clear - NN. induction d as [|(s', w') d IH]; cbn; [lra|].
      assert (0 <= w') by (apply (NN s'); right; now left).
      assert (0 <= lsum snd d); [|lra]. apply IH. intros t v [K|K]; [apply (NN t); now left|apply (NN t); right; now right]. }
    destruct K as [K|K].
    + injection K as -> ->. lra.
    + assert (v <= lsum snd d) by (apply IH; auto; intros t' v' K'; apply (NN t'); now right).
      assert (0 <= w) by (apply (NN s); now left). lra.
Qed.

(** ** C33: marginals *)
(** Fraction of a tuple in either direction, read off the dict. *)
Definition mass (d : tdict) (t : list nat) : R :=
  match tget d t, tget d (rev t) with
  | Some v, Some _ => 2 * v
  | Some v, None => v
  | None, Some v => v
  | None, None => 0
  end.

Lemma mass_directed solve N P n F d t : (1 <= n)%nat -> tuples_multi solve N P n (Some F) = Ok d -> valid N n t ->
  mass d t = directed P F t + directed P F (rev t).
Proof.
  intros Hn E V. destruct (C33_entries solve N P n F Hn) as (d' & E' & _ & H). rewrite E in E'. injection E' as <-.
  destruct (H t) as (H1 & H2 & H3 & _). destruct (H (rev t)) as (R1 & R2 & R3 & _).
  rewrite rev_involutive in *. pose proof (valid_rev _ _ _ V) as VR. unfold mass.
  destruct (lexlt_total t (rev t)) as [L|[L|L]]; [now rewrite rev_length| | |].
  - rewrite H2, R3 by auto. reflexivity.
  - rewrite H1, R1 by auto. rewrite <- L. ring.
  - rewrite H3, R2 by auto. ring.
Qed.

Lemma weight_snoc P t : forall i k, weight P (i :: t ++ [k]) = weight P (i :: t) * P (last t i) k.
Proof.
  induction t as [|j t IH]; intros i k; [cbn; ring|].
  change (weight P (i :: (j :: t) ++ [k])) with (P i j * weight P (j :: t ++ [k])).
  change (weight P (i :: j :: t)) with (P i j * weight P (j :: t)).
  rewrite IH. replace (last (j :: t) i) with (last t j); [ring|].
  clear. revert i j. induction t as [|a t IH]; intros i j; [reflexivity|].
  change (last (j :: a :: t) i) with (last (a :: t) i). rewrite <- IH. now destruct t.
Qed.
Lemma last_valid (t : list nat) : forall i N, (i < N)%nat -> (forall j, In j t -> (j < N)%nat) -> (last t i < N)%nat.
Proof.
  induction t as [|a t IH]; intros i N Hi H; [exact Hi|]. destruct t as [|b t]; [apply H; now left|].
  change (last (a :: b :: t) i) with (last (b :: t) i). apply IH; auto. intros j Hj. apply H. now right.
Qed.

Theorem C33_marginal solve N P n F : (1 <= n)%nat -> stochastic N P ->
  (forall j, (j < N)%nat -> sumn N (fun i => F i * P i j) = F j) ->
  exists d d', tuples_multi solve N P n (Some F) = Ok d /\ tuples_multi solve N P (n + 1) (Some F) = Ok d' /\
    forall t, valid N n t -> sumn N (fun k => mass d' (t ++ [k])) = mass d t.
Proof.
  intros Hn HS HF. do 2 eexists. split; [apply tuples_given; auto|]. split; [apply tuples_given; lia|].
  intros t V. rewrite (mass_directed solve N P n F) by (auto using tuples_given).
  rewrite (sumn_ext N _ (fun k => directed P F (t ++ [k]) + directed P F (k :: rev t))).
  - rewrite sumn_plus. f_equal.
    + destruct t as [|i t]; [destruct V as (V & _); cbn in V; lia|].
      destruct V as (_ & V).
      rewrite (sumn_ext N _ (fun k => directed P F (i :: t) * P (last t i) k)).
      * rewrite sumn_scal. destruct HS as (_ & HR). rewrite HR; [ring|].
        apply last_valid; [apply V; now left|]. intros j Hj. apply V. now right.
      * intros k _. change (directed P F ((i :: t) ++ [k])) with (F i * weight P (i :: t ++ [k])).
        rewrite weight_snoc. cbn [directed]. ring.
    + apply valid_rev in V. destruct (rev t) as [|j s] eqn:ER; [destruct V as (V & _); cbn in V; lia|].
      destruct V as (_ & V).
      rewrite (sumn_ext N _ (fun k => (F k * P k j) * weight P (j :: s))).
      * rewrite sumn_scal_r, HF by (apply V; now left). reflexivity.
      * intros k _. change (directed P F (k :: j :: s)) with (F k * (P k j * weight P (j :: s))). ring.
  - intros k Hk. rewrite (mass_directed solve N P (n + 1) F);
      [rewrite rev_app_distr; reflexivity|lia|apply tuples_given; lia|].
    destruct V as (L & H). split; [rewrite app_length; cbn; lia|].
    intros i Hi. apply in_app_or in Hi. destruct Hi as [Hi|[<-|[]]]; auto.
Qed.

(** Length 0 raises IndexError. *)
Theorem C33_zero solve N P F : tuples_multi solve N P 0 (Some F) = Err IndexError.
Proof. reflexivity. Qed.

(** Two monomers, uniform chain: diads 00, 01 (merged with 10), 11. *)
Example C33_case : exists d, tuples_multi gauss 2 (fun _ _ => 1 / 2) 2 (Some (fun _ => 1 / 2)) = Ok d /\
  tget d [0; 1]%nat = Some (1 / 2) /\ tget d [1; 0]%nat = None /\ lsum snd d = 1.
Proof.
  destruct (C33_entries gauss 2 (fun _ _ => 1 / 2) 2 (fun _ => 1 / 2)) as (d & E & _ & H); [lia|].
  destruct (C33_total gauss 2 (fun _ _ => 1 / 2) 2 (fun _ => 1 / 2)) as (d' & E' & T & _); [lia| | |].
  - split; intros; cbn; lra.
  - intros; lra.
  - assert (K : Ok d = Ok d') by (rewrite <- E; exact E'). injection K as <-. exists d. split; [exact E|]. split; [|split].
    + destruct (H [0; 1]%nat) as (_ & H2 & _). rewrite H2.
      * cbn. f_equal. lra.
      * split; [reflexivity|]. intros i [<-|[<-|[]]]; lia.
      * cbn. left. lia.
    + apply (proj1 (proj2 (proj2 (H [1; 0]%nat)))). cbn. left. lia.
    + rewrite T. cbn. lra.
Qed.

Print Assumptions C33_entries.
Print Assumptions C33_total.
Print Assumptions C33_total_one.
Print Assumptions C33_marginal.
Print Assumptions C33_zero.
