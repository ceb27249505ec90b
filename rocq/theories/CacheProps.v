(** C106 — eigenvalue arrays shared through functools.cache. *)
From Coq Require Import Reals Lra Lia List Bool Arith.
From Verif Require Import Prelude RootsModel HmtModel HmtProps ConvProps UtilsModel CacheModel.
Import ListNotations.
Open Scope R_scope.

Lemma opt_eqb_eq a b : opt_eqb a b = true <-> a = b.
Proof.
  destruct a as [x|], b as [y|]; cbn; try (split; congruence). unfold Reqb. destruct (Req_EM_T x y) as [->|N]; split; congruence.
Qed.
Lemma key_eqb_eq k k' : key_eqb k k' = true <-> k = k'.
Proof.
  unfold key_eqb. rewrite !andb_true_iff, !opt_eqb_eq, Nat.eqb_eq. destruct k as [f a N t], k' as [f' a' N' t']. cbn. split.
  - intros (((A & B) & C) & D). subst. destruct f, f'; cbn in A; congruence.
  - intros E. injection E as -> -> -> ->. repeat split. now destruct f'.
Qed.
Lemma clookup_in k m l : clookup k m = Some l -> In (k, l) m.
Proof.
  induction m as [|(k', l') m IH]; cbn; [discriminate|]. destruct (key_eqb k k') eqn:E; intros H.
  - apply key_eqb_eq in E. left. congruence.
  - right. auto.
Qed.
Lemma set_len {A} (l : list A) i v : List.length (set_nth l i v) = List.length l.
Proof. revert i. induction l as [|x l IH]; intros [|i]; cbn; auto. Qed.
Lemma set_other {A} (l : list A) i j v d : i <> j -> nth j (set_nth l i v) d = nth j l d.
Proof. revert i j. induction l as [|x l IH]; intros [|i] [|j] N; cbn; auto; try congruence. Qed.
Lemma set_same {A} (l : list A) i v d : (i < List.length l)%nat -> nth i (set_nth l i v) d = v.
Proof. revert i. induction l as [|x l IH]; intros [|i] N; cbn in *; auto; try lia. apply IH. lia. Qed.

(** [W] is any set of arrays which is left alone *)
Definition good (W : nat -> Prop) (s : cstate) : Prop :=
  (forall k l, clookup k (cs_memo s) = Some l -> (l < List.length (cs_heap s))%nat /\ exists v, roots_plain k = Ok v /\ (W l -> arr s l = v)) /\
  (forall k k' l, clookup k (cs_memo s) = Some l -> clookup k' (cs_memo s) = Some l -> k = k').
Lemma good_init W : good W cinit.
Proof. split; intros; discriminate. Qed.
Lemma call_good W k s r s' : good W s -> cached_roots k s = (r, s') -> good W s' /\
  (forall l, r = Ok l -> clookup k (cs_memo s') = Some l /\ (W l -> roots_plain k = Ok (arr s' l))) /\ (forall e, r = Err e -> roots_plain k = Err e) /\
  (forall k0 l, clookup k0 (cs_memo s) = Some l -> clookup k0 (cs_memo s') = Some l).
Proof.
  intros (G1 & G2) E. unfold cached_roots in E. destruct (clookup k (cs_memo s)) as [l|] eqn:L.
  - injection E as <- <-. split; [split; auto|]. split; [|split]; [|discriminate|auto]. intros l' E. injection E as <-. split; [auto|].
    intros Hl. destruct (G1 k l L) as (_ & v & V & A). rewrite (A Hl). exact V.
  - destruct (roots_plain k) as [v|e] eqn:V; injection E as <- <-.
    2: { split; [split; auto|]. split; [discriminate|]. split; [|auto]. intros e' E. congruence. }
    set (n := List.length (cs_heap s)). split; [split|split; [|split]].
    + cbn. intros k0 l. rewrite app_length. cbn. destruct (key_eqb k0 k) eqn:K.
      * intros E. injection E as <-. apply key_eqb_eq in K. subst k0. split; [unfold n; lia|]. exists v. split; [auto|]. intros _. unfold arr. cbn.
        rewrite app_nth2 by (unfold n; lia). fold n. now rewrite Nat.sub_diag.
      * intros E. destruct (G1 k0 l E) as (A & v0 & B & C). split; [lia|]. exists v0. split; [auto|]. intros Hl. specialize (C Hl). unfold arr in *. cbn. now rewrite app_nth1.
    + cbn. intros k0 k1 l. destruct (key_eqb k0 k) eqn:K0, (key_eqb k1 k) eqn:K1; intros E0 E1.
      * apply key_eqb_eq in K0, K1. congruence.
      * injection E0 as <-. destruct (G1 _ _ E1) as (A & _). unfold n in A. lia.
      * injection E1 as <-. destruct (G1 _ _ E0) as (A & _). unfold n in A. lia.
      * eauto.
    + intros l E. injection E as <-. cbn. replace (key_eqb k k) with true by (symmetry; now apply key_eqb_eq). split; [auto|]. intros _. unfold arr. cbn.
      rewrite app_nth2 by (unfold n; lia). fold n. now rewrite Nat.sub_diag.
    + discriminate.
    + intros k0 l E. cbn. destruct (key_eqb k0 k) eqn:K; [|auto]. apply key_eqb_eq in K. congruence.
Qed.
Lemma write_good W l i v s : good W s -> ~ W l -> good W (cwrite l i v s).
Proof.
  intros (G1 & G2) Hl. split; [|exact G2]. cbn. intros k l' E. destruct (G1 k l' E) as (A & w & B & C). rewrite set_len. split; [auto|]. exists w. split; [auto|].
  intros Hl'. rewrite <- (C Hl'). unfold arr. cbn. apply set_other. intros ->. auto.
Qed.
Lemma fill4 rt l : fill rt 0 4 = Ok l -> exists x, four rt = Ok x /\ forall n, (n < 4)%nat -> nth n l 0 = x n.
Proof.
  unfold four. cbn. destruct (rt 0%nat) as [a|]; [|discriminate]. cbn. destruct (rt 1%nat) as [b|]; [|discriminate]. cbn. destruct (rt 2%nat) as [c|]; [|discriminate]. cbn.
  destruct (rt 3%nat) as [d|]; [|discriminate]. cbn. intros E. injection E as <-. eexists. split; [reflexivity|]. intros n Hn. destruct n as [|[|[|[|n]]]]; cbn; auto; lia.
Qed.
Lemma fill4_err rt e : fill rt 0 4 = Err e -> four rt = Err e.
Proof.
  unfold four. cbn. destruct (rt 0%nat) as [a|]; cbn; [|congruence]. destruct (rt 1%nat) as [b|]; cbn; [|congruence]. destruct (rt 2%nat) as [c|]; cbn; [|congruence].
  destruct (rt 3%nat) as [d|]; cbn; congruence.
Qed.
Lemma sheet_ext x y Fo Bi : (forall n, (n < 4)%nat -> x n = y n) -> uptake_conv_sheet x Fo Bi = uptake_conv_sheet y Fo Bi.
Proof. intros H. unfold uptake_conv_sheet. cbn. now rewrite (H 0%nat), (H 1%nat), (H 2%nat), (H 3%nat) by lia. Qed.
Lemma sphere_ext x y Fo Bi : (forall n, (n < 4)%nat -> x n = y n) -> uptake_conv_sphere x Fo Bi = uptake_conv_sphere y Fo Bi.
Proof. intros H. unfold uptake_conv_sphere. cbn. now rewrite (H 0%nat), (H 1%nat), (H 2%nat), (H 3%nat) by lia. Qed.
Lemma sheet_good W Fo Bi s r s' : good W s -> sheet_c Fo Bi s = (r, s') -> good W s' /\
  (forall k0 l, clookup k0 (cs_memo s) = Some l -> clookup k0 (cs_memo s') = Some l) /\
  ((forall l, clookup (sheet_key Bi) (cs_memo s') = Some l -> W l) -> r = uptake_convection_sheet Fo Bi).
Proof.
  intros G E. unfold sheet_c in E. unfold uptake_convection_sheet. destruct (negb (Reqb Fo 0) && negb (Reqb Bi 0)) eqn:Z.
  2: { injection E as <- <-. auto. }
  destruct (cached_roots (sheet_key Bi) s) as (r0, s0) eqn:C. destruct (call_good W _ _ _ _ G C) as (G' & A & B & M). destruct r0 as [l|e]; injection E as <- <-.
  - destruct (A l eq_refl) as (A1 & A2). split; [auto|split; [auto|]]. intros H. specialize (A2 (H l A1)). destruct (fill4 _ _ A2) as (x & X1 & X2).
    unfold key_root, key_tol in X1. cbn [ck_fn ck_a ck_tol sheet_key] in X1. rewrite X1. cbn. f_equal. now apply sheet_ext.
  - split; [auto|split; [auto|]]. intros _. specialize (B e eq_refl). apply fill4_err in B. unfold key_root, key_tol in B. cbn [ck_fn ck_a ck_tol sheet_key] in B. now rewrite B.
Qed.
Lemma sphere_good W Fo Bi s r s' : good W s -> sphere_c Fo Bi s = (r, s') -> good W s' /\
  (forall k0 l, clookup k0 (cs_memo s) = Some l -> clookup k0 (cs_memo s') = Some l) /\
  ((forall l, clookup (sphere_key Bi) (cs_memo s') = Some l -> W l) -> r = uptake_convection_sphere Fo Bi).
Proof.
  intros G E. unfold sphere_c in E. unfold uptake_convection_sphere. destruct (negb (Reqb Fo 0) && negb (Reqb Bi 0)) eqn:Z.
  2: { injection E as <- <-. auto. }
  destruct (cached_roots (sphere_key Bi) s) as (r0, s0) eqn:C. destruct (call_good W _ _ _ _ G C) as (G' & A & B & M). destruct r0 as [l|e]; injection E as <- <-.
  - destruct (A l eq_refl) as (A1 & A2). split; [auto|split; [auto|]]. intros H. specialize (A2 (H l A1)). destruct (fill4 _ _ A2) as (x & X1 & X2).
    unfold key_root, key_tol in X1. cbn [ck_fn ck_a ck_tol sphere_key] in X1. rewrite X1. cbn. f_equal. now apply sphere_ext.
  - split; [auto|split; [auto|]]. intros _. specialize (B e eq_refl). apply fill4_err in B. unfold key_root, key_tol in B. cbn [ck_fn ck_a ck_tol sphere_key] in B. now rewrite B.
Qed.

Definition written (h : list cop) (l : nat) : Prop := exists i v, In (OWrite l i v) h.
(** what the undecorated functions return *)
Definition right_answer (k : rkey) (v : cout) : Prop :=
  match v with VArr (Ok (_, c)) => roots_plain k = Ok c | VArr (Err e) => roots_plain k = Err e | _ => False end.
(** [v] is what the operation shows without any cache, provided that the arrays in [W] which the final cache [m] holds for it were not written *)
Definition faithful (W : nat -> Prop) (m : list (rkey * nat)) (o : cop) (v : cout) : Prop :=
  match o with
  | OCall k => (forall l, clookup k m = Some l -> W l) -> right_answer k v
  | OSheet Fo Bi => (forall l, clookup (sheet_key Bi) m = Some l -> W l) -> v = VNum (uptake_convection_sheet Fo Bi)
  | OSphere Fo Bi => (forall l, clookup (sphere_key Bi) m = Some l -> W l) -> v = VNum (uptake_convection_sphere Fo Bi)
  | OWrite _ _ _ => v = VNone
  end.
Lemma run_good W h : forall s outs s', good W s -> (forall l, W l -> ~ written h l) -> crun h s = (outs, s') ->
  good W s' /\ (forall k0 l, clookup k0 (cs_memo s) = Some l -> clookup k0 (cs_memo s') = Some l) /\ Forall2 (faithful W (cs_memo s')) h outs.
Proof.
  induction h as [|o h IH]; intros s outs s' G HW E; cbn in E.
  - injection E as <- <-. auto.
  - destruct (cstep o s) as (v, s1) eqn:S. destruct (crun h s1) as (vs, s2) eqn:R. injection E as <- <-.
    assert (HW' : forall l, W l -> ~ written h l) by (intros l Hl (i & w & I); apply (HW l Hl); exists i, w; now right).
    assert (X : good W s1 /\ (forall k0 l, clookup k0 (cs_memo s) = Some l -> clookup k0 (cs_memo s1) = Some l) /\ forall m, (forall k0 l, clookup k0 (cs_memo s1) = Some l -> clookup k0 m = Some l) -> faithful W m o v).
    { destruct o as [k|l i w|Fo Bi|Fo Bi]; cbn in S.
      - destruct (cached_roots k s) as (r, s0) eqn:C. destruct (call_good W _ _ _ _ G C) as (G' & A & B & M). destruct r as [l|e]; injection S as <- <-; split; auto; split; auto; intros m Hm; cbn; [|now auto].
        destruct (A l eq_refl) as (A1 & A2). intros H. apply A2. auto.
      - injection S as <- <-. split; [apply write_good; auto; intros Hl; apply (HW l Hl); exists i, w; now left|]. cbn. split; auto.
      - destruct (sheet_c Fo Bi s) as (r, s0) eqn:C. injection S as <- <-. destruct (sheet_good W _ _ _ _ _ G C) as (G' & M & A). split; auto. split; auto. intros m Hm. cbn. intros H. rewrite A; auto.
      - destruct (sphere_c Fo Bi s) as (r, s0) eqn:C. injection S as <- <-. destruct (sphere_good W _ _ _ _ _ G C) as (G' & M & A). split; auto. split; auto. intros m Hm. cbn. intros H. rewrite A; auto. }
    destruct X as (G1 & M1 & F1). destruct (IH s1 vs s2 G1 HW' R) as (G2 & M2 & F2). split; [auto|]. split; [auto|]. constructor; auto.
Qed.

(** A program which never assigns to a returned array sees exactly the values which the undecorated functions compute, whatever the order and repetition of its calls *)
Theorem C106_pure h outs s : (forall l, ~ written h l) -> crun h cinit = (outs, s) ->
  Forall2 (fun o v => match o with
    | OCall k => right_answer k v
    | OSheet Fo Bi => v = VNum (uptake_convection_sheet Fo Bi)
    | OSphere Fo Bi => v = VNum (uptake_convection_sphere Fo Bi)
    | OWrite _ _ _ => False end) h outs.
Proof.
  intros H E. destruct (run_good (fun _ => True) h _ _ _ (good_init _) (fun l _ => H l) E) as (_ & _ & F). revert F.
  assert (N : forall o, In o h -> match o with OWrite _ _ _ => False | _ => True end) by (intros [| l i v | |] I; auto; apply (H l); exists i, v; auto).
  clear E H. generalize dependent outs. induction h as [|o h IH]; intros outs F; inversion F as [|? v ? vs F1 F2]; subst; constructor.
  - specialize (N o ltac:(now left)). destruct o; cbn in F1; auto.
  - apply IH; auto. intros o' I. apply N. now right.
Qed.
(** With assignments, an operation is still right if the array of its own key was never assigned to: assignments to the arrays of other arguments, of other lengths N or of the other function do no harm *)
Theorem C106_isolated h outs s : crun h cinit = (outs, s) ->
  Forall2 (fun o v => match o with
    | OCall k => (forall l, clookup k (cs_memo s) = Some l -> ~ written h l) -> right_answer k v
    | OSheet Fo Bi => (forall l, clookup (sheet_key Bi) (cs_memo s) = Some l -> ~ written h l) -> v = VNum (uptake_convection_sheet Fo Bi)
    | OSphere Fo Bi => (forall l, clookup (sphere_key Bi) (cs_memo s) = Some l -> ~ written h l) -> v = VNum (uptake_convection_sphere Fo Bi)
    | OWrite _ _ _ => v = VNone end) h outs.
Proof. intros E. now destruct (run_good (fun l => ~ written h l) h _ _ _ (good_init _) (fun l Hl => Hl) E) as (_ & _ & F). Qed.
(** Two calls return the same array exactly when all their arguments are the same, however much happens in between *)
Theorem C106_same h outs1 s1 k l c h2 outs2 s2 k' l' c' : crun (h ++ [OCall k]) cinit = (outs1 ++ [VArr (Ok (l, c))], s1) ->
  crun (h2 ++ [OCall k']) s1 = (outs2 ++ [VArr (Ok (l', c'))], s2) -> (l = l' <-> k = k').
Proof.
  assert (LAST : forall h s k outs l c s', crun (h ++ [OCall k]) s = (outs ++ [VArr (Ok (l, c))], s') -> good (fun _ => False) s -> good (fun _ => False) s' /\
    (forall k0 l, clookup k0 (cs_memo s) = Some l -> clookup k0 (cs_memo s') = Some l) /\ clookup k (cs_memo s') = Some l).
  { clear. intros h s k outs l c s' E G. destruct (run_good (fun _ => False) _ _ _ _ G (fun l F => match F with end) E) as (G' & M & _). split; [auto|]. split; [auto|].
    revert s outs E G M. induction h as [|o h IH]; intros s outs E G M.
    - cbn in E. destruct (cached_roots k s) as (r, s0) eqn:C. destruct (call_good _ _ _ _ _ G C) as (G0 & A & _). destruct r as [l0|e]; injection E as E1 E2.
      + destruct outs as [|? [|? ?]]; try discriminate. injection E1 as -> _. subst s'. now apply A.
      + destruct outs as [|? [|? ?]]; discriminate.
    - cbn in E. destruct (cstep o s) as (v, s0) eqn:S. destruct (crun (h ++ [OCall k]) s0) as (vs, s3) eqn:R. injection E as E1 E2. subst s3.
      assert (S1 : crun [o] s = ([v], s0)) by (cbn; now rewrite S). destruct (run_good (fun _ => False) _ _ _ _ G (fun l F => match F with end) S1) as (G0 & _ & _).
      destruct outs as [|v' outs].
      + exfalso. destruct h as [|o' h]; cbn in R.
        * destruct (cached_roots k s0) as ([?|?], ?); injection R as <- <-; discriminate.
        * destruct (cstep o' s0) as (v1, z1). destruct (crun (h ++ [OCall k]) z1) as (v2, z2). injection R as <- <-. discriminate.
      + cbn in E1. injection E1 as -> ->. apply (IH s0 outs R G0). destruct (run_good (fun _ => False) _ _ _ _ G0 (fun l F => match F with end) R) as (_ & M0 & _). exact M0. }
  intros E1 E2. destruct (LAST _ _ _ _ _ _ _ E1 (good_init _)) as (G1 & _ & L1). destruct (LAST _ _ _ _ _ _ _ E2 G1) as (G2 & M & L2). apply M in L1. split.
  - intros <-. destruct G2 as (_ & G2). eauto.
  - intros <-. congruence.
Qed.

Lemma four_fill rt x : four rt = Ok x -> fill rt 0 4 = Ok [x 0%nat; x 1%nat; x 2%nat; x 3%nat].
Proof.
  unfold four. cbn. destruct (rt 0%nat) as [a|]; [|discriminate]. cbn. destruct (rt 1%nat) as [b|]; [|discriminate]. cbn. destruct (rt 2%nat) as [c|]; [|discriminate]. cbn.
  destruct (rt 3%nat) as [d|]; [|discriminate]. cbn. intros E. injection E as <-. reflexivity.
Qed.
Lemma key_refl k : key_eqb k k = true.
Proof. now apply key_eqb_eq. Qed.
(** the arrays are never dropped: a program which evaluates the uptake for n different Biot numbers leaves n arrays behind, and evaluating it again adds none *)
Lemma sheets_grow Fo L : Fo <> 0 -> NoDup L -> (forall B, In B L -> 1 / 10 ^ 9 <= B) -> forall s, (forall B, In B L -> clookup (sheet_key B) (cs_memo s) = None) ->
  exists outs s', crun (map (OSheet Fo) L) s = (outs, s') /\ List.length (cs_heap s') = (List.length (cs_heap s) + List.length L)%nat /\
    (forall B, In B L -> exists l, clookup (sheet_key B) (cs_memo s') = Some l) /\ (forall k l, clookup k (cs_memo s) = Some l -> clookup k (cs_memo s') = Some l).
Proof.
  intros HF ND. induction L as [|B L IH]; intros HB s HS.
  - cbn. do 2 eexists. split; [reflexivity|]. split; [lia|]. split; [tauto|auto].
  - inversion ND as [|? ? NI ND']; subst. specialize (HS B (or_introl eq_refl)) as H0. assert (B0 : 1 / 10 ^ 9 <= B) by (apply HB; now left).
    destruct (sheet_core B B0) as (x & e & Ex & _). apply four_fill in Ex.
    assert (RP : roots_plain (sheet_key B) = Ok [x 0%nat; x 1%nat; x 2%nat; x 3%nat]) by exact Ex.
    cbn [map crun cstep]. unfold sheet_c at 1. rewrite (Reqb_f Fo 0), (Reqb_f B 0) by lra. cbn [negb andb]. unfold cached_roots. rewrite H0, RP.
    match goal with |- context [crun _ ?s1] => set (s1' := s1) end.
    destruct (IH ND' ltac:(intros B' I; apply HB; now right) s1') as (outs & s2 & R & LEN & ALL & M).
    { intros B' I. cbn. destruct (key_eqb (sheet_key B') (sheet_key B)) eqn:K. - apply key_eqb_eq in K. injection K as ->. contradiction. - apply HS. now right. }
    rewrite R. do 2 eexists. split; [reflexivity|]. split; [rewrite LEN; cbn; rewrite app_length; cbn; lia|]. split.
    + intros B' [<-|I]; [|auto]. exists (List.length (cs_heap s)). apply M. cbn. now rewrite key_refl.
    + intros k l E. apply M. cbn. destruct (key_eqb k (sheet_key B)) eqn:K; [|auto]. apply key_eqb_eq in K. subst k. congruence.
Qed.
Lemma sheets_again Fo L : Fo <> 0 -> (forall B, In B L -> B <> 0) -> forall s, (forall B, In B L -> exists l, clookup (sheet_key B) (cs_memo s) = Some l) ->
  exists outs, crun (map (OSheet Fo) L) s = (outs, s).
Proof.
  intros HF. induction L as [|B L IH]; intros HB s HS; [now exists []|]. destruct (HS B (or_introl eq_refl)) as (l & E). cbn [map crun cstep]. unfold sheet_c at 1.
  rewrite (Reqb_f Fo 0), (Reqb_f B 0) by (auto; apply HB; now left). cbn [negb andb]. unfold cached_roots. rewrite E.
  destruct (IH ltac:(intros B' I; apply HB; now right) s ltac:(intros B' I; apply HS; now right)) as (outs & R). rewrite R. eauto.
Qed.
Lemma crun_app h1 h2 s : crun (h1 ++ h2) s = let (o1, s1) := crun h1 s in let (o2, s2) := crun h2 s1 in (o1 ++ o2, s2).
Proof.
  revert s. induction h1 as [|o h1 IH]; intros s; cbn. - now destruct (crun h2 s). - destruct (cstep o s) as (v, s1). rewrite IH. destruct (crun h1 s1) as (o1, s2). now destruct (crun h2 s2).
Qed.
Theorem C106_growth Fo L n : Fo <> 0 -> NoDup L -> (forall B, In B L -> 1 / 10 ^ 9 <= B) -> exists outs s,
  crun (concat (repeat (map (OSheet Fo) L) (S n))) cinit = (outs, s) /\ List.length (cs_heap s) = List.length L.
Proof.
  intros HF ND HB. destruct (sheets_grow Fo L HF ND HB cinit ltac:(intros; reflexivity)) as (outs & s & R & LEN & ALL & _). cbn [repeat concat]. rewrite crun_app, R.
  assert (X : exists o, crun (concat (repeat (map (OSheet Fo) L) n)) s = (o, s)).
  { induction n as [|n (o & IH)]; [now exists []|]. cbn [repeat concat]. rewrite crun_app. destruct (sheets_again Fo L HF ltac:(intros B I; specialize (HB B I); lra) s ALL) as (o1 & ->). rewrite IH. eauto. }
  destruct X as (o & ->). do 2 eexists. split; [reflexivity|]. exact LEN.
Qed.

(** Finding: the array which roots_xtanx(Bi, 4) returns is the one which uptake_convection_sheet reads.  A caller who
    works on it in place changes the uptake computed afterwards, by every part of the program: here it is negative *)
Theorem C106_write_refuted : exists c c' v v0,
  fst (crun [OCall (sheet_key 3); OWrite 0 0 (1 / 1000); OSheet (1 / 5) 3; OCall (sheet_key 3)] cinit) = [VArr (Ok (0%nat, c)); VNone; VNum (Ok v); VArr (Ok (0%nat, c'))] /\
  roots_plain (sheet_key 3) = Ok c /\ c' <> c /\ v < - 1000 /\ uptake_convection_sheet (1 / 5) 3 = Ok v0 /\ 0 < v0 < 1.
Proof.
  destruct (sheet_core 3 ltac:(lra)) as (x & e & Ex & Hx & E0 & _ & HF). apply four_fill in Ex as EL.
  assert (RP : roots_plain (sheet_key 3) = Ok [x 0%nat; x 1%nat; x 2%nat; x 3%nat]) by exact EL.
  exists [x 0%nat; x 1%nat; x 2%nat; x 3%nat], [1 / 1000; x 1%nat; x 2%nat; x 3%nat].
  exists (uptake_conv_sheet (fun n => nth n [1 / 1000; x 1%nat; x 2%nat; x 3%nat] 0) (1 / 5) 3), (uptake_conv_sheet x (1 / 5) 3).
  assert (C1 : cstep (OCall (sheet_key 3)) cinit = (VArr (Ok (0%nat, [x 0%nat; x 1%nat; x 2%nat; x 3%nat])), mkC [(sheet_key 3, 0%nat)] [[x 0%nat; x 1%nat; x 2%nat; x 3%nat]])).
  { unfold cstep, cached_roots. cbn [cs_memo cinit clookup]. now rewrite RP. }
  assert (C2 : forall s c, cs_memo s = [(sheet_key 3, 0%nat)] -> arr s 0 = c -> cstep (OCall (sheet_key 3)) s = (VArr (Ok (0%nat, c)), s) /\
    cstep (OSheet (1 / 5) 3) s = (VNum (Ok (uptake_conv_sheet (fun n => nth n c 0) (1 / 5) 3)), s)).
  { intros s c M A. unfold cstep, sheet_c. rewrite !Reqb_f by lra. cbn [negb andb]. unfold cached_roots. rewrite M. unfold clookup. rewrite key_refl. rewrite A. auto. }
  assert (V : uptake_conv_sheet (fun n => nth n [1 / 1000; x 1%nat; x 2%nat; x 3%nat] 0) (1 / 5) 3 < - 1000).
  { unfold uptake_conv_sheet. rewrite !Reqb_f by lra. cbn [negb andb]. cbn [sumn nth]. destruct (Hx 1%nat ltac:(lia)) as (A1 & B1). destruct (Hx 2%nat ltac:(lia)) as (A2 & B2). destruct (Hx 3%nat ltac:(lia)) as (A3 & B3).
    assert (T : forall n, 0 < x n -> 0 < x n ^ 2 + 3 * (3 + 1) -> 0 < exp (- x n ^ 2 * (1 / 5)) / (x n ^ 2 * (x n ^ 2 + 3 * (3 + 1)))).
    { intros n P Q. apply Rdiv_lt_0_compat; [apply exp_pos|]. apply Rmult_lt_0_compat; [now apply pow_lt|auto]. }
    pose proof (T 1%nat A1 B1). pose proof (T 2%nat A2 B2). pose proof (T 3%nat A3 B3).
    assert (E : 1 / 2 <= exp (- (1 / 1000) ^ 2 * (1 / 5))) by (pose proof (exp_ineq1_le (- (1 / 1000) ^ 2 * (1 / 5))); lra).
    assert (10000 <= exp (- (1 / 1000) ^ 2 * (1 / 5)) / ((1 / 1000) ^ 2 * ((1 / 1000) ^ 2 + 3 * (3 + 1)))); [|lra].
    set (z := exp _) in *. set (d := (1 / 1000) ^ 2 * ((1 / 1000) ^ 2 + 3 * (3 + 1))). assert (D0 : 0 < d) by (unfold d; lra). apply (Rmult_le_reg_r d); [lra|]. unfold Rdiv. rewrite Rmult_assoc, Rinv_l by lra. unfold d. lra. }
  assert (U : uptake_convection_sheet (1 / 5) 3 = Ok (uptake_conv_sheet x (1 / 5) 3) /\ 0 < uptake_conv_sheet x (1 / 5) 3 < 1).
  { specialize (HF (1 / 5) ltac:(lra)). unfold uptake_convection_sheet, uptake_conv_sheet. rewrite !Reqb_f by lra. cbn [negb andb]. rewrite Ex. cbn [bind]. split; [reflexivity|lra]. }
  destruct U as (U1 & U2). split; [|split; [exact RP|split; [|split; [exact V|auto]]]].
  - cbn [crun]. rewrite C1. cbn [cstep cwrite arr cs_memo cs_heap nth set_nth]. set (s2 := cwrite _ _ _ _). destruct (C2 s2 _ eq_refl eq_refl) as (A & B). unfold cstep in A, B. rewrite B, A. reflexivity.
  - intros E. injection E as E. rewrite (sheet_ext _ x) in V; [lra|]. intros n Hn. destruct n as [|[|[|[|n]]]]; cbn; auto; lia.
Qed.
(** the same arguments with tolx written out are another entry: an assignment to that array does not reach the uptake *)
Example C106_case : exists c, fst (crun [OCall (mkKey FTan (Some 3) 4 (Some (1 / 10 ^ 6))); OWrite 0 0 (1 / 1000); OSheet (1 / 5) 3; OCall (sheet_key 3)] cinit)
  = [VArr (Ok (0%nat, c)); VNone; VNum (uptake_convection_sheet (1 / 5) 3); VArr (Ok (1%nat, c))] /\ roots_plain (sheet_key 3) = Ok c.
Proof.
  destruct (sheet_core 3 ltac:(lra)) as (x & e & Ex & _). apply four_fill in Ex as EL. exists [x 0%nat; x 1%nat; x 2%nat; x 3%nat]. split; [|exact EL].
  set (k := mkKey FTan (Some 3) 4 (Some (1 / 10 ^ 6))). assert (R1 : roots_plain k = Ok [x 0%nat; x 1%nat; x 2%nat; x 3%nat]) by exact EL.
  assert (R2 : roots_plain (sheet_key 3) = Ok [x 0%nat; x 1%nat; x 2%nat; x 3%nat]) by exact EL.
  assert (N : key_eqb (sheet_key 3) k = false) by (unfold key_eqb; cbn; now rewrite !andb_false_r).
  cbn [crun]. unfold cstep at 1, cached_roots. cbn [cs_memo cinit clookup]. rewrite R1. cbn [cstep cwrite arr cs_memo cs_heap nth set_nth List.length app].
  unfold sheet_c, uptake_convection_sheet. rewrite !Reqb_f by lra. cbn [negb andb]. unfold cached_roots. unfold cwrite. cbn [cs_memo cs_heap clookup]. rewrite N, R2. cbn [cs_memo clookup]. rewrite key_refl, Ex. cbn.
  do 3 f_equal.
Qed.

Print Assumptions C106_pure.
Print Assumptions C106_isolated.
Print Assumptions C106_same.
Print Assumptions C106_growth.
Print Assumptions C106_write_refuted.
