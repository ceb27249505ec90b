(** C107 — constructors of the equations of state: which arguments are accepted, what the object holds. *)
From Coq Require Import Reals Lra Lia List Bool Arith.
From Verif Require Import Prelude UtilsModel UtilsProps CacheModel CacheProps.
Import ListNotations.
Open Scope R_scope.

(** the array which an argument stands for *)
Definition arg_nd (h : ndheap) (a : varg) : nd :=
  match a with AScalar x => mkNd [1%nat] [x] | ASeq l => mkNd [List.length l] l | AArray l => nth l h (mkNd [] [0]) end.
(** an array argument is an array of the program *)
Definition known (h : ndheap) (a : varg) : Prop := match a with AArray l => (l < List.length h)%nat | _ => True end.
Definition is_array (a : varg) : Prop := match a with AArray _ => True | _ => False end.

Lemma nd_app h e l : (l < List.length h)%nat -> nd_at (h ++ e) l = nd_at h l.
Proof. intros H. unfold nd_at. now apply app_nth1. Qed.
Lemma conv_items_spec a : forall h ls h', (forall x, In x a -> known h x) -> conv_items a h = (ls, h') ->
  exists e, h' = h ++ e /\ List.length ls = List.length a /\ forall p, (p < List.length a)%nat ->
    nd_at h' (nth p ls 0%nat) = arg_nd h (nth p a (AScalar 0)) /\ (nth p ls 0%nat < List.length h')%nat /\
    match nth p a (AScalar 0) with AArray l => nth p ls 0%nat = l | _ => (List.length h <= nth p ls 0%nat)%nat end.
Proof.
  induction a as [|x a IH]; intros h ls h' K E; cbn in E.
  - injection E as <- <-. exists []. rewrite app_nil_r. repeat split; auto; cbn in *; lia.
  - destruct (conv_item x h) as (l, h1) eqn:C. destruct (conv_items a h1) as (ls', h2) eqn:R. injection E as <- <-.
    assert (X : exists e1, h1 = h ++ e1 /\ nd_at h1 l = arg_nd h x /\ (l < List.length h1)%nat /\ match x with AArray l0 => l = l0 | _ => (List.length h <= l)%nat end).
    { specialize (K x (or_introl eq_refl)). destruct x as [v|v|v]; cbn in C; injection C as <- <-.
      - eexists. split; [reflexivity|]. unfold nd_at. rewrite app_nth2, Nat.sub_diag, app_length by lia. cbn. repeat split; lia.
      - eexists. split; [reflexivity|]. unfold nd_at. rewrite app_nth2, Nat.sub_diag, app_length by lia. cbn. repeat split; lia.
      - exists []. rewrite app_nil_r. cbn in K. auto. }
    destruct X as (e1 & -> & A & B & D).
    assert (KI : forall y, In y a -> known (h ++ e1) y). { intros y I. specialize (K y (or_intror I)). destruct y; cbn in *; auto. rewrite app_length. lia. }
    assert (AN : forall y, In y a -> arg_nd (h ++ e1) y = arg_nd h y). { intros y I. specialize (K y (or_intror I)). destruct y; cbn in *; auto. now apply app_nth1. }
    destruct (IH _ _ _ KI R) as (e2 & -> & L & P). exists (e1 ++ e2). split; [now rewrite app_assoc|]. split; [cbn; now rewrite L|]. intros [|p] Hp; cbn [nth].
    + rewrite nd_app by auto. split; [auto|]. split; [rewrite app_length; lia|auto].
    + cbn in Hp. destruct (P p ltac:(lia)) as (P1 & P2 & P3). rewrite AN in P1 by (apply nth_In; lia). split; [auto|]. split; [auto|]. destruct (nth p a (AScalar 0)); auto; rewrite app_length in P3; lia.
Qed.
Lemma nth_shapes a h ls h' : (forall x, In x a -> known h x) -> conv_items a h = (ls, h') -> map (fun l => nd_shape (nd_at h' l)) ls = map (fun x => nd_shape (arg_nd h x)) a.
Proof.
  intros K E. destruct (conv_items_spec a h ls h' K E) as (e & _ & L & P). apply (nth_ext _ _ [] []); [now rewrite !map_length|]. rewrite map_length. intros p Hp.
  rewrite (nth_indep _ [] (nd_shape (nd_at h' 0%nat))), (map_nth (fun l => nd_shape (nd_at h' l))) by (now rewrite map_length).
  rewrite (nth_indep _ [] (nd_shape (arg_nd h (AScalar 0)))), (map_nth (fun x => nd_shape (arg_nd h x))) by (rewrite map_length; lia).
  now destruct (P p ltac:(lia)) as (-> & _).
Qed.

Lemma init_cases pars k h : pars <> [] -> (forall x, In x pars -> known h x) -> let shp := fun x => nd_shape (arg_nd h x) in exists ls e, conv_items pars h = (ls, h ++ e) /\
  (((forall x, In x pars -> shp x = []) /\ eos_init pars k h = (Err TypeError, h ++ e)) \/
   (exists n s, (forall x, In x pars -> shp x = n :: s) /\ eos_init pars k h = (Ok (mkEos n ls k), h ++ e)) \/
   ((exists x y, In x pars /\ In y pars /\ shp x <> shp y) /\ eos_init pars k h = (Err ShapeError, h ++ e))).
Proof.
  intros NE KN shp. destruct (conv_items pars h) as (ls, h') eqn:C. destruct (conv_items_spec _ _ _ _ KN C) as (e & -> & L & P). exists ls, e. split; [reflexivity|].
  unfold eos_init, to_vectors. rewrite C. rewrite (nth_shapes _ _ _ _ KN C). change (fun x : varg => nd_shape (arg_nd h x)) with shp.
  destruct pars as [|x0 r] eqn:EP; [congruence|]. destruct ls as [|l0 ls']; [discriminate|]. destruct (P 0%nat ltac:(cbn; lia)) as (P0 & _). cbn [nth] in P0.
  destruct (C64_check_shapes (map shp (x0 :: r)) []) as (S1 & S2 & S3). destruct (check_shapes (map shp (x0 :: r)) []) as [[s|]|er] eqn:CS; cbn [bind hd]; unfold nd_len; try rewrite P0; try change (nd_shape (arg_nd h x0)) with (shp x0).
  - destruct (proj1 (S1 s) eq_refl) as (A & _ & B & _). assert (Q : forall x, In x (x0 :: r) -> shp x = s) by (intros x I; apply B; now apply in_map). rewrite (Q x0) by now left. destruct s as [|n s]; [congruence|]. right. left. exists n, s. auto.
  - left. assert (Q : forall x, In x (x0 :: r) -> shp x = []) by (intros x I; apply (proj1 S2 eq_refl); left; now apply in_map). rewrite (Q x0) by now left. auto.
  - right. right. split; [|now rewrite (S3 er eq_refl)].
    destruct (list_eq_dec Nat.eq_dec (shp x0) []) as [Z|Z].
    + destruct (Exists_dec (fun x => shp x <> []) r) as [X|X]. { intros x. destruct (list_eq_dec Nat.eq_dec (shp x) []); [right|left]; congruence. }
      * apply Exists_exists in X as (y & I & N). exists x0, y. split; [now left|]. split; [now right|]. congruence.
      * exfalso. assert (F : @Err (option shape) er = Ok None); [|discriminate]. apply S2. intros t [I|[]]. apply in_map_iff in I as (y & <- & [<-|I]); [auto|].
        destruct (list_eq_dec Nat.eq_dec (shp y) []) as [|N]; [auto|]. exfalso. apply X. apply Exists_exists. eauto.
    + destruct (Exists_dec (fun x => shp x <> shp x0) r) as [X|X]. { intros x. destruct (list_eq_dec Nat.eq_dec (shp x) (shp x0)); [right|left]; congruence. }
      * apply Exists_exists in X as (y & I & N). exists x0, y. split; [now left|]. split; [now right|]. congruence.
      * exfalso. assert (F : @Err (option shape) er = Ok (Some (shp x0))); [|discriminate]. apply S1. split; [auto|]. split; [discriminate|]. split; [|intros t []]. intros t I. apply in_map_iff in I as (y & <- & [<-|I]); [auto|].
        destruct (list_eq_dec Nat.eq_dec (shp y) (shp x0)) as [|N]; [auto|]. exfalso. apply X. apply Exists_exists. eauto.
Qed.

(** An equation of state is constructed exactly when all parameters have one and the same shape with at least one dimension
    (a number counts as a vector of one element); the number of components is its first dimension.  Parameters of different
    shapes raise ShapeError (a number is not extended to the others), zero-dimensional arrays TypeError.  k is never looked at *)
Theorem C107_accepts pars k h : pars <> [] -> (forall x, In x pars -> known h x) ->
  ((exists o, fst (eos_init pars k h) = Ok o) <-> exists n s, forall x, In x pars -> nd_shape (arg_nd h x) = n :: s) /\
  (forall o, fst (eos_init pars k h) = Ok o -> eo_k o = k /\ List.length (eo_par o) = List.length pars /\ forall x, In x pars -> hd_error (nd_shape (arg_nd h x)) = Some (eo_N o)) /\
  (fst (eos_init pars k h) = Err ShapeError <-> exists x y, In x pars /\ In y pars /\ nd_shape (arg_nd h x) <> nd_shape (arg_nd h y)) /\
  (fst (eos_init pars k h) = Err TypeError <-> forall x, In x pars -> nd_shape (arg_nd h x) = []) /\
  (forall e, fst (eos_init pars k h) = Err e -> e = ShapeError \/ e = TypeError).
Proof.
  intros NE KN. destruct (init_cases pars k h NE KN) as (ls & e & C & X). destruct (conv_items_spec _ _ _ _ KN C) as (_ & _ & L & _).
  destruct pars as [|x0 r] eqn:EP; [congruence|]. rewrite <- EP in *. assert (I0 : In x0 pars) by (rewrite EP; now left). clear EP.
  destruct X as [(A & ->)|[(n & s & A & ->)|((x & y & Ix & Iy & N) & ->)]]; cbn [fst].
  - split; [|split; [|split; [|split]]].
    + split; [intros (o & E); discriminate|]. intros (n & s & B). specialize (B x0 I0). rewrite (A x0 I0) in B. discriminate.
    + discriminate.
    + split; [discriminate|]. intros (x & y & Ix & Iy & N). rewrite (A x Ix), (A y Iy) in N. congruence.
    + split; auto.
    + intros e0 E. right. congruence.
  - split; [|split; [|split; [|split]]].
    + split; eauto.
    + intros o E. injection E as <-. cbn. split; [auto|]. split; [auto|]. intros x I. now rewrite (A x I).
    + split; [discriminate|]. intros (x & y & Ix & Iy & N). rewrite (A x Ix), (A y Iy) in N. congruence.
    + split; [discriminate|]. intros B. specialize (B x0 I0). rewrite (A x0 I0) in B. discriminate.
    + discriminate.
  - split; [|split; [|split; [|split]]].
    + split; [intros (o & E); discriminate|]. intros (n & s & B). rewrite (B x Ix), (B y Iy) in N. congruence.
    + discriminate.
    + split; eauto.
    + split; [discriminate|]. intros B. rewrite (B x Ix), (B y Iy) in N. congruence.
    + intros e0 E. left. congruence.
Qed.
(** The object holds exactly the values which were passed, in the order of the signature, and no array of the program is changed *)
Theorem C107_values pars k h o h' : pars <> [] -> (forall x, In x pars -> known h x) -> eos_init pars k h = (Ok o, h') ->
  (forall p i, (p < List.length pars)%nat -> eo_elem o p i h' = nth i (nd_data (arg_nd h (nth p pars (AScalar 0)))) 0) /\
  (forall l, (l < List.length h)%nat -> nth l h' (mkNd [] [0]) = nth l h (mkNd [] [0])).
Proof.
  intros NE KN E. destruct (init_cases pars k h NE KN) as (ls & e & C & X). destruct (conv_items_spec _ _ _ _ KN C) as (_ & _ & L & P).
  destruct X as [(A & Q)|[(n & s & A & Q)|(_ & Q)]]; rewrite Q in E; [discriminate| |discriminate]. injection E as <- <-. split.
  - intros p i Hp. unfold eo_elem. cbn. now destruct (P p Hp) as (-> & _).
  - intros l Hl. now apply app_nth1.
Qed.
(** assignments to arrays, in order *)
Definition writes (ws : list (nat * nat * R)) (h : ndheap) : ndheap := fold_left (fun h w => nd_write (fst (fst w)) (snd (fst w)) (snd w) h) ws h.
Lemma write_other l i v h l' : l <> l' -> nd_at (nd_write l i v h) l' = nd_at h l'.
Proof. intros N. unfold nd_at, nd_write. now apply set_other. Qed.
(** A parameter given as a number or as a sequence is copied: nothing the program does later to arrays which it held before can change it *)
Theorem C107_copied pars k h o h' ws p i : pars <> [] -> (forall x, In x pars -> known h x) -> eos_init pars k h = (Ok o, h') -> (p < List.length pars)%nat ->
  ~ is_array (nth p pars (AScalar 0)) -> (forall w, In w ws -> (fst (fst w) < List.length h)%nat) ->
  eo_elem o p i (writes ws h') = nth i (nd_data (arg_nd h (nth p pars (AScalar 0)))) 0.
Proof.
  intros NE KN E Hp NA HW. rewrite <- (proj1 (C107_values pars k h o h' NE KN E) p i Hp).
  destruct (init_cases pars k h NE KN) as (ls & e & C & X). destruct (conv_items_spec _ _ _ _ KN C) as (_ & _ & L & P). destruct (P p Hp) as (_ & P2 & P3).
  destruct X as [(A & Q)|[(n & s & A & Q)|(_ & Q)]]; rewrite Q in E; [discriminate| |discriminate]. injection E as <- <-. clear Q A C P. unfold eo_elem. cbn. f_equal. f_equal.
  assert (FR : (List.length h <= nth p ls 0)%nat) by (destruct (nth p pars (AScalar 0)); auto; cbn in NA; tauto). clear NA P2 P3. revert HW. generalize (h ++ e) as g.
  induction ws as [|w ws IH]; intros g HW; [reflexivity|]. cbn [writes fold_left]. change (nd_at (writes ws (nd_write (fst (fst w)) (snd (fst w)) (snd w) g)) (nth p ls 0%nat) = nd_at g (nth p ls 0%nat)).
  rewrite IH by (intros; apply HW; now right). apply write_other. specialize (HW w (or_introl eq_refl)). lia.
Qed.
(** Finding: an array is not copied.  The object shares it with the caller, whose later assignment to any element changes
    the parameter of every object which was built from that array *)
Theorem C107_shared_refuted pars k h o h' p l i v : pars <> [] -> (forall x, In x pars -> known h x) -> eos_init pars k h = (Ok o, h') -> (p < List.length pars)%nat ->
  nth p pars (AScalar 0) = AArray l -> (i < List.length (nd_data (arg_nd h (AArray l))))%nat -> eo_elem o p i (nd_write l i v h') = v.
Proof.
  intros NE KN E Hp EA Hi. destruct (init_cases pars k h NE KN) as (ls & e & C & X). destruct (conv_items_spec _ _ _ _ KN C) as (_ & _ & L & P). destruct (P p Hp) as (P1 & P2 & P3).
  destruct X as [(A & Q)|[(n & s & A & Q)|(_ & Q)]]; rewrite Q in E; [discriminate| |discriminate]. injection E as <- <-. rewrite EA in P1, P3. unfold eo_elem. cbn. rewrite P3 in *.
  unfold nd_write, nd_at at 1. rewrite set_same by auto. cbn. apply set_same. rewrite P1. exact Hi.
Qed.
(** The parameters of the cubic and the virial equations, one by one *)
Theorem C107_parameters Tc Pc Zc w k h : known h Tc -> known h Pc -> known h Zc -> known h w ->
  (forall o h', cubic_init Tc Pc w k h = (Ok o, h') -> eo_k o = k /\ forall i, eo_elem o 0 i h' = nth i (nd_data (arg_nd h Tc)) 0 /\ eo_elem o 1 i h' = nth i (nd_data (arg_nd h Pc)) 0 /\
    eo_elem o 2 i h' = nth i (nd_data (arg_nd h w)) 0) /\
  (forall o h', virial_init Tc Pc Zc w h = (Ok o, h') -> forall i, eo_elem o 0 i h' = nth i (nd_data (arg_nd h Tc)) 0 /\ eo_elem o 1 i h' = nth i (nd_data (arg_nd h Pc)) 0 /\
    eo_elem o 2 i h' = nth i (nd_data (arg_nd h Zc)) 0 /\ eo_elem o 3 i h' = nth i (nd_data (arg_nd h w)) 0).
Proof.
  intros K1 K2 K3 K4. split.
  - intros o h' E. assert (KN : forall x, In x [Tc; Pc; w] -> known h x) by (intros x [<-|[<-|[<-|[]]]]; auto). assert (NE : [Tc; Pc; w] <> []) by discriminate.
    destruct (C107_accepts _ k h NE KN) as (_ & A & _). unfold cubic_init in E. rewrite E in A. destruct (A o eq_refl) as (-> & _). split; [auto|]. intros i.
    destruct (C107_values _ _ _ _ _ NE KN E) as (V & _). now rewrite (V 0%nat i), (V 1%nat i), (V 2%nat i) by (cbn; lia).
  - intros o h' E i. assert (KN : forall x, In x [Tc; Pc; Zc; w] -> known h x) by (intros x [<-|[<-|[<-|[<-|[]]]]]; auto). assert (NE : [Tc; Pc; Zc; w] <> []) by discriminate.
    destruct (C107_values _ _ _ _ _ NE KN E) as (V & _). now rewrite (V 0%nat i), (V 1%nat i), (V 2%nat i), (V 3%nat i) by (cbn; lia).
Qed.
(** RedlichKwong needs Tc and Pc of one shape; its acentric factors are zero and its own *)
Theorem C107_redlich Tc Pc k h : known h Tc -> known h Pc ->
  ((exists o, fst (rk_init Tc Pc k h) = Ok o) <-> exists n s, nd_shape (arg_nd h Tc) = n :: s /\ nd_shape (arg_nd h Pc) = n :: s) /\
  (forall o h', rk_init Tc Pc k h = (Ok o, h') -> forall i, eo_elem o 0 i h' = nth i (nd_data (arg_nd h Tc)) 0 /\ eo_elem o 1 i h' = nth i (nd_data (arg_nd h Pc)) 0 /\
    eo_elem o 2 i h' = 0 /\ (List.length h <= nth 2 (eo_par o) 0)%nat).
Proof.
  intros KT KP.
  assert (X : exists w g, rk_init Tc Pc k h = cubic_init Tc Pc w k g /\ (forall x, known h x -> known g x /\ arg_nd g x = arg_nd h x) /\ known g w /\ nd_shape (arg_nd g w) = nd_shape (arg_nd h Tc) /\
    (forall i, nth i (nd_data (arg_nd g w)) 0 = 0) /\ match w with AArray l => (List.length h <= l)%nat | _ => (List.length h <= List.length g)%nat end).
  { assert (Z : forall l i, nth i (map (fun _ : R => 0) l) 0 = 0) by (intros l; induction l; intros [|i]; cbn; auto).
    destruct Tc as [x|l|t]; cbn [rk_init].
    - exists (AScalar 0), h. cbn. split; [reflexivity|]. split; [auto|]. repeat split; auto. intros [|[|i]]; reflexivity.
    - do 2 eexists. split; [reflexivity|]. split; [intros [?|?|a] K; cbn in *; split; auto; [rewrite app_length; lia|now apply app_nth1]|]. cbn. rewrite app_length, app_nth2, Nat.sub_diag by lia. cbn. repeat split; auto; lia.
    - do 2 eexists. split; [reflexivity|]. split; [intros [?|?|a] K; cbn in *; split; auto; [rewrite app_length; lia|now apply app_nth1]|]. cbn. rewrite app_length, app_nth2, Nat.sub_diag by lia. cbn. repeat split; auto; lia. }
  destruct X as (w & g & -> & KG & KW & SW & ZW & FW). destruct (KG Tc KT) as (KT' & AT). destruct (KG Pc KP) as (KP' & AP). unfold cubic_init.
  assert (KN : forall x, In x [Tc; Pc; w] -> known g x) by (intros x [<-|[<-|[<-|[]]]]; auto). assert (NE : [Tc; Pc; w] <> []) by discriminate. split.
  - destruct (C107_accepts [Tc; Pc; w] k g NE KN) as (-> & _). split.
    + intros (n & s & A). exists n, s. rewrite <- AT, <- AP. split; apply A; cbn; auto.
    + intros (n & s & A & B). exists n, s. rewrite <- AT in A, SW. rewrite <- AP in B. intros x [<-|[<-|[<-|[]]]]; auto. congruence.
  - intros o h' E i. destruct (C107_values _ _ _ _ _ NE KN E) as (V & _). rewrite (V 0%nat i), (V 1%nat i), (V 2%nat i) by (cbn; lia). cbn [nth]. rewrite AT, AP, ZW. split; [auto|]. split; [auto|]. split; [auto|].
    destruct (init_cases _ k g NE KN) as (ls & e & C & X). destruct (conv_items_spec _ _ _ _ KN C) as (_ & _ & L & P). destruct (P 2%nat ltac:(cbn; lia)) as (_ & _ & P3). cbn [nth] in P3.
    destruct X as [(A & Q)|[(n & s & A & Q)|(_ & Q)]]; rewrite Q in E; [discriminate| |discriminate]. injection E as <- <-. cbn. destruct w; lia.
Qed.

Lemma reads_in N i j : In (i, j) (k_reads N) <-> (i < j < N)%nat.
Proof.
  unfold k_reads. rewrite in_concat. split.
  - intros (l & I & J). apply in_map_iff in I as (i' & <- & I). apply in_map_iff in J as (j' & E & J). apply in_seq in I, J. injection E as <- <-. lia.
  - intros H. eexists. split; [apply in_map_iff; exists i; split; [reflexivity|apply in_seq; lia]|]. apply in_map_iff. exists j. split; [auto|apply in_seq; lia].
Qed.
(** k is used by the mixing rule only: for N components it is read above the diagonal, and IndexError is raised exactly if it has less than N - 1 rows or N columns *)
Theorem C107_k_reads N r c : (am_shape N r c = Ok tt <-> (N <= 1)%nat \/ (N <= S r /\ N <= c)%nat) /\ (am_shape N r c <> Ok tt -> am_shape N r c = Err IndexError).
Proof.
  unfold am_shape. destruct (forallb _ _) eqn:F.
  - split; [|congruence]. split; [|auto]. intros _. rewrite forallb_forall in F. destruct (le_lt_dec N 1) as [|L]; [now left|right].
    specialize (F (N - 2, N - 1)%nat). cbn [fst snd] in F. rewrite reads_in, andb_true_iff, !Nat.ltb_lt in F. specialize (F ltac:(lia)). lia.
  - split; [|auto]. split; [discriminate|]. intros H. exfalso. apply not_true_iff_false in F. apply F. apply forallb_forall. intros (i, j) I. apply reads_in in I. cbn [fst snd]. rewrite andb_true_iff, !Nat.ltb_lt. lia.
Qed.
(** Finding: an object with a matrix k of the wrong size is constructed all the same; the mistake shows up as an IndexError of the
    first mixture calculation, or never if k is too large *)
Theorem C107_k_refuted : exists Tc Pc w k h o h', nd_shape (nth k h (mkNd [] [0])) = [1; 1]%nat /\ cubic_init Tc Pc w (Some k) h = (Ok o, h') /\ eo_N o = 2%nat /\
  am_shape (eo_N o) 1 1 = Err IndexError /\ am_shape (eo_N o) 5 5 = Ok tt.
Proof.
  exists (ASeq [300; 400]), (ASeq [40; 50]), (ASeq [1; 2]), 0%nat, [mkNd [1; 1]%nat [1 / 10]]. do 2 eexists. split; [reflexivity|]. split; [reflexivity|]. repeat split.
Qed.
(** Finding: two-dimensional parameters are accepted although vectors are required; the object then has as many components as there are rows *)
Theorem C107_dims_refuted : exists a h o h', nd_shape (nth a h (mkNd [] [0])) = [2; 3]%nat /\ cubic_init (AArray a) (AArray a) (AArray a) None h = (Ok o, h') /\ eo_N o = 2%nat /\ List.length (nd_data (nth a h' (mkNd [] [0]))) = 6%nat.
Proof. exists 0%nat, [mkNd [2; 3]%nat [1; 2; 3; 4; 5; 6]]. do 2 eexists. split; [reflexivity|]. split; [reflexivity|]. split; reflexivity. Qed.

(** a binary mixture from a list, an array and a tuple, and a number among lists *)
Example C107_case : let h := [mkNd [2%nat] [4 * 10 ^ 6; 5 * 10 ^ 6]] in
  (exists o h', cubic_init (ASeq [300; 400]) (AArray 0) (ASeq [1 / 10; 2 / 10]) None h = (Ok o, h') /\ eo_N o = 2%nat /\ eo_elem o 0 1 h' = 400 /\ eo_elem o 1 0 h' = 4 * 10 ^ 6 /\
     eo_elem o 1 0 (nd_write 0 0 7 h') = 7 /\ eo_elem o 0 0 (nd_write 0 0 7 h') = 300) /\
  fst (cubic_init (ASeq [300; 400]) (AArray 0) (AScalar 0) None h) = Err ShapeError /\ fst (virial_init (AScalar 1) (AScalar 2) (ASeq [3]) (AScalar 4) h) = Ok (mkEos 1 [1; 2; 3; 4]%nat None).
Proof. cbn. split; [do 2 eexists; split; [reflexivity|]; repeat split|]. split; reflexivity. Qed.

Print Assumptions C107_accepts.
Print Assumptions C107_copied.
Print Assumptions C107_redlich.
