(** C112: the plots of a copolymerization model. *)
From Coq Require Import Reals Lra Lia List Bool Arith String.
From Verif Require Import Prelude UtilsModel CopoDataModel DistPlotModel DistPlotProps CopoPlotModel.
Import ListNotations.
Open Scope R_scope.

Lemma flip_flip l : flip (flip l) = l.
Proof. unfold flip. rewrite map_map. rewrite <- (map_id l) at 2. apply map_ext. intros a. ring. Qed.

(** The points of a data set in terms of the first monomer of the model, whichever monomer the
    data set itself calls the first. *)
Definition orient (M1 : string) (d : dataset) (l : list R) : list R := if String.eqb M1 (ds_M1 d) then l else map (fun a => 1 - a) l.
(** every data set concerns the two monomers of the model *)
Definition belongs (M1 M2 : string) (d : dataset) : Prop := (ds_M1 d = M1 /\ ds_M2 d = M2) \/ (ds_M1 d = M2 /\ ds_M2 d = M1).
Definition pairM (M1 M2 : string) : Prop := M1 <> M2 /\ M1 <> ""%string /\ M2 <> ""%string.

Lemma getvar1 M1 M2 d v b : pairM M1 M2 -> belongs M1 M2 d -> varmap (ds_kind d) v = Some b ->
  getvar d v M1 = Ok (orient M1 d (if b then ds_x d else ds_y d)) /\ getvar d v M2 = Ok (flip (orient M1 d (if b then ds_x d else ds_y d))).
Proof.
  intros (N & E1 & E2) B V. unfold getvar, orient. rewrite V. apply String.eqb_neq in E1, E2. rewrite E1, E2.
  destruct B as [(-> & ->)|(-> & ->)].
  - rewrite String.eqb_refl. split; [reflexivity|]. rewrite (proj2 (String.eqb_neq M2 M1)) by congruence. now rewrite String.eqb_refl.
  - rewrite (proj2 (String.eqb_neq M1 M2)) by congruence. rewrite !String.eqb_refl. split; [reflexivity|]. f_equal. symmetry. apply flip_flip.
Qed.
Lemma getvar0 d v b : varmap (ds_kind d) v = Some b -> getvar d v "" = Ok (if b then ds_x d else ds_y d).
Proof. intros V. unfold getvar. now rewrite V. Qed.

Lemma is_kind_eq k d : is_kind k d = true <-> ds_kind d = k.
Proof. unfold is_kind. destruct k, (ds_kind d); split; easy. Qed.
Lemma over_eq k f g l : (forall d, In d l -> ds_kind d = k -> f d = Ok (g d)) -> over k f l = Ok (flat_map g (filter (is_kind k) l)).
Proof.
  induction l as [|d l IH]; intros H; cbn [over filter flat_map]; [reflexivity|]. rewrite IH by (intros e He; apply H; now right).
  destruct (is_kind k d) eqn:E; cbn [bind]; [|reflexivity]. rewrite H; [reflexivity|now left|now apply is_kind_eq].
Qed.
Lemma flat_single {A B} (f : A -> B) l : flat_map (fun d => [f d]) l = map f l.
Proof. induction l; cbn; [reflexivity|]. now rewrite IHl. Qed.

(** what is shown for "auto" *)
Definition shows (data : list dataset) (show : string) : string :=
  if String.eqb show "auto" then (match data with [] => "model" | _ => "all" end)%string else show.
Definition is_show (s : string) : Prop := In s ["auto"; "all"; "data"; "model"]%string.
Lemma check_show s : is_show s -> check_in_set (inl s) ["auto"; "all"; "data"; "model"]%string = Ok (inl s).
Proof. intros [<-|[<-|[<-|[<-|[]]]]]; reflexivity. Qed.

(** Arguments outside the documented sets, a missing f0 or T, and a composition outside [0, 1] are
    rejected; triads are not implemented. *)
Theorem C112_rejects M1 M2 F1 drift kpT kpd data kind show M f0 hasT :
  let p := copo_plot M1 M2 F1 drift kpT kpd data kind show M f0 hasT in
  (~ (M = 1%nat \/ M = 2%nat) \/ ~ In kind ["Mayo"; "kp"; "drift"; "triads"]%string \/ ~ is_show show -> p = Err ValueError) /\
  ((M = 1%nat \/ M = 2%nat) -> is_show show ->
    (kind = "triads"%string -> p = Err NotImplementedErr) /\
    (shows data show = "model"%string -> kind = "drift"%string -> (f0 = None -> p = Err ValueError) /\ (forall l, f0 = Some l -> ~ List.Forall (fun a => 0 <= a <= 1) l -> p = Err RangeError)) /\
    (shows data show = "model"%string -> kind = "kp"%string -> hasT = false -> p = Err ValueError)).
Proof.
  intros p. unfold p, copo_plot. split.
  - intros H. destruct (Nat.eqb M 1 || Nat.eqb M 2) eqn:EM; cbn [negb]; [|reflexivity].
    assert (HM : M = 1%nat \/ M = 2%nat) by (apply orb_true_iff in EM; destruct EM as [E|E]; apply Nat.eqb_eq in E; auto).
    unfold check_in_set. cbn [elems forallb]. rewrite !andb_true_r.
    destruct (existsb (String.eqb kind) _) eqn:EK; cbn [bind]; [|reflexivity]. destruct (existsb (String.eqb show) _) eqn:ES; cbn [bind]; [|reflexivity]. exfalso.
    apply existsb_exists in EK, ES. destruct EK as (k & K1 & K2), ES as (s & S1 & S2). apply String.eqb_eq in K2, S2. subst k s. destruct H as [H|[H|H]]; auto.
  - intros HM HS. replace (Nat.eqb M 1 || Nat.eqb M 2) with true by (destruct HM as [->| ->]; reflexivity). cbn [negb]. rewrite check_show by exact HS. cbn [bind].
    fold (shows data show). split; [intros ->; reflexivity|]. split.
    + intros E ->. replace (check_in_set (inl "drift"%string) ["Mayo"; "kp"; "drift"; "triads"]%string) with (@Ok (string + list string) (inl "drift"%string)) by reflexivity. cbn [bind String.eqb Ascii.eqb Bool.eqb]. rewrite E. cbn [String.eqb Ascii.eqb Bool.eqb]. split.
      * intros ->. reflexivity.
      * intros l -> NF. unfold check_bounds. destruct (forallb (between (Fin 0) (Fin 1)) (map Fin l)) eqn:B; [|reflexivity]. exfalso. apply NF. apply Forall_forall. intros a Ha. rewrite forallb_forall in B. specialize (B (Fin a) (in_map Fin l a Ha)). unfold between in B. cbn in B. apply andb_true_iff in B. destruct B as (B1 & B2). apply Rleb_true in B1, B2. lra.
    + intros E -> ->. replace (check_in_set (inl "kp"%string) ["Mayo"; "kp"; "drift"; "triads"]%string) with (@Ok (string + list string) (inl "kp"%string)) by reflexivity. cbn [bind String.eqb Ascii.eqb Bool.eqb]. rewrite E. reflexivity.
Qed.

(** Composition diagram: the diagonal, the curve of the model unless only data are shown, the
    points of every Mayo data set unless only the model is shown. *)
Theorem C112_Mayo M1 M2 F1 drift kpT kpd data show f0 hasT : pairM M1 M2 -> List.Forall (belongs M1 M2) data -> is_show show ->
  copo_plot M1 M2 F1 drift kpT kpd data "Mayo" show 1 f0 hasT =
  Ok (Line [0; 1] [0; 1] :: (if String.eqb (shows data show) "data" then [] else [Line grid (map F1 grid)]) ++
      (if String.eqb (shows data show) "model" then [] else map (fun d => Points (orient M1 d (ds_x d)) (orient M1 d (ds_y d))) (filter (is_kind Mayo) data))).
Proof.
  intros P FB HS. unfold copo_plot. rewrite check_show by exact HS. replace (check_in_set (inl "Mayo"%string) ["Mayo"; "kp"; "drift"; "triads"]%string) with (@Ok (string + list string) (inl "Mayo"%string)) by reflexivity.
  cbn [Nat.eqb orb negb bind String.eqb Ascii.eqb Bool.eqb]. fold (shows data show).
  rewrite (over_eq Mayo _ (fun d => [Points (orient M1 d (ds_x d)) (orient M1 d (ds_y d))])).
  2:{ intros d Hd K. rewrite List.Forall_forall in FB. destruct (getvar1 M1 M2 d "f" true P (FB d Hd)) as (-> & _); [rewrite K; reflexivity|]. cbn [bind]. destruct (getvar1 M1 M2 d "F" false P (FB d Hd)) as (-> & _); [rewrite K; reflexivity|]. reflexivity. }
  rewrite flat_single. assert (S : In (shows data show) ["all"; "data"; "model"]%string) by (unfold shows; destruct HS as [<-|[<-|[<-|[<-|[]]]]]; destruct data; cbn; auto).
  destruct S as [<-|[<-|[<-|[]]]]; reflexivity.
Qed.

(** Drift diagram: curves for the given compositions when only the model is shown, else the points
    of every drift data set, each with a curve that starts at its first composition when everything
    is shown. *)
Theorem C112_drift M1 M2 F1 drift kpT kpd data show f0 hasT : pairM M1 M2 -> List.Forall (belongs M1 M2) data -> is_show show -> (forall d, In d data -> ds_y d <> []) ->
  let p := copo_plot M1 M2 F1 drift kpT kpd data "drift" show 1 f0 hasT in
  (forall l, shows data show = "model"%string -> f0 = Some l -> List.Forall (fun a => 0 <= a <= 1) l -> p = Ok (map (fun a => Line grid (map (drift a) grid)) l)) /\
  (shows data show = "data"%string -> p = Ok (map (fun d => Points (ds_x d) (orient M1 d (ds_y d))) (filter (is_kind Drift) data))) /\
  (shows data show = "all"%string -> p = Ok (flat_map (fun d => [Points (ds_x d) (orient M1 d (ds_y d)); Line grid (map (drift (hd 0 (orient M1 d (ds_y d)))) grid)]) (filter (is_kind Drift) data))).
Proof.
  intros P FB HS NE p. unfold p, copo_plot. rewrite check_show by exact HS. replace (check_in_set (inl "drift"%string) ["Mayo"; "kp"; "drift"; "triads"]%string) with (@Ok (string + list string) (inl "drift"%string)) by reflexivity.
  cbn [Nat.eqb orb negb bind String.eqb Ascii.eqb Bool.eqb]. fold (shows data show). rewrite List.Forall_forall in FB. split; [|split].
  - intros l -> -> HL. cbn [String.eqb Ascii.eqb Bool.eqb wants_data orb]. unfold check_bounds.
    replace (forallb (between (Fin 0) (Fin 1)) (map Fin l)) with true. { cbn [bind]. now rewrite app_nil_r. }
    symmetry. apply forallb_forall. intros x Hx. apply in_map_iff in Hx. destruct Hx as (a & <- & Ha). rewrite List.Forall_forall in HL. specialize (HL a Ha). unfold between. cbn. rewrite (proj2 (Rleb_true 0 a)), (proj2 (Rleb_true a 1)) by lra. reflexivity.
  - intros ->. cbn [String.eqb Ascii.eqb Bool.eqb wants_data orb bind].
    rewrite (over_eq Drift _ (fun d => [Points (ds_x d) (orient M1 d (ds_y d))])); [now rewrite flat_single|].
    intros d Hd K. rewrite (getvar0 d "x" true) by (rewrite K; reflexivity). destruct (getvar1 M1 M2 d "f" false P (FB d Hd)) as (-> & _); [rewrite K; reflexivity|]. reflexivity.
  - intros ->. cbn [String.eqb Ascii.eqb Bool.eqb wants_data orb bind].
    rewrite (over_eq Drift _ (fun d => [Points (ds_x d) (orient M1 d (ds_y d)); Line grid (map (drift (hd 0 (orient M1 d (ds_y d)))) grid)])); [reflexivity|].
    intros d Hd K. rewrite (getvar0 d "x" true) by (rewrite K; reflexivity). destruct (getvar1 M1 M2 d "f" false P (FB d Hd)) as (-> & _); [rewrite K; reflexivity|]. cbn [bind].
    specialize (NE d Hd). unfold orient. destruct (ds_y d) as [|a r]; [easy|]. destruct (String.eqb M1 (ds_M1 d)); reflexivity.
Qed.

(** A drift data set without points cannot be shown together with its curve. *)
Theorem C112_empty M1 M2 F1 drift kpT kpd d data show f0 hasT : pairM M1 M2 -> belongs M1 M2 d -> ds_kind d = Drift -> ds_y d = [] -> is_show show -> shows (d :: data) show = "all"%string ->
  copo_plot M1 M2 F1 drift kpT kpd (d :: data) "drift" show 1 f0 hasT = Err IndexError.
Proof.
  intros P B K Y HS E. unfold copo_plot. rewrite check_show by exact HS. replace (check_in_set (inl "drift"%string) ["Mayo"; "kp"; "drift"; "triads"]%string) with (@Ok (string + list string) (inl "drift"%string)) by reflexivity.
  cbn [Nat.eqb orb negb bind String.eqb Ascii.eqb Bool.eqb]. fold (shows (d :: data) show). rewrite E. cbn [String.eqb Ascii.eqb Bool.eqb wants_data orb bind over].
  rewrite (proj2 (is_kind_eq Drift d) K). rewrite (getvar0 d "x" true) by (rewrite K; reflexivity). destruct (getvar1 M1 M2 d "f" false P B) as (-> & _); [rewrite K; reflexivity|].
  rewrite Y. unfold orient. cbn [map bind]. destruct (String.eqb M1 (ds_M1 d)); reflexivity.
Qed.

(** Propagation coefficient. *)
Theorem C112_kp M1 M2 F1 drift kpT kpd data show f0 : pairM M1 M2 -> List.Forall (belongs M1 M2) data -> is_show show ->
  let p := copo_plot M1 M2 F1 drift kpT kpd data "kp" show 1 f0 true in
  (shows data show = "model"%string -> p = Ok [Line grid (map kpT grid)]) /\
  (shows data show = "data"%string -> p = Ok (map (fun d => Points (orient M1 d (ds_x d)) (ds_y d)) (filter (is_kind Kp) data))) /\
  (shows data show = "all"%string -> p = Ok (flat_map (fun d => [Points (orient M1 d (ds_x d)) (ds_y d); Line grid (map (kpd d) grid)]) (filter (is_kind Kp) data))).
Proof.
  intros P FB HS p. unfold p, copo_plot. rewrite check_show by exact HS. replace (check_in_set (inl "kp"%string) ["Mayo"; "kp"; "drift"; "triads"]%string) with (@Ok (string + list string) (inl "kp"%string)) by reflexivity.
  cbn [Nat.eqb orb negb bind String.eqb Ascii.eqb Bool.eqb]. fold (shows data show). rewrite List.Forall_forall in FB. split; [|split].
  - intros ->. reflexivity.
  - intros ->. cbn [String.eqb Ascii.eqb Bool.eqb wants_data orb bind].
    rewrite (over_eq Kp _ (fun d => [Points (orient M1 d (ds_x d)) (ds_y d)])); [now rewrite flat_single|].
    intros d Hd K. destruct (getvar1 M1 M2 d "f" true P (FB d Hd)) as (-> & _); [rewrite K; reflexivity|]. cbn [bind]. rewrite (getvar0 d "kp" false) by (rewrite K; reflexivity). reflexivity.
  - intros ->. cbn [String.eqb Ascii.eqb Bool.eqb wants_data orb bind].
    rewrite (over_eq Kp _ (fun d => [Points (orient M1 d (ds_x d)) (ds_y d); Line grid (map (kpd d) grid)])); [reflexivity|].
    intros d Hd K. destruct (getvar1 M1 M2 d "f" true P (FB d Hd)) as (-> & _); [rewrite K; reflexivity|]. cbn [bind]. rewrite (getvar0 d "kp" false) by (rewrite K; reflexivity). reflexivity.
Qed.

(** The curves have a thousand points, at increasing abscissae from 0 to 1. *)
Theorem C112_grid : List.length grid = 1000%nat /\ nth 0 grid 0 = 0 /\ nth 999 grid 0 = 1 /\ forall i j, (i < j < 1000)%nat -> 0 <= nth i grid 0 < nth j grid 0 /\ nth j grid 0 <= 1.
Proof.
  assert (E : forall i, (i < 1000)%nat -> nth i grid 0 = INR i / 999).
  { intros i Hi. unfold grid, linspace. rewrite nth_map_seq by exact Hi. replace (1000 - 1)%nat with 999%nat by reflexivity. replace (INR 999) with 999 by (rewrite INR_IZR_INZ; reflexivity). field. }
  split; [unfold grid, linspace; now rewrite map_length, seq_length|]. split; [rewrite E by lia; cbn [INR]; field|]. split; [rewrite E by lia; replace (INR 999) with 999 by (rewrite INR_IZR_INZ; reflexivity); field|].
  intros i j H. rewrite !E by lia. pose proof (pos_INR i). pose proof (lt_INR i j ltac:(lia)). pose proof (le_INR j 999 ltac:(lia)) as L. replace (INR 999) with 999 in L by (rewrite INR_IZR_INZ; reflexivity). lra.
Qed.

(** * Exchanging the monomers *)
Definition rmap {A B} (f : A -> B) (r : res A) : res B := match r with Ok a => Ok (f a) | Err e => Err e end.
(** the picture in terms of the other monomer *)
Definition mirror (fx fy : list R -> list R) (i : item) : item := match i with Line x y => Line (fx x) (fy y) | Points x y => Points (fx x) (fy y) end.
Lemma over_map k f1 f2 g l : (forall d, In d l -> ds_kind d = k -> f2 d = rmap (map g) (f1 d)) -> over k f2 l = rmap (map g) (over k f1 l).
Proof.
  induction l as [|d l IH]; intros H; cbn [over rmap map]; [reflexivity|]. rewrite IH by (intros e He; apply H; now right).
  destruct (is_kind k d) eqn:E; cbn [bind].
  - rewrite H; [|now left|now apply is_kind_eq]. destruct (f1 d) as [a|e]; cbn [rmap bind]; [|reflexivity]. destruct (over k f1 l); cbn [rmap bind]; [|reflexivity]. now rewrite map_app.
  - destruct (over k f1 l); reflexivity.
Qed.
Definition ident (l : list R) : list R := l.

(** Plotting in terms of the second monomer is the mirror image of plotting in terms of the first:
    compositions are replaced by their complements, conversions and coefficients are kept. *)
Theorem C112_mirror M1 M2 F1 drift kpT kpd data show f0 hasT : pairM M1 M2 -> List.Forall (belongs M1 M2) data -> is_show show ->
  let p := fun kind M f => copo_plot M1 M2 F1 drift kpT kpd data kind show M f hasT in
  (exists l, p "Mayo"%string 1%nat f0 = Ok (Line [0; 1] [0; 1] :: l) /\ p "Mayo"%string 2%nat f0 = Ok (Line [0; 1] [0; 1] :: map (mirror flip flip) l)) /\
  p "drift"%string 2%nat (option_map flip f0) = rmap (map (mirror ident flip)) (p "drift"%string 1%nat f0) /\
  p "kp"%string 2%nat f0 = rmap (map (mirror flip ident)) (p "kp"%string 1%nat f0).
Proof.
  intros P FB HS p. assert (FB' := FB). rewrite List.Forall_forall in FB'.
  assert (S : In (shows data show) ["all"; "data"; "model"]%string) by (unfold shows; destruct HS as [<-|[<-|[<-|[<-|[]]]]]; destruct data; cbn; auto).
  split; [|split].
  - eexists. split; [apply C112_Mayo; auto|]. unfold p, copo_plot. rewrite check_show by exact HS. replace (check_in_set (inl "Mayo"%string) ["Mayo"; "kp"; "drift"; "triads"]%string) with (@Ok (string + list string) (inl "Mayo"%string)) by reflexivity.
    cbn [Nat.eqb orb negb bind String.eqb Ascii.eqb Bool.eqb]. fold (shows data show).
    rewrite (over_eq Mayo _ (fun d => [Points (flip (orient M1 d (ds_x d))) (flip (orient M1 d (ds_y d)))])).
    2:{ intros d Hd K. destruct (getvar1 M1 M2 d "f" true P (FB' d Hd)) as (_ & ->); [rewrite K; reflexivity|]. cbn [bind]. destruct (getvar1 M1 M2 d "F" false P (FB' d Hd)) as (_ & ->); [rewrite K; reflexivity|]. reflexivity. }
    rewrite flat_single. destruct S as [<-|[<-|[<-|[]]]]; cbn [String.eqb Ascii.eqb Bool.eqb wants_data orb bind app map mirror]; rewrite ?map_map; reflexivity.
  - unfold p, copo_plot. rewrite check_show by exact HS. replace (check_in_set (inl "drift"%string) ["Mayo"; "kp"; "drift"; "triads"]%string) with (@Ok (string + list string) (inl "drift"%string)) by reflexivity.
    cbn [Nat.eqb orb negb bind String.eqb Ascii.eqb Bool.eqb]. fold (shows data show). destruct S as [<-|[<-|[<-|[]]]]; cbn [String.eqb Ascii.eqb Bool.eqb wants_data orb bind app].
    + rewrite (over_map Drift (fun d => do x <- getvar d "x" ""; do y <- getvar d "f" M1; do c <- (do f <- getvar d "f" M1; do a <- first f; Ok [Line grid (map (drift a) grid)]); Ok (Points x y :: c)) _ (mirror ident flip)).
      { destruct (over Drift _ data); reflexivity. }
      intros d Hd K. rewrite (getvar0 d "x" true) by (rewrite K; reflexivity). destruct (getvar1 M1 M2 d "f" false P (FB' d Hd)) as (-> & ->); [rewrite K; reflexivity|]. cbn [bind].
      destruct (first _); cbn [bind rmap map mirror]; reflexivity.
    + rewrite (over_map Drift (fun d => do x <- getvar d "x" ""; do y <- getvar d "f" M1; Ok [Points x y]) _ (mirror ident flip)).
      { cbn [bind]. destruct (over Drift _ data); reflexivity. }
      intros d Hd K. rewrite (getvar0 d "x" true) by (rewrite K; reflexivity). destruct (getvar1 M1 M2 d "f" false P (FB' d Hd)) as (-> & ->); [rewrite K; reflexivity|]. reflexivity.
    + destruct f0 as [l|]; cbn [option_map]; [|reflexivity]. unfold check_bounds.
      replace (forallb (between (Fin 0) (Fin 1)) (map Fin (flip l))) with (forallb (between (Fin 0) (Fin 1)) (map Fin l)).
      2:{ unfold flip. induction l as [|a l IH]; [reflexivity|]. cbn [map forallb]. rewrite IH. f_equal. unfold between. cbn. unfold Rleb. destruct (Rle_dec 0 a), (Rle_dec a 1), (Rle_dec 0 (1 - a)), (Rle_dec (1 - a) 1); cbn; auto; lra. }
      destruct (forallb _ _); cbn [bind rmap]; [|reflexivity]. rewrite flip_flip, !app_nil_r, map_map. reflexivity.
  - unfold p, copo_plot. rewrite check_show by exact HS. replace (check_in_set (inl "kp"%string) ["Mayo"; "kp"; "drift"; "triads"]%string) with (@Ok (string + list string) (inl "kp"%string)) by reflexivity.
    cbn [Nat.eqb orb negb bind String.eqb Ascii.eqb Bool.eqb]. fold (shows data show). destruct S as [<-|[<-|[<-|[]]]]; cbn [String.eqb Ascii.eqb Bool.eqb wants_data orb bind app].
    + rewrite (over_map Kp (fun d => do x <- getvar d "f" M1; do y <- getvar d "kp" ""; Ok [Points x y; Line grid (map (kpd d) grid)]) _ (mirror flip ident)).
      { destruct (over Kp _ data); reflexivity. }
      intros d Hd K. destruct (getvar1 M1 M2 d "f" true P (FB' d Hd)) as (-> & ->); [rewrite K; reflexivity|]. cbn [bind]. rewrite (getvar0 d "kp" false) by (rewrite K; reflexivity). reflexivity.
    + rewrite (over_map Kp (fun d => do x <- getvar d "f" M1; do y <- getvar d "kp" ""; Ok [Points x y]) _ (mirror flip ident)).
      { destruct (over Kp _ data); reflexivity. }
      intros d Hd K. destruct (getvar1 M1 M2 d "f" true P (FB' d Hd)) as (-> & ->); [rewrite K; reflexivity|]. cbn [bind]. rewrite (getvar0 d "kp" false) by (rewrite K; reflexivity). reflexivity.
    + destruct hasT; reflexivity.
Qed.

(** * Findings *)
Definition no_kind (k : dskind) (data : list dataset) : Prop := forall d, In d data -> ds_kind d <> k.
Lemma filter_none k data : no_kind k data -> filter (is_kind k) data = [].
Proof. induction data as [|d l IH]; intros H; [reflexivity|]. cbn. destruct (is_kind k d) eqn:E; [exfalso; apply (H d); [now left|now apply is_kind_eq]|]. apply IH. intros e He. apply H. now right. Qed.

(** With any data set in the model, a drift plot ignores the composition it was given (even an
    impossible one) and, when none of the data sets is a drift data set, draws nothing at all.  The
    same holds for the temperature of a plot of kp. *)
Theorem C112_auto_refuted : exists M1 M2 data, pairM M1 M2 /\ List.Forall (belongs M1 M2) data /\
  forall F1 drift kpT kpd f0 hasT,
    copo_plot M1 M2 F1 drift kpT kpd data "drift" "auto" 1 (Some f0) hasT = Ok [] /\
    copo_plot M1 M2 F1 drift kpT kpd data "kp" "auto" 1 None true = Ok [] /\
    copo_plot M1 M2 F1 drift kpT kpd [] "drift" "auto" 1 (Some [1 / 2]) hasT = Ok [Line grid (map (drift (1 / 2)) grid)] /\
    copo_plot M1 M2 F1 drift kpT kpd [] "kp" "auto" 1 None true = Ok [Line grid (map kpT grid)].
Proof.
  exists "A"%string, "B"%string, [mkDS 0 Mayo "A" "B" [1 / 2] [1 / 3]]. assert (P : pairM "A" "B") by (split; [discriminate|split; discriminate]). split; [exact P|].
  assert (FB : List.Forall (belongs "A" "B") [mkDS 0 Mayo "A" "B" [1 / 2] [1 / 3]]) by (constructor; [now left|constructor]). split; [exact FB|].
  intros F1 drift kpT kpd f0 hasT. assert (HS : is_show "auto") by now left. split; [|split; [|split]].
  - destruct (C112_drift "A" "B" F1 drift kpT kpd _ "auto" (Some f0) hasT P FB HS) as (_ & _ & H); [intros d [<-|[]]; discriminate|]. rewrite H by reflexivity. reflexivity.
  - destruct (C112_kp "A" "B" F1 drift kpT kpd _ "auto" None P FB HS) as (_ & _ & H). rewrite H by reflexivity. reflexivity.
  - destruct (C112_drift "A" "B" F1 drift kpT kpd [] "auto" (Some [1 / 2]) hasT P ltac:(constructor) HS) as (H & _); [intros d []|]. apply (H [1 / 2]); [reflexivity|reflexivity|]. constructor; [lra|constructor].
  - destruct (C112_kp "A" "B" F1 drift kpT kpd [] "auto" None P ltac:(constructor) HS) as (H & _). apply H. reflexivity.
Qed.

(** The curve drawn with a drift data set starts at conversion zero with the composition of the
    first sample.  A data set whose first sample was taken at a positive conversion therefore does
    not lie on it, however well the model describes the experiment. *)
Theorem C112_start_refuted : exists M1 M2 d, pairM M1 M2 /\ belongs M1 M2 d /\ ds_kind d = Drift /\
  forall F1 drift kpT kpd, (forall f, drift f 0 = f) -> (forall f x, 0 < f < 1 -> 0 < x < 1 -> drift f x < f) ->
    exists x0 f0 xs c, copo_plot M1 M2 F1 drift kpT kpd [d] "drift" "auto" 1 None true = Ok [Points (x0 :: xs) (f0 :: c); Line grid (map (drift f0) grid)] /\
      0 < x0 < 1 /\ drift f0 0 = f0 /\ drift f0 x0 <> f0.
Proof.
  exists "A"%string, "B"%string, (mkDS 0 Drift "A" "B" [1 / 10; 1 / 2] [1 / 2; 1 / 3]). split; [split; [discriminate|split; discriminate]|]. split; [now left|]. split; [reflexivity|].
  intros F1 drift kpT kpd D0 DM. exists (1 / 10), (1 / 2), [1 / 2], [1 / 3].
  destruct (C112_drift "A" "B" F1 drift kpT kpd [mkDS 0 Drift "A" "B" [1 / 10; 1 / 2] [1 / 2; 1 / 3]] "auto" None true) as (_ & _ & H); [split; [discriminate|split; discriminate]|constructor; [now left|constructor]|now left|intros d [<-|[]]; discriminate|].
  split; [rewrite H by reflexivity; reflexivity|]. split; [lra|]. split; [apply D0|]. pose proof (DM (1 / 2) (1 / 10) ltac:(lra) ltac:(lra)). lra.
Qed.

(** One Mayo data set labelled the other way round. *)
Example C112_case : forall F1 drift kpT kpd,
  copo_plot "A" "B" F1 drift kpT kpd [mkDS 0 Mayo "B" "A" [1 / 4] [1 / 5]] "Mayo" "auto" 1 None false = Ok [Line [0; 1] [0; 1]; Line grid (map F1 grid); Points [3 / 4] [4 / 5]] /\
  copo_plot "A" "B" F1 drift kpT kpd [mkDS 0 Mayo "B" "A" [1 / 4] [1 / 5]] "Mayo" "data" 2 None false = Ok [Line [0; 1] [0; 1]; Points [1 / 4] [1 / 5]] /\
  copo_plot "A" "B" F1 drift kpT kpd [] "drift" "model" 1 (Some [2]) false = Err RangeError /\
  copo_plot "A" "B" F1 drift kpT kpd [] "drift" "model" 3 (Some [1 / 2]) false = Err ValueError /\
  List.length grid = 1000%nat.
Proof.
  intros F1 drift kpT kpd. assert (P : pairM "A" "B") by (split; [discriminate|split; discriminate]).
  assert (FB : List.Forall (belongs "A" "B") [mkDS 0 Mayo "B" "A" [1 / 4] [1 / 5]]) by (constructor; [now right|constructor]).
  split. { rewrite C112_Mayo; auto; [|now left]. cbn -[grid]. repeat (f_equal; try lra). }
  split. { assert (HS : is_show "data") by (right; right; now left). destruct (C112_mirror "A" "B" F1 drift kpT kpd _ "data" None false P FB HS) as ((l & E1 & E2) & _). rewrite C112_Mayo in E1 by auto. cbn -[grid] in E1. injection E1 as <-. rewrite E2. cbn. repeat (f_equal; try lra). }
  split. { destruct (C112_rejects "A" "B" F1 drift kpT kpd [] "drift" "model" 1 (Some [2]) false) as (_ & H). destruct H as (_ & H & _); [auto|right; right; right; now left|]. apply (H eq_refl eq_refl) with (l := [2]); [reflexivity|]. intros Q. inversion Q. lra. }
  split. { reflexivity. }
  unfold grid, linspace. now rewrite map_length, seq_length.
Qed.

Print Assumptions C112_mirror.
Print Assumptions C112_drift.
Print Assumptions C112_start_refuted.
