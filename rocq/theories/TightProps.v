(** Statements added after mutation rounds: what a data set constructor stores and rejects, and which
    column each variable name refers to (C36). *)
From Coq Require Import Reals Lra Lia List Bool Arith String Ascii.
From Verif Require Import Prelude UtilsModel RootsModel CopoModel CopoDataModel CopoDataProps.
Import ListNotations.
Open Scope R_scope.

(** The documented argument names of the three data set classes, in the order of the constructor. *)
Definition columns (k : dskind) : string * string :=
  match k with Mayo => ("f", "F") | Drift => ("x", "f") | Kp => ("f", "kp") end%string.

Theorem C36_columns id k M1 M2 x y d : make_dataset id k M1 M2 x y = Ok d ->
  getvar d (fst (columns k)) "" = Ok x /\ getvar d (snd (columns k)) "" = Ok y /\
  getvar d (fst (columns k)) M1 = Ok x /\ getvar d (snd (columns k)) M1 = Ok y /\
  List.length x = List.length y /\ M1 <> M2 /\
  (forall v M, v <> fst (columns k) -> v <> snd (columns k) -> getvar d v M = Err KeyError).
Proof.
  unfold make_dataset. destruct (names_ok M1 M2) eqn:HN; [|discriminate].
  destruct (Nat.eqb_spec (List.length x) (List.length y)) as [L|]; [|discriminate].
  intros E. injection E as <-.
  assert (NE : M1 <> M2).
  { intros ->. unfold names_ok in HN. rewrite String.eqb_refl in HN. cbn in HN. now rewrite andb_false_r in HN. }
  assert (N1 : String.eqb M1 "" = false).
  { unfold names_ok in HN. now destruct (String.eqb M1 ""). }
  unfold getvar; cbn [ds_kind ds_x ds_y ds_M1 ds_M2].
  destruct k; cbn [columns fst snd varmap]; rewrite ?String.eqb_refl; cbn [String.eqb Ascii.eqb Bool.eqb];
    cbn; rewrite ?N1, ?String.eqb_refl; repeat split; auto;
    intros v M A B; apply String.eqb_neq in A, B; now rewrite A, B.
Qed.

(** The constructor succeeds exactly when both names are non-empty and differ beyond letter case and the two
    columns have the same length; bad names are reported before a length mismatch. *)
Theorem C36_constructor id k M1 M2 x y :
  ((exists d, make_dataset id k M1 M2 x y = Ok d) <->
   M1 <> ""%string /\ M2 <> ""%string /\ lower M1 <> lower M2 /\ List.length x = List.length y) /\
  (M1 <> ""%string -> M2 <> ""%string -> lower M1 <> lower M2 -> List.length x <> List.length y ->
   make_dataset id k M1 M2 x y = Err ShapeError) /\
  (M1 = ""%string \/ M2 = ""%string \/ lower M1 = lower M2 -> make_dataset id k M1 M2 x y = Err ValueError).
Proof.
  unfold make_dataset, names_ok.
  destruct (String.eqb_spec M1 "") as [A|A], (String.eqb_spec M2 "") as [B|B], (String.eqb_spec (lower M1) (lower M2)) as [C|C],
    (Nat.eqb_spec (List.length x) (List.length y)) as [L|L]; cbn [negb andb];
    (split; [split; [intros (d & E); try discriminate E; tauto | intros (? & ? & ? & ?); try tauto; eexists; reflexivity]
            | split; intros; try tauto; reflexivity]).
Qed.

(** Letter case does not distinguish monomers. *)
Theorem C36_case_insensitive id k M x y : make_dataset id k M (lower M) x y = Err ValueError.
Proof.
  apply (proj2 (proj2 (C36_constructor id k M (lower M) x y))). right. right.
  induction M as [|c s IH]; [reflexivity|]. cbn [lower]. rewrite <- IH. f_equal.
  unfold lower_ascii. destruct (Nat.leb 65 (nat_of_ascii c) && Nat.leb (nat_of_ascii c) 90)%bool eqn:E.
  - apply andb_prop in E. destruct E as (E1 & E2). apply Nat.leb_le in E1, E2.
    rewrite nat_ascii_embedding by lia.
    replace (Nat.leb 65 (nat_of_ascii c + 32) && Nat.leb (nat_of_ascii c + 32) 90)%bool with false; [reflexivity|].
    symmetry. apply andb_false_iff. right. apply Nat.leb_gt. lia.
  - now rewrite E.
Qed.

Example C36_columns_case : exists d, make_dataset 0 Drift "A" "B" [1 / 10; 2 / 10] [1 / 2; 1 / 3] = Ok d /\
  getvar d "x" "" = Ok [1 / 10; 2 / 10] /\ getvar d "f" "A" = Ok [1 / 2; 1 / 3] /\ getvar d "F" "A" = Err KeyError.
Proof.
  eexists. split; [reflexivity|].
  destruct (C36_columns 0 Drift "A" "B" [1 / 10; 2 / 10] [1 / 2; 1 / 3] _ eq_refl) as (A & _ & _ & B & _ & _ & C).
  cbn [columns fst snd] in A, B, C. split; [exact A|]. split; [exact B|]. apply C; discriminate.
Qed.
Example C36_constructor_case : make_dataset 0 Mayo "A" "B" [1 / 2] [1 / 3; 1 / 4] = Err ShapeError /\
  make_dataset 0 Mayo "Sty" "STY" [1 / 2] [1 / 3] = Err ValueError.
Proof.
  split.
  - apply (proj1 (proj2 (C36_constructor 0 Mayo "A" "B" [1 / 2] [1 / 3; 1 / 4]))); cbn; discriminate.
  - apply (proj2 (proj2 (C36_constructor 0 Mayo "Sty" "STY" [1 / 2] [1 / 3]))). right. right. reflexivity.
Qed.

Print Assumptions C36_columns.
Print Assumptions C36_constructor.
Print Assumptions C36_case_insensitive.
