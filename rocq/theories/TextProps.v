(** C116: the text representations. *)
From Coq Require Import List Bool Arith Lia String Ascii.
From Verif Require Import TextModel.
Import ListNotations.
Open Scope string_scope.

Lemma app_assoc_s a b c : (a ++ b) ++ c = a ++ (b ++ c).
Proof. induction a as [|x a IH]; cbn; [reflexivity|now rewrite IH]. Qed.
Lemma len_app a b : length (a ++ b) = length a + length b.
Proof. induction a as [|x a IH]; cbn; [reflexivity|now rewrite IH]. Qed.
Lemma app_inv a b c : a ++ b = a ++ c -> b = c.
Proof. induction a as [|x a IH]; cbn; intros H; [exact H|]. injection H as H. auto. Qed.
Lemma app_nil_s a : a ++ "" = a.
Proof. induction a as [|x a IH]; cbn; [reflexivity|now rewrite IH]. Qed.
Lemma len_sp n : length (sp n) = n.
Proof. induction n; cbn; auto. Qed.

(** ** lines *)
Lemma split_ne s : split s <> [].
Proof. destruct s as [|c s]; cbn; [discriminate|]. destruct (Ascii.eqb c NL); [discriminate|]. destruct (split s); discriminate. Qed.
Lemma split_app a b : split (a ++ nl ++ b) = (split a ++ split b)%list.
Proof.
  induction a as [|c a IH]; [reflexivity|]. cbn [append split]. destruct (Ascii.eqb c NL) eqn:E; rewrite IH; [reflexivity|].
  pose proof (split_ne a) as N. destruct (split a); [congruence|reflexivity].
Qed.
Definition single (s : string) : Prop := split s = [s].
Lemma single_cons c s : single (String c s) <-> c <> NL /\ single s.
Proof.
  unfold single. cbn [split]. destruct (Ascii.eqb c NL) eqn:E.
  - apply Ascii.eqb_eq in E. split; [intros H; discriminate|tauto].
  - apply Ascii.eqb_neq in E. pose proof (split_ne s) as N. destruct (split s) as [|r rs]; [congruence|]. split.
    + intros H. injection H as -> ->. auto.
    + intros (_ & H). injection H as -> ->. reflexivity.
Qed.
Lemma single_app a b : single (a ++ b) <-> single a /\ single b.
Proof.
  induction a as [|c a IH]; cbn [append].
  - split; [intros H; split; [reflexivity|exact H]|tauto].
  - rewrite !single_cons, IH. tauto.
Qed.
Lemma single_sp n : single (sp n).
Proof. induction n; [reflexivity|]. cbn. apply single_cons. split; [discriminate|auto]. Qed.
Lemma split_all s : Forall single (split s).
Proof.
  induction s as [|c s IH]; cbn [split]; [constructor; [reflexivity|constructor]|].
  destruct (Ascii.eqb c NL) eqn:E; [constructor; [reflexivity|exact IH]|]. apply Ascii.eqb_neq in E.
  destruct (split s) as [|r rs]; [constructor; [now apply single_cons|constructor]|]. inversion IH; subst. constructor; [now apply single_cons|auto].
Qed.
Lemma join_split s : join nl (split s) = s.
Proof.
  induction s as [|c s IH]; [reflexivity|]. cbn [split]. pose proof (split_ne s) as N. destruct (Ascii.eqb c NL) eqn:E.
  - apply Ascii.eqb_eq in E. subst c. destruct (split s) as [|r rs]; [congruence|]. change (join nl ("" :: r :: rs)) with (nl ++ join nl (r :: rs)). rewrite IH. reflexivity.
  - destruct (split s) as [|r rs]; [congruence|]. destruct rs as [|r' rs]; cbn [join append] in *; [now rewrite IH|].
    now rewrite <- IH.
Qed.
Lemma split_inj a b : split a = split b -> a = b.
Proof. intros H. rewrite <- (join_split a), <- (join_split b). now rewrite H. Qed.
Lemma split_join l : l <> [] -> split (join nl l) = flat_map split l.
Proof.
  induction l as [|x l IH]; [congruence|]. intros _. destruct l as [|y l]; [cbn; now rewrite app_nil_r|].
  change (join nl (x :: y :: l)) with (x ++ nl ++ join nl (y :: l)). rewrite split_app, IH by discriminate. reflexivity.
Qed.
Lemma join_indent h rows : join (nl ++ "  ") (h :: rows) = join nl (h :: map (append "  ") rows).
Proof.
  revert h. induction rows as [|r rows IH]; intros h; [reflexivity|].
  change (join (nl ++ "  ") (h :: r :: rows)) with (h ++ (nl ++ "  ") ++ join (nl ++ "  ") (r :: rows)). rewrite IH.
  change (join nl (h :: map (append "  ") (r :: rows))) with (h ++ nl ++ join nl (("  " ++ r) :: map (append "  ") rows)).
  f_equal. rewrite app_assoc_s. f_equal. destruct (map (append "  ") rows); reflexivity.
Qed.

(** lines of one attribute *)
Definition alines (w : nat) (a : string * string) : list string :=
  let rows := split (snd a) in
  if Nat.eqb (List.length rows) 1 then [(fst a ++ ":") ++ sp (w - length (fst a)) ++ snd a]
  else (fst a ++ ":") :: map (append "  ") rows.
Lemma split_one s : List.length (split s) = 1 -> single s.
Proof.
  intros H. unfold single. pose proof (join_split s) as J. destruct (split s) as [|r [|r' rs]]; try discriminate. cbn in J. now subst.
Qed.
Lemma colon_single n : single n -> single (n ++ ":").
Proof. intros H. apply single_app. split; [auto|]. reflexivity. Qed.
Lemma flat_single l : Forall single l -> flat_map split l = l.
Proof. induction 1 as [|x l H _ IH]; [reflexivity|]. cbn. rewrite H, IH. reflexivity. Qed.
Lemma item_lines w a : single (fst a) -> split (item w a) = alines w a.
Proof.
  intros H. unfold item, alines. destruct (Nat.eqb (List.length (split (snd a))) 1) eqn:E.
  - apply Nat.eqb_eq, split_one in E. change (single ((fst a ++ ":") ++ sp (w - length (fst a)) ++ snd a)). apply single_app. split; [now apply colon_single|]. apply single_app. split; [apply single_sp|auto].
  - rewrite join_indent, split_join by discriminate. apply flat_single. constructor; [now apply colon_single|].
    apply Forall_map. eapply Forall_impl; [|apply split_all]. intros r Hr. apply single_app. split; [reflexivity|auto].
Qed.

(** ** Alignment and line structure of custom_repr *)
Theorem C116_lines attrs nspaces : attrs <> [] -> Forall (fun a => single (fst a)) attrs ->
  split (custom_repr attrs nspaces) = flat_map (alines (nspaces + maxlen (map fst attrs))) attrs.
Proof.
  intros N H. unfold custom_repr. destruct attrs as [|a l]; [congruence|]. cbv zeta. set (w := nspaces + _). rewrite split_join by discriminate.
  clear N. clearbody w. induction H as [|b m Hb _ IH]; [reflexivity|]. cbn [map flat_map]. rewrite item_lines by auto. now rewrite IH.
Qed.
Lemma maxlen_le n l : In n l -> length n <= maxlen l.
Proof. induction l as [|x l IH]; cbn; [tauto|]. intros [-> |H]; [lia|]. specialize (IH H). unfold maxlen in IH. lia. Qed.
(** all one-line values start in the same column, [nspaces] + 1 characters after the longest name *)
Theorem C116_aligned attrs nspaces n v : In (n, v) attrs -> single v -> exists pre,
  item (nspaces + maxlen (map fst attrs)) (n, v) = pre ++ v /\ length pre = nspaces + maxlen (map fst attrs) + 1 /\
  exists k, pre = (n ++ ":") ++ sp (nspaces + k).
Proof.
  intros I S. assert (L : length n <= maxlen (map fst attrs)) by (apply maxlen_le, (in_map fst _ _ I)).
  unfold item. cbn [fst snd]. rewrite S. cbn [List.length Nat.eqb].
  exists ((n ++ ":") ++ sp (nspaces + maxlen (map fst attrs) - length n)). split; [now rewrite !app_assoc_s|]. split.
  - rewrite !len_app, len_sp. cbn. lia.
  - exists (maxlen (map fst attrs) - length n). do 2 f_equal. lia.
Qed.

(** ** the representation determines the values *)
Definition ident (n : string) : Prop := single n /\ forall s, n <> String " " s /\ n <> "".
Lemma ident_line n s t : ident n -> n ++ s <> "  " ++ t.
Proof. intros (_ & H). destruct n as [|c n]; [destruct (H "") as (_ & B); congruence|]. destruct (H n) as (A & _). cbn. intros E. injection E as -> _. congruence. Qed.
(** a rest that cannot be mistaken for an indented line *)
Definition fresh (l : list string) : Prop := match l with [] => True | x :: _ => forall t, x <> "  " ++ t end.
Lemma indent_inj rs rs' l l' : fresh l -> fresh l' -> (map (append "  ") rs ++ l = map (append "  ") rs' ++ l')%list -> rs = rs' /\ l = l'.
Proof.
  revert rs'. induction rs as [|r rs IH]; intros [|r' rs'] F F' E; cbn [map app] in E.
  - auto.
  - subst l. exfalso. now apply (F r').
  - subst l'. exfalso. now apply (F' r).
  - injection E as E1 E2. destruct (IH rs' F F' E2) as (-> & ->). now subst.
Qed.
Lemma fresh_lines w ns vs : Forall ident ns -> fresh (flat_map (alines w) (combine ns vs)).
Proof.
  intros H. destruct ns as [|n ns]; [exact I|]. destruct vs as [|v vs]; [exact I|]. inversion H; subst. cbn [combine flat_map].
  unfold alines at 1. cbn [fst snd]. destruct (Nat.eqb _ 1); cbn [app fresh]; intros t; [rewrite !app_assoc_s|]; now apply ident_line.
Qed.
Lemma lines_inj w ns vs vs' : Forall ident ns -> Forall (fun n => length n < w) ns -> List.length vs = List.length ns -> List.length vs' = List.length ns ->
  flat_map (alines w) (combine ns vs) = flat_map (alines w) (combine ns vs') -> vs = vs'.
Proof.
  revert vs vs'. induction ns as [|n ns IH]; intros [|v vs] [|v' vs'] H W L L' E; try discriminate; [reflexivity|].
  inversion H as [|x y Hn Hns]; subst. inversion W as [|x y Wn Wns]; subst. cbn [List.length] in L, L'. injection L as L. injection L' as L'.
  cbn [combine flat_map] in E. pose proof (fresh_lines w ns vs Hns) as F. pose proof (fresh_lines w ns vs' Hns) as F'.
  assert (X : forall u, sp (w - length n) ++ u <> "").
  { intros u Z. assert (Y : length (sp (w - length n) ++ u) = 0) by now rewrite Z. rewrite len_app, len_sp in Y. lia. }
  unfold alines at 1 3 in E. cbn [fst snd] in E.
  destruct (Nat.eqb (List.length (split v)) 1) eqn:A; destruct (Nat.eqb (List.length (split v')) 1) eqn:B; cbn [app] in E.
  - injection E as E1 E2. apply app_inv in E1. apply app_inv in E1. subst v'. f_equal. auto.
  - injection E as E1 E2. exfalso. rewrite <- (app_nil_s (n ++ ":")) in E1 at 2. apply app_inv in E1. now apply (X v).
  - injection E as E1 E2. exfalso. rewrite <- (app_nil_s (n ++ ":")) in E1 at 1. apply app_inv in E1. now apply (X v').
  - assert (E2 := f_equal (@tl string) E). cbn [tl] in E2. apply indent_inj in E2; auto. destruct E2 as (E2 & E3). apply split_inj in E2. subst v'. f_equal. auto.
Qed.
Lemma map_fst_combine {A B} (a : list A) (b : list B) : List.length b = List.length a -> map fst (combine a b) = a.
Proof. revert b. induction a as [|x a IH]; intros [|y b] H; try discriminate; [reflexivity|]. cbn in *. now rewrite IH by lia. Qed.
Theorem C116_faithful ns vs vs' nspaces : Forall ident ns -> 1 <= nspaces -> List.length vs = List.length ns -> List.length vs' = List.length ns ->
  custom_repr (combine ns vs) nspaces = custom_repr (combine ns vs') nspaces -> vs = vs'.
Proof.
  intros H K L L' E. destruct ns as [|n ns]; [destruct vs, vs'; try discriminate; reflexivity|].
  assert (S : forall u : list string, Forall (fun a : string * string => single (fst a)) (combine (n :: ns) u)).
  { intros u. apply Forall_forall. intros (a, b) I. apply in_combine_l in I. rewrite Forall_forall in H. apply H in I. apply I. }
  assert (C : forall u : list string, List.length u = List.length (n :: ns) -> combine (n :: ns) u <> []) by (intros [|y u] Hu; [discriminate|cbn; discriminate]).
  assert (E' := f_equal split E). rewrite !C116_lines in E' by auto. rewrite !map_fst_combine in E' by auto.
  apply (lines_inj _ _ _ _ H) in E'; auto. apply Forall_forall. intros x I. apply maxlen_le in I. lia.
Qed.
Ltac id_ok := split; [reflexivity|intros s; split; discriminate].
Theorem C116_composite a b c d e a' b' c' d' e' : repr_composite a b c d e = repr_composite a' b' c' d' e' -> (a, b, c, d, e) = (a', b', c', d', e').
Proof.
  intros E. apply (C116_faithful ["name"; "icrit"; "aS"; "aL"; "kt11"] [a; b; c; d; e] [a'; b'; c'; d'; e'] 3) in E; [now injection E as -> -> -> -> ->| |lia|reflexivity|reflexivity].
  repeat constructor; intros; try discriminate; reflexivity.
Qed.
Theorem C116_half_length a b c d a' b' c' d' : repr_half_length a b c d = repr_half_length a' b' c' d' -> (a, b, c, d) = (a', b', c', d').
Proof.
  intros E. apply (C116_faithful ["name"; "C"; "ihalf"; "kp"] [a; b; c; d] [a'; b'; c'; d'] 3) in E; [now injection E as -> -> -> ->| |lia|reflexivity|reflexivity].
  repeat constructor; intros; try discriminate; reflexivity.
Qed.
Theorem C116_terminal a b c d e f g a' b' c' d' e' f' g' : repr_terminal a b c d e f g = repr_terminal a' b' c' d' e' f' g' -> (a, b, c, d, e, f, g) = (a', b', c', d', e', f', g').
Proof.
  intros E. apply (C116_faithful ["name"; "M1"; "M2"; "k1"; "k2"; "r1"; "r2"] [a; b; c; d; e; f; g] [a'; b'; c'; d'; e'; f'; g'] 3) in E;
    [now injection E as -> -> -> -> -> -> ->| |lia|reflexivity|reflexivity].
  repeat constructor; intros; try discriminate; reflexivity.
Qed.
(** nested objects: a coefficient inside another one is indented by two and stays recoverable *)
Example C116_case : repr_half_length "kp(i)" "10" "1.5" ("name:" ++ sp 4 ++ "kp1" ++ nl ++ "k0:" ++ sp 6 ++ "5")
  = join nl ["name:    kp(i)"; "C:       10"; "ihalf:   1.5"; "kp:"; "  name:    kp1"; "  k0:      5"].
Proof. reflexivity. Qed.

(** ** pprint_matrix *)
Lemma pp_lines nsp n i rows : Forall (Forall single) rows -> exists ls,
  split (pp_rows nsp n i rows) = (ls ++ [""])%list /\ List.length ls = List.length rows /\
  forall k, k < List.length rows -> exists r, nth_error rows k = Some r /\
    nth_error ls k = Some ((if Nat.eqb (i + k) 0 then "[[" else sp nsp ++ " [") ++ join " " r ++ (if Nat.eqb (i + k + 1) n then "]]" else "]")).
Proof.
  revert i. induction rows as [|r rows IH]; intros i H; [exists []; repeat split; cbn; intros; lia|].
  inversion H as [|x y Hr Hrs]; subst. destruct (IH (i + 1) Hrs) as (ls & E & L & K).
  assert (SJ : single (join " " r)).
  { clear -Hr. induction Hr as [|x l Hx Hl IH]; [reflexivity|]. destruct l as [|y l]; [exact Hx|]. change (join " " (x :: y :: l)) with (x ++ " " ++ join " " (y :: l)).
    apply single_app. split; [auto|]. apply single_app. split; [reflexivity|auto]. }
  set (line := (if Nat.eqb i 0 then "[[" else sp nsp ++ " [") ++ join " " r ++ (if Nat.eqb (i + 1) n then "]]" else "]")).
  assert (SL : single line).
  { unfold line. apply single_app. split; [destruct (Nat.eqb i 0); [reflexivity|apply single_app; split; [apply single_sp|reflexivity]]|].
    apply single_app. split; [auto|destruct (Nat.eqb (i + 1) n); reflexivity]. }
  exists (line :: ls). split; [|split].
  - cbn [pp_rows].
    replace (((if Nat.eqb i 0 then "[[" else sp nsp ++ " [") ++ join " " r ++ (if Nat.eqb (i + 1) n then "]]" ++ nl else "]" ++ nl)) ++ pp_rows nsp n (i + 1) rows)
      with (line ++ nl ++ pp_rows nsp n (i + 1) rows).
    + rewrite split_app, SL, E. reflexivity.
    + unfold line. destruct (Nat.eqb (i + 1) n); rewrite !app_assoc_s; reflexivity.
  - cbn. now rewrite L.
  - intros [|k] Hk.
    + exists r. split; [reflexivity|]. cbn [nth_error]. unfold line. now rewrite Nat.add_0_r.
    + destruct (K k) as (r' & A & B); [cbn in Hk; lia|]. exists r'. split; [exact A|]. cbn [nth_error]. rewrite B.
      now replace (i + 1 + k) with (i + S k) by lia.
Qed.
(** one line per row plus a final empty one; behind a label as long as [nspaces], the first element of every
    row starts in column nspaces + 2; only the first row opens and only the last row closes the matrix *)
Theorem C116_matrix label m nspaces : Forall (Forall single) m -> single label -> length label = nspaces -> m <> [] -> exists ls,
  split (label ++ pprint_matrix m nspaces) = (ls ++ [""])%list /\ List.length ls = List.length m /\
  forall k, k < List.length m -> exists pre r, nth_error m k = Some r /\ length pre = nspaces + 2 /\
    nth_error ls k = Some (pre ++ join " " r ++ (if Nat.eqb (k + 1) (List.length m) then "]]" else "]")) /\
    (pre = label ++ "[[" <-> k = 0).
Proof.
  intros H SL LL N. destruct (pp_lines nspaces (List.length m) 0 m H) as (ls & E & L & K).
  destruct ls as [|l0 ls]; [destruct m; [congruence|discriminate]|].
  assert (ES : forall s x xs, single label -> split s = (x :: xs) -> split (label ++ s) = (label ++ x) :: xs).
  { clear. intros s x xs S E. revert x xs S E. induction label as [|c lb IH]; intros x xs S E; [exact E|]. apply single_cons in S. destruct S as (A & B).
    cbn [append split]. destruct (Ascii.eqb c NL) eqn:C; [apply Ascii.eqb_eq in C; congruence|]. now rewrite (IH x xs B E). }
  exists ((label ++ l0) :: ls). split; [|split].
  - unfold pprint_matrix. cbn [app] in *. now apply ES.
  - exact L.
  - intros k Hk. destruct (K k Hk) as (r & A & B). cbn [Nat.add] in B. destruct k as [|k].
    + exists (label ++ "[["), r. split; [auto|]. split; [rewrite len_app; cbn; lia|]. cbn [nth_error Nat.eqb] in *. injection B as ->. split; [now rewrite app_assoc_s|tauto].
    + exists (sp nspaces ++ " ["), r. split; [auto|]. split; [rewrite len_app, len_sp; cbn; lia|]. cbn [nth_error] in *. split; [exact B|].
      split; [|discriminate]. intros Z. exfalso. assert (Y : forall a b n, length a = n -> sp n ++ " [" = a ++ b -> b = " [").
      { clear. intros a b n. revert a. induction n as [|n IH]; intros [|c a] La E; try discriminate; [auto|]. cbn in E. injection E as _ E. cbn in La. eapply IH; [|exact E]. lia. }
      apply (Y label "[[" nspaces) in Z; [discriminate|auto].
Qed.
Example C116_matrix_case : "cov:     " ++ pprint_matrix [["1.00e-04"; "2.00e-05"]; ["2.00e-05"; "3.00e-04"]] 9
  = join nl ["cov:     [[1.00e-04 2.00e-05]"; "          [2.00e-05 3.00e-04]]"; ""].
Proof. reflexivity. Qed.
Theorem C116_matrix_empty nspaces : pprint_matrix [] nspaces = "".
Proof. reflexivity. Qed.

(** ** components_table *)
Lemma table_rows_len num i l : List.length (table_rows num i l) = List.length l.
Proof. revert i. induction l as [|c l IH]; intros i; cbn; [reflexivity|now rewrite IH]. Qed.
Lemma rjust_len n s : length (rjust n s) = Nat.max n (length s).
Proof. unfold rjust. rewrite len_app, len_sp. lia. Qed.
Lemma row_len num i c : length (num (i + 1)) <= 2 -> length (c_w c) <= 6 -> length (c_cls c) <= 12 -> length (c_dpn c) = 8 -> length (c_dpw c) = 8 -> length (c_pdi c) <= 4 ->
  length (table_row num i c) = length table_header.
Proof.
  intros A B C D E F. unfold table_row. cbn [join]. rewrite !len_app, !rjust_len. cbn [length]. change (length table_header) with 55. lia.
Qed.
Theorem C116_table num l : l <> [] -> (forall i, i < List.length l -> length (num (i + 1)) <= 2) ->
  Forall (fun c => length (c_w c) <= 6 /\ length (c_cls c) <= 12 /\ length (c_dpn c) = 8 /\ length (c_dpw c) = 8 /\ length (c_pdi c) <= 4) l ->
  exists rows, components_table num l = join nl rows /\ List.length rows = List.length l + 2 /\ Forall (fun r => length r = 55) rows.
Proof.
  intros N Hn H. exists (table_header :: dashes (length table_header) :: table_rows num 0 l). split; [destruct l; [congruence|reflexivity]|].
  split; [cbn; rewrite table_rows_len; lia|]. constructor; [reflexivity|]. constructor; [reflexivity|].
  assert (G : forall i, (forall j, j < List.length l -> length (num (i + j + 1)) <= 2) -> Forall (fun r => length r = 55) (table_rows num i l)).
  { clear N Hn. induction H as [|c l (A & B & C & D & E) _ IH]; intros i Hn; [constructor|]. cbn [table_rows]. constructor.
    - rewrite row_len; auto. specialize (Hn 0). rewrite Nat.add_0_r in Hn. apply Hn. cbn. lia.
    - apply IH. intros j Hj. specialize (Hn (S j)). replace (i + 1 + j + 1) with (i + S j + 1) by lia. apply Hn. cbn. lia. }
  apply G. intros j Hj. cbn. auto.
Qed.
(** a data-based component (class name of 16 characters) pushes its numbers four columns to the right *)
Theorem C116_table_refuted : exists num c, c_cls c = "DataDistribution" /\ length (num 1) = 1 /\ length (c_w c) = 5 /\ length (c_dpn c) = 8 /\ length (c_dpw c) = 8 /\ length (c_pdi c) = 4 /\
  length (table_row num 0 c) = length table_header + 4.
Proof. exists (fun _ => "1"), (mkRow "1.000" "DataDistribution" "1.00e+02" "1.99e+02" "1.99"). repeat split. Qed.
Theorem C116_empty num sup l : mixture_repr num sup l = "empty" <-> l = [].
Proof.
  unfold mixture_repr. destruct l as [|c l]; [tauto|]. split; [|discriminate]. intros H. exfalso. apply (f_equal split) in H. rewrite split_app in H.
  change (nl ++ components_table num (c :: l)) with ("" ++ nl ++ components_table num (c :: l)) in H. rewrite split_app in H. cbn [split] in H.
  apply (f_equal (@List.length string)) in H. rewrite !app_length in H. cbn -[components_table] in H. pose proof (split_ne sup) as N. destruct (split sup); [congruence|].
  cbn -[components_table] in H. lia.
Qed.
Example C116_table_case : components_table (fun i => if Nat.eqb i 1 then "1" else "2") [mkRow "0.300" "Flory" "1.00e+02" "1.99e+02" "1.99"; mkRow "0.700" "SchulzZimm" "1.00e+02" "3.00e+02" "3.00"]
  = join nl [" #   Weight   Distribution        DPn        DPw    PDI"; "-------------------------------------------------------";
             " 1    0.300          Flory   1.00e+02   1.99e+02   1.99"; " 2    0.700     SchulzZimm   1.00e+02   3.00e+02   3.00"].
Proof. reflexivity. Qed.
(** a terminal swallows the characters from ESC to the next "m" *)
Fixpoint visible (esc : bool) (s : string) : string :=
  match s with
  | "" => ""
  | String c s => if esc then visible (negb (Ascii.eqb c "m")) s else if Ascii.eqb c "027"%char then visible true s else String c (visible false s)
  end.
(** green and red are the codes 92 and 91; what is shown is str(value), and the colour is reset at the end *)
Theorem C116_colored b : visible false (colored_bool b) = (if b then "True" else "False") /\
  (exists t, colored_bool b = String "027"%char ("[9" ++ (if b then "2" else "1") ++ "m" ++ t)) /\ (exists t, colored_bool b = t ++ String "027"%char "[0m").
Proof. destruct b; (split; [reflexivity|]); split; try (eexists; reflexivity); [exists (String "027"%char "[92mTrue")|exists (String "027"%char "[91mFalse")]; reflexivity. Qed.

(** ** Results of the solvers *)
(** no continuation line of the value has a colon in the column of the label colons (numbers, vectors and matrices have none at all) *)
Definition nolabel (v : string) : Prop := Forall (fun row => get 7 row <> Some ":"%char) (tl (split v)).
Definition rline (a : string * string) : list string := (rjust 7 (fst a) ++ ": " ++ hd "" (split (snd a))) :: tl (split (snd a)).
Lemma get_app_r a b n : get (length a + n) (a ++ b) = get n b.
Proof. induction a; cbn; auto. Qed.
Lemma rlabel l s : length l <= 7 -> get 7 (rjust 7 l ++ ": " ++ s) = Some ":"%char.
Proof. intros H. replace 7 with (length (rjust 7 l) + 0) at 1 by (rewrite rjust_len; lia). now rewrite get_app_r. Qed.
Lemma split_hd p s : single p -> split (p ++ s) = (p ++ hd "" (split s)) :: tl (split s).
Proof.
  induction p as [|c p IH]; intros H; cbn [append]. { pose proof (split_ne s). destruct (split s); [congruence|reflexivity]. }
  apply single_cons in H. destruct H as (Hc & H). cbn [split]. destruct (Ascii.eqb c NL) eqn:E; [apply Ascii.eqb_eq in E; congruence|]. rewrite (IH H). reflexivity.
Qed.
Lemma rjust_single n l : single l -> single (rjust n l).
Proof. intros H. unfold rjust. apply single_app. split; [apply single_sp|exact H]. Qed.
Lemma result_lines items : items <> [] -> Forall (fun a => single (fst a)) items -> split (result_repr items) = flat_map rline items.
Proof.
  intros N F. unfold result_repr. rewrite split_join by (destruct items; [congruence|discriminate]). clear N. induction F as [|a l H F IH]; [reflexivity|]. cbn [map flat_map]. rewrite IH. f_equal.
  rewrite <- app_assoc_s. rewrite split_hd; [unfold rline; now rewrite app_assoc_s|]. apply single_app. split; [now apply rjust_single|reflexivity].
Qed.
Lemma rows_inj (P : string -> Prop) rs rs' l l' : Forall (fun r => ~ P r) rs -> Forall (fun r => ~ P r) rs' -> match l with [] => True | x :: _ => P x end -> match l' with [] => True | x :: _ => P x end -> (rs ++ l = rs' ++ l')%list -> rs = rs' /\ l = l'.
Proof.
  intros F. revert rs'. induction F as [|r rs H F IH]; intros rs' F' L L' E.
  - destruct F' as [|r' rs' H' F']; [auto|]. cbn in E. subst l. contradiction.
  - destruct F' as [|r' rs' H' F']; cbn in E; [subst l'; contradiction|]. injection E as -> E. destruct (IH rs' F' L L' E) as (-> & ->). auto.
Qed.
Lemma rline_head items : Forall (fun a => length (fst a) <= 7) items -> match flat_map rline items with [] => True | x :: _ => get 7 x = Some ":"%char end.
Proof. intros F. destruct F as [|a l H F]; [exact I|]. cbn. now apply rlabel. Qed.
(** the representation determines the value of every field *)
Theorem C116_results ns vs vs' : Forall (fun n => single n /\ length n <= 7) ns -> List.length vs = List.length ns -> List.length vs' = List.length ns -> Forall nolabel vs -> Forall nolabel vs' ->
  result_repr (combine ns vs) = result_repr (combine ns vs') -> vs = vs'.
Proof.
  intros F. revert vs vs'. destruct ns as [|n ns]; [intros [|? ?] [|? ?]; cbn; congruence|]. intros vs vs' L L' V V' E.
  assert (G : forall ws : list string, List.length ws = List.length (n :: ns) -> Forall (fun a => single (fst a)) (combine (n :: ns) ws) /\ combine (n :: ns) ws <> []).
  { intros ws W. split; [|destruct ws; cbn in *; [lia|discriminate]]. apply Forall_forall. intros (u, v) I. apply in_combine_l in I. rewrite Forall_forall in F. now apply F. }
  apply (f_equal split) in E. rewrite !result_lines in E by (now apply G). clear G. revert vs vs' L L' V V' E. generalize dependent (n :: ns). clear n ns. intros ns F.
  induction F as [|n ns (H1 & H2) F IH]; intros [|v vs] [|v' vs']; cbn [List.length]; try lia; intros L L' V V' E; [reflexivity|]. cbn [combine flat_map] in E. unfold rline at 1 3 in E. cbn [fst snd app] in E. injection E as E1 E2.
  inversion V as [|? ? V1 V2]. inversion V' as [|? ? V1' V2']. subst.
  assert (FF : forall ws, Forall (fun a : string * string => length (fst a) <= 7) (combine ns ws)). { intros ws. apply Forall_forall. intros (u, w) I. apply in_combine_l in I. rewrite Forall_forall in F. now apply F. }
  destruct (rows_inj (fun r => get 7 r = Some ":"%char) _ _ _ _ V1 V1' (rline_head _ (FF vs)) (rline_head _ (FF vs')) E2) as (A & B). apply app_inv in E1. injection E1 as E1.
  f_equal; [|apply IH; auto; lia]. apply split_inj. pose proof (split_ne v). pose proof (split_ne v'). destruct (split v), (split v'); cbn in *; congruence.
Qed.
(** every line of one-line values has the colon of its label in the eighth column *)
Theorem C116_results_aligned ns vs : ns <> [] -> Forall (fun n => single n /\ length n <= 7) ns -> List.length vs = List.length ns -> Forall single vs ->
  List.length (split (result_repr (combine ns vs))) = List.length ns /\ Forall (fun r => get 7 r = Some ":"%char) (split (result_repr (combine ns vs))).
Proof.
  intros N F L V. rewrite result_lines.
  - clear N. revert vs L V. induction F as [|n ns (H1 & H2) F IH]; intros [|v vs]; cbn [List.length]; try lia; intros L V; [split; [reflexivity|constructor]|]. inversion V as [|? ? V1 V2]. subst. destruct (IH vs) as (A & B); [lia|auto|]. cbn [combine flat_map]. unfold rline at 1 3. cbn [fst snd]. rewrite V1. cbn [tl hd app List.length]. split; [now rewrite A|]. constructor; [now apply rlabel|exact B].
  - destruct ns, vs; cbn in *; congruence.
  - apply Forall_forall. intros (u, v) I. apply in_combine_l in I. rewrite Forall_forall in F. now apply F.
Qed.
Lemma single_nolabel v : single v -> nolabel v.
Proof. intros H. unfold nolabel. rewrite H. constructor. Qed.
Lemma colored_single b : single (colored_bool b).
Proof. destruct b; reflexivity. Qed.
Lemma colored_inj b b' : colored_bool b = colored_bool b' -> b = b'.
Proof. destruct b, b'; cbn; congruence. Qed.
Ltac lbl := repeat first [apply Forall_nil | apply Forall_cons; [split; [reflexivity|cbn; lia]|]].
Ltac vals := repeat first [apply Forall_nil | apply Forall_cons; [first [assumption | apply single_nolabel; first [assumption | apply colored_single]]|]].
(** instances: method, message and the numbers are one-line strings *)
Theorem C116_root m b s n k x f m' b' s' n' k' x' f' : Forall single [m; s; n; k; x; f; m'; s'; n'; k'; x'; f'] -> repr_root m b s n k x f = repr_root m' b' s' n' k' x' f' -> (m, b, s, n, k, x, f) = (m', b', s', n', k', x', f').
Proof.
  intros V E. repeat (match goal with V : Forall single (_ :: _) |- _ => inversion V; clear V; subst end).
  assert (Q : [m; colored_bool b; s; n; k; x; f] = [m'; colored_bool b'; s'; n'; k'; x'; f']). { apply (C116_results ["method"; "success"; "message"; "nfeval"; "niter"; "x"; "f"]); try reflexivity; [lbl|vals|vals|exact E]. }
  injection Q as -> Hb -> -> -> -> ->. apply colored_inj in Hb. now subst.
Qed.
Theorem C116_vector_root m b s n j k x f jac m' b' s' n' j' k' x' f' jac' : Forall single [m; s; n; j; k; m'; s'; n'; j'; k'] -> Forall nolabel [x; f; jac; x'; f'; jac'] ->
  repr_vector_root m b s n j k x f jac = repr_vector_root m' b' s' n' j' k' x' f' jac' -> (m, b, s, n, j, k, x, f, jac) = (m', b', s', n', j', k', x', f', jac').
Proof.
  intros V U E. repeat (match goal with V : Forall _ (_ :: _) |- _ => inversion V; clear V; subst end).
  assert (Q : [m; colored_bool b; s; n; j; k; x; f; jac] = [m'; colored_bool b'; s'; n'; j'; k'; x'; f'; jac']). { apply (C116_results ["method"; "success"; "message"; "nfeval"; "njeval"; "niter"; "x"; "f"; "jac"]); try reflexivity; [lbl|vals|vals|exact E]. }
  injection Q as -> Hb -> -> -> -> -> -> ->. apply colored_inj in Hb. now subst.
Qed.
Theorem C116_flash m b s T P F L V be z x y K m' b' s' T' P' F' L' V' be' z' x' y' K' : Forall single [m; s; T; P; F; L; V; be; m'; s'; T'; P'; F'; L'; V'; be'] -> Forall nolabel [z; x; y; K; z'; x'; y'; K'] ->
  repr_flash m b s T P F L V be z x y K = repr_flash m' b' s' T' P' F' L' V' be' z' x' y' K' -> (m, b, s, T, P, F, L, V, be, z, x, y, K) = (m', b', s', T', P', F', L', V', be', z', x', y', K').
Proof.
  intros W U E. repeat (match goal with V : Forall _ (_ :: _) |- _ => inversion V; clear V; subst end).
  assert (Q : [m; colored_bool b; s; T; P; F; L; V; be; z; x; y; K] = [m'; colored_bool b'; s'; T'; P'; F'; L'; V'; be'; z'; x'; y'; K']). { apply (C116_results ["method"; "success"; "message"; "T"; "P"; "F"; "L"; "V"; "beta"; "z"; "x"; "y"; "K"]); try reflexivity; [lbl|vals|vals|exact E]. }
  injection Q as -> Hb -> -> -> -> -> -> -> -> -> -> ->. apply colored_inj in Hb. now subst.
Qed.
Example C116_root_case : repr_root "Newton" true "|f(x)| <= tolf" "9" "4" "1.5" "0.0" =
  join nl [" method: Newton"; "success: " ++ colored_bool true; "message: |f(x)| <= tolf"; " nfeval: 9"; "  niter: 4"; "      x: 1.5"; "      f: 0.0"].
Proof. reflexivity. Qed.
Example C116_vector_case : nolabel (join nl ["[[1. 2.]"; " [3. 4.]]"]) /\ split (repr_vector_root "Newton" false "" "9" "None" "4" "[1.5 2. ]" "[0. 0.]" (join nl ["[[1. 2.]"; " [3. 4.]]"])) =
  [" method: Newton"; "success: " ++ colored_bool false; "message: "; " nfeval: 9"; " njeval: None"; "  niter: 4"; "      x: [1.5 2. ]"; "      f: [0. 0.]"; "    jac: [[1. 2.]"; " [3. 4.]]"].
Proof. split; [|reflexivity]. unfold nolabel. cbn. constructor; [discriminate|constructor]. Qed.
Print Assumptions C116_results.
Print Assumptions C116_faithful.
Print Assumptions C116_matrix.
Print Assumptions C116_table.
