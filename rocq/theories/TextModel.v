(** Model of the text representations: utils/tools.py (custom_repr, pprint_matrix, colored_bool),
    the two coefficient classes and the copolymerization model using custom_repr, and
    MixtureDistribution.components_table.  Strings are Coq strings; formatted numbers (str, format) are
    arguments, since number formatting is Python's. *)
From Coq Require Import List Bool Arith Lia String Ascii.
Import ListNotations.
Open Scope string_scope.

Definition NL : ascii := "010"%char.
(** one-character newline string *)
Definition nl : string := String NL "".
(** " " * n *)
Fixpoint sp (n : nat) : string := match n with 0 => "" | S n => String " " (sp n) end.
(** s.split("\n") *)
Fixpoint split (s : string) : list string :=
  match s with
  | "" => [""]
  | String c s =>
    if Ascii.eqb c NL then "" :: split s
    else match split s with [] => [String c ""] | r :: rs => String c r :: rs end
  end.
(** sep.join(l) *)
Fixpoint join (sep : string) (l : list string) : string :=
  match l with [] => "" | [x] => x | x :: l => x ++ sep ++ join sep l end.
(** max([len(a) for a in ...]) of a non-empty list of lengths *)
Definition maxlen (l : list string) : nat := fold_right (fun s m => Nat.max (length s) m) 0 l.

(** utils/tools.py:486-494 — one item of custom_repr; [w] is nspaces after line 486 *)
Definition item (w : nat) (a : string * string) : string :=
  let rows := split (snd a) in
  if Nat.eqb (List.length rows) 1 then (fst a ++ ":") ++ sp (w - length (fst a)) ++ snd a
  else join (nl ++ "  ") ((fst a ++ ":") :: rows).
(** utils/tools.py:461-496 — custom_repr; [attrs] pairs the attribute names with str(getattr(obj, name)) *)
Definition custom_repr (attrs : list (string * string)) (nspaces : nat) : string :=
  match attrs with
  | [] => ""
  | _ => let w := nspaces + maxlen (map fst attrs) in join nl (map (item w) attrs)
  end.

(** cldpropagation.py:107 — PropagationHalfLength.__repr__ (name, C, ihalf, kp) *)
Definition repr_half_length (name C ihalf kp : string) : string :=
  custom_repr [("name", name); ("C", C); ("ihalf", ihalf); ("kp", kp)] 3.
(** cldtermination.py:117 — TerminationCompositeModel.__repr__ *)
Definition repr_composite (name icrit aS aL kt11 : string) : string :=
  custom_repr [("name", name); ("icrit", icrit); ("aS", aS); ("aL", aL); ("kt11", kt11)] 3.
(** terminal.py:68 — CopoModel.__repr__ for the terminal model: ("name", "M1", "M2", "k1", "k2") + ("r1", "r2") *)
Definition repr_terminal (name M1 M2 k1 k2 r1 r2 : string) : string :=
  custom_repr [("name", name); ("M1", M1); ("M2", M2); ("k1", k1); ("k2", k2); ("r1", r1); ("r2", r2)] 3.

(** utils/tools.py:520-527 — pprint_matrix; a row is the list of its formatted elements.  [n] is nrows and
    [i] the index of the first row of [rows]. *)
Fixpoint pp_rows (nspaces n i : nat) (rows : list (list string)) : string :=
  match rows with
  | [] => ""
  | r :: rows =>
    ((if Nat.eqb i 0 then "[[" else sp nspaces ++ " [") ++ join " " r ++ (if Nat.eqb (i + 1) n then "]]" ++ nl else "]" ++ nl))
    ++ pp_rows nspaces n (i + 1) rows
  end.
(** utils/tools.py:499-527 *)
Definition pprint_matrix (m : list (list string)) (nspaces : nat) : string := pp_rows nspaces (List.length m) 0 m.

(** utils/tools.py:547-549 — colored_bool: ESC is character 27 *)
Definition ESC : string := String "027"%char "".
(** utils/tools.py:530-549 *)
Definition colored_bool (b : bool) : string :=
  (if b then ESC ++ "[92m" else ESC ++ "[91m") ++ (if b then "True" else "False") ++ (ESC ++ "[0m").

(** f"{s:>n}" : right-aligned, never truncated *)
Definition rjust (n : nat) (s : string) : string := sp (n - length s) ++ s.
(** one component: weight (formatted .3f), class name, DPn (.2e), DPw (.2e), PDI (.2f) *)
Record crow := mkRow { c_w : string; c_cls : string; c_dpn : string; c_dpw : string; c_pdi : string }.
(** base.py:784-793 *)
Definition table_header : string := join "   " [rjust 2 "#"; rjust 6 "Weight"; rjust 12 "Distribution"; rjust 8 "DPn"; rjust 8 "DPw"; rjust 4 "PDI"].
(** base.py:796-804; [num] formats the row number; DPn and DPw use minimum width 4 *)
Definition table_row (num : nat -> string) (i : nat) (c : crow) : string :=
  join "   " [rjust 2 (num (i + 1)); rjust 6 (c_w c); rjust 12 (c_cls c); rjust 4 (c_dpn c); rjust 4 (c_dpw c); rjust 4 (c_pdi c)].
(** "-" * n *)
Fixpoint dashes (n : nat) : string := match n with 0 => "" | S n => String "-" (dashes n) end.
Fixpoint table_rows (num : nat -> string) (i : nat) (l : list crow) : list string :=
  match l with [] => [] | c :: l => table_row num i c :: table_rows num (i + 1) l end.
(** base.py:781-806 — MixtureDistribution.components_table *)
Definition components_table (num : nat -> string) (l : list crow) : string :=
  match l with
  | [] => "empty"
  | _ => join nl (table_header :: dashes (length table_header) :: table_rows num 0 l)
  end.
(** base.py:751-755 — MixtureDistribution.__repr__; [sup] is Distribution.__repr__ (not evaluated when empty) *)
Definition mixture_repr (num : nat -> string) (sup : string) (l : list crow) : string :=
  match l with [] => "empty" | _ => sup ++ nl ++ nl ++ components_table num l end.

(** math/roots/results.py:46-56, 95-107 and thermo/flash/vle.py:70-87 — one line "label: value" per field, the label right-aligned in 7 columns *)
Definition result_repr (items : list (string * string)) : string :=
  join nl (map (fun a => rjust 7 (fst a) ++ ": " ++ snd a) items).
(** math/roots/results.py:46-56 — RootResult.__repr__ *)
Definition repr_root (method : string) (success : bool) (message nfeval niter x f : string) : string :=
  result_repr [("method", method); ("success", colored_bool success); ("message", message); ("nfeval", nfeval); ("niter", niter); ("x", x); ("f", f)].
(** math/roots/results.py:95-107 — VectorRootResult.__repr__ *)
Definition repr_vector_root (method : string) (success : bool) (message nfeval njeval niter x f jac : string) : string :=
  result_repr [("method", method); ("success", colored_bool success); ("message", message); ("nfeval", nfeval); ("njeval", njeval); ("niter", niter); ("x", x); ("f", f); ("jac", jac)].
(** thermo/flash/vle.py:70-87 — FlashResult.__repr__ *)
Definition repr_flash (method : string) (success : bool) (message T P F L V beta z x y K : string) : string :=
  result_repr [("method", method); ("success", colored_bool success); ("message", message); ("T", T); ("P", P); ("F", F); ("L", L); ("V", V); ("beta", beta); ("z", z); ("x", x); ("y", y); ("K", K)].
