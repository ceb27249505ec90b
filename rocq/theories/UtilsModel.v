(** Model of src/polykin/utils/tools.py (validators and unit conversion). *)
From Coq Require Import Reals Lra Lia List Bool Arith String.
From Verif Require Import Prelude.
Import ListNotations.
Open Scope R_scope.

(** Run-time values given to the validators: a real number, a numpy array of 0, 1
    or 2 dimensions (rows), a list/tuple of numbers, or an object that is neither a
    number nor iterable.  Arrays of higher dimension and one-shot generators are not
    represented. *)
Inductive pyval :=
| VNum (x : fl) | VArr0 (x : fl) | VArr1 (l : list fl) | VArr2 (rows : list (list fl))
| VList (l : list fl) | VOther.

Definition between (xmin xmax x : fl) : bool := fleb xmin x && fleb x xmax.

(** Truth value of a boolean numpy array of the given elements: a single element is
    its own truth value, several are ambiguous (ValueError), none is False. *)
Definition np_bool (l : list bool) : res bool :=
  match l with [] => Ok false | [b] => Ok b | _ => Err ValueError end.

(** [xi >= xmin and xi <= xmax] for a row [xi], as used by the builtin [all]. *)
Definition row_test (xmin xmax : fl) (row : list fl) : res bool :=
  do a <- np_bool (map (fun x => fleb xmin x) row);
  if a then np_bool (map (fun x => fleb x xmax) row) else Ok false.

Fixpoint all_rows (xmin xmax : fl) (rows : list (list fl)) : res bool :=
  match rows with
  | [] => Ok true
  | r :: rs => do b <- row_test xmin xmax r; if b then all_rows xmin xmax rs else Ok false
  end.

(** tools.py:161-203 — check_bounds (with check_type 58-107 and custom_error 27-55 on
    its failure path: a value of an admissible type is a RangeError, anything else a
    TypeError).  Iterating over a 0-dimensional array is a TypeError. *)
Definition check_bounds (x : pyval) (xmin xmax : fl) : res pyval :=
  match x with
  | VNum v => if between xmin xmax v then Ok x else Err RangeError
  | VArr0 v => if between xmin xmax v then Ok x else Err TypeError
  | VArr1 l | VList l =>
      if forallb (between xmin xmax) l then Ok x else Err RangeError
  | VArr2 rows =>
      if forallb (forallb (between xmin xmax)) rows then Ok x
      else do b <- all_rows xmin xmax rows; if b then Ok x else Err RangeError
  | VOther => Err TypeError
  end.

(** tools.py:206-256 — check_in_set.  Elements are strings; [inl] is a single value,
    [inr] a list, set or tuple. *)
Definition elems (v : string + list string) : list string :=
  match v with inl s => [s] | inr l => l end.
Definition check_in_set (v : string + list string) (valid : list string) : res (string + list string) :=
  if forallb (fun s => existsb (String.eqb s) valid) (elems v) then Ok v else Err ValueError.

(** tools.py:259-311 — check_shapes.  An object is represented by its shape; scalars
    and 0-d arrays have shape []. *)
Definition shape := list nat.
(** tools.py:259-311 *)
Definition shape_eqb (s t : shape) : bool := if list_eq_dec Nat.eq_dec s t then true else false.
(** tools.py:259-311 *)
Definition nonscalar (s : shape) : bool := match s with [] => false | _ => true end.
(** len(set(l)) == 1 *)
Definition one_value (l : list shape) : bool :=
  match l with [] => false | s :: r => forallb (shape_eqb s) r end.
Definition check_shapes (a b : list shape) : res (option shape) :=
  let sa := filter nonscalar a in
  let sb := filter nonscalar b in
  let check_a := match sa with
                 | [] => true
                 | _ => (List.length sa =? List.length a)%nat && one_value sa
                 end in
  let check_b := match sb with
                 | [] => true
                 | _ => match sa with [] => false | _ => one_value (sa ++ sb) end
                 end in
  if negb check_a || negb check_b then Err ShapeError
  else Ok (match sa with [] => None | s :: _ => Some s end).

(** tools.py:314-347 — check_valid_range.  [None] elements are objects that are not
    real numbers; [RNotTuple] is any argument which is not a tuple. *)
Inductive rarg := RTuple (l : list (option fl)) | RNotTuple.
(** tools.py:314-347 *)
Definition check_valid_range (r : rarg) (xmin xmax : fl) : res rarg :=
  match r with
  | RTuple [Some a; Some b] =>
      if fltb a b then do _ <- check_bounds (VList [a; b]) xmin xmax; Ok r
      else Err RangeError
  | _ => Err RangeError
  end.

(** tools.py:350-375 — check_range_warn: true when the message is printed. *)
Definition check_range_warn (x xmin xmax : fl) : bool := fltb x xmin || fltb xmax x.

(** float addition and multiplication by a positive constant *)
Definition fl_map (f : R -> R) (x : fl) : fl :=
  match x with Fin r => Fin (f r) | y => y end.

(** tools.py:378-415 — convert_check_temperature on the array of the elements (a
    scalar is a one-element array); result: values in K and whether a warning is
    issued. *)
Definition convert_check_temperature (T : list fl) (Tunit : string) (Tmin Tmax : fl)
  : res (list fl * bool) :=
  do TK <- (if String.eqb Tunit "K" then Ok T
            else if String.eqb Tunit "C" then Ok (map (fl_map (fun r => r + 27315 / 100)) T)
            else Err ValueError);
  if existsb (fun t => fltb t (Fin 0)) TK then Err RangeError
  else Ok (TK, existsb (fun t => fltb t Tmin) TK || existsb (fun t => fltb Tmax t) TK).

(** tools.py:418-458 — convert_check_pressure. *)
Definition convert_check_pressure (P : list fl) (Punit : string) (Pmin Pmax : fl)
  : res (list fl * bool) :=
  do f <- (if String.eqb Punit "Pa" then Ok 1
           else if String.eqb Punit "bar" then Ok (10 ^ 5)
           else if String.eqb Punit "MPa" then Ok (10 ^ 6)
           else Err ValueError);
  let Pa := map (fl_map (fun r => r * f)) P in
  if existsb (fun t => fltb t (Fin 0)) Pa then Err RangeError
  else Ok (Pa, existsb (fun t => fltb t Pmin) Pa || existsb (fun t => fltb Pmax t) Pa).
