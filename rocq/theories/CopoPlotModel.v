(** Model of CopoModel.plot (src/polykin/copolymerization/terminal.py): what is drawn. *)
From Coq Require Import Reals Lra Lia List Bool Arith String.
From Verif Require Import Prelude UtilsModel CopoDataModel DistPlotModel.
Import ListNotations.
Open Scope R_scope.

(** What is drawn: a line or a set of points, with its coordinates. *)
Inductive item := Line (x y : list R) | Points (x y : list R).

(** [1 - a], elementwise *)
Definition flip (l : list R) : list R := map (fun a => 1 - a) l.

(** terminal.py:306-307 — the unit interval and the number of points *)
Definition grid : list R := linspace 0 1 1000.

(** isinstance(ds, ...Dataset) *)
Definition is_kind (k : dskind) (d : dataset) : bool :=
  match k, ds_kind d with Mayo, Mayo | Drift, Drift | Kp, Kp => true | _, _ => false end.

(** the loops over the data sets: [f] is applied to those of the kind *)
Fixpoint over (k : dskind) (f : dataset -> res (list item)) (l : list dataset) : res (list item) :=
  match l with
  | [] => Ok []
  | d :: r => do a <- (if is_kind k d then f d else Ok []); do b <- over k f r; Ok (a ++ b)
  end.

(** [a[0]] *)
Definition first (l : list R) : res R := match l with [] => Err IndexError | a :: _ => Ok a end.

(** terminal.py:334, 371, 405 — show in {"data", "all"} *)
Definition wants_data (show : string) : bool := String.eqb show "data" || String.eqb show "all".

(** terminal.py:237-430 — plot.  [F1], [drift f0] and [kpT] are the methods of the model (the last at
    the given temperature), [kpd d] is kp at the temperature of a data set; all act elementwise.
    [f0] is None or the array made of the argument (a number counts as one element); [hasT] tells
    whether T is given.  Titles, labels, limits, grid and legend are dropped. *)
Definition copo_plot (M1 M2 : string) (F1 : R -> R) (drift : R -> R -> R) (kpT : R -> R) (kpd : dataset -> R -> R)
  (data : list dataset) (kind show : string) (M : nat) (f0 : option (list R)) (hasT : bool) : res (list item) :=
  if negb (Nat.eqb M 1 || Nat.eqb M 2) then Err ValueError else
  do _ <- check_in_set (inl kind) ["Mayo"; "kp"; "drift"; "triads"]%string;
  do _ <- check_in_set (inl show) ["auto"; "all"; "data"; "model"]%string;
  let two := Nat.eqb M 2 in
  let Mname := if two then M2 else M1 in
  let mir := fun l => if two then flip l else l in
  let show := if String.eqb show "auto" then (match data with [] => "model" | _ => "all" end)%string else show in
  if String.eqb kind "Mayo" then
    let model := if String.eqb show "model" || String.eqb show "all" then [Line (mir grid) (mir (map F1 grid))] else [] in
    do pts <- (if wants_data show then over Mayo (fun d => do x <- getvar d "f" Mname; do y <- getvar d "F" Mname; Ok [Points x y]) data else Ok []);
    Ok (Line [0; 1] [0; 1] :: model ++ pts)
  else if String.eqb kind "drift" then
    do model <- (if String.eqb show "model" then
                   match f0 with
                   | None => Err ValueError
                   | Some l => do _ <- check_bounds (VArr1 (map Fin l)) (Fin 0) (Fin 1);
                               Ok (map (fun a => Line grid (mir (map (drift a) grid))) (mir l))
                   end
                 else Ok []);
    do pts <- (if wants_data show then
                 over Drift (fun d => do x <- getvar d "x" ""; do y <- getvar d "f" Mname;
                                      do c <- (if String.eqb show "all" then do f <- getvar d "f" M1; do a <- first f; Ok [Line grid (mir (map (drift a) grid))] else Ok []);
                                      Ok (Points x y :: c)) data
               else Ok []);
    Ok (model ++ pts)
  else if String.eqb kind "kp" then
    do model <- (if String.eqb show "model" then if hasT then Ok [Line (mir grid) (map kpT grid)] else Err ValueError else Ok []);
    do pts <- (if wants_data show then
                 over Kp (fun d => do x <- getvar d "f" Mname; do y <- getvar d "kp" "";
                                   Ok (Points x y :: (if String.eqb show "all" then [Line (mir grid) (map (kpd d) grid)] else []))) data
               else Ok []);
    Ok (model ++ pts)
  else Err NotImplementedErr.
