(** Model of src/polykin/copolymerization/copodataset.py, of CopoModel.add_data
    (terminal.py) and of the estimation formulas of fitting.py. *)
From Coq Require Import Reals Lra Lia List Bool Arith String Ascii.
From Verif Require Import Prelude UtilsModel RootsModel DiffModel CopoModel.
Import ListNotations.
Open Scope R_scope.

(** str.lower, on ASCII letters. *)
Definition lower_ascii (c : ascii) : ascii :=
  let n := nat_of_ascii c in
  if (Nat.leb 65 n && Nat.leb n 90)%bool then ascii_of_nat (n + 32) else c.
Fixpoint lower (s : string) : string :=
  match s with EmptyString => EmptyString | String c s' => String (lower_ascii c) (lower s') end.

(** copodataset.py:111, 164, 219 — the three data set classes and their varmap. *)
Inductive dskind := Mayo | Drift | Kp.
(** copodataset.py:111, 164, 219 *)
Definition varmap (k : dskind) (v : string) : option bool (* true: x, false: y *) :=
  match k with
  | Mayo => if String.eqb v "f" then Some true else if String.eqb v "F" then Some false else None
  | Drift => if String.eqb v "x" then Some true else if String.eqb v "f" then Some false else None
  | Kp => if String.eqb v "f" then Some true else if String.eqb v "kp" then Some false else None
  end.

(** A data set object.  [ds_id] is its identity (the class defines no __eq__, so membership
    in a set is by identity).  The fields sigma_x, ..., source are dropped. *)
Record dataset := mkDS { ds_id : nat; ds_kind : dskind; ds_M1 : string; ds_M2 : string;
                         ds_x : list R; ds_y : list R }.

(** terminal.py:55-59 and copodataset.py:42-46 — the check on the monomer names. *)
Definition names_ok (M1 M2 : string) : bool :=
  negb (String.eqb M1 "") && negb (String.eqb M2 "") && negb (String.eqb (lower M1) (lower M2)).

(** copodataset.py:27-62 — the constructor (without the unused fields). *)
Definition make_dataset (id : nat) (k : dskind) (M1 M2 : string) (x y : list R) : res dataset :=
  if names_ok M1 M2 then
    if Nat.eqb (List.length x) (List.length y) then Ok (mkDS id k M1 M2 x y) else Err ShapeError
  else Err ValueError.

(** copodataset.py:64-74 — getvar. *)
Definition getvar (d : dataset) (v M : string) : res (list R) :=
  match varmap (ds_kind d) v with
  | None => Err KeyError
  | Some b =>
      let x := if b then ds_x d else ds_y d in
      if String.eqb M "" then Ok x
      else if String.eqb M (ds_M1 d) then Ok x
      else if String.eqb M (ds_M2 d) then Ok (map (fun a => 1 - a) x)
      else Err ValueError
  end.

(** {a, b} != {c, d} on Python sets *)
Definition same_pair (a b c d : string) : bool :=
  (String.eqb a c && String.eqb b d) || (String.eqb a d && String.eqb b c)
  || (String.eqb a b && String.eqb c d && String.eqb a c).

(** terminal.py:443-457 — add_data on a list; returns the stored list (also when an
    exception is raised) and the outcome.  The warning on duplicates is dropped. *)
Fixpoint add_data (M1 M2 : string) (store : list dataset) (l : list dataset) : list dataset * res unit :=
  match l with
  | [] => (store, Ok tt)
  | d :: l' =>
      if same_pair (ds_M1 d) (ds_M2 d) M1 M2 then
        if existsb (fun e => Nat.eqb (ds_id e) (ds_id d)) store then add_data M1 M2 store l'
        else add_data M1 M2 (store ++ [d]) l'
      else (store, Err ValueError)
  end.
(** A history of calls; exceptions are caught by the caller. *)
Fixpoint add_history (M1 M2 : string) (store : list dataset) (h : list (list dataset)) : list dataset :=
  match h with
  | [] => store
  | l :: h' => add_history M1 M2 (fst (add_data M1 M2 store l)) h'
  end.

(** scipy.stats.linregress: slope and intercept of the least-squares line through N
    points; identical abscissae raise ValueError. *)
Definition linregress (N : nat) (x y : nat -> R) : res (R * R) :=
  let xm := sumn N x / INR N in
  let ym := sumn N y / INR N in
  let sxx := sumn N (fun i => (x i - xm) ^ 2) in
  let sxy := sumn N (fun i => (x i - xm) * (y i - ym)) in
  if Req_EM_T sxx 0 then Err ValueError
  else Ok (sxy / sxx, ym - sxy / sxx * xm).

(** fitting.py:159-173 — fit_Finemann_Ross.  Simplification: the transformations use real
    division (fractions strictly between 0 and 1). *)
Definition fit_Finemann_Ross (N : nat) (f1 F1 : nat -> R) : res (R * R) :=
  let x i := f1 i / (1 - f1 i) in
  let y i := F1 i / (1 - F1 i) in
  let H i := x i ^ 2 / y i in
  let G i := x i * (y i - 1) / y i in
  do s <- linregress N H G;
  Ok (fst s, - snd s).

(** copodataset.py:241-250 — an F(f) data set: points (f1, F1, scale_F1) and weight.
    Simplification: one scale per point (a float is repeated). *)
Record dsFf := mkFf { ff_pts : list (R * R * R); ff_weight : R }.

(** copodataset.py:241-250 *)
Fixpoint rsum_list (l : list R) : R := match l with [] => 0 | a :: l' => a + rsum_list l' end.

(** fitting.py:431-438 — the F1(f1) part of sse in _fit_copo_NLLS.  [F] is the composition
    function inst_copolymer_binary(., r1, r2). *)
Definition sse_NLLS (data : list dsFf) (F : R -> R) : R :=
  rsum_list (map (fun d => ff_weight d *
     rsum_list (map (fun p => let '(f, y, s) := p in ((y - F f) / s) * ((y - F f) / s)) (ff_pts d))) data).

(** fitting.py:492-508, 531-535 — the residual sum of _fit_copo_ODR with the abscissae not
    adjusted (f1plus = f1). *)
Definition sse_ODR (data : list dsFf) (F : R -> R) : R :=
  rsum_list (map (fun d =>
     rsum_list (map (fun p => let '(f, y, s) := p in
        let sF := s / (ff_weight d + 1 / 10 ^ 10) in ((y - F f) / sF) * ((y - F f) / sF)) (ff_pts d))) data).

(** fitting.py:471-479 — covariance matrix; [inv] is numpy.linalg.inv on 2x2 matrices
    (row-major 4-tuples). *)
Definition M2x2 := (R * R * R * R)%type.
(** fitting.py:471-479 *)
Definition fit_cov (inv : M2x2 -> res M2x2) (sse : R * R -> R) (r_opt : R * R) (sse_opt : R) (ndata : nat)
  : res (option M2x2) :=
  if Nat.ltb 2 ndata then
    let s_sq := sse_opt / (INR ndata - 2) in
    do Hi <- inv (hessian2_centered sse r_opt (1 / 10 ^ 4));
    let '(a, b, c, d) := Hi in
    Ok (Some (2 * a * s_sq, 2 * b * s_sq, 2 * c * s_sq, 2 * d * s_sq))
  else Ok None.
