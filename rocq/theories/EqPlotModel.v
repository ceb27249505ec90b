(** Model of src/polykin/properties/equations: construction and evaluation of the equation
    objects (base.py, dippr.py, vapor_pressure.py, viscosity.py) and their plots. *)
From Coq Require Import Reals Lra Lia List Bool Arith String.
From Verif Require Import Prelude RootsModel UtilsModel CopoModel PropModel DistPlotModel.
Import ListNotations.
Open Scope R_scope.

(** float subtraction *)
Definition fl_sub (a b : fl) : fl :=
  match a, b with
  | Fin x, Fin y => Fin (x - y)
  | NaN, _ | _, NaN => NaN
  | PInf, PInf | NInf, NInf => NaN
  | PInf, _ | _, NInf => PInf
  | NInf, _ | _, PInf => NInf
  end.

(** base.py:47-60 — PropertyEquationT.__init__ on scalar bounds: the accepted validity range *)
Definition eq_init (Tmin Tmax : fl) : res (fl * fl) :=
  do _ <- check_bounds (VNum Tmin) (Fin 0) PInf;
  do _ <- check_bounds (VNum Tmax) (Fin 0) PInf;
  do _ <- check_bounds (VNum (fl_sub Tmax Tmin)) (Fin eps) PInf;
  Ok (Tmin, Tmax).

(** Values of the parameter dictionary: numbers, and the flag base10. *)
Inductive pv := PNum (r : R) | PFlag (b : bool).
(** The classes of equations. *)
Inductive eqclass := D100 | D101 | D102 | D104 | D105 | D106 | D107 | CAntoine | CYaws | CWagner25 | CWagner36.
(** An equation object: class, parameter dictionary, validity range (symbol, unit and name dropped). *)
Record eobj := mkE { e_cls : eqclass; e_p : list (string * pv); e_range : fl * fl }.

(** dictionary lookup *)
Fixpoint dget (p : list (string * pv)) (k : string) : res pv :=
  match p with [] => Err KeyError | (k', v) :: r => if String.eqb k k' then Ok v else dget r k end.

(** base.py:62-84 with the static methods [equation] — the equation called with the dictionary as
    keyword arguments; the names are those of the signatures dippr.py:133-140, 204-211, 266-272,
    336-343, 398-404, 474-482, 548-555, vapor_pressure.py:95-101, 211-219, 331-339 and
    viscosity.py:80-87.  A missing name is a TypeError; no class stores a name that its equation
    does not take. *)
Definition num (p : list (string * pv)) (k : string) : res R :=
  match dget p k with Ok (PNum r) => Ok r | _ => Err TypeError end.
(** same for the flag *)
Definition flag (p : list (string * pv)) (k : string) : res bool :=
  match dget p k with Ok (PFlag b) => Ok b | _ => Err TypeError end.
(** base.py:84 — self.equation(TK, **self.p) *)
Definition equation (c : eqclass) (p : list (string * pv)) (T : R) : res pyf :=
  match c with
  | D100 => do A <- num p "A"; do B <- num p "B"; do C <- num p "C"; do D <- num p "D"; do E <- num p "E"; Ok (Flt (DIPPR100 T A B C D E))
  | D101 => do A <- num p "A"; do B <- num p "B"; do C <- num p "C"; do D <- num p "D"; do E <- num p "E"; Ok (Flt (DIPPR101 T A B C D E))
  | D102 => do A <- num p "A"; do B <- num p "B"; do C <- num p "C"; do D <- num p "D"; Ok (Flt (DIPPR102 T A B C D))
  | D104 => do A <- num p "A"; do B <- num p "B"; do C <- num p "C"; do D <- num p "D"; do E <- num p "E"; Ok (Flt (DIPPR104 T A B C D E))
  | D105 => do A <- num p "A"; do B <- num p "B"; do C <- num p "C"; do D <- num p "D"; Ok (DIPPR105 T A B C D)
  | D106 => do A <- num p "A"; do B <- num p "B"; do C <- num p "C"; do D <- num p "D"; do E <- num p "E"; do Tc <- num p "Tc"; Ok (DIPPR106 T A B C D E Tc)
  | D107 => do A <- num p "A"; do B <- num p "B"; do C <- num p "C"; do D <- num p "D"; do E <- num p "E"; Ok (Flt (DIPPR107 T A B C D E))
  | CAntoine => do A <- num p "A"; do B <- num p "B"; do C <- num p "C"; do b <- flag p "base10"; Ok (Flt (Antoine T A B C b))
  | CYaws => do A <- num p "A"; do B <- num p "B"; do C <- num p "C"; do D <- num p "D"; do b <- flag p "base10"; Ok (Flt (Yaws T A B C D b))
  | CWagner25 => do a <- num p "a"; do b <- num p "b"; do c <- num p "c"; do d <- num p "d"; do Pc <- num p "Pc"; do Tc <- num p "Tc"; Ok (Wagner25 T a b c d Pc Tc)
  | CWagner36 => do a <- num p "a"; do b <- num p "b"; do c <- num p "c"; do d <- num p "d"; do Pc <- num p "Pc"; do Tc <- num p "Tc"; Ok (Wagner36 T a b c d Pc Tc)
  end.

(** the end of every constructor *)
Definition make (c : eqclass) (p : list (string * pv)) (Tmin Tmax : fl) : res eobj :=
  do r <- eq_init Tmin Tmax; Ok (mkE c p r).
(** dippr.py:36-50 — DIPPRP4.__init__, called by 263 and 395 *)
Definition init_P4 (c : eqclass) (A B C D : R) (Tmin Tmax : fl) : res eobj :=
  make c [("A", PNum A); ("B", PNum B); ("C", PNum C); ("D", PNum D)]%string Tmin Tmax.
(** dippr.py:56-71 — DIPPRP5.__init__, called by 130, 201, 333 and 545 *)
Definition init_P5 (c : eqclass) (A B C D E : R) (Tmin Tmax : fl) : res eobj :=
  make c [("A", PNum A); ("B", PNum B); ("C", PNum C); ("D", PNum D); ("E", PNum E)]%string Tmin Tmax.
(** dippr.py:116-130 *)
Definition init_DIPPR100 (A B C D E : R) := init_P5 D100 A B C D E.
(** dippr.py:187-201 *)
Definition init_DIPPR101 (A B C D E : R) := init_P5 D101 A B C D E.
(** dippr.py:250-263 *)
Definition init_DIPPR102 (A B C D : R) := init_P4 D102 A B C D.
(** dippr.py:319-333 *)
Definition init_DIPPR104 (A B C D E : R) := init_P5 D104 A B C D E.
(** dippr.py:382-395 *)
Definition init_DIPPR105 (A B C D : R) := init_P4 D105 A B C D.
(** dippr.py:455-471; the critical temperature is the first argument *)
Definition init_DIPPR106 (Tc A B C D E : R) (Tmin Tmax : fl) : res eobj :=
  make D106 [("A", PNum A); ("B", PNum B); ("C", PNum C); ("D", PNum D); ("E", PNum E); ("Tc", PNum Tc)]%string Tmin Tmax.
(** dippr.py:531-545 *)
Definition init_DIPPR107 (A B C D E : R) := init_P5 D107 A B C D E.
(** vapor_pressure.py:78-92 *)
Definition init_Antoine (A B C : R) (base10 : bool) (Tmin Tmax : fl) : res eobj :=
  make CAntoine [("A", PNum A); ("B", PNum B); ("C", PNum C); ("base10", PFlag base10)]%string Tmin Tmax.
(** vapor_pressure.py:192-208 *)
Definition init_Wagner25 (a b c d Pc Tc : R) (Tmin Tmax : fl) : res eobj :=
  make CWagner25 [("a", PNum a); ("b", PNum b); ("c", PNum c); ("d", PNum d); ("Pc", PNum Pc); ("Tc", PNum Tc)]%string Tmin Tmax.
(** vapor_pressure.py:312-328 *)
Definition init_Wagner36 (a b c d Pc Tc : R) (Tmin Tmax : fl) : res eobj :=
  make CWagner36 [("a", PNum a); ("b", PNum b); ("c", PNum c); ("d", PNum d); ("Pc", PNum Pc); ("Tc", PNum Tc)]%string Tmin Tmax.
(** viscosity.py:62-77 *)
Definition init_Yaws (A B C D : R) (base10 : bool) (Tmin Tmax : fl) : res eobj :=
  make CYaws [("A", PNum A); ("B", PNum B); ("C", PNum C); ("D", PNum D); ("base10", PFlag base10)]%string Tmin Tmax.

(** base.py:62-84 — __call__ on one finite temperature: the value and whether a warning is issued *)
Definition eq_call (o : eobj) (T : R) (Tunit : string) : res (pyf * bool) :=
  do tw <- convert_check_temperature [Fin T] Tunit (fst (e_range o)) (snd (e_range o));
  match tw with
  | ([Fin t], w) => do y <- equation (e_cls o) (e_p o) t; Ok (y, w)
  | _ => Err TypeError
  end.

(** np.linspace(a, b, n) on floats, n > 1, for a finite lower end: the products of the step with
    0, 1, ..., n-1 plus the lower end; the last element is the upper end. *)
Definition linspace_fl (a b : fl) (n : nat) : list fl :=
  match a, b with
  | Fin x, Fin y => map Fin (linspace x y n)
  | Fin x, PInf => NaN :: repeat PInf (n - 1)
  | _, _ => repeat NaN n
  end.

(** [1 / T] on a numpy array *)
Definition fl_inv (x : fl) : fl :=
  match x with Fin r => np_div 1 r | PInf | NInf => Fin 0 | NaN => NaN end.

(** Kinds of the plot. *)
Inductive pkind := Linear | Semilogy | ArrheniusK.

(** base.py:108-224 — plot: the points (abscissa, ordinate) and whether a warning is issued.
    [range] is the validity range of a scalar object, [eqn] its equation on floats; [kind] has
    passed check_in_set; [Trange] is None or a tuple of two numbers. *)
Definition eq_plot (eqn : fl -> fl) (range : fl * fl) (kind : pkind) (Trange : option (fl * fl)) (Tunit : string) : res (list (fl * fl) * bool) :=
  do _ <- check_in_set (inl Tunit) ["K"; "C"]%string;
  do _ <- (match Trange with
           | Some r => check_valid_range (RTuple [Some (fst r); Some (snd r)]) (Fin (if String.eqb Tunit "C" then - (27315 / 100) else 0)) PInf
           | None => Ok RNotTuple
           end);
  let unit := match kind with ArrheniusK => "K"%string | _ => Tunit end in
  let TR := match Trange with
            | Some r => if String.eqb Tunit "C" then (fl_map (fun x => x + 27315 / 100) (fst r), fl_map (fun x => x + 27315 / 100) (snd r)) else r
            | None => match range with
                      | (Fin a, PInf) => if Reqb a 0 then (Fin (27315 / 100), Fin (37315 / 100)) else range
                      | _ => range
                      end
            end in
  let TK := linspace_fl (fst TR) (snd TR) 100 in
  do yw <- convert_check_temperature TK "K" (fst range) (snd range);
  let y := map eqn (fst yw) in
  let T := if String.eqb unit "C" then map (fl_map (fun x => x - 27315 / 100)) TK else TK in
  let x := match kind with ArrheniusK => map fl_inv TK | _ => T end in
  Ok (combine x y, snd yw).
