(** Model of math/misc/jcr.py: confidence_ellipse and confidence_region.  Exact reals; the quantiles of the F and t
    distributions and the eigenvalue routine are arguments. *)
From Coq Require Import Reals Lra Lia List Bool Arith.
From Verif Require Import Prelude RootsModel CopoModel.
Import ListNotations.
Open Scope R_scope.

(* ------------------------------------------------------------------ *)
(** * confidence_ellipse                                              *)
(* ------------------------------------------------------------------ *)

(** jcr.py:123-127 — result of np.linalg.eigh for a 2x2 matrix: the eigenvalues (w0 <= w1) and the matrix whose
    COLUMNS are the eigenvectors *)
Record eigh2 := mkEig { eg_w0 : R; eg_w1 : R; eg_v : nat -> nat -> R }.
(** arctan of a numpy float *)
Definition atan_fl (v : fl) : fl :=
  match v with Fin r => Fin (atan r) | PInf => Fin (PI / 2) | NInf => Fin (- (PI / 2)) | NaN => NaN end.
(** jcr.py:129-130 — angle = degrees(arctan(eigenvector[1] / eigenvector[0])) with eigenvector = eigenvectors[0],
    the first ROW *)
Definition ell_angle (e : eigh2) : fl :=
  match atan_fl (np_div (eg_v e 0%nat 1%nat) (eg_v e 0%nat 0%nat)) with Fin r => Fin (r * (180 / PI)) | z => z end.
(** the Ellipse patch and the half-lengths of the error bars *)
Record ellipse := mkEll { el_center : R * R; el_width : R; el_height : R; el_angle : fl; el_ci : option (R * R) }.
(** jcr.py:107-151 — confidence_ellipse.  [Fq p n] is Fdist.ppf(p, 2, n), [tq p n] is tdist.ppf(p, n); the patch is
    returned instead of being added to the axes *)
Definition confidence_ellipse (Fq tq : R -> nat -> R) (eigh : (nat -> nat -> R) -> eigh2) (lenc : nat) (center : R * R)
  (rows cols : nat) (cov : nat -> nat -> R) (ndata : nat) (alpha : R) (confint : bool) : res ellipse :=
  if negb (Nat.eqb lenc 2) then Err ShapeError
  else if negb (Nat.eqb rows 2 && Nat.eqb cols 2) then Err ShapeError
  else if negb (Rleb (1 / 1000) alpha && Rleb alpha (90 / 100)) then Err RangeError
  else if negb (Nat.leb 3 ndata) then Err RangeError
  else
    let e := eigh cov in
    let scale := 2 * Fq (1 - alpha) (ndata - 2)%nat in
    let ci := if confint then Some (sqrt (cov 0%nat 0%nat) * tq (1 - alpha / 2) (ndata - 2)%nat, sqrt (cov 1%nat 1%nat) * tq (1 - alpha / 2) (ndata - 2)%nat) else None in
    Ok (mkEll center (2 * sqrt (scale * eg_w0 e)) (2 * sqrt (scale * eg_w1 e)) (ell_angle e) ci).

(* ------------------------------------------------------------------ *)
(** * confidence_region                                               *)
(* ------------------------------------------------------------------ *)

(** float arithmetic with the special values, as far as root_secant needs it *)
Definition fl_opp (a : fl) : fl := match a with Fin r => Fin (- r) | PInf => NInf | NInf => PInf | NaN => NaN end.
Definition fl_add (a b : fl) : fl :=
  match a, b with
  | Fin x, Fin y => Fin (x + y)
  | NaN, _ | _, NaN | PInf, NInf | NInf, PInf => NaN
  | PInf, _ | _, PInf => PInf
  | NInf, _ | _, NInf => NInf
  end.
Definition fl_sub (a b : fl) : fl := fl_add a (fl_opp b).
(** sign of a float: -1, 0, 1 *)
Definition fl_sgn (a : fl) : R := match a with Fin r => if Rltb r 0 then -1 else if Reqb r 0 then 0 else 1 | PInf => 1 | NInf => -1 | NaN => 0 end.
Definition fl_inf (s : R) : fl := if Reqb s 0 then NaN else if Rltb 0 s then PInf else NInf.
Definition fl_mul (a b : fl) : fl :=
  match a, b with
  | Fin x, Fin y => Fin (x * y)
  | NaN, _ | _, NaN => NaN
  | _, _ => fl_inf (fl_sgn a * fl_sgn b)
  end.
Definition fl_div (a b : fl) : fl :=
  match a, b with
  | Fin x, Fin y => np_div x y
  | NaN, _ | _, NaN => NaN
  | Fin _, _ => Fin 0
  | _, Fin y => if Reqb y 0 then a else fl_inf (fl_sgn a * fl_sgn b)
  | _, _ => NaN
  end.
Definition fl_abs (a : fl) : fl := match a with Fin r => Fin (Rabs r) | NaN => NaN | _ => PInf end.
(** a <= b; every comparison with nan is false *)
Definition fl_leb (a b : fl) : bool :=
  match a, b with
  | Fin x, Fin y => Rleb x y
  | NaN, _ | _, NaN => false
  | NInf, _ | _, PInf => true
  | _, _ => false
  end.
(** Python's max(a, b): b replaces a only if it is greater *)
Definition fl_max (a b : fl) : fl := if fl_leb b a then a else match a, b with NaN, _ | _, NaN => a | _, _ => b end.

(** roots/scalar.py:197-228 — the loop of root_secant on floats; returns (success, x) *)
Fixpoint sec_loop (f : fl -> fl) (tolx tolf : R) (n : nat) (x0 f0 x1 f1 x2 : fl) : bool * fl :=
  match n with
  | O => (false, x2)
  | S n' =>
      let df := fl_sub f1 f0 in
      if fl_leb (fl_abs df) (fl_mul (Fin eps) (fl_max (fl_max (fl_abs f0) (fl_abs f1)) (Fin 1))) then (false, x2)
      else
        let nx := fl_sub x1 (fl_div (fl_mul f1 (fl_sub x1 x0)) df) in
        let nf := f nx in
        if fl_leb (fl_abs (fl_sub nx x1)) (Fin tolx) then (true, nx)
        else if fl_leb (fl_abs nf) (Fin tolf) then (true, nx)
        else sec_loop f tolx tolf n' x1 f1 nx nf nx
  end.
(** roots/scalar.py:176-228 *)
Definition sec_fl (f : fl -> fl) (x0 x1 : fl) (tolx tolf : R) (maxiter : nat) : bool * fl :=
  if fl_leb (fl_abs (f x0)) (Fin tolf) then (true, x0)
  else if fl_leb (fl_abs (f x1)) (Fin tolf) then (true, x1)
  else sec_loop f tolx tolf maxiter x0 (f x0) x1 (f x1) NaN.

(** np.log *)
Definition ln_fl (x : R) : fl := if Rltb 0 x then Fin (ln x) else if Reqb x 0 then NInf else NaN.
(** jcr.py:258-264 — nsse; lnr = -inf gives r = 0.  Simplification: at nan or inf coordinates the sum of squares is nan *)
Definition nsse (sse : R * R -> R) (c : R * R) (th : R) (lnr : fl) : fl :=
  match lnr with
  | Fin z => np_div (sse (fst c + exp z * cos th, snd c + exp z * sin th)) (sse c)
  | NInf => np_div (sse (fst c + 0 * cos th, snd c + 0 * sin th)) (sse c)
  | _ => NaN
  end.
(** jcr.py:270-280 — find_radius; [B] is nsse_boundary *)
Definition find_radius (sse : R * R -> R) (c : R * R) (B rtol th r0 : R) : bool * fl :=
  sec_fl (fun v => fl_sub (fl_div (nsse sse c th v) (Fin B)) (Fin 1)) (ln_fl (r0 * (102 / 100))) (ln_fl r0)
         (Rabs (ln (1 + rtol))) (1 / 10 ^ 4) 100.
(** jcr.py:287-295 — the loop over the angles; None is nan; exp(-inf) = 0 *)
Fixpoint radii (find : R -> R -> bool * fl) (g0 g : R) (ths : list R) : list (option R) :=
  match ths with
  | [] => []
  | th :: ths' =>
      match find th g with
      | (true, Fin z) => Some (exp z) :: radii find g0 (exp z) ths'
      | (true, NInf) => Some 0 :: radii find g0 0 ths'
      | _ => None :: radii find g0 g0 ths'
      end
  end.
(** jcr.py:283 — np.linspace(0, 2 pi, npoints) *)
Definition angles (npoints : nat) : list R := map (fun i => INR i * (2 * PI / INR (npoints - 1))) (seq 0 npoints).
(** jcr.py:285 *)
Definition guess0 (width c0 : R) : R := if Rltb 0 width then Rabs (width / 2) else 25 / 100 * c0.
(** jcr.py:240-299 — confidence_region.  The result is the list of the points (None: both coordinates nan) *)
Definition confidence_region (Fq : R -> nat -> R) (sse : R * R -> R) (lenc : nat) (c : R * R) (ndata : nat) (alpha width : R) (npoints : nat) (rtol : R)
  : res (list (option (R * R))) :=
  if negb (Nat.eqb lenc 2) then Err ShapeError
  else if negb (Rleb (1 / 1000) alpha && Rleb alpha (99 / 100)) then Err RangeError
  else if negb (Nat.leb 3 ndata) then Err RangeError
  else if negb (Nat.leb 1 npoints && Nat.leb npoints 500) then Err RangeError
  else if negb (Rleb (1 / 10 ^ 4) rtol && Rleb rtol (1 / 10)) then Err RangeError
  else if Rltb (Rabs (sse c)) eps then Err ValueError
  else
    let B := 1 + 2 / INR (ndata - 2) * Fq (1 - alpha) (ndata - 2)%nat in
    let ths := angles npoints in
    let rs := radii (find_radius sse c B rtol) (guess0 width (fst c)) (guess0 width (fst c)) ths in
    Ok (map (fun p => match snd p with Some r => Some (fst c + r * cos (fst p), snd c + r * sin (fst p)) | None => None end) (combine ths rs)).
