(** Model of distributions/datadistribution.py (DataDistribution), of the random chain lengths and default ranges of
    distributions/analyticaldistributions.py, and of DataDistribution.fit.  Exact reals; the spline, the random
    generator and the optimiser are arguments. *)
From Coq Require Import Reals Lra Lia List Bool Arith ZArith.
From Coquelicot Require Import Coquelicot.
From Verif Require Import Prelude DistModel.
Import ListNotations.
Open Scope R_scope.

(* ------------------------------------------------------------------ *)
(** * DataDistribution                                                *)
(* ------------------------------------------------------------------ *)

(** base.py:33 — kind_order *)
Inductive kind := Number | Mass | Gpc.
(** base.py:33 — kind_order *)
Definition kind_order (k : kind) : nat := match k with Number => 0 | Mass => 1 | Gpc => 2 end.

(** datadistribution.py:66-83 — the attributes _length_data, _pdf_data, _pdf_order, _pdf_spline and M0 *)
Record ddist := mkDD { dd_x : list R; dd_y : list R; dd_p : nat; dd_s : R -> R; dd_M0 : R }.

(** x[0] and x[-1] *)
Definition first (l : list R) : R := nth 0 l 0.
(** x[0] and x[-1] *)
Definition final (l : list R) : R := last l 0.
(** strictly increasing abscissas (checked by UnivariateSpline for s = 0) *)
Fixpoint increasing (l : list R) : bool :=
  match l with
  | x :: (y :: _) as r => Rltb x y && increasing r
  | _ => true
  end.

(** datadistribution.py:52-83 — __init__ with an accepted M0 > 0 and a valid kind.  [spline x y] is UnivariateSpline(x, y, k=3, s=0, ext=1),
    which needs four points in increasing order; [isint] tells that the sizes are an integer array, for which the in-place division
    raises.  Simplification: arrays of different lengths raise ValueError (numpy: ValueError or IndexError) *)
Definition data_init (spline : list R -> list R -> R -> R) (size pdf : list R) (isint : bool) (k : kind) (sizeasmass : bool) (M0 : R)
  : res ddist :=
  if sizeasmass && isint then Err TypeError
  else
    let sz := if sizeasmass then map (fun x => x / M0) size else size in
    if negb (Nat.eqb (length sz) (length pdf)) then Err ValueError
    else
      let v := filter (fun p => Rltb 0 (snd p) && Rleb 1 (fst p)) (combine sz pdf) in
      let x := map fst v in
      let y := map snd v in
      if negb (increasing x && Nat.leb 4 (length x)) then Err ValueError
      else Ok (mkDD x y (kind_order k) (spline x y) M0).

(** datadistribution.py:85-96 — _moment_quadrature; the upper limit None is infinity; both integrals are exact *)
Definition dd_quad (d : ddist) (xa : R) (xb : option R) (order : nat) : R :=
  let a := Rmax xa (first (dd_x d)) in
  let b := match xb with Some t => Rmin t (final (dd_x d)) | None => final (dd_x d) end in
  if Nat.eqb order (dd_p d) then RInt (dd_s d) a b
  else RInt (fun x => powerRZ x (Z.of_nat order - Z.of_nat (dd_p d)) * dd_s d x) a b.
(** base.py:530-550 — _moment_length *)
Definition dd_moment (d : ddist) (order : nat) : R := dd_quad d 0 None order.
(** base.py:501-527 — _cdf_length *)
Definition dd_cdf (d : ddist) (x : R) (order : nat) : R := dd_quad d 0 (Some x) order / dd_moment d order.
(** datadistribution.py:98-99 — _pdf0_length *)
Definition dd_pdf0 (d : ddist) (x : R) : R := powerRZ x (- Z.of_nat (dd_p d)) * dd_s d x.
(** the distribution as base.py sees it *)
Definition dd_dist (d : ddist) : idist := mkI (dd_pdf0 d) (dd_cdf d) (dd_moment d) (dd_M0 d).
(** datadistribution.py:101-103 — _range_length_default *)
Definition dd_range (d : ddist) : R * R := (first (dd_x d), final (dd_x d)).

(* ------------------------------------------------------------------ *)
(** * Random chain lengths and default ranges                          *)
(* ------------------------------------------------------------------ *)

(** np.rint: nearest integer, ties to even *)
Definition rint (x : R) : Z :=
  let f := Int_part x in
  let r := x - IZR f in
  if Rltb r (1 / 2) then f else if Rltb (1 / 2) r then (f + 1)%Z else if Z.even f then f else (f + 1)%Z.

(** analyticaldistributions.py:117-118 — Flory._random_length; [geometric p] is the variate of the generator, at least 1 *)
Definition flory_random (geometric : R -> nat) (a : R) : Z := Z.of_nat (geometric (1 - a)).
(** analyticaldistributions.py:214-215 — Poisson._random_length; [poisson a] is the variate of the generator *)
Definition poisson_random (poisson : R -> nat) (a : R) : Z := (Z.of_nat (poisson a) + 1)%Z.
(** analyticaldistributions.py:313-316 — LogNormal._random_length; [lognormal mu sigma] is the variate of the generator *)
Definition logn_random (lognormal : R -> R -> R) (mu sigma : R) : Z := rint (lognormal mu sigma).
(** analyticaldistributions.py:417-420 — SchulzZimm._random_length; [gamma k theta] is the variate of the generator *)
Definition sz_random (gamma : R -> R -> R) (k theta : R) : Z := rint (gamma k theta).

(** base.py:577 — _ppf_bounds *)
Definition ppf_lo : R := 1 / 10000.
(** base.py:577 — _ppf_bounds *)
Definition ppf_hi : R := 9999 / 10000.
(** analyticaldistributions.py:120-122 — Flory._range_length_default; [geom_ppf q p] is scipy's quantile of the geometric law *)
Definition flory_range (geom_ppf : R -> R -> nat) (a : R) : R * R := (INR (geom_ppf ppf_lo (1 - a)), INR (geom_ppf ppf_hi (1 - a))).
(** analyticaldistributions.py:217-219 — Poisson._range_length_default; [poisson_ppf q mu] is scipy's quantile with loc = 0, to which
    loc = 1 is added *)
Definition poisson_range (poisson_ppf : R -> R -> nat) (a : R) : R * R :=
  (1 + INR (poisson_ppf ppf_lo a), 1 + INR (poisson_ppf ppf_hi a)).
(** analyticaldistributions.py:318-322 — LogNormal._range_length_default; [lognorm_ppf q s scale] is scipy's quantile with loc = 0,
    to which loc = 1 is added *)
Definition logn_range (lognorm_ppf : R -> R -> R -> R) (mu sigma : R) : R * R :=
  (1 + lognorm_ppf ppf_lo sigma (exp mu), 1 + lognorm_ppf ppf_hi sigma (exp mu)).
(** analyticaldistributions.py:422-426 — SchulzZimm._range_length_default; [gamma_ppf q a scale] is scipy's quantile with loc = 0,
    to which loc = 1 is added *)
Definition sz_range (gamma_ppf : R -> R -> R -> R) (k theta : R) : R * R :=
  (1 + gamma_ppf ppf_lo k theta, 1 + gamma_ppf ppf_hi k theta).

(* ------------------------------------------------------------------ *)
(** * DataDistribution.fit                                             *)
(* ------------------------------------------------------------------ *)

(** a component of the fitted mixture: weight, DPn and, for the two-parameter classes, PDI *)
Record comp := mkComp { c_w : R; c_DPn : R; c_PDI : option R }.
(** log10 *)
Definition log10 (x : R) : R := ln x / ln 10.
(** datadistribution.py:140-142 — starting DPn of component i *)
Definition fit_DPn (d : ddist) (dim i : nat) : R :=
  first (dd_x d) * Rpower (final (dd_x d) / first (dd_x d)) ((INR i + 1) / (INR dim + 1)).
(** datadistribution.py:166-171 — the starting point [x0] *)
Definition fit_x0 (p2 : bool) (d : ddist) (dim : nat) : list R :=
  repeat (1 / INR dim) dim ++ map (fun i => log10 (fit_DPn d dim i)) (seq 0 dim) ++ (if p2 then repeat 2 dim else []).
(** datadistribution.py:167-172 — the bounds *)
Definition fit_bounds (p2 : bool) (d : ddist) (dim : nat) : list (R * R) :=
  repeat (0, 1) dim ++ repeat (log10 3, log10 (final (dd_x d))) dim ++ (if p2 then repeat (101 / 100, 5) dim else []).
(** datadistribution.py:174-177 — coefficients of the equality constraint, with value 1 *)
Definition fit_eq_row (dim size : nat) : list R := map (fun j => if Nat.ltb j dim then 1 else 0) (seq 0 size).
(** datadistribution.py:182-187 — coefficients of the i-th inequality constraint, with value at most 0 *)
Definition fit_le_row (dim size i : nat) : list R :=
  map (fun j => if Nat.eqb j (dim + i) then 1 else if Nat.eqb j (dim + i + 1) then -1 else 0) (seq 0 size).
(** the product of a row with a vector *)
Definition dotl (a x : list R) : R := lsum (map (fun '(u, v) => u * v) (combine a x)).
(** datadistribution.py:154-162 — the assignments of one evaluation of the objective; the setters of DPn and PDI (base.py:591-595, 669-673)
    raise below 1 and 1.000001 *)
Fixpoint fit_assign (p2 : bool) (dim : nat) (x : list R) (i n : nat) : res (list comp) :=
  match n with
  | O => Ok []
  | S n' =>
      let dp := Rpower 10 (nth (dim + i) x 0) in
      if Rltb dp 1 then Err RangeError
      else
        let pdi := nth (2 * dim + i) x 0 in
        if p2 && Rltb pdi (1000001 / 1000000) then Err RangeError
        else
          do r <- fit_assign p2 dim x (S i) n';
          Ok (mkComp (nth i x 0) dp (if p2 then Some pdi else None) :: r)
  end.
(** the objective is evaluated at the points of [trace], in turn; each evaluation overwrites the components *)
Fixpoint fit_trace (p2 : bool) (dim : nat) (comps : list comp) (trace : list (list R)) : res (list comp) :=
  match trace with
  | [] => Ok comps
  | x :: r => do c <- fit_assign p2 dim x 0 dim; fit_trace p2 dim c r
  end.
(** datadistribution.py:105-210 — fit with an accepted class and 1 <= dim <= 10; the optimiser evaluates the objective at the points of
    [trace] and reports [success]; its solution is not used by the code.  None is the failed fit *)
Definition fit (p2 : bool) (d : ddist) (dim : nat) (trace : list (list R)) (success : bool) : res (option (list comp)) :=
  if negb (Nat.leb 1 dim && Nat.leb dim 10) then Err RangeError
  else
    let start := map (fun i => mkComp (1 / INR dim) (fit_DPn d dim i) (if p2 then Some 2 else None)) (seq 0 dim) in
    do c <- fit_trace p2 dim start trace;
    Ok (if success then Some c else None).
