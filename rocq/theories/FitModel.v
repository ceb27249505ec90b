(** Model of copolymerization/binary.py (monomer_drift_binary), terminal.py (CopoModel.drift) and fitting.py (fit_copo_data with its
    two methods).  The solver of differential equations, the optimisers, the matrix inverse and the quantiles are arguments. *)
From Coq Require Import Reals Lra Lia List Bool Arith.
From Verif Require Import Prelude RootsModel DiffModel CopoModel CopoDataModel JcrModel.
Import ListNotations.
Open Scope R_scope.

(** utils/exceptions.py:27-42 — FitError and ODESolverError, next to the other exceptions *)
Inductive fexn := FitError | ODESolverError | Raised (e : exn).
Inductive fres (A : Type) := FOk (a : A) | FErr (e : fexn).
Arguments FOk {A} _.
Arguments FErr {A} _.
Definition fbind {A B} (x : fres A) (f : A -> fres B) : fres B := match x with FOk a => f a | FErr e => FErr e end.
Notation "'fdo' x <- e1 ; e2" := (fbind e1 (fun x => e2)) (at level 200, x pattern, e1 at level 100, e2 at level 200, right associativity).
Definition lift {A} (x : res A) : fres A := match x with Ok a => FOk a | Err e => FErr (Raised e) end.

(* ------------------------------------------------------------------ *)
(** * Drift                                                           *)
(* ------------------------------------------------------------------ *)

(** binary.py:213-220 — max(x) of a list *)
Fixpoint lmax (a : R) (l : list R) : R := match l with [] => a | b :: l' => lmax (if Rltb a b then b else a) l' end.
(** scipy.integrate.solve_ivp, check of t_eval against t_span = (0, tf): inside the interval, and strictly monotone in the direction of
    integration *)
Fixpoint steps (test : R -> R -> bool) (l : list R) : bool :=
  match l with
  | a :: ((b :: _) as l') => test a b && steps test l'
  | _ => true
  end.
Definition t_eval_ok (tf : R) (x : list R) : bool :=
  forallb (fun t => Rleb (Rmin 0 tf) t && Rleb t (Rmax 0 tf)) x &&
  (if Rltb 0 tf then steps (fun a b => Rltb a b) x else if Rltb tf 0 then steps (fun a b => Rltb b a) x else true).
(** scipy.integrate.solve_ivp: [ivp rhs tf y0 atol rtol] is the list of the computed trajectories, one for each initial value, or
    None when the integration does not succeed.  The right-hand side acts on each component separately. *)
Definition ivp_t := (R -> R -> R) -> R -> list R -> R -> R -> option (list (R -> R)).
Definition solve_ivp (ivp : ivp_t) (rhs : R -> R -> R) (tf : R) (y0 : list R) (x : list R) (atol rtol : R) : fres (option (list (list R))) :=
  if t_eval_ok tf x then FOk (match ivp rhs tf y0 atol rtol with Some l => Some (map (fun y => map y x) l) | None => None end)
  else FErr (Raised ValueError).
(** binary.py:236-261 — the copolymer composition as a real number.  Simplification: where the denominator vanishes the value is 0 *)
Definition F1r (r1 r2 f : R) : R := match inst_copolymer_binary f r1 r2 with Fin v => v | _ => 0 end.
(** the result: one row of values when there is one initial value, else one row for each *)
Inductive drift_out := Row (l : list R) | Rows (l : list (list R)).
(** binary.py:224-230 and terminal.py:223-228 *)
Definition clip_rows (y : list (list R)) : drift_out :=
  match map (map (Rmax 0)) y with [r] => Row r | rs => Rows rs end.
(** binary.py:210-233 — monomer_drift_binary; a number f10 is a list of length one *)
Definition monomer_drift_binary (ivp : ivp_t) (f10 x : list R) (r1 r2 atol rtol : R) : fres drift_out :=
  match x with
  | [] => FErr (Raised ValueError)
  | a :: l =>
      fdo s <- solve_ivp ivp (df1dx (F1r r1 r2)) (lmax a l) f10 x atol rtol;
      match s with Some y => FOk (clip_rows y) | None => FErr ODESolverError end
  end.
(** terminal.py:206-235 — CopoModel.drift; [ri] gives the reactivity ratios at a composition.  None is an array of nan of the
    length of x (with a warning) *)
Definition model_drift (ivp : ivp_t) (ri : R -> R * R) (f10 x : list R) : fres (drift_out + nat) :=
  match x with
  | [] => FErr (Raised ValueError)
  | a :: l =>
      fdo s <- solve_ivp ivp (fun x f => (f - F1r (fst (ri f)) (snd (ri f)) f) / (1 - x + eps)) (lmax a l) f10 x (1 / 10 ^ 4) (1 / 10 ^ 4);
      match s with Some y => FOk (inl (clip_rows y)) | None => FOk (inr (length x)) end
  end.

(* ------------------------------------------------------------------ *)
(** * Fit                                                             *)
(* ------------------------------------------------------------------ *)

(** copodataset.py:241-250 — F(f) data: points (f1, F1, scale_f1, scale_F1) and weight; one scale for each point *)
Record dFf := mkDFf { dff_pts : list (R * R * R * R); dff_w : R }.
(** copodataset.py:253-263 and 266-276 — drift data: initial composition, points (x, value, scale), weight *)
Record dDr := mkDDr { ddr_f10 : R; ddr_pts : list (R * R * R); ddr_w : R }.

(** fitting.py:433-438 — residual sum of one F(f) data set *)
Definition sse_Ff (d : dFf) (r : R * R) : R :=
  dff_w d * rsum_list (map (fun p => let '(f, F, _, s) := p in Rsqr ((F - F1r (fst r) (snd r) f) / s)) (dff_pts d)).
(** the row of a drift computation with one initial value *)
Definition row_of (o : drift_out) : list R := match o with Row l => l | Rows _ => [] end.
(** fitting.py:440-446 — residual sum of one f(x) data set *)
Definition sse_fx (ivp : ivp_t) (atol rtol : R) (d : dDr) (r : R * R) : fres R :=
  fdo o <- monomer_drift_binary ivp [ddr_f10 d] (map (fun p => fst (fst p)) (ddr_pts d)) (fst r) (snd r) atol rtol;
  FOk (ddr_w d * rsum_list (map (fun q => let '((_, f1, s), e) := q in Rsqr ((f1 - e) / s)) (combine (ddr_pts d) (row_of o)))).
(** fitting.py:453, 339 — the cumulative composition from the computed drift *)
Definition F1_cum (f10 x f1 : R) : R := f1 + (f10 - f1) / (x + 1 / 10 ^ 10).
(** fitting.py:448-455 — residual sum of one F(x) data set *)
Definition sse_Fx (ivp : ivp_t) (atol rtol : R) (d : dDr) (r : R * R) : fres R :=
  fdo o <- monomer_drift_binary ivp [ddr_f10 d] (map (fun p => fst (fst p)) (ddr_pts d)) (fst r) (snd r) atol rtol;
  FOk (ddr_w d * rsum_list (map (fun q => let '((x, F1, s), e) := q in Rsqr ((F1 - F1_cum (ddr_f10 d) x e) / s)) (combine (ddr_pts d) (row_of o)))).
Fixpoint fsum (l : list (fres R)) : fres R := match l with [] => FOk 0 | a :: l' => fdo v <- a; fdo w <- fsum l'; FOk (v + w) end.
(** fitting.py:431-456 — sse *)
Definition sse_all (ivp : ivp_t) (Ff : list dFf) (fx Fx : list dDr) (atol rtol : R) (r : R * R) : fres R :=
  fsum (map (fun d => FOk (sse_Ff d r)) Ff ++ map (fun d => sse_fx ivp atol rtol d r) fx ++ map (fun d => sse_Fx ivp atol rtol d r) Fx).
(** the value, 0 where the evaluation raises *)
Definition total (g : R * R -> fres R) (r : R * R) : R := match g r with FOk v => v | FErr _ => 0 end.
(** ndiff.py:363-377 — the points where hessian2_centered evaluates the function *)
Definition hess_points (x : R * R) (h : R) : list (R * R) :=
  let '(x0, x1) := x in
  let h0 := h * (1 + Rabs x0) in
  let h1 := h * (1 + Rabs x1) in
  [(x0, x1); (x0 + 2 * h0, x1); (x0 - 2 * h0, x1); (x0, x1 + 2 * h1); (x0, x1 - 2 * h1); (x0 + h0, x1 + h1); (x0 + h0, x1 - h1); (x0 - h0, x1 + h1); (x0 - h0, x1 - h1)].
(** scipy.optimize.minimize: objective, starting point and bounds; success, point, value; evaluations may raise *)
Definition opt_t := (R * R -> fres R) -> R * R -> (R * R) * (R * R) -> fres (bool * (R * R) * R).
(** fitting.py:422-484 — _fit_copo_NLLS: estimate, covariance and the objective for the exact region.  Simplification: the evaluations of
    the Hessian are all made before the first one that raises is reported *)
Definition fit_NLLS (ivp : ivp_t) (opt : opt_t) (inv : M2x2 -> res M2x2) (Ff : list dFf) (fx Fx : list dDr) (guess : R * R) (ndata : nat)
  : fres ((R * R) * option M2x2 * (R * R -> R)) :=
  let sse := sse_all ivp Ff fx Fx (1 / 10 ^ 4) (1 / 10 ^ 4) in
  fdo s <- opt sse guess ((1 / 10 ^ 3, 10 ^ 2), (1 / 10 ^ 3, 10 ^ 2));
  let '(success, r, v) := s in
  if success then
    fdo _ <- (if Nat.ltb 2 ndata then fsum (map sse (hess_points r (1 / 10 ^ 4))) else FOk 0);
    fdo cov <- lift (fit_cov inv (total sse) r v ndata);
    FOk (r, cov, total (sse_all ivp Ff fx Fx (1 / 10 ^ 5) (1 / 10 ^ 4)))
  else FErr FitError.
(** fitting.py:492-508 — the points of the F(f) data sets with the scales divided by the weight *)
Definition odr_points (Ff : list dFf) : list (R * R * R * R) :=
  flat_map (fun d => map (fun p => let '(f, F, sf, sF) := p in (f, F, sf / (dff_w d + 1 / 10 ^ 10), sF / (dff_w d + 1 / 10 ^ 10))) (dff_pts d)) Ff.
(** odrpack: success, parameters, adjusted abscissae, covariance and residual variance *)
Record odr_res := mkOdr { od_ok : bool; od_beta : R * R; od_plus : list R; od_cov : M2x2; od_var : R }.
Definition mscale (k : R) (M : M2x2) : M2x2 := let '(a, b, c, d) := M in (k * a, k * b, k * c, k * d).
(** fitting.py:531-535 — sse_ODR *)
Definition sse_odr (pts : list (R * R * R * R)) (plus : list R) (r : R * R) : R :=
  rsum_list (map (fun q => let '((_, F, _, sF), u) := q in Rsqr ((F - F1r (fst r) (snd r) u) / sF)) (combine pts plus))
  + rsum_list (map (fun q => let '((f, _, sf, _), u) := q in Rsqr ((f - u) / sf)) (combine pts plus)).
(** fitting.py:487-537 — _fit_copo_ODR; [odr] gets the points with the weights 1/scale^2 as the scales *)
Definition fit_ODR (odr : list (R * R * R * R) -> R * R -> odr_res) (Ff : list dFf) (guess : R * R)
  : fres ((R * R) * option M2x2 * (R * R -> R)) :=
  let pts := odr_points Ff in
  let s := odr pts guess in
  if od_ok s then FOk (od_beta s, (if Nat.ltb 2 (length pts) then Some (mscale (od_var s) (od_cov s)) else None), sse_odr pts (od_plus s))
  else FErr FitError.

(** np.sqrt *)
Definition np_sqrt (x : R) : fl := if Rltb x 0 then NaN else Fin (sqrt x).
Inductive fmethod := NLLS | ODR | OtherMethod.
(** fitting.py:60-82 — the result (plots: the linear and the exact confidence region) *)
Record fit_result := mkFit { ft_r : R * R; ft_se : fl * fl; ft_ci : fl * fl; ft_cov : option M2x2; ft_linear : option ellipse; ft_exact : option (list (option (R * R))) }.
(** fitting.py:266-271 *)
Definition n_data (Ff : list dFf) (fx Fx : list dDr) : nat :=
  (list_sum (map (fun d => length (dff_pts d)) Ff) + list_sum (map (fun d => length (ddr_pts d)) fx) + list_sum (map (fun d => length (ddr_pts d)) Fx))%nat.
(** a 2x2 matrix by row and column *)
Definition m_at (M : M2x2) (i j : nat) : R := let '(a, b, c, d) := M in match i, j with O, O => a | O, _ => b | _, O => c | _, _ => d end.
Definition fl_times (a : fl) (t : R) : fl := match a with Fin s => Fin (s * t) | z => z end.
(** 2 ci_r[0] as the width of the exact region; nan fails the test of confidence_region like 0 *)
Definition width_of (ci : fl) : R := match ci with Fin c => 2 * c | _ => 0 end.
(** fitting.py:264-419 — fit_copo_data without the comparison plots *)
Definition fit_copo_data (ivp : ivp_t) (opt : opt_t) (inv : M2x2 -> res M2x2) (odr : list (R * R * R * R) -> R * R -> odr_res)
  (Fq tq : R -> nat -> R) (eigh : (nat -> nat -> R) -> eigh2) (Ff : list dFf) (fx Fx : list dDr) (guess : R * R) (m : fmethod) (alpha : R)
  (linear exact : bool) (npoints : nat) (rtol : R) : fres fit_result :=
  let ndata := n_data Ff fx Fx in
  if Nat.ltb ndata 2 then FErr FitError
  else if match m with ODR => Nat.ltb 0 (length fx) || Nat.ltb 0 (length Fx) | _ => false end then FErr FitError
  else
    fdo s <- match m with
             | NLLS => fit_NLLS ivp opt inv Ff fx Fx guess ndata
             | ODR => fit_ODR odr Ff guess
             | OtherMethod => FErr (Raised ValueError)
             end;
    let '(r, cov, sse) := s in
    let se := match cov with
              | Some C => if Nat.ltb 2 ndata then (np_sqrt (m_at C 0 0), np_sqrt (m_at C 1 1)) else (NaN, NaN)
              | None => (NaN, NaN)
              end in
    let ci := (fl_times (fst se) (tq (1 - alpha / 2) (ndata - 2)%nat), fl_times (snd se) (tq (1 - alpha / 2) (ndata - 2)%nat)) in
    fdo lin <- match cov with
               | Some C => if linear then fdo e <- lift (confidence_ellipse Fq tq eigh 2 r 2 2 (m_at C) ndata alpha true); FOk (Some e) else FOk None
               | None => FOk None
               end;
    fdo ex <- match cov with
              | Some _ => if exact then fdo g <- lift (confidence_region Fq sse 2 r ndata alpha (width_of (fst ci)) npoints rtol); FOk (Some g) else FOk None
              | None => FOk None
              end;
    FOk (mkFit r se ci cov lin ex).
