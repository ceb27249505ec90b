(** Model of src/polykin/math/roots/scalar.py (root_newton, root_secant,
    root_brent).  Floats are exact reals; user functions are pure. *)
From Coq Require Import Reals Lra Lia List Bool Arith.
From Verif Require Import Prelude.
Import ListNotations.
Open Scope R_scope.

(** src/polykin/utils/math.py:31 — [eps = np.finfo(np.float64).eps] = 2^-52. *)
Definition eps : R := / 2 ^ 52.

(** Exit messages of the solvers (text abstracted to an enumeration). *)
Inductive rmsg : Set :=
| MsgTolF | MsgTolX | MsgMaxiter | MsgZeroDeriv | MsgZeroSlope.

(** src/polykin/math/roots/results.py:16-46 — class RootResult.  The constant
    field [method] is dropped; x and f have the type of the solver's numbers. *)
Record RootResult (A : Type) : Type := mkRR
  { rr_success : bool; rr_message : rmsg; rr_nfeval : nat; rr_niter : nat;
    rr_x : A; rr_f : A }.
Arguments mkRR {A}. Arguments rr_success {A}. Arguments rr_message {A}.
Arguments rr_nfeval {A}. Arguments rr_niter {A}. Arguments rr_x {A}. Arguments rr_f {A}.

(** The solvers below return the list of points at which the user function was
    evaluated (oldest first), as the observable effect on the callback, together
    with the Python result. *)
Definition outcome (P A : Type) : Type := (list P * res (RootResult A))%type.

(* ------------------------------------------------------------------ *)
(** * Newton                                                           *)
(* ------------------------------------------------------------------ *)

(** src/polykin/math/derivatives/ndiff.py:29-72 — derivative_complex.
    A complex function is the pair of its real and imaginary parts as functions
    of the real and imaginary part of the argument.  Returns (f', f). *)
Definition derivative_complex (fre fim : R -> R -> R) (x : R) : R * R :=
  (fim x eps / eps, fre x eps).

(** src/polykin/math/roots/scalar.py:89-119 — the loop of root_newton.
    [n] iterations remain, [k] is the loop counter, [x] the current point;
    points are evaluated at x + i*eps, the trace records x. *)
Fixpoint newton_loop (fre fim : R -> R -> R) (tolx tolf : R) (n k : nat) (x : R)
    (tr : list R) : outcome R R :=
  match n with
  | O => (tr, Err UnboundLocalError)      (* only reached when maxiter = 0 *)
  | S n' =>
      let '(dfdx, fx) := derivative_complex fre fim x in
      let tr := tr ++ [x] in
      let stop b m := (tr, Ok (mkRR b m (length tr) (k + 1) x fx)) in
      if Rleb (Rabs fx) tolf then stop true MsgTolF
      else if Rleb (Rabs dfdx) eps then stop false MsgZeroDeriv
      else
        let dx := - fx / dfdx in
        if Rleb (Rabs dx) tolx then stop true MsgTolX
        else
          match n' with
          | O => stop false MsgMaxiter     (* k + 1 = maxiter: x not updated, for-else *)
          | S _ => newton_loop fre fim tolx tolf n' (k + 1) (x + dx) tr
          end
  end.

(** src/polykin/math/roots/scalar.py:21-119 — root_newton. *)
Definition root_newton (fre fim : R -> R -> R) (x0 tolx tolf : R) (maxiter : nat)
  : outcome R R := newton_loop fre fim tolx tolf maxiter 0 x0 [].

(* ------------------------------------------------------------------ *)
(** * Secant                                                           *)
(* ------------------------------------------------------------------ *)

(** src/polykin/math/roots/scalar.py:197-228 — the loop of root_secant.
    (x2, f2) start as NaN, hence the [fl] results. *)
Fixpoint secant_loop (f : R -> R) (tolx tolf : R) (n k : nat) (x0 f0 x1 f1 : R)
    (x2 f2 : fl) (tr : list R) : outcome R fl :=
  match n with
  | O =>
      (tr, if Nat.eqb k 0 then Err UnboundLocalError
           else Ok (mkRR false MsgMaxiter (length tr) k x2 f2))
  | S n' =>
      let df := f1 - f0 in
      if Rleb (Rabs df) (eps * Rmax (Rmax (Rabs f0) (Rabs f1)) 1) then
        (tr, Ok (mkRR false MsgZeroSlope (length tr) (k + 1) x2 f2))
      else
        let nx := x1 - f1 * (x1 - x0) / df in
        let nf := f nx in
        let tr := tr ++ [nx] in
        if Rleb (Rabs (nx - x1)) tolx then
          (tr, Ok (mkRR true MsgTolX (length tr) (k + 1) (Fin nx) (Fin nf)))
        else if Rleb (Rabs nf) tolf then
          (tr, Ok (mkRR true MsgTolF (length tr) (k + 1) (Fin nx) (Fin nf)))
        else
          secant_loop f tolx tolf n' (k + 1) x1 f1 nx nf (Fin nx) (Fin nf) tr
  end.

(** src/polykin/math/roots/scalar.py:122-228 — root_secant. *)
Definition root_secant (f : R -> R) (x0 x1 tolx tolf : R) (maxiter : nat)
  : outcome R fl :=
  let f0 := f x0 in
  if Rleb (Rabs f0) tolf then
    ([x0], Ok (mkRR true MsgTolF 1 0 (Fin x0) (Fin f0)))
  else
    let f1 := f x1 in
    if Rleb (Rabs f1) tolf then
      ([x0; x1], Ok (mkRR true MsgTolF 2 0 (Fin x1) (Fin f1)))
    else
      secant_loop f tolx tolf maxiter 0 x0 f0 x1 f1 NaN NaN [x0; x1].

(* ------------------------------------------------------------------ *)
(** * Brent                                                            *)
(* ------------------------------------------------------------------ *)

(** Local variables of root_brent's loop; [de] holds (d, e), None while these
    Python locals are unbound. *)
Record bst := mkB
  { b_xa : R; b_fa : R; b_xb : R; b_fb : R; b_xc : R; b_fc : R; b_de : option (R * R) }.

(** src/polykin/math/roots/scalar.py:316-319. *)
Definition brent_bracket (s : bst) : bst :=
  if Rltb 0 (b_fb s * b_fc s) then
    mkB (b_xa s) (b_fa s) (b_xb s) (b_fb s) (b_xa s) (b_fa s)
        (Some (b_xb s - b_xa s, b_xb s - b_xa s))
  else s.

(** src/polykin/math/roots/scalar.py:321-324. *)
Definition brent_order (s : bst) : bst :=
  if Rltb (Rabs (b_fc s)) (Rabs (b_fb s)) then
    mkB (b_xb s) (b_fb s) (b_xc s) (b_fc s) (b_xb s) (b_fb s) (b_de s)
  else s.

(** src/polykin/math/roots/scalar.py:343-351 — p and q of the secant (xa == xc)
    or inverse quadratic interpolation; divisions may raise. *)
Definition brent_pq (s : bst) (m : R) : res (R * R) :=
  do sr <- pydiv (b_fb s) (b_fa s);
  if Req_EM_T (b_xa s) (b_xc s) then Ok (2 * m * sr, 1 - sr)
  else
    do q <- pydiv (b_fa s) (b_fc s);
    do r <- pydiv (b_fb s) (b_fc s);
    Ok (sr * (2 * m * q * (q - r) - (b_xb s - b_xa s) * (r - 1)),
        (q - 1) * (r - 1) * (sr - 1)).

(** src/polykin/math/roots/scalar.py:342-365 — the new (d, e). *)
Definition brent_step (s : bst) (m tol1 d e : R) : res (R * R) :=
  if Rleb tol1 (Rabs e) && Rltb (Rabs (b_fb s)) (Rabs (b_fa s)) then
    do pq <- brent_pq s m;
    let '(p, q) := pq in
    let q := if Rltb 0 p then - q else q in
    let p := Rabs p in
    let min1 := 3 * m * q - Rabs (tol1 * q) in
    let min2 := Rabs (e * q) in
    if Rltb (2 * p) (Rmin min1 min2) then
      do d' <- pydiv p q; Ok (d', d)
    else Ok (m, m)
  else Ok (m, m).

(** np.copysign(t, m) for t >= 0 and m <> -0.0. *)
Definition copysign (t m : R) : R := if Rltb m 0 then - t else t.

(** src/polykin/math/roots/scalar.py:314-379 — the loop of root_brent. *)
Fixpoint brent_loop (f : R -> R) (tolx tolf : R) (n k : nat) (s : bst) (tr : list R)
  : outcome R R :=
  match n with
  | O =>
      (tr, if Nat.eqb k 0 then Err UnboundLocalError
           else Ok (mkRR false MsgMaxiter (length tr) k (b_xb s) (b_fb s)))
  | S n' =>
      let s := brent_order (brent_bracket s) in
      let tol1 := 2 * eps * Rabs (b_xb s) + / 2 * tolx in
      let m := / 2 * (b_xc s - b_xb s) in
      if Rleb (Rabs m) tol1 then
        (tr, Ok (mkRR true MsgTolX (length tr) (k + 1) (b_xb s) (b_fb s)))
      else if Rleb (Rabs (b_fb s)) tolf then
        (tr, Ok (mkRR true MsgTolF (length tr) (k + 1) (b_xb s) (b_fb s)))
      else
        match b_de s with
        | None => (tr, Err UnboundLocalError)
        | Some (d, e) =>
            match brent_step s m tol1 d e with
            | Err ex => (tr, Err ex)
            | Ok (d, e) =>
                let xb' := b_xb s + (if Rltb tol1 (Rabs d) then d else copysign tol1 m) in
                let fb' := f xb' in
                brent_loop f tolx tolf n' (k + 1)
                  (mkB (b_xb s) (b_fb s) xb' fb' (b_xc s) (b_fc s) (Some (d, e)))
                  (tr ++ [xb'])
            end
        end
  end.

(** src/polykin/math/roots/scalar.py:231-379 — root_brent. *)
Definition root_brent (f : R -> R) (xa xb tolx tolf : R) (maxiter : nat) : outcome R R :=
  let fa := f xa in
  if Rleb (Rabs fa) tolf then ([xa], Ok (mkRR true MsgTolF 1 0 xa fa))
  else
    let fb := f xb in
    if Rleb (Rabs fb) tolf then ([xa; xb], Ok (mkRR true MsgTolF 2 0 xb fb))
    else if Rltb 0 (fa * fb) then ([xa; xb], Err ValueError)
    else brent_loop f tolx tolf maxiter 0 (mkB xa fa xb fb xb fb None) [xa; xb].
