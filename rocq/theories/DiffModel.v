(** Model of src/polykin/math/derivatives/ndiff.py and ode.py.
    Vectors of length N are functions [nat -> R]; np.empty is an arbitrary
    initial content. *)
From Coq Require Import Reals Lra Lia List Bool Arith ZArith.
From Verif Require Import Prelude RootsModel.
Import ListNotations.
Open Scope R_scope.

(** ndiff.py:116,270,362 — cube root of a positive number. *)
Definition cbrt (y : R) : R := Rpower y (/ 3).

(** ndiff.py:75-125 — derivative_centered; returns (f'(x), f(x)). *)
Definition derivative_centered (f : R -> R) (x h : R) : R * R :=
  let h := if Req_EM_T h 0 then cbrt (3 * eps) else h in
  let h := h * (1 + Rabs x) in
  let fp := f (x + h) in
  let fm := f (x - h) in
  ((fp - fm) / (2 * h), (fp + fm) / 2).

(** ndiff.py:188-189 — the noise level eta (ndigit = None: eps). *)
Definition noise (ndigit : option nat) : R :=
  match ndigit with None => eps | Some d => / 10 ^ d end.

(** ndiff.py:195-200 — perturb component i of the work vector [xh], evaluate,
    restore.  Returns (new work vector, the actual increment, f at the point). *)
Definition perturb {A} (f : (nat -> R) -> A) (h : R) (i : nat) (xh : nat -> R)
  : (nat -> R) * R * A :=
  let xtemp := xh i in
  let xh1 := upd xh i (xh i + h) in
  let h' := xh1 i - xtemp in
  let v := f xh1 in
  (upd xh1 i xtemp, h', v).

(** ndiff.py:194-200 — the loop of jacobian_forward over the columns i = k, k+1, …
    ([n] of them); J is indexed J row col. *)
Fixpoint jac_loop (f : (nat -> R) -> (nat -> R)) (x fx sclx : nat -> R) (h0 : R)
    (n k : nat) (xh : nat -> R) (J : nat -> nat -> R) : nat -> nat -> R :=
  match n with
  | O => J
  | S n' =>
      let h := h0 * Rmax (Rabs (x k)) (Rabs (1 / sclx k)) in
      let '(xh', h', v) := perturb f h k xh in
      jac_loop f x fx sclx h0 n' (S k) xh'
        (fun r c => if Nat.eqb c k then (v r - fx r) / h' else J r c)
  end.

(** ndiff.py:128-202 — jacobian_forward (N = x.size).  fx is f(x) unless given;
    sclx must be given here (the default is [scalex x]); J0 is the uninitialised
    np.empty matrix. *)
Definition jacobian_forward (N : nat) (f : (nat -> R) -> (nat -> R)) (x : nat -> R)
    (fx : option (nat -> R)) (sclx : nat -> R) (ndigit : option nat) (J0 : nat -> nat -> R)
  : nat -> nat -> R :=
  let fx := match fx with Some v => v | None => f x end in
  jac_loop f x fx sclx (sqrt (noise ndigit)) N 0 x J0.

(** ndiff.py:278-284 — first loop of hessian_forward: increments h and values fh. *)
Fixpoint hess_loop1 (f : (nat -> R) -> R) (x sclx : nat -> R) (h0 : R)
    (n k : nat) (xh h fh : nat -> R) : (nat -> R) * (nat -> R) * (nat -> R) :=
  match n with
  | O => (xh, h, fh)
  | S n' =>
      let '(xh', h', v) :=
        perturb f (h0 * Rmax (Rabs (x k)) (Rabs (1 / sclx k))) k xh in
      hess_loop1 f x sclx h0 n' (S k) xh' (upd h k h') (upd fh k v)
  end.

(** ndiff.py:295 — matrix entry assignment. *)
Definition upd2 (H : nat -> nat -> R) (i j : nat) (v : R) : nat -> nat -> R :=
  fun r c => if Nat.eqb r i && Nat.eqb c j then v else H r c.

(** ndiff.py:291-296 — inner loop over j (n values from j on). *)
Fixpoint hess_inner (f : (nat -> R) -> R) (fx : R) (h fh : nat -> R) (i n j : nat)
    (xh : nat -> R) (H : nat -> nat -> R) : (nat -> R) * (nat -> nat -> R) :=
  match n with
  | O => (xh, H)
  | S n' =>
      let xtemp2 := xh j in
      let xh1 := upd xh j (xh j + h j) in
      let H1 := upd2 H i j (((fx - fh i) + (f xh1 - fh j)) / (h i * h j)) in
      let H2 := upd2 H1 j i (H1 i j) in
      hess_inner f fx h fh i n' (S j) (upd xh1 j xtemp2) H2
  end.

(** ndiff.py:286-297 — outer loop over i (n values from i on; N = i + n). *)
Fixpoint hess_outer (f : (nat -> R) -> R) (fx : R) (h fh : nat -> R) (n i : nat)
    (xh : nat -> R) (H : nat -> nat -> R) : (nat -> R) * (nat -> nat -> R) :=
  match n with
  | O => (xh, H)
  | S n' =>
      let xtemp1 := xh i in
      let xh1 := upd xh i (xh i + 2 * h i) in
      let H1 := upd2 H i i (((fx - fh i) + (f xh1 - fh i)) / (h i ^ 2)) in
      let xh2 := upd xh1 i (xtemp1 + h i) in
      let '(xh3, H2) := hess_inner f fx h fh i n' (S i) xh2 H1 in
      hess_outer f fx h fh n' (S i) (upd xh3 i xtemp1) H2
  end.

(** ndiff.py:205-299 — hessian_forward.  Returns the final work vector too. *)
Definition hessian_forward_st (N : nat) (f : (nat -> R) -> R) (x : nat -> R) (fx : option R)
    (sclx : nat -> R) (ndigit : option nat) (h_ fh_ : nat -> R) (H0 : nat -> nat -> R)
  : (nat -> R) * (nat -> nat -> R) :=
  let fx := match fx with Some v => v | None => f x end in
  let h0 := cbrt (noise ndigit) in
  let '(xh, h, fh) := hess_loop1 f x sclx h0 N 0 x h_ fh_ in
  hess_outer f fx h fh N 0 xh H0.

(** ndiff.py:205-299 *)
Definition hessian_forward N f x fx sclx ndigit h_ fh_ H0 :=
  snd (hessian_forward_st N f x fx sclx ndigit h_ fh_ H0).

(** ndiff.py:302-379 — hessian2_centered; result (H00, H01, H10, H11). *)
Definition hessian2_centered (f : R * R -> R) (x : R * R) (h : R) : R * R * R * R :=
  let '(x0, x1) := x in
  let h := if Req_EM_T h 0 then cbrt (3 * eps) else h in
  let h0 := h * (1 + Rabs x0) in
  let h1 := h * (1 + Rabs x1) in
  let f0 := f x in
  let H00 := (f (x0 + 2 * h0, x1) - 2 * f0 + f (x0 - 2 * h0, x1)) / (4 * h0 ^ 2) in
  let H11 := (f (x0, x1 + 2 * h1) - 2 * f0 + f (x0, x1 - 2 * h1)) / (4 * h1 ^ 2) in
  let H01 := (f (x0 + h0, x1 + h1) - f (x0 + h0, x1 - h1)
              - f (x0 - h0, x1 + h1) + f (x0 - h0, x1 - h1)) / (4 * h0 * h1) in
  (H00, H01, H01, H11).

(** ndiff.py:414 — smallest nonzero magnitude, None if all entries are zero. *)
Fixpoint min_nonzero (n : nat) (x : nat -> R) : option R :=
  match n with
  | O => None
  | S k =>
      if Req_EM_T (x k) 0 then min_nonzero k x
      else match min_nonzero k x with
           | None => Some (Rabs (x k))
           | Some m => Some (Rmin m (Rabs (x k)))
           end
  end.

(** ndiff.py:382-423 — scalex (on a vector of length N). *)
Definition scalex (N : nat) (x : nat -> R) : nat -> R :=
  match min_nonzero N x with
  | None => fun _ => 1
  | Some xmin =>
      let xmax := maxn N (fun i => Rabs (x i)) in
      let wide := Rleb 1 (ln (xmax / xmin) / ln 10) in
      fun i => if Req_EM_T (x i) 0 then 10 / xmin
               else if wide then 1 / Rabs (x i) else 1 / xmax
  end.

(* ------------------------------------------------------------------ *)
(** * ode.py                                                            *)
(* ------------------------------------------------------------------ *)
(** ode.py:71-74. *)
Definition step_rk1 (f : R -> R -> R) (t y h : R) : R := y + f t y * h.
(** ode.py:76-79. *)
Definition step_rk2 (f : R -> R -> R) (t y h : R) : R :=
  y + f (t + h / 2) (y + f t y * h / 2) * h.
(** ode.py:81-88. *)
Definition step_rk4 (f : R -> R -> R) (t y h : R) : R :=
  let k1 := f t y in
  let k2 := f (t + h / 2) (y + k1 * h / 2) in
  let k3 := f (t + h / 2) (y + k2 * h / 2) in
  let k4 := f (t + h) (y + k3 * h) in
  y + (k1 + 2 * k2 + 2 * k3 + k4) * h / 6.

(** math.floor. *)
Definition floorZ (x : R) : Z := (up x - 1)%Z.

(** ode.py:96-98 — the loop of full steps; returns (t, y). *)
Fixpoint rk_loop (step : R -> R -> R -> R) (h : R) (n : nat) (t y : R) : R * R :=
  match n with
  | O => (t, y)
  | S n' => rk_loop step h n' (t + h) (step t y h)
  end.

(** ode.py:90-101 — integrate.  A negative nsteps makes range() empty. *)
Definition integrate (step : R -> R -> R -> R) (t0 tf y0 h : R) : R :=
  let nsteps := floorZ ((tf - t0) / h) in
  let hf := (tf - t0) - IZR nsteps * h in
  let '(t, y) := rk_loop step h (Z.to_nat nsteps) t0 y0 in
  step t y hf.

(** ode.py:14-112 — ode_rk (h <> 0; with h = 0 the division raises). *)
Definition ode_rk (f : R -> R -> R) (t0 tf y0 h : R) (order : Z) : res R :=
  if Req_EM_T h 0 then
    if Z.eqb order 1 || Z.eqb order 2 || Z.eqb order 4 then Err ZeroDivisionError
    else Err ValueError
  else if Z.eqb order 1 then Ok (integrate (step_rk1 f) t0 tf y0 h)
  else if Z.eqb order 2 then Ok (integrate (step_rk2 f) t0 tf y0 h)
  else if Z.eqb order 4 then Ok (integrate (step_rk4 f) t0 tf y0 h)
  else Err ValueError.
