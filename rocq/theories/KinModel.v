(** Model of src/polykin/kinetics (rate coefficients, emulsion, reaction). *)
From Coq Require Import Reals Lra Lia List Bool Arith String.
From Verif Require Import Prelude UtilsModel.
Import ListNotations.
Open Scope R_scope.

(* ------------------------------------------------------------------ *)
(** * properties/equations/base.py and kinetics/coefficients/arrhenius.py *)
(* ------------------------------------------------------------------ *)

(** numpy eps = 2^-52 (math/_constants) used by properties/equations/base.py:59 *)
Definition eps64 : R := / 2 ^ 52.

(** float subtraction, maximum and minimum on extended floats (NaN propagates) *)
Definition fl_sub (a b : fl) : fl :=
  match a, b with
  | Fin x, Fin y => Fin (x - y)
  | NaN, _ | _, NaN => NaN
  | PInf, PInf | NInf, NInf => NaN
  | PInf, _ | _, NInf => PInf
  | NInf, _ | _, PInf => NInf
  end.
Definition fl_max (a b : fl) : fl :=
  match a, b with NaN, _ | _, NaN => NaN | _, _ => if fleb a b then b else a end.
Definition fl_min (a b : fl) : fl :=
  match a, b with NaN, _ | _, NaN => NaN | _, _ => if fleb a b then a else b end.

(** [1/x] for a Python float: 1/inf = 0, 1/0 raises.  1/(-inf) and 1/nan cannot occur
    for the temperatures used below (they are checked to be non-negative; the NaN case
    is mapped to 0 and excluded by the theorems). *)
Definition fl_inv (x : fl) : res R :=
  match x with Fin r => pydiv 1 r | _ => Ok 0 end.

(** An [Arrhenius] object: shape, element values of k0 and EaR (a scalar is a
    one-element vector), T0 and the validity range.  Simplifications: T0, Tmin and
    Tmax are scalars (broadcast); parameters k0 and EaR are finite. *)
Record arrh := mkArrh {
  a_shape : option shape;
  a_k0 : nat -> R; a_EaR : nat -> R; a_T0 : fl; a_Tmin : fl; a_Tmax : fl }.

(** number of elements of an array of the given shape ([None]: scalar) *)
Definition nelem (s : option shape) : nat :=
  match s with None => 1%nat | Some l => fold_right Nat.mul 1%nat l end.
Definition a_n (a : arrh) : nat := nelem (a_shape a).

(** check_bounds on all [n] elements of a vector (utils/tools.py:155-199). *)
Definition check_bounds_n (n : nat) (x : nat -> R) (lo hi : fl) : res unit :=
  if forallb (fun i => between lo hi (Fin (x i))) (seq 0 n) then Ok tt else Err RangeError.

(** properties/equations/base.py:48-61 — PropertyEquationT.__init__: range checks. *)
Definition check_Trange (Tmin Tmax : fl) : res unit :=
  do _ <- check_bounds (VNum Tmin) (Fin 0) PInf;
  do _ <- check_bounds (VNum Tmax) (Fin 0) PInf;
  do _ <- check_bounds (VNum (fl_sub Tmax Tmin)) (Fin eps64) PInf;
  Ok tt.

(** arrhenius.py:74-100 — Arrhenius.__init__.  Bounds on EaR are (-inf, inf) and hold for
    every finite value. *)
Definition Arrhenius (sh : option shape) (k0 EaR : nat -> R) (T0 Tmin Tmax : fl)
  : res arrh :=
  do _ <- check_bounds_n (nelem sh) k0 (Fin 0) PInf;
  do _ <- check_bounds (VNum T0) (Fin 0) PInf;
  do _ <- check_Trange Tmin Tmax;
  Ok (mkArrh sh k0 EaR T0 Tmin Tmax).

(** arrhenius.py:102-127 — Arrhenius.equation, k0*exp(-EaR*(1/T - 1/T0)). *)
Definition arrh_equation (T : fl) (k0 EaR : nat -> R) (T0 : fl) : res (nat -> R) :=
  do iT <- fl_inv T;
  do iT0 <- fl_inv T0;
  Ok (fun i => k0 i * exp (- EaR i * (iT - iT0))).

(** properties/equations/base.py:63-84 — PropertyEquationT.__call__ for a scalar
    temperature; the flag is the range warning of convert_check_temperature. *)
Definition arrh_call (a : arrh) (T : fl) (Tunit : string) : res ((nat -> R) * bool) :=
  do r <- convert_check_temperature [T] Tunit (a_Tmin a) (a_Tmax a);
  let TK := nth 0 (fst r) NaN in
  do k <- arrh_equation TK (a_k0 a) (a_EaR a) (a_T0 a);
  Ok (k, snd r).

(** arrhenius.py:129-132 — property A. *)
Definition arrh_A (a : arrh) : res (nat -> R) :=
  do k <- arrh_call a PInf "K"; Ok (fst k).

(** arrhenius.py:129-132 *)
Definition oshape_eqb (s t : option shape) : bool :=
  match s, t with
  | None, None => true | Some a, Some b => shape_eqb a b | _, _ => false
  end.

(** arrhenius.py:151-165 — __mul__ of two coefficients. *)
Definition arrh_mul (a b : arrh) : res arrh :=
  if oshape_eqb (a_shape a) (a_shape b) then
    do Aa <- arrh_A a;
    do Ab <- arrh_A b;
    Arrhenius (a_shape a) (fun i => Aa i * Ab i) (fun i => a_EaR a i + a_EaR b i)
              PInf (fl_max (a_Tmin a) (a_Tmin b)) (fl_min (a_Tmax a) (a_Tmax b))
  else Err ShapeError.

(** arrhenius.py:166-182 — product with a number (also __rmul__). *)
Definition arrh_smul (a : arrh) (c : R) : res arrh :=
  Arrhenius (a_shape a) (fun i => a_k0 a i * c) (a_EaR a) (a_T0 a) (a_Tmin a) (a_Tmax a).

(** Element-wise division x_i / y_i.  Simplification: a zero divisor always raises
    ZeroDivisionError (as for Python floats; numpy scalars and arrays give inf or nan
    instead). *)
Definition div_n (n : nat) (x y : nat -> R) : res (nat -> R) :=
  if forallb (fun i => negb (Reqb (y i) 0)) (seq 0 n)
  then Ok (fun i => x i / y i) else Err ZeroDivisionError.

(** arrhenius.py:201-215 — __truediv__ of two coefficients. *)
Definition arrh_div (a b : arrh) : res arrh :=
  if oshape_eqb (a_shape a) (a_shape b) then
    do Aa <- arrh_A a;
    do Ab <- arrh_A b;
    do q <- div_n (a_n a) Aa Ab;
    Arrhenius (a_shape a) q (fun i => a_EaR a i - a_EaR b i)
              PInf (fl_max (a_Tmin a) (a_Tmin b)) (fl_min (a_Tmax a) (a_Tmax b))
  else Err ShapeError.

(** arrhenius.py:216-226 — division by a number. *)
Definition arrh_sdiv (a : arrh) (c : R) : res arrh :=
  do q <- div_n (a_n a) (a_k0 a) (fun _ => c);
  Arrhenius (a_shape a) q (a_EaR a) (a_T0 a) (a_Tmin a) (a_Tmax a).

(** arrhenius.py:230-244 — __rtruediv__, number / coefficient. *)
Definition arrh_rdiv (c : R) (a : arrh) : res arrh :=
  do q <- div_n (a_n a) (fun _ => c) (a_k0 a);
  Arrhenius (a_shape a) q (fun i => - a_EaR a i) (a_T0 a) (a_Tmin a) (a_Tmax a).

(** Python x ** y for a float x >= 0: zero to a negative power raises. *)
Definition py_pow (x y : R) : res R :=
  if Reqb x 0 then
    (if Rltb y 0 then Err ZeroDivisionError else Ok (if Reqb y 0 then 1 else 0))
  else Ok (Rpower x y).
(** element-wise (the first error, if any, is raised) *)
Definition pow_val (x y : R) : R :=
  if Reqb x 0 then (if Reqb y 0 then 1 else 0) else Rpower x y.
Definition pow_n (n : nat) (x : nat -> R) (y : R) : res (nat -> R) :=
  if forallb (fun i => match py_pow (x i) y with Ok _ => true | _ => false end) (seq 0 n)
  then Ok (fun i => pow_val (x i) y) else Err ZeroDivisionError.

(** arrhenius.py:246-274 — __pow__. *)
Definition arrh_pow (a : arrh) (e : R) : res arrh :=
  do q <- pow_n (a_n a) (a_k0 a) e;
  Arrhenius (a_shape a) q (fun i => a_EaR a i * e) (a_T0 a) (a_Tmin a) (a_Tmax a).

(* ------------------------------------------------------------------ *)
(** * kinetics/coefficients/eyring.py                                 *)
(* ------------------------------------------------------------------ *)

(** Physical constants of scipy.constants (exact SI values): kB, h and R = NA*kB. *)
Definition kB : R := 1380649 / 10 ^ 29.
Definition hP : R := 662607015 / 10 ^ 42.
Definition Rgas : R := 831446261815324 / 10 ^ 14.

(** A scalar [Eyring] object.  eyring.py:74-99. *)
Record eyr := mkEyr { e_DSa : R; e_DHa : R; e_kappa : R; e_Tmin : fl; e_Tmax : fl }.
(** eyring.py:20-126 *)
Definition Eyring (DSa DHa kappa : R) (Tmin Tmax : fl) : res eyr :=
  do _ <- check_bounds (VNum (Fin DSa)) (Fin 0) PInf;
  do _ <- check_bounds (VNum (Fin DHa)) (Fin 0) PInf;
  do _ <- check_bounds (VNum (Fin kappa)) (Fin 0) (Fin 1);
  do _ <- check_Trange Tmin Tmax;
  Ok (mkEyr DSa DHa kappa Tmin Tmax).

(** eyring.py:101-126 — Eyring.equation, kappa*kB*T/h*exp((DSa - DHa/T)/R), T finite. *)
Definition eyr_equation (T DSa DHa kappa : R) : res R :=
  do q <- pydiv DHa T;
  Ok (kappa * kB * T / hP * exp ((DSa - q) / Rgas)).

(** Common interface of Arrhenius and Eyring coefficients as used by the CLD classes:
    scalar evaluation at a finite temperature, and validity range. *)
Inductive coef := CArrh (a : arrh) | CEyr (e : eyr).
Definition coef_Tmin (c : coef) : fl := match c with CArrh a => a_Tmin a | CEyr e => e_Tmin e end.
Definition coef_Tmax (c : coef) : fl := match c with CArrh a => a_Tmax a | CEyr e => e_Tmax e end.
Definition coef_call (c : coef) (T : R) (Tunit : string) : res (R * bool) :=
  match c with
  | CArrh a => do r <- arrh_call a (Fin T) Tunit; Ok (fst r 0%nat, snd r)
  | CEyr e =>
      do r <- convert_check_temperature [Fin T] Tunit (e_Tmin e) (e_Tmax e);
      match nth 0 (fst r) NaN with
      | Fin TK => do k <- eyr_equation TK (e_DSa e) (e_DHa e) (e_kappa e); Ok (k, snd r)
      | _ => Err ValueError
      end
  end.

(* ------------------------------------------------------------------ *)
(** * kinetics/coefficients/cldpropagation.py, cldtermination.py      *)
(* ------------------------------------------------------------------ *)

Record half := mkHalf { h_kp : coef; h_C : R; h_ihalf : R }.
(** cldpropagation.py:88-103 — PropagationHalfLength.__init__. *)
Definition PropagationHalfLength (kp : coef) (C ihalf : R) : res half :=
  do _ <- check_bounds (VNum (Fin C)) (Fin 1) (Fin 100);
  do _ <- check_bounds (VNum (Fin ihalf)) (Fin (1 / 10)) (Fin 10);
  Ok (mkHalf kp C ihalf).

(** cldpropagation.py:109-135 — equation (i real, the library passes integers). *)
Definition half_equation (i kp C ihalf : R) : R :=
  kp * (1 + (C - 1) * exp (- ln 2 * (i - 1) / ihalf)).

(** cldpropagation.py:137-163 — __call__.  The temperature is converted once and the
    coefficient is then evaluated in kelvin; [None] if the converted value is not
    finite (cannot occur). *)
Definition half_call (p : half) (T i : R) (Tunit : string) : res R :=
  do r <- convert_check_temperature [Fin T] Tunit (coef_Tmin (h_kp p)) (coef_Tmax (h_kp p));
  match nth 0 (fst r) NaN with
  | Fin TK => do k <- coef_call (h_kp p) TK "K"; Ok (half_equation i (fst k) (h_C p) (h_ihalf p))
  | _ => Err ValueError
  end.

Record comp := mkComp { t_kt11 : coef; t_icrit : R; t_aS : R; t_aL : R }.
(** cldtermination.py:95-113 — TerminationCompositeModel.__init__. *)
Definition TerminationCompositeModel (kt11 : coef) (icrit aS aL : R) : res comp :=
  do _ <- check_bounds (VNum (Fin icrit)) (Fin 1) (Fin 200);
  do _ <- check_bounds (VNum (Fin aS)) (Fin 0) (Fin 1);
  do _ <- check_bounds (VNum (Fin aL)) (Fin 0) (Fin (1 / 2));
  Ok (mkComp kt11 icrit aS aL).

(** cldtermination.py:152-155 — inner function ktii (both branches of np.where are
    evaluated; i >= 1 here, so neither raises). *)
Definition ktii (kt11 icrit aS aL i : R) : R :=
  if Rleb i icrit then kt11 * Rpower i (- aS)
  else kt11 * Rpower icrit (- aS + aL) * Rpower i (- aL).
(** cldtermination.py:119-157 — equation. *)
Definition comp_equation (i j kt11 icrit aS aL : R) : R :=
  sqrt (ktii kt11 icrit aS aL i * ktii kt11 icrit aS aL j).
(** cldtermination.py:159-190 — __call__. *)
Definition comp_call (p : comp) (T i j : R) (Tunit : string) : res R :=
  do r <- convert_check_temperature [Fin T] Tunit (coef_Tmin (t_kt11 p)) (coef_Tmax (t_kt11 p));
  match nth 0 (fst r) NaN with
  | Fin TK => do k <- coef_call (t_kt11 p) TK "K";
              Ok (comp_equation i j (fst k) (t_icrit p) (t_aS p) (t_aL p))
  | _ => Err ValueError
  end.

(* ------------------------------------------------------------------ *)
(** * kinetics/emulsion/nbar.py                                       *)
(* ------------------------------------------------------------------ *)

(** nbar.py:13-41 — nbar_Stockmayer_OToole; [iv] is scipy.special.iv (the modified
    Bessel function of the first kind) as an argument. *)
Definition nbar_SO (iv : R -> R -> R) (alpha m : R) : R :=
  let a := sqrt (8 * alpha) in
  (a / 4) * iv m a / iv (m - 1) a.

(** nbar.py:44-74 — nbar_Li_Brooks. *)
Definition nbar_LB (alpha m : R) : R :=
  2 * alpha / (m + sqrt (m ^ 2 + 8 * alpha * (2 * alpha + m) / (2 * alpha + m + 1))).

(* ------------------------------------------------------------------ *)
(** * kinetics/reaction.py                                            *)
(* ------------------------------------------------------------------ *)

(** A propagation step: indices of monomer, first moment of the distribution and
    optional by-product; reaction.py:205-231. *)
Record prop_rx := mkProp { p_iM : nat; p_iP : nat; p_iA : option nat; p_k : R -> res R }.

(** [rx[i] += v] *)
Definition vadd (rx : nat -> R) (i : nat) (v : R) : nat -> R := upd rx i (rx i + v).

(** reaction.py:233-258 — Propagation.eval: in-place accumulation of the moment
    equations into rx. *)
Definition prop_eval (p : prop_rx) (T : R) (x rx : nat -> R) : res (nat -> R) :=
  let M := x (p_iM p) in
  let P0 := x (p_iP p) in
  let P1 := x (p_iP p + 1)%nat in
  do k <- p_k p T;
  let r := k * M * P0 in
  let rx := vadd rx (p_iM p) (- r) in
  let rx := vadd rx (p_iP p + 1)%nat r in
  let rx := vadd rx (p_iP p + 2)%nat (k * M * (2 * P1 + P0)) in
  Ok (match p_iA p with Some iA => vadd rx iA r | None => rx end).

(** reaction.py:118-123 — Reaction.rate: k(T) times the concentrations of the reactants. *)
Fixpoint rate_loop (C : nat -> R) (reactants : list nat) (rate : R) : R :=
  match reactants with [] => rate | i :: r => rate_loop C r (rate * C i) end.
(** reaction.py:118-123 *)
Definition rx_rate (k : R -> res R) (reactants : list nat) (C : nat -> R) (T : R) : res R :=
  do k0 <- k T; Ok (rate_loop C reactants k0).

(** reaction.py:141-168 — ReactionSystem.__init__ on a list of reactions identified by
    numbers.  The classes Reaction, Propagation and Termination define no method
    [species], so the first iteration of the loop at 154-155 raises AttributeError. *)
Definition has_dup (l : list nat) : bool :=
  negb (Nat.eqb (List.length l) (List.length (nodup Nat.eq_dec l))).
(** reaction.py:134-202 *)
Definition ReactionSystem (reactions : list nat) : res (list nat) :=
  if has_dup reactions then Err ValueError
  else match reactions with [] => Ok reactions | _ :: _ => Err AttributeError end.
(** reaction.py:125-131 — Reaction.__add__ of two reactions. *)
Definition rx_add (a b : nat) : res (list nat) := ReactionSystem [a; b].
(** reaction.py:189-202 — ReactionSystem.rates: fold of eval over the reactions,
    starting from zeros. *)
Fixpoint rates_loop (l : list prop_rx) (T : R) (x rx : nat -> R) : res (nat -> R) :=
  match l with
  | [] => Ok rx
  | p :: q => do rx' <- prop_eval p T x rx; rates_loop q T x rx'
  end.
(** reaction.py:189-202 *)
Definition rs_rates (l : list prop_rx) (T : R) (x : nat -> R) : res (nat -> R) :=
  rates_loop l T x (fun _ => 0).
