(** Model of reactors/rtd.py.  Exact reals; finite times (for t = inf the code returns the limits, lines
    115, 154, 284 and 336); scipy.special.gamma at a positive integer is a factorial; erf is the error function. *)
From Coq Require Import Reals Lra Lia List Bool Arith.
From Verif Require Import Prelude Erf.
Open Scope R_scope.

(** rtd.py:51 — E_cstr *)
Definition E_cstr (t tavg : R) : R := 1 / tavg * exp (- t / tavg).
(** rtd.py:81 — F_cstr *)
Definition F_cstr (t tavg : R) : R := 1 - exp (- t / tavg).
(** rtd.py:114-118 — E_tanks_series (N >= 1, so gamma(N) = (N-1)!) *)
Definition E_tanks_series (t tavg : R) (N : nat) : R :=
  let q := t / tavg in q ^ (N - 1) * (INR N ^ N / INR (fact (N - 1))) * exp (- INR N * q) / tavg.
(** rtd.py:151-158 — F_tanks_series; gamma(i+1) = i! *)
Definition F_tanks_series (t tavg : R) (N : nat) : R :=
  let q := t / tavg in
  if Reqb q 0 then 0 else 1 - exp (- INR N * q) * sumn N (fun i => (INR N * q) ^ i / INR (fact i)).
(** rtd.py:193-197 — E_laminar_flow *)
Definition E_laminar_flow (t tavg : R) : R := if Rltb (t / tavg) (1 / 2) then 0 else 1 / 2 * tavg ^ 2 / t ^ 3.
(** rtd.py:232-236 — F_laminar_flow *)
Definition F_laminar_flow (t tavg : R) : R := let q := t / tavg in if Rleb q (1 / 2) then 0 else 1 - 1 / (4 * q ^ 2).
(** rtd.py:283-290 — E_dispersion_model (t >= 0, Pe > 0) *)
Definition E_dispersion_model (t tavg Pe : R) : R :=
  let q := t / tavg in
  if Reqb q 0 then 0
  else if Rltb 100 Pe then sqrt (Pe / PI) / (2 * tavg) * exp (- Pe / 4 * (1 - q) ^ 2)
  else sqrt (Pe / (PI * q)) / (2 * tavg) * exp (- Pe / (4 * q) * (1 - q) ^ 2).
(** rtd.py:333-345 — F_dispersion_model; quad f a b is the value (first result) of scipy.integrate.quad *)
Definition F_dispersion_model (quad : (R -> R) -> R -> R -> R) (t tavg Pe : R) : R :=
  let q := t / tavg in
  if Reqb q 0 then 0
  else if Rltb 100 Pe then 1 / 2 * (1 + erf (sqrt Pe / 2 * (q - 1)))
  else quad (fun t => E_dispersion_model t tavg Pe) 0 t.
(** rtd.py:387-393 — Pe_tube (Re > 0; Python floats) *)
Definition Pe_tube (Re : R) (Sc : option R) : res R :=
  if Rltb Re 2300 then
    match Sc with
    | None => Err ValueError
    | Some Sc => do a <- pydiv 1 (Re * Sc); pydiv 1 (a + Re * Sc / 192)
    end
  else pydiv 1 (30000000 / Rpower Re (21 / 10) + 135 / 100 / Rpower Re (125 / 1000)).
