(** Model of the general fallback moments and cumulative distributions of src/polykin/distributions/base.py,
    inherited by every chain-length distribution that does not override them. *)
From Coq Require Import Reals Lra Lia List Bool Arith.
From Coquelicot Require Import Coquelicot.
From Verif Require Import Prelude.
Open Scope R_scope.

(** base.py:498 — int(x), for x >= 0 *)
Definition py_int (x : R) : nat := Z.to_nat (Int_part x).
(** base.py:490-491 — the summand / integrand; [p] is the pdf of the subclass at integer lengths *)
Definition quad_term (p : nat -> R) (order k : nat) : R := INR k ^ order * p k.
(** base.py:498 — first chain length of the sum *)
Definition quad_first (xa : R) : nat := Nat.max 1 (py_int xa).
(** base.py:497-499 — discrete branch, finite upper limit; mpmath.nsum truncates the limit to an integer and an empty
    range gives zero; the sum is exact *)
Definition quad_disc (p : nat -> R) (xa xb : R) (order : nat) : R :=
  sumn (S (py_int xb) - quad_first xa) (fun j => quad_term p order (quad_first xa + j)).
(** base.py:497-499 — discrete branch, xb = inf; the sum is exact *)
Definition quad_disc_inf (p : nat -> R) (xa : R) (order : nat) : R :=
  Series (fun j => quad_term p order (quad_first xa + j)).
(** base.py:495-496 — continuous branch; the integral is exact *)
Definition quad_cont (p : R -> R) (xa xb : R) (order : nat) : R := RInt (fun z => z ^ order * p z) xa xb.
(** base.py:550 — _moment_length, discrete *)
Definition fb_moment (p : nat -> R) (order : nat) : R := quad_disc_inf p 0 order.
(** base.py:525-527 — _cdf_length, discrete *)
Definition fb_cdf (p : nat -> R) (x : R) (order : nat) : R := quad_disc p 0 x order / fb_moment p order.
(** base.py:525-527 — _cdf_length, continuous; [lam] is the moment of base.py:550 *)
Definition fb_cdf_cont (p : R -> R) (lam : nat -> R) (x : R) (order : nat) : R := quad_cont p 0 x order / lam order.
(** analyticaldistributions.py:107-115 — Flory._cdf_length of order 0 at a chain length that need not be an integer *)
Definition flory_cdf_at (a x : R) : R := 1 - Rpower a x.
