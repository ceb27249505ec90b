(** Model of src/polykin/distributions/misc.py and gold.py. *)
From Coq Require Import Reals Lra Lia List Bool Arith.
From Verif Require Import Prelude DistModel.
Import ListNotations.
Open Scope R_scope.

(** math.comb, by Pascal's rule. *)
Fixpoint comb (n k : nat) : nat :=
  match n, k with
  | _, O => 1
  | O, S _ => 0
  | S n', S k' => comb n' k' + comb n' (S k')
  end.

(** misc.py:62-70 — convolve_moments; moment vectors are lists. *)
Definition convolve_moments (q r : list R) : res (list R) :=
  if (length q =? length r)%nat then
    Ok (map (fun i => sumn (i + 1) (fun j => INR (comb i j) * nth j q 0 * nth (i - j) r 0))
            (seq 0 (length q)))
  else Err ValueError.

(** misc.py:133-137 — the loop "p = convolve_moments(q, p)" repeated [n] times. *)
Fixpoint convolve_iter (q : list R) (n : nat) (p : list R) : res (list R) :=
  match n with
  | O => Ok p
  | S m => do p' <- convolve_moments q p; convolve_iter q m p'
  end.

(** misc.py:119-139 — convolve_moments_self for order >= 0. *)
Definition convolve_moments_self (q : list R) (order : nat) : res (list R) :=
  match order with
  | O => Ok q
  | S k1 =>
    match q with
    | [] => Ok []
    | [q0] => Ok [q0 ^ (order + 1)]
    | [q0; q1] => Ok [q0 ^ (order + 1); (INR order + 1) * q0 ^ order * q1]
    | [q0; q1; q2] => Ok [q0 ^ (order + 1); (INR order + 1) * q0 ^ order * q1;
                          (INR order + 1) * q0 ^ k1 * (INR order * q1 ^ 2 + q0 * q2)]
    | _ => convolve_iter q order q
    end
  end.

(** misc.py:202-203 — convert_polymer_standards, scalar M1. *)
Definition convert_polymer_standards (M1 K1 K2 a1 a2 : R) : R :=
  Rpower (K1 / K2) (1 / (1 + a2)) * Rpower M1 ((1 + a1) / (1 + a2)).

(** numpy.polynomial.Laguerre: sum of gamma_m L_m(x), with
    L_m(x) = sum_i comb(m,i) (-x)^i / i!. *)
Definition laguerre (m : nat) (x : R) : R :=
  sumn (m + 1) (fun i => INR (comb m i) * (-1) ^ i * x ^ i / INR (fact i)).

(** misc.py:253-266 — series coefficients of reconstruct_Laguerre;
    DPn ** (i - 1) is an integer power. *)
Definition lag_DPn (mom : list R) : R := nth 1 mom 0 / nth 0 mom 0.
(** misc.py:253-266 *)
Definition lag_gamma (mom : list R) (m : nat) : R :=
  sumn (m + 1) (fun i => INR (comb m i) * (-1) ^ i * nth i mom 0
                         / powerRZ (lag_DPn mom) (Z.of_nat i - 1) / INR (fact i)).
(** misc.py:268-274 — reconstruct_Laguerre: the returned pdf. *)
Definition lag_pdf (mom : list R) (n : R) : R :=
  let rho := n / lag_DPn mom in
  exp (- rho) / lag_DPn mom ^ 2
  * sumn (length mom) (fun m => lag_gamma mom m * laguerre m rho).

(** gold.py:104-105 — find_p0. *)
Definition gold_find_p0 (v r p0 : R) : R := v + r * ln p0 + (r - 1) * (1 - p0).

(** gold.py:107-112 — choice of p0; [root] is the solution returned by root_brent,
    [eps] the machine epsilon. *)
Definition gold_p0 (eps root v r : R) : R :=
  if Rltb (gold_find_p0 v r eps) 0 then root else exp ((1 - v - r) / r).

(** gold.py:114-127, k >= 0 and r > 1; [gammainc] is an argument. *)
Definition gold_pdf_gt1 (gammainc : R -> R -> R) (p0 r : R) (k : nat) : R :=
  match k with
  | O => p0
  | _ => exp (ln (p0 / r) + INR k * ln (r / (r - 1))) * gammainc (INR k) ((1 - r) * ln p0)
  end.

(** gold.py:165-175 — the sum built by the first loop of _gold:
    s = S = 1; for j in 1..k-1: s *= a/j; S += s. *)
Fixpoint gold_loop (a : R) (j n : nat) (s S0 : R) : R :=
  match n with
  | O => S0
  | S n' => let s' := s * (a / INR j) in gold_loop a (S j) n' s' (S0 + s')
  end.
(** gold.py:165-175 *)
Definition gold_S (a : R) (k : nat) : R := gold_loop a 1 (k - 1) 1 1.
(** gold.py:165-176, k >= 1 and r < 1: the value of the first branch, which is exact; [gold_lt1]
    below has both branches. *)
Definition gold_pdf_lt1 (p0 r : R) (k : nat) : R :=
  match k with
  | O => p0
  | _ => let a := (1 - r) * ln p0 in
         exp (ln (p0 / r) + INR k * ln (r / (1 - r))) * (-1) ^ k * (1 - exp (- a) * gold_S a k)
  end.

(** gold.py:95-133 — shape of the returned value: the Poisson branch returns before the
    final "return scalar if input was scalar". *)
Inductive shape := Scalar | Array.
(** gold.py:95-133 *)
Definition gold_shape (scalar_input : bool) (r : R) : shape :=
  if Rltb (Rabs (r - 1)) (1 / 1000) then Array
  else if scalar_input then Scalar else Array.

(** gold.py:178-186 — the tail sum of _gold: up to [n] further terms, stopped after the first one below
    100 eps in absolute value. *)
Fixpoint gold_tail_loop (eps a : R) (j n : nat) (s S0 : R) : R :=
  match n with
  | O => S0
  | S n' => let s' := s * (a / INR j) in
            if Rltb (Rabs s') (eps * 100) then S0 + s' else gold_tail_loop eps a (S j) n' s' (S0 + s')
  end.
(** gold.py:178-186 *)
Definition gold_tail (eps a : R) (k : nat) : R :=
  let s := a ^ k / INR (fact k) in gold_tail_loop eps a (k + 1) 100 s s.
(** gold.py:135-186 — _gold with both branches, and the value p0 for k = 0 (gold.py:117). *)
Definition gold_lt1 (eps v r p0 : R) (k : nat) : R :=
  match k with
  | O => p0
  | _ => let a := (1 - r) * ln p0 in
         let A := exp (ln (p0 / r) + INR k * ln (r / (1 - r))) * (-1) ^ k in
         let B := exp (- a) in
         let S0 := gold_S a k in
         if Rltb (sqrt eps) (Rabs (B * S0 - 1)) && Rltb (INR k) v then A * (1 - B * S0) else A * B * gold_tail eps a k
  end.
(** gold.py:95-133 and analyticaldistributions.py:429-434 — the number fraction for one chain length;
    [root] is the result of root_brent and gammaln at integers is the logarithm of the factorial. *)
Definition gold_pdf (eps root : R) (gammainc : R -> R -> R) (v r : R) (k : nat) : R :=
  if Rltb (Rabs (r - 1)) (1 / 1000) then exp (INR k * ln v - v - ln (INR (fact k)))
  else let p0 := gold_p0 eps root v r in
       if Rltb 1 r then gold_pdf_gt1 gammainc p0 r k else gold_lt1 eps v r p0 k.
