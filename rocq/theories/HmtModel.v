(** Model of hmt/ (diffusion.py, hex.py, correlations.py) and math/special.py.  Exact reals; erf is the
    function of Erf.v. *)
From Coq Require Import Reals Lra Lia List Bool Arith.
From Verif Require Import Prelude RootsModel KinModel CopoModel Erf.
Import ListNotations.
Open Scope R_scope.

(* ------------------------------------------------------------------ *)
(** * math/special.py                                                 *)
(* ------------------------------------------------------------------ *)

(** special.py:42-45 — ierfc; 68-71 — i2erfc *)
Definition ierfc (x : R) : R := if Rltb 30 x then 0 else exp (- x ^ 2) / sqrt PI - x * erfc x.
(** special.py:68-71 *)
Definition i2erfc (x : R) : R := if Rltb 30 x then 0 else (erfc x - 2 * x * ierfc x) / 4.

(** special.py:119-126 — large-a branch of roots_xtanx for root i: at most 10 substitutions, the value
    before the last substitution is returned *)
Fixpoint fp_loop (g : R -> R) (tolx : R) (n : nat) (e : R) : R :=
  match n with
  | O => e
  | S n' => let e' := g e in if Rltb (Rabs (e' - e)) tolx then e else fp_loop g tolx n' e'
  end.
(** special.py:119-126 *)
Definition xtanx_large (a : R) (i : nat) (tolx : R) : R :=
  INR i * PI + fp_loop (fun e => atan (a / (INR i * PI + e))) tolx 10 1.
(** special.py:174-183 — the same for roots_xcotx (a >= 2), at most 30 substitutions *)
Definition xcotx_large (a : R) (i : nat) (tolx : R) : R :=
  INR (i + 1) * PI + fp_loop (fun e => atan ((INR (i + 1) * PI + e) / (1 - a))) tolx 30 0.

(** special.py:107-116 and 163-172 — Newton branches.  root_newton evaluates f at x + i eps; the complex
    function is taken to first order in the imaginary step, f(x + i h) = f x + i h f' x *)
Definition xtanx_newton (a : R) (i : nat) (tolx : R) (maxiter : nat) : outcome R R :=
  root_newton (fun x _ => x * tan x - a) (fun x h => h * (tan x + x * (1 + tan x ^ 2)))
              (PI * (INR i + 5 / 10 * a / (a + 1))) tolx (1 / 10 ^ 10) maxiter.
(** special.py:163-172 *)
Definition xcotx_newton (a : R) (i : nat) (tolx : R) (maxiter : nat) : outcome R R :=
  root_newton (fun x _ => x / tan x + a - 1) (fun x h => h * (1 / tan x - x * (1 + / tan x ^ 2)))
              ((INR i + 1 / 2) * PI) tolx (1 / 10 ^ 10) maxiter.
(** special.py:100-128 — roots_xtanx, element i of the result (a = None: inf; a >= 0); 156-184 — roots_xcotx.
    sol.success is not looked at *)
Definition newton_x (o : outcome R R) : res R := do r <- snd o; Ok (rr_x r).
(** special.py:100-128 *)
Definition roots_xtanx (a : option R) (i : nat) (tolx : R) : res R :=
  match a with
  | None => Ok ((INR i + 1 / 2) * PI)
  | Some a => if Reqb a 0 then Ok (INR i * PI)
              else if Rltb a 100 then newton_x (xtanx_newton a i tolx 50) else Ok (xtanx_large a i tolx)
  end.
(** special.py:156-184 *)
Definition roots_xcotx (a : option R) (i : nat) (tolx : R) : res R :=
  match a with
  | None => Ok (INR (i + 1) * PI)
  | Some a => if Reqb a 1 then Ok ((INR i + 1 / 2) * PI)
              else if Rltb a 2 then newton_x (xcotx_newton a i tolx 50) else Ok (xcotx_large a i tolx)
  end.

(* ------------------------------------------------------------------ *)
(** * hmt/diffusion.py                                                *)
(* ------------------------------------------------------------------ *)

Definition odd1 (n : nat) : R := INR (2 * n + 1).
(** (-1 if n % 2 else 1) *)
Definition sgn_n (n : nat) : R := if Nat.odd n then -1 else 1.
(** scipy's erfc on floats *)
Definition erfc_fl (v : fl) : fl := match v with Fin r => Fin (erfc r) | PInf => Fin 0 | NInf => Fin 2 | NaN => NaN end.
(** diffusion.py:67 — profile_constc_semiinf; np.sqrt returns a numpy scalar, so the division by zero at
    t = 0 gives inf or nan *)
Definition profile_semiinf (t x Dc : R) : fl := erfc_fl (np_div x (2 * sqrt (Dc * t))).
(** diffusion.py:127-153 — profile_constc_sheet *)
Definition profile_sheet (Fo x : R) : R :=
  if Reqb Fo 0 then 0
  else if Rltb Fo (1 / 4) then
    let A := 2 * sqrt Fo in
    sumn 4 (fun n => sgn_n n * (erfc ((odd1 n - x) / A) + erfc ((odd1 n + x) / A)))
  else
    let B := - (PI ^ 2 / 4) * Fo in
    let C := PI / 2 * x in
    1 - 4 / PI * sumn 4 (fun n => sgn_n n / odd1 n * exp (B * odd1 n ^ 2) * cos (C * odd1 n)).
(** diffusion.py:207-234 — profile_constc_sphere *)
Definition profile_sphere (Fo r : R) : R :=
  if Rltb (Rabs r) eps then
    let B := - PI ^ 2 * Fo in
    1 + 2 * sumn 3 (fun k => sgn_n (S k) * exp (B * INR (S k) ^ 2))
  else if Reqb Fo 0 then 0
  else if Rltb Fo (1 / 4) then
    let A := 2 * sqrt Fo in
    sumn 4 (fun n => erfc ((odd1 n - r) / A) - erfc ((odd1 n + r) / A)) / r
  else
    let B := - PI ^ 2 * Fo in
    1 + 2 / (PI * r) * sumn 3 (fun k => sgn_n (S k) / INR (S k) * exp (B * INR (S k) ^ 2) * sin (r * PI * INR (S k))).
(** diffusion.py:290-307 — uptake_constc_sheet *)
Definition uptake_sheet (Fo : R) : R :=
  if Reqb Fo 0 then 0
  else if Rltb Fo (1 / 4) then
    let A := sqrt Fo in
    2 * A * (1 / sqrt PI + 2 * sumn 3 (fun k => sgn_n (S k) * ierfc (INR (S k) / A)))
  else
    let B := - (Fo * PI ^ 2) / 4 in
    1 - 8 / PI ^ 2 * sumn 3 (fun n => 1 / odd1 n ^ 2 * exp (B * odd1 n ^ 2)).
(** diffusion.py:357-372 — uptake_constc_sphere *)
Definition uptake_sphere (Fo : R) : R :=
  if Reqb Fo 0 then 0
  else if Rltb Fo (1 / 4) then
    let A := sqrt Fo in
    6 * A * (1 / sqrt PI + 2 * sumn 3 (fun k => ierfc (INR (S k) / A))) - 3 * Fo
  else
    let B := - Fo * PI ^ 2 in
    1 - 6 / PI ^ 2 * sumn 3 (fun k => 1 / INR (S k) ^ 2 * exp (B * INR (S k) ^ 2)).
(** diffusion.py:432-441 — uptake_convection_sheet; 500-509 — uptake_convection_sphere, given the
    eigenvalues x of roots_xtanx / roots_xcotx *)
Definition uptake_conv_sheet (x : nat -> R) (Fo Bi : R) : R :=
  if negb (Reqb Fo 0) && negb (Reqb Bi 0) then
    1 - 2 * Bi ^ 2 * sumn 4 (fun n => exp (- x n ^ 2 * Fo) / (x n ^ 2 * (x n ^ 2 + Bi * (Bi + 1))))
  else 0.
(** diffusion.py:500-509 *)
Definition uptake_conv_sphere (x : nat -> R) (Fo Bi : R) : R :=
  if negb (Reqb Fo 0) && negb (Reqb Bi 0) then
    1 - 6 * Bi ^ 2 * sumn 4 (fun n => exp (- x n ^ 2 * Fo) / (x n ^ 2 * (x n ^ 2 + Bi * (Bi - 1))))
  else 0.
(** the same with the eigenvalues computed by roots_xtanx(Bi, 4) / roots_xcotx(Bi, 4) *)
Definition four (rt : nat -> res R) : res (nat -> R) :=
  do x0 <- rt 0%nat; do x1 <- rt 1%nat; do x2 <- rt 2%nat; do x3 <- rt 3%nat;
  Ok (fun n => match n with 0%nat => x0 | 1%nat => x1 | 2%nat => x2 | _ => x3 end).
(** diffusion.py:432-441 *)
Definition uptake_convection_sheet (Fo Bi : R) : res R :=
  if negb (Reqb Fo 0) && negb (Reqb Bi 0) then do x <- four (fun i => roots_xtanx (Some Bi) i (1 / 10 ^ 6)); Ok (uptake_conv_sheet x Fo Bi) else Ok 0.
(** diffusion.py:500-509 *)
Definition uptake_convection_sphere (Fo Bi : R) : res R :=
  if negb (Reqb Fo 0) && negb (Reqb Bi 0) then do x <- four (fun i => roots_xcotx (Some Bi) i (1 / 10 ^ 6)); Ok (uptake_conv_sphere x Fo Bi) else Ok 0.
(** diffusion.py:563-565 — diffusivity_composite *)
Definition diffusivity_composite (Dd Dc fd sph : R) : R :=
  let x := 3 / sph - 1 in
  let Y := (Dd - Dc) / (Dd + x * Dc) in
  Dc * (1 + fd * Y * x) / (1 - fd * Y).

(* ------------------------------------------------------------------ *)
(** * hmt/hex.py                                                      *)
(* ------------------------------------------------------------------ *)

(** hex.py:72 — U_plane_wall; 145-147 — U_cylindrical_wall *)
Definition U_plane_wall (h1 h2 L k Rf1 Rf2 : R) : R := 1 / (1 / h1 + 1 / h2 + L / k + Rf1 + Rf2).
(** hex.py:145-147 *)
Definition U_cylindrical_wall (hi ho di do_ k Rfi Rfo : R) : R :=
  1 / (do_ / (hi * di) + 1 / ho + Rfi * do_ / di + Rfo + do_ / (2 * k) * ln (do_ / di)).

(* ------------------------------------------------------------------ *)
(** * hmt/correlations.py (warnings of check_range_warn not modelled) *)
(* ------------------------------------------------------------------ *)

(** friction.py:398 — fD_Haaland (log10 x = ln x / ln 10; 0 ** 1.11 = 0) *)
Definition pow0 (x y : R) : R := if Rltb 0 x then Rpower x y else 0.
(** friction.py:396-398 *)
Definition fD_Haaland (Re er : R) : R := (1 / (18 / 10 * (ln (pow0 (er / (37 / 10)) (111 / 100) + 69 / 10 / Re) / ln 10))) ^ 2.
(** correlations.py:107-113 — Nu_tube *)
Definition Nu_tube (Re Pr D_L er : R) : R :=
  if Rltb Re 2300 then 366 / 100 + 668 / 10000 * D_L * Re * Pr / (1 + 4 / 100 * pow0 (D_L * Re * Pr) (2 / 3))
  else let f := fD_Haaland Re er in
       f / 8 * (Re - 1000) * Pr / (1 + 127 / 10 * sqrt (f / 8) * (Rpower Pr (2 / 3) - 1)).
(** correlations.py:152-157 — Nu_plate *)
Definition Nu_plate (Re Pr : R) : R :=
  let Rec := 500000 in
  if Rltb Re Rec then 664 / 1000 * pow0 Re (1 / 2) * Rpower Pr (1 / 3)
  else let A := 37 / 1000 * Rpower Rec (4 / 5) - 664 / 1000 * Rpower Rec (1 / 2) in
       (37 / 1000 * Rpower Re (4 / 5) - A) * Rpower Pr (1 / 3).
(** correlations.py:222-224 — Nu_cylinder; 289-291 — Nu_cylinder_free; 347 — Nu_sphere; 408 — Nu_drop;
    812 — Nu_sphere_free *)
Definition Nu_cylinder (Re Pr : R) : R :=
  3 / 10 + 62 / 100 * pow0 Re (1 / 2) * Rpower Pr (1 / 3) / Rpower (1 + Rpower (4 / 10 / Pr) (2 / 3)) (1 / 4)
           * Rpower (1 + pow0 (Re / 282000) (5 / 8)) (4 / 5).
(** correlations.py:287-291 *)
Definition Nu_cylinder_free (Ra Pr : R) : R :=
  (6 / 10 + 387 / 1000 * pow0 Ra (1 / 6) / Rpower (1 + Rpower (559 / 1000 / Pr) (9 / 16)) (8 / 27)) ^ 2.
(** correlations.py:343-347 *)
Definition Nu_sphere (Re Pr mur : R) : R :=
  2 + (4 / 10 * pow0 Re (1 / 2) + 6 / 100 * pow0 Re (2 / 3)) * Rpower Pr (4 / 10) * Rpower mur (1 / 4).
(** correlations.py:405-408 *)
Definition Nu_drop (Re Pr : R) : R := 2 + 6 / 10 * pow0 Re (1 / 2) * Rpower Pr (1 / 3).
(** correlations.py:809-812 *)
Definition Nu_sphere_free (Ra Pr : R) : R :=
  2 + 589 / 1000 * pow0 Ra (1 / 4) / Rpower (1 + Rpower (469 / 1000 / Pr) (9 / 16)) (4 / 9).
(** correlations.py:912-930 — Nu_plate_free (Pr = None and Pr = 0 are rejected alike) *)
Inductive orientation := Vertical | UpperHeated | LowerHeated | OtherOrientation.
(** correlations.py:815-930 *)
Definition Nu_plate_free (o : orientation) (Ra : R) (Pr : option R) : res R :=
  match o with
  | Vertical =>
      match Pr with
      | Some p => if Reqb p 0 then Err ValueError
                  else Ok ((825 / 1000 + 387 / 1000 * pow0 Ra (1 / 6) / Rpower (1 + Rpower (492 / 1000 / p) (9 / 16)) (8 / 27)) ^ 2)
      | None => Err ValueError
      end
  | UpperHeated => Ok (if Rltb Ra (10 ^ 7) then 54 / 100 * pow0 Ra (1 / 4) else 15 / 100 * Rpower Ra (1 / 3))
  | LowerHeated => Ok (27 / 100 * pow0 Ra (1 / 4))
  | OtherOrientation => Err ValueError
  end.
(** correlations.py:982-985 — Nu_combined; cbrt is the real cube root *)
Definition rcbrt (x : R) : R := if Rltb 0 x then Rpower x (1 / 3) else if Reqb x 0 then 0 else - Rpower (- x) (1 / 3).
(** correlations.py:933-985 *)
Definition Nu_combined (forced free : R) (assisted : bool) : R :=
  if assisted then rcbrt (forced ^ 3 + free ^ 3) else rcbrt (forced ^ 3 - free ^ 3).
(** correlations.py:499-593 — Nu_tank *)
Inductive surface := SWall | SBottom | SHelical | SHarp0 | SHarp45 | SOther.
(** correlations.py:499-593 *)
Inductive impeller := I4BF | I4BP | I6BD | IHE3 | IPROP | IAnchor | IRibbon | IOther.
(** correlations.py:411-593 *)
Definition Nu_tank (s : surface) (imp : impeller) (Re Pr mur D_T H_T L_Ls d_T P_D : R) (nb : nat) : res R :=
  let H := Rpower H_T (- (15 / 100)) in
  let HL := H * Rpower L_Ls (2 / 10) in
  let dd := Rpower (D_T / (1 / 3)) (1 / 10) * Rpower (d_T / (4 / 100)) (5 / 10) in
  let nbf := Rpower (D_T / (1 / 3)) (33 / 100) * Rpower (2 / INR nb) (2 / 10) in
  let out K a b Gc := Ok (K * Rpower Re a * Rpower Pr b * Rpower mur (14 / 100) * Gc) in
  let std K Gc := out K (2 / 3) (1 / 3) Gc in
  match s, imp with
  | SWall, I6BD => std (74 / 100) HL
  | SWall, I4BF => std (66 / 100) HL
  | SWall, I4BP => std (45 / 100) HL
  | SWall, IHE3 => std (31 / 100) H
  | SWall, IPROP => std (50 / 100) (H * (129 / 100) * P_D / (29 / 100 + P_D))
  | SWall, IAnchor =>
      if Rltb Re 12 then std 0 1 else if Rltb Re 100 then out (69 / 100) (1 / 2) (1 / 3) 1 else std (32 / 100) 1
  | SWall, IRibbon =>
      if Rltb Re 13 then out (94 / 100) (1 / 3) (1 / 3) 1 else if Rltb Re 210 then out (61 / 100) (1 / 2) (1 / 3) 1 else std (25 / 100) 1
  | SBottom, I6BD => std (50 / 100) HL
  | SBottom, I4BF => std (40 / 100) HL
  | SBottom, I4BP => std (108 / 100) HL
  | SBottom, IHE3 => std (90 / 100) H
  | SHelical, IPROP => out (16 / 1000) (67 / 100) (37 / 100) dd
  | SHelical, I6BD => std (3 / 100) (HL * dd)
  | SHarp0, I4BF => out (6 / 100) (65 / 100) (3 / 10) (HL * nbf)
  | SHarp45, I6BD => out (21 / 1000) (67 / 100) (4 / 10) (HL * nbf)
  | _, _ => Err ValueError
  end.
(** np.interp at a point inside or outside the table *)
Fixpoint interp (x : R) (tab : list (R * R)) (last : R) : R :=
  match tab with
  | (x0, y0) :: (x1, y1) :: _ =>
      if Rltb x x0 then y0 else if Rltb x x1 then y0 + (y1 - y0) * (x - x0) / (x1 - x0) else
        match tab with _ :: t' => interp x t' last | [] => last end
  | [(_, y)] => y
  | [] => last
  end.
Definition bank_tab (aligned : bool) : list (R * R) :=
  [(1, if aligned then 70 / 100 else 64 / 100); (2, if aligned then 80 / 100 else 76 / 100); (3, if aligned then 86 / 100 else 84 / 100);
   (4, if aligned then 90 / 100 else 89 / 100); (5, 92 / 100); (7, 95 / 100); (10, 97 / 100); (13, 98 / 100); (16, 99 / 100); (20, 1)].
(** correlations.py:684-746 — Nu_cylinder_bank *)
Definition bank_vmax (v : R) (aligned : bool) (Dm ST SL : R) : R :=
  let v0 := v * ST / (ST - Dm) in
  if aligned then v0
  else let SD := sqrt (SL ^ 2 + (ST / 2) ^ 2) in if Rltb SD ((ST + Dm) / 2) then v * ST / (2 * (SD - Dm)) else v0.
(** correlations.py:684-746 *)
Definition bank_Cm (aligned : bool) (Re ST SL : R) : R * R :=
  if aligned then
    if Rltb Re 100 then (8 / 10, 4 / 10) else if Rltb Re 1000 then (51 / 100, 50 / 100) else if Rltb Re 200000 then (27 / 100, 63 / 100) else (21 / 1000, 84 / 100)
  else
    if Rltb Re 100 then (9 / 10, 4 / 10) else if Rltb Re 1000 then (51 / 100, 50 / 100)
    else if Rltb Re 200000 then ((if Rltb (ST / SL) 2 then 35 / 100 * Rpower (ST / SL) (2 / 10) else 40 / 100), 60 / 100) else (22 / 1000, 84 / 100).
(** correlations.py:684-746 *)
Definition bank_C2 (aligned : bool) (NL : nat) : R := if (NL <? 20)%nat then interp (INR NL) (bank_tab aligned) 1 else 1.
(** correlations.py:596-746 *)
Definition Nu_cylinder_bank (v rho mu Pr Prs : R) (aligned : bool) (Dm ST SL : R) (NL : nat) : R :=
  let Re := rho * bank_vmax v aligned Dm ST SL * Dm / mu in
  let '(C, m) := bank_Cm aligned Re ST SL in
  bank_C2 aligned NL * (C * Rpower Re m * Rpower Pr (36 / 100) * Rpower (Pr / Prs) (1 / 4)).
