(** Model of flow/ (friction.py, rheology.py, prv.py).  Exact reals; messages printed by check_range_warn are
    not modelled; log10 x = ln x / ln 10. *)
From Coq Require Import Reals Lra Lia List Bool Arith.
From Verif Require Import Prelude RootsModel KinModel CopoModel HmtModel.
Import ListNotations.
Open Scope R_scope.

(** scipy.constants.g *)
Definition g_acc : R := 980665 / 100000.
Definition log10 (x : R) : R := ln x / ln 10.

(* ------------------------------------------------------------------ *)
(** * flow/friction.py                                                *)
(* ------------------------------------------------------------------ *)

(** friction.py:79 — DP_Hagen_Poiseuille *)
Definition DP_Hagen_Poiseuille (Q D L mu : R) : R := 128 * mu * Q * L / (PI * D ^ 4).
(** friction.py:150 — DP_Darcy_Weisbach *)
Definition DP_Darcy_Weisbach (v D L rho fD : R) : R := fD * rho / 2 * v ^ 2 / D * L.
(** friction.py:213-216 (the same test in 661 and 670) — laminar or turbulent friction factor; the division
    64 / Re is one of Python floats.  fD_Haaland (396-398) is in HmtModel *)
Definition fD_switch (Re er : R) : res R := if Rltb Re 2300 then pydiv 64 Re else Ok (fD_Haaland Re er).
(** friction.py:211-218 — DP_tube (D, mu <> 0) *)
Definition DP_tube (Q D L rho mu er : R) : res R :=
  let v := 4 * Q / (PI * D ^ 2) in
  let Re := rho * v * D / mu in
  do fD <- fD_switch Re er; Ok (DP_Darcy_Weisbach v D L rho fD).
(** friction.py:279-281 — DP_packed_bed (all quantities positive, eps < 1; G >= 0; Rep = 0 divides by zero) *)
Definition DP_packed_bed (G L Dp eps rho mu : R) : res R :=
  let Rep := Dp * G / (mu * (1 - eps)) in
  do a <- pydiv 150 Rep; do b <- pydiv (42 / 10) (pow0 Rep (1 / 6));
  Ok (G ^ 2 * (1 - eps) * (a + b) * L / (rho * Dp * eps ^ 3)).
(** friction.py:335-336 — the function of fD_Colebrook, and its derivative by the complex step *)
Definition colebrook (Re er f : R) : R := 2 * log10 (er / (37 / 10) + 251 / 100 / (Re * sqrt f)) + 1 / sqrt f.
(** friction.py:338-345 — fD_Colebrook.  root_newton is called with its default tolerances and maxiter; the
    imaginary part of fnc (x + i h) is taken to first order, [dcole] is the derivative *)
Definition dcole (Re er f : R) : R :=
  - (2 * (251 / 100 / Re) / (ln 10 * (er / (37 / 10) + 251 / 100 / (Re * sqrt f))) + 1) / (2 * f * sqrt f).
(** friction.py:333-345 *)
Definition fD_Colebrook (Re er : R) : res R :=
  do sol <- snd (root_newton (fun f _ => colebrook Re er f) (fun f h => h * dcole Re er f) (fD_Haaland Re er) (1 / 10 ^ 6) (1 / 10 ^ 6) 50);
  if rr_success sol then Ok (rr_x sol) else Err RootSolverError.
(** friction.py:445 — Cd_sphere (Rep > 0) *)
Definition Cd_sphere (Rep : R) : R :=
  24 / Rep * (1 + 173 / 1000 * Rpower Rep (657 / 1000)) + 413 / 1000 / (1 + 16300 * Rpower Rep (- (109 / 100))).
(** derivative of Cd_sphere (used by the complex step) *)
Definition dCd_sphere (Rep : R) : R :=
  - (24 / Rep ^ 2) - 24 * (173 / 1000) * (343 / 1000) * Rpower Rep (657 / 1000) / Rep ^ 2
  + 413 / 1000 * (16300 * (109 / 100) * Rpower Rep (- (109 / 100)) / Rep) / (1 + 16300 * Rpower Rep (- (109 / 100))) ^ 2.
(** friction.py:493 — vt_Stokes *)
Definition vt_Stokes (Dp rhop rho mu : R) : R := Dp ^ 2 * g_acc * (rhop - rho) / (18 * mu).
(** friction.py:559-562 — the velocity of the force balance for a given drag; fnc vt = vt - vt_drag vt *)
Definition vt_drag (Dp rhop rho mu vt : R) : R :=
  sqrt (4 * Dp * g_acc * (rhop - rho) / (3 * Cd_sphere (rho * vt * Dp / mu) * rho)).
(** friction.py:559-562, derivative *)
Definition dvt_drag (Dp rhop rho mu vt : R) : R :=
  let Rep := rho * vt * Dp / mu in
  - vt_drag Dp rhop rho mu vt * (dCd_sphere Rep * (rho * Dp / mu)) / (2 * Cd_sphere Rep).
(** friction.py:559-571 — vt_sphere (rhop > rho, iterates positive); imaginary part to first order *)
Definition vt_sphere (Dp rhop rho mu : R) : res R :=
  do sol <- snd (root_newton (fun v _ => v - vt_drag Dp rhop rho mu v) (fun v h => h * (1 - dvt_drag Dp rhop rho mu v)) 1
                             (1 / 10 ^ 6) (1 / 10 ^ 6) 50);
  if rr_success sol then Ok (rr_x sol) else Err RootSolverError.
(** friction.py:657-690 — DP_GL_Lockhart_Martinelli.  ReL, ReG are bound only in the branches with flow, and
    only used when both are *)
Definition LM_phase (mdot D rho mu er : R) : res (R * R) :=
  if Rltb 0 mdot then
    let A := PI / 4 * D ^ 2 in
    let v := mdot / (A * rho) in
    let Re := rho * v * D / mu in
    do f <- fD_switch Re er; Ok (DP_Darcy_Weisbach v D 1 rho f, Re)
  else Ok (0, 0).
(** friction.py:574-690 *)
Definition DP_GL_Lockhart_Martinelli (mdotL mdotG D L rhoL rhoG muL muG er : R) : res R :=
  do pl <- LM_phase mdotL D rhoL muL er; do pg <- LM_phase mdotG D rhoG muG er;
  let (dPL, ReL) := (pl : R * R) in let (dPG, ReG) := (pg : R * R) in
  let dP := if Reqb dPG 0 then dPL else if Reqb dPL 0 then dPG
            else let X := sqrt (dPL / dPG) in
                 let C := if Rltb 1000 ReL then (if Rltb 1000 ReG then 20 else 10) else (if Rltb 1000 ReG then 12 else 5) in
                 (1 + C / X + 1 / X ^ 2) * dPL in
  Ok (dP * L).
(** friction.py:771, 776 — friction factor of DP_GL_Mueller_Bonn *)
Definition f_MB (Re : R) : res R := if Rleb Re 1187 then pydiv 64 Re else Ok (3164 / 10000 / Rpower Re (1 / 4)).
(** friction.py:765-783 — DP_GL_Mueller_Bonn (flows >= 0) *)
Definition DP_GL_Mueller_Bonn (mdotL mdotG D L rhoL rhoG muL muG : R) : res R :=
  let mdot := mdotL + mdotG in
  do x <- pydiv mdotG mdot;
  let vm := mdot / (PI / 4 * D ^ 2) in
  do fL <- f_MB (vm * D / muL); do fG <- f_MB (vm * D / muG);
  let dPL0 := fL * vm ^ 2 / (2 * rhoL * D) in
  let dPG0 := fG * vm ^ 2 / (2 * rhoG * D) in
  Ok (((dPL0 + 2 * (dPG0 - dPL0) * x) * pow0 (1 - x) (1 / 3) + dPG0 * x ^ 3) * L).

(* ------------------------------------------------------------------ *)
(** * flow/rheology.py (float arguments)                              *)
(* ------------------------------------------------------------------ *)

(** rheology.py:56 — mu_PowerLaw (py_pow, KinModel: power of floats, base >= 0); 110 — mu_Cross; 163 — mu_Cross_modified; 223 — mu_Carreau_Yasuda *)
Definition mu_PowerLaw (gdot K n : R) : res R := do p <- py_pow gdot (n - 1); Ok (K * p).
(** rheology.py:110 *)
Definition mu_Cross (gdot mu0 lmbda n : R) : res R := do p <- py_pow (lmbda * gdot) (1 - n); Ok (mu0 / (1 + p)).
(** rheology.py:163 *)
Definition mu_Cross_modified (gdot mu0 C n : R) : res R := do p <- py_pow (C * mu0 * gdot) (1 - n); Ok (mu0 / (1 + p)).
(** rheology.py:223 *)
Definition mu_Carreau_Yasuda (gdot mu0 muinf lmbda n a : R) : res R :=
  do p <- py_pow (lmbda * gdot) a; do e <- pydiv (n - 1) a; do q <- py_pow (1 + p) e; Ok (muinf + (mu0 - muinf) * q).
(** rheology.py:283-291 — aT_WLF *)
Definition aT_WLF (T T0 : R) (C1 C2 : option R) : res R :=
  do cc <- match C1, C2 with
           | None, None => Ok (1744 / 100, 5160 / 100)
           | Some a, Some b => Ok (a, b)
           | _, _ => Err ValueError
           end;
  let (c1, c2) := (cc : R * R) in
  do q <- pydiv (- c1 * (T - T0)) (c2 + T - T0); Ok (Rpower 10 q).

(* ------------------------------------------------------------------ *)
(** * flow/prv.py (positive pressures and properties; radicands nonnegative, otherwise numpy gives nan) *)
(* ------------------------------------------------------------------ *)

(** prv.py:19-35 — PRVResult (Pcf in bara; None: nan) *)
Record PRV := mkPRV { prv_Pcf : option R; prv_crit : bool; prv_A : R }.

(** prv.py:130 — critical pressure ratio; 143 — C; 147 — F2 *)
Definition gas_rc (k : R) : R := Rpower (2 / (k + 1)) (k / (k - 1)).
(** prv.py:143 *)
Definition gas_C (k : R) : R := 3948 / 100000 * sqrt (k * Rpower (2 / (k + 1)) ((k + 1) / (k - 1))).
(** prv.py:147 *)
Definition gas_F2 (k r : R) : R := sqrt (k / (k - 1) * Rpower r (2 / k) * ((1 - Rpower r ((k - 1) / k)) / (1 - r))).
(** prv.py:135-140 — KN *)
Definition steam_KN (P1 : R) : res R :=
  if Rleb P1 10339 then Ok 1
  else if Rltb P1 22057 then Ok ((2764 / 100000 * P1 - 1000) / (3324 / 100000 * P1 - 1061)) else Err ValueError.
(** prv.py:126-150 — area_relief_gas (k > 1) *)
Definition area_relief_gas (W P1 P2 T k M Z : R) (steam : bool) (Kd Kb Kc KSH : R) : res PRV :=
  let P1 := P1 * 100 in let P2 := P2 * 100 in
  let Pcf := P1 * gas_rc k in
  let crit := Rleb P2 Pcf in
  do A <- (if crit then
             if steam then do KN <- steam_KN P1; Ok (1905 / 10 * W / (P1 * Kd * Kb * Kc * KN * KSH))
             else Ok (W / (gas_C k * Kd * P1 * Kb * Kc) * sqrt (T * Z / M))
           else Ok (179 / 10 * W / (gas_F2 k (P2 / P1) * Kd * Kc) * sqrt (T * Z / (M * P1 * (P1 - P2)))));
  Ok (mkPRV (Some (Pcf / 100)) crit A).

(** prv.py:232-235 — one evaluation of the area for the given viscosity correction *)
Definition liq_Kv (Q mu Gl A : R) : R :=
  let Re := 18800 * Q * Gl / (mu * sqrt A) in
  1 / (9935 / 10000 + 2878 / 1000 / Rpower Re (1 / 2) + 34275 / 100 / Rpower Re (3 / 2)).
(** prv.py:232-235 *)
Definition liq_A (Q dP Gl Kd Kw Kc Kv : R) : R := 1178 / 100 * Q / (Kd * Kw * Kc * Kv) * sqrt (Gl / dP).
(** prv.py:227-246 — the loop after the first evaluation: [n] iterations remain, A and A_old = A *)
Fixpoint liq_loop (F : R -> R) (n : nat) (Aold : R) : res R :=
  match n with
  | O => Err ValueError
  | S n' => let A := F Aold in
            if Rltb (Rabs ((A - Aold) / A)) (1 / 10 ^ 5) then Ok A else liq_loop F n' A
  end.
(** prv.py:220-246 — area_relief_liquid (Q > 0, P1 > P2).  In the first iteration A_old = 0, so the relative
    change is 1 and the loop goes on *)
Definition area_relief_liquid (Q P1 P2 mu Gl Kd Kw Kc : R) : res R :=
  let dP := P1 * 100 - P2 * 100 in
  let A0 := liq_A Q dP Gl Kd Kw Kc 1 in
  if Rltb (Rabs ((A0 - 0) / A0)) (1 / 10 ^ 5) then Ok A0
  else liq_loop (fun A => liq_A Q dP Gl Kd Kw Kc (liq_Kv Q mu Gl A)) 49 A0.

(** prv.py:331-333 — critical pressure ratio of the omega method *)
Definition omega_eta (w : R) : R :=
  Rpower (1 + (10446 / 10000 - 93431 / 10 ^ 7 * sqrt w) * Rpower w (- (56261 / 100000))) (- (70356 / 100000) + 14685 / 10 ^ 6 * ln w).
(** prv.py:341 and 344-348 — mass fluxes *)
Definition omega_Gc (w eta P1 v1 : R) : R := eta * sqrt (P1 / (v1 * w)).
(** prv.py:341 *)
Definition omega_G (w eta P1 v1 : R) : R :=
  sqrt (-2 * (w * ln eta + (w - 1) * (1 - eta))) * sqrt (P1 / v1) / (w * (1 / eta - 1) + 1).
(** prv.py:324-353 — area_relief_2phase (v9 > v1) *)
Definition area_relief_2phase (W P1 P2 v1 v9 Kd Kb Kc Kv : R) : PRV :=
  let P1 := P1 * 10 ^ 5 in let P2 := P2 * 10 ^ 5 in
  let w := 9 * (v9 / v1 - 1) in
  let eta := omega_eta w in
  let Pcf := P1 * eta in
  let crit := Rleb P2 Pcf in
  let G := if crit then omega_Gc w eta P1 v1 else omega_G w (P2 / P1) P1 v1 in
  mkPRV (Some (Pcf / 10 ^ 5)) crit (2778 / 10 * W / (Kd * Kb * Kc * Kv * G)).

(** prv.py:443 — transition ratio; 457-461 — critical ratio; 466-470 — mass flux of the low subcooling region *)
Definition sub_st (ws : R) : R := 2 * ws / (1 + 2 * ws).
(** prv.py:457-461 *)
Definition sub_eta (ws es : R) : R :=
  es * (2 * ws / (2 * ws - 1)) * (1 - sqrt (1 - 1 / es * ((2 * ws - 1) / (2 * ws)))).
(** prv.py:466-470 *)
Definition sub_G (ws es e P1 rho1 : R) : R :=
  sqrt (2 * (1 - es) + 2 * (ws * es * ln (es / e) - (ws - 1) * (es - e))) * sqrt (P1 * rho1) / (ws * (es / e - 1) + 1).
(** prv.py:435-475 — area_relief_2phase_subcooled (rho1 > rho9); 2 ws = 1 divides by zero (Python floats) *)
Definition area_relief_2phase_subcooled (Q P1 P2 Ps rho1 rho9 Kd Kb Kc Kv : R) : res PRV :=
  let P1 := P1 * 10 ^ 5 in let P2 := P2 * 10 ^ 5 in let Ps := Ps * 10 ^ 5 in
  let ws := 9 * (rho1 / rho9 - 1) in
  let est := sub_st ws in
  let es := Ps / P1 in
  let ea := P2 / P1 in
  do r <- (if Rltb es est then
             let crit := Rleb P2 Ps in
             let P := if crit then Ps else P2 in
             Ok (None, crit, 1414 / 1000 * sqrt (rho1 * (P1 - P)))
           else
             do _ <- pydiv (2 * ws) (2 * ws - 1);
             let ec := if Rltb est es then sub_eta ws es else es in
             let Pcf := P1 * ec in
             let crit := Rleb P2 Pcf in
             let e := if crit then ec else ea in
             Ok (Some (Pcf / 10 ^ 5), crit, sub_G ws es e P1 rho1));
  let '(Pcf, crit, G) := (r : option R * bool * R) in
  Ok (mkPRV Pcf crit (1667 / 100 * Q * rho1 / (Kd * Kb * Kc * Kv * G))).
