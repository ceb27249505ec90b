(** Model of properties/ : vapour pressure, heat of vaporization, volume, Tait, property equations,
    viscosity, thermal conductivity and diffusion correlations.  Exact reals; positive bases of real
    powers are Rpower. *)
From Coq Require Import Reals Lra Lia List Bool Arith String.
From Verif Require Import Prelude KinModel RootsModel AcmModel EosModel.
Import ListNotations.
Open Scope R_scope.

(** Value of a floating-point expression containing x ** y with a non-integer y: a real number, or not a
    real number (complex for Python floats, NaN for numpy floats) when the base is negative. *)
Inductive pyf := Flt (r : R) | NotReal.
Definition pmap (f : R -> R) (v : pyf) : pyf := match v with Flt r => Flt (f r) | NotReal => NotReal end.
Definition pmap2 (f : R -> R -> R) (v w : pyf) : pyf := match v, w with Flt a, Flt b => Flt (f a b) | _, _ => NotReal end.
(** x ** y for a positive non-integer exponent y *)
Definition fpow (x y : R) : pyf := if Rltb 0 x then Flt (Rpower x y) else if Reqb x 0 then Flt 0 else NotReal.

(* ------------------------------------------------------------------ *)
(** * Vapour pressure (properties/vaporization/pvap.py)               *)
(* ------------------------------------------------------------------ *)

(** pvap.py:64-67 — fLK *)
Definition fLK0 (t : R) : R := 592714 / 100000 - 609648 / 100000 / t - 128862 / 100000 * ln t + 169347 / 1000000 * t ^ 6.
(** pvap.py:64-67 *)
Definition fLK1 (t : R) : R := 152518 / 10000 - 156875 / 10000 / t - 134721 / 10000 * ln t + 43577 / 100000 * t ^ 6.
(** pvap.py:69-74 — PL_Lee_Kesler *)
Definition PL_Lee_Kesler (T Tb Tc Pc : R) : R :=
  let w := (- ln (Pc / 101325) - fLK0 (Tb / Tc)) / fLK1 (Tb / Tc) in
  Pc * exp (fLK0 (T / Tc) + w * fLK1 (T / Tc)).
(** pvap.py:122-127 — PL_Ambrose_Walton *)
Definition aw_f (a b c d t Tr : R) : pyf :=
  pmap2 (fun p q => (a * t + b * p + c * q + d * t ^ 5) / Tr) (fpow t (3 / 2)) (fpow t (5 / 2)).
(** pvap.py:77-127 *)
Definition PL_Ambrose_Walton (T Tc Pc w : R) : pyf :=
  let Tr := T / Tc in
  let t := 1 - Tr in
  let f0 := aw_f (- (597616 / 100000)) (129874 / 100000) (- (60394 / 100000)) (- (106841 / 100000)) t Tr in
  let f1 := aw_f (- (503365 / 100000)) (111505 / 100000) (- (541217 / 100000)) (- (746628 / 100000)) t Tr in
  let f2 := aw_f (- (64771 / 100000)) (241539 / 100000) (- (426979 / 100000)) (325259 / 100000) t Tr in
  pmap2 (fun ab c => Pc * exp (ab + c)) (pmap2 (fun a b => a + w * b) f0 f1) (pmap (fun c => w ^ 2 * c) f2).

(* ------------------------------------------------------------------ *)
(** * Heat of vaporization (properties/vaporization/dhvl.py)          *)
(* ------------------------------------------------------------------ *)

(** dhvl.py:67-68 — DHVL_Pitzer *)
Definition DHVL_Pitzer (T Tc w : R) : pyf :=
  let Tr := T / Tc in
  pmap2 (fun p q => Rgas * Tc * (708 / 100 * p + 1095 / 100 * w * q)) (fpow (1 - Tr) (354 / 1000)) (fpow (1 - Tr) (456 / 1000)).
(** dhvl.py:122-129 — DHVL_Vetere *)
Definition DHVL_Vetere (Tb Tc Pc : R) : R :=
  let Tbr := Tb / Tc in
  Rgas * Tc * Tbr * (4343 / 10000 * ln (Pc / 100000) - 69431 / 100000 + 89584 / 100000 * Tbr)
  / (37691 / 100000 - 37306 / 100000 * Tbr + 15075 / 100000 / (Pc / 100000) / Tbr ^ 2).
(** dhvl.py:132-219 — DHVL_Kistiakowsky_Vetere *)
Inductive kv_kind := KvAny | KvAcidAlcohol | KvEster | KvHydrocarbon | KvPolar | KvOther.
(** dhvl.py:132-219 *)
Definition log10 (x : R) : R := ln x / ln 10.
(** dhvl.py:132-219 *)
Definition DHVL_Kistiakowsky_Vetere (Tb : R) (M : option R) (kind : kv_kind) : res pyf :=
  match kind with
  | KvAny => Ok (Flt ((306 / 10 + Rgas * ln Tb) * Tb))
  | _ =>
    match M with
    | None => Err ValueError
    | Some M =>
      let M := M * 1000 in
      let polar := 44367 / 1000 + 1533 / 100 * log10 Tb + 39137 / 100000 * Tb / M + 4330 / 1000000 / M * Tb ^ 2
                   - 5627 / 1000000000 / M * Tb ^ 3 in
      match kind with
      | KvHydrocarbon =>
          Ok (pmap (fun p => (5820 / 100 + 137 / 10 * log10 M + 649 / 100 / M * p) * Tb)
                (fpow (Tb - Rpower (263 * M) (581 / 1000)) (1037 / 1000)))
      | KvPolar => Ok (Flt (polar * Tb))
      | KvEster => Ok (Flt (polar * (103 / 100) * Tb))
      | KvAcidAlcohol =>
          Ok (Flt ((81119 / 1000 + 13083 / 1000 * log10 Tb - 25769 / 1000 * Tb / M + 146528 / 1000000 / M * Tb ^ 2
                    - 21362 / 100000000 / M * Tb ^ 3) * Tb))
      | _ => Err ValueError
      end
    end
  end.
(** dhvl.py:266 — DHVL_Watson *)
Definition DHVL_Watson (hvap1 T1 T2 Tc : R) : pyf := pmap (fun p => hvap1 * p) (fpow ((1 - T2 / Tc) / (1 - T1 / Tc)) (38 / 100)).

(* ------------------------------------------------------------------ *)
(** * Volume (properties/pvt/volume.py, tait.py)                      *)
(* ------------------------------------------------------------------ *)

(** volume.py:63-70 — VL_Rackett *)
Definition VL_Rackett (T Tc Pc : R) (ZRA w : option R) : res pyf :=
  do z <- match ZRA, w with
          | Some z, None => Ok z
          | None, Some w => Ok (29056 / 100000 - 8775 / 100000 * w)
          | _, _ => Err ValueError
          end;
  match fpow (1 - T / Tc) (2 / 7) with
  | Flt p => Ok (pmap (fun q => Rgas * Tc / Pc * q) (fpow z (1 + p)))
  | NotReal => Ok NotReal
  end.

(** tait.py:86-120 — the accepted parameters (bounds of __init__) *)
Record tait := mkTait { tA0 : R; tA1 : R; tA2 : R; tB0 : R; tB1 : R }.
(** tait.py:86-120 *)
Definition tait_ok (p : tait) : Prop :=
  / 10 ^ 4 <= tA0 p <= 2 / 10 ^ 3 /\ / 10 ^ 7 <= tA1 p <= 2 / 10 ^ 6 /\ - (2 / 10 ^ 9) <= tA2 p <= / 10 ^ 8 /\
  10 ^ 7 <= tB0 p <= 10 ^ 9 /\ / 10 ^ 3 <= tB1 p <= 2 / 10 ^ 2.
(** tait.py:84 — C *)
Definition tait_C : R := 894 / 10000.
(** tait.py:176 — _B *)
Definition tait_B (p : tait) (T : R) : R := tB0 p * exp (- tB1 p * (T - 27315 / 100)).
(** tait.py:157-161 — eval *)
Definition tait_eval (p : tait) (T P : R) : R :=
  let TC := T - 27315 / 100 in
  (tA0 p + tA1 p * TC + tA2 p * TC ^ 2) * (1 - tait_C * ln (1 + P / tait_B p T)).
(** tait.py:229-230 — beta *)
Definition tait_beta (p : tait) (T P : R) : R :=
  let B := tait_B p T in tait_C / (P + B) / (1 - tait_C * ln (1 + P / B)).
(** tait.py:200-205 — alpha *)
Definition tait_alpha (p : tait) (T P : R) : R :=
  let TC := T - 27315 / 100 in
  (tA1 p + 2 * tA2 p * TC) / (tA0 p + tA1 p * TC + tA2 p * TC ^ 2) - P * tB1 p * tait_beta p T P.

(* ------------------------------------------------------------------ *)
(** * Property equations (properties/equations)                       *)
(* ------------------------------------------------------------------ *)

(** vapor_pressure.py:122-126 — Antoine; viscosity.py:110-114 — Yaws *)
Definition base_pow (base10 : bool) (x : R) : R := if base10 then Rpower 10 x else exp x.
(** vapor_pressure.py:122-126 *)
Definition Antoine (T A B C : R) (base10 : bool) : R := base_pow base10 (A - B / (T + C)).
(** viscosity.py:110-114 *)
Definition Yaws (T A B C D : R) (base10 : bool) : R := base_pow base10 (A + B / T + C * T + D * T ^ 2).
(** vapor_pressure.py:244-246 — Wagner25; 364-366 — Wagner36 *)
Definition Wagner25 (T a b c d Pc Tc : R) : pyf :=
  let Tr := T / Tc in let t := 1 - Tr in
  pmap2 (fun p q => Pc * exp ((a * t + b * p + c * q + d * t ^ 5) / Tr)) (fpow t (3 / 2)) (fpow t (5 / 2)).
(** vapor_pressure.py:364-366 *)
Definition Wagner36 (T a b c d Pc Tc : R) : pyf :=
  let Tr := T / Tc in let t := 1 - Tr in
  pmap (fun p => Pc * exp ((a * t + b * p + c * t ^ 3 + d * t ^ 6) / Tr)) (fpow t (3 / 2)).
(** dippr.py:142, 213, 274, 345, 406, 484-485, 557 *)
Definition DIPPR100 (T A B C D E : R) : R := A + B * T + C * T ^ 2 + D * T ^ 3 + E * T ^ 4.
(** dippr.py:213 *)
Definition DIPPR101 (T A B C D E : R) : R := exp (A + B / T + C * ln T + D * Rpower T E).
(** dippr.py:274 *)
Definition DIPPR102 (T A B C D : R) : R := A * Rpower T B / (1 + C / T + D / T ^ 2).
(** dippr.py:345 *)
Definition DIPPR104 (T A B C D E : R) : R := A + B / T + C / T ^ 3 + D / T ^ 8 + E / T ^ 9.
(** dippr.py:406 *)
Definition DIPPR105 (T A B C D : R) : pyf := pmap (fun p => A / Rpower B (1 + p)) (fpow (1 - T / C) D).
(** dippr.py:484-485 *)
Definition DIPPR106 (T A B C D E Tc : R) : pyf :=
  let Tr := T / Tc in pmap (fun p => A * p) (fpow (1 - Tr) (B + Tr * (C + Tr * (D + E * Tr)))).
(** dippr.py:557 *)
Definition DIPPR107 (T A B C D E : R) : R := A + B * (C / T / sinh (C / T)) ^ 2 + D * (E / T / cosh (E / T)) ^ 2.

(** base.py:226-314 — PropertyEquationT.fit.  [pinfo] lists the parameter names with their "fit" flag;
    curve_fit is an oracle giving the points at which it calls the fit function (in order) and the optimum,
    or an exception; the data only matter through it.  Simplification: names are numbers; the set
    intersection of line 265 is taken in the order of pinfo (any order gives the same assignment). *)
Definition pdict := nat -> R.
(** base.py:260-314 *)
Fixpoint assign (names : list nat) (vals : list R) (p : pdict) : pdict :=
  match names, vals with n :: ns, v :: vs => assign ns vs (upd p n v) | _, _ => p end.
(** base.py:260-314 *)
Definition fit_names (pinfo : list (nat * bool)) (fit_only : option (list nat)) : list nat :=
  let names := map fst (filter snd pinfo) in
  match fit_only with
  | Some ((_ :: _) as l) => filter (fun n => existsb (Nat.eqb n) l) names
  | _ => names
  end.
(** base.py:260-314 *)
Record curve := mkCurve { cv_calls : list (list R); cv_popt : list R }.
(** base.py:226-314 *)
Record eqobj := mkEq { eq_p : pdict; eq_Tmin : R; eq_Tmax : R }.
(** result: the new object and result["parameters"] *)
Definition eq_fit (orc : list R -> res curve) (pinfo : list (nat * bool)) (fit_only : option (list nat)) (Tlo Thi : R) (s : eqobj)
  : res (eqobj * pdict) :=
  let names := fit_names pinfo fit_only in
  do c <- orc (map (eq_p s) names);
  let pd := fold_left (fun d p => assign names p d) (cv_calls c) (eq_p s) in
  Ok (mkEq (assign names (cv_popt c) (eq_p s)) Tlo Thi, pd).

(* ------------------------------------------------------------------ *)
(** * Viscosity (properties/viscosity)                                *)
(* ------------------------------------------------------------------ *)

(** liquid.py:59-66 — MULMX2_Perry; [cbrt] is the real cube root *)
Definition cbrt (x : R) : R := if Rltb 0 x then Rpower x (1 / 3) else if Reqb x 0 then 0 else - Rpower (- x) (1 / 3).
(** liquid.py:13-66 *)
Definition MULMX2_Perry (N : nat) (x mu : nat -> R) (hydrocarbons : bool) : R :=
  if hydrocarbons then (sumn N (fun i => x i * cbrt (mu i))) ^ 3 else exp (sumn N (fun i => x i * ln (mu i))).
(** vapor.py:74-76 — MUVMX2_Herning_Zipperer; thermal_conductivity/vapor.py:232-235 — KVMX2_Wassilijewa
    (same body) *)
Definition HZ_mean (N : nat) (y mu M : nat -> R) : R :=
  let a := fun i => y i * sqrt (M i) in
  sumn N (fun i => a i / sumn N a * mu i).
(** vapor.py:70-76 *)
Definition MUVMX2_Herning_Zipperer := HZ_mean.
(** thermal_conductivity/vapor.py:228-235 *)
Definition KVMX2_Wassilijewa := HZ_mean.
(** vapor.py:128-137 — MUVPC_Jossi *)
Definition MUVPC_Jossi (rhor M Tc Pc : R) : R :=
  let a := 10230 / 10000 + 23364 / 100000 * rhor + 58533 / 100000 * rhor ^ 2 - 40758 / 100000 * rhor ^ 3
           + 93324 / 1000000 * rhor ^ 4 in
  let xi := 6872969367 / 10 * Rpower (Tc / (M ^ 3 * Pc ^ 4)) (1 / 6) in
  (a ^ 4 - 1) / xi.
(** vapor.py:199-214 — MUVMXPC_Dean_Stiel *)
Definition Dean_Stiel_pure (v M Tc Pc vc : R) : R :=
  let rhor := vc / v in
  let xi := 68700 * Rpower Tc (1 / 6) / (sqrt M * Rpower Pc (2 / 3)) in
  108 / 1000000 * (exp (1439 / 1000 * rhor) - exp (- (1111 / 1000) * Rpower rhor (1858 / 1000))) / xi.
(** vapor.py:140-214 *)
Definition MUVMXPC_Dean_Stiel (N : nat) (v : R) (y M Tc Pc Zc : nat -> R) : R :=
  let '(Tm, Pm, vm, _, _) := pseudocritical_properties N y Tc Pc Zc None in
  Dean_Stiel_pure v (sumn N (fun i => y i * M i)) Tm Pm vm.
(** vapor.py:410-414 — _MUV_Lucas_FP0 of a scalar: np.where evaluates the power eagerly, so its type is that
    of the power *)
Definition Lucas_dmr (dm Pc Tc : R) : R := 5246 / 100 * dm ^ 2 * (Pc / 100000) / Tc ^ 2.
(** vapor.py:410-414 *)
Definition Lucas_FP0_val (Tr dmr q : R) : R :=
  let f := if Rleb dmr (22 / 1000) then 0 else 3055 / 100 * q in
  let f := if Rleb (75 / 1000) dmr then f * Rabs (96 / 100 + 1 / 10 * (Tr - 7 / 10)) else f in
  f + 1.
(** vapor.py:410-414 *)
Definition Lucas_FP0 (Tr Tc Pc Zc dm : R) : pyf :=
  pmap (Lucas_FP0_val Tr (Lucas_dmr dm Pc Tc)) (fpow (292 / 1000 - Zc) (172 / 100)).
(** vapor.py:359-399 — _MUV_Lucas_mu *)
Definition Lucas_Z1 (Tr FP0 : R) : R :=
  (807 / 1000 * Rpower Tr (618 / 1000) - 357 / 1000 * exp (- (449 / 1000) * Tr) + 340 / 1000 * exp (- (4058 / 1000) * Tr) + 18 / 1000) * FP0.
(** vapor.py:359-399 *)
Definition Lucas_mu (Tr Pr M Tc Pc FP0 : R) : R :=
  let Z1 := Lucas_Z1 Tr FP0 in
  let Z2 :=
    if Rleb Tr 1 && Rltb Pr 1 then
      let al := 3262 / 1000 + 1498 / 100 * Rpower Pr (5508 / 1000) in
      let be := 1390 / 1000 + 5746 / 1000 * Pr in
      600 / 1000 + 760 / 1000 * Rpower Pr al + (6990 / 1000 * Rpower Pr be - 6 / 10) * (1 - Tr)
    else
      let a := 1245 / 1000000 / Tr * exp (51726 / 10000 * Rpower Tr (- (3286 / 10000))) in
      let b := a * (16553 / 10000 * Tr - 12723 / 10000) in
      let c := 4489 / 10000 / Tr * exp (30578 / 10000 * Rpower Tr (- (377332 / 10000))) in
      let d := 17368 / 10000 / Tr * exp (22310 / 10000 * Rpower Tr (- (76351 / 10000))) in
      let f := 9425 / 10000 * exp (- (1853 / 10000) * Rpower Tr (4489 / 10000)) in
      Z1 * (1 + a * Rpower Pr (13088 / 10000) / (b * Rpower Pr f + 1 / (1 + c * Rpower Pr d))) in
  let Y := Z2 / Z1 in
  let FP := (1 + (FP0 - 1) / Y ^ 3) / FP0 in
  let xi := 1760000 * Rpower (Tc / ((M * 1000) ^ 3 * (Pc / 100000) ^ 4)) (1 / 6) in
  Z2 * FP / xi.
(** vapor.py:266-270 — MUV_Lucas *)
Definition MUV_Lucas (T P M Tc Pc Zc dm : R) : pyf := pmap (Lucas_mu (T / Tc) (P / Pc) M Tc Pc) (Lucas_FP0 (T / Tc) Tc Pc Zc dm).
(** vapor.py:332-345 — MUVMX_Lucas; with arrays np.where drops the NaN of a negative base where
    dmr <= 0.022 *)
Definition Lucas_FP0_arr (Tr Tc Pc Zc dm : R) : pyf :=
  match fpow (292 / 1000 - Zc) (172 / 100) with
  | Flt q => Flt (Lucas_FP0_val Tr (Lucas_dmr dm Pc Tc) q)
  | NotReal => if Rleb (Lucas_dmr dm Pc Tc) (22 / 1000) then Flt (Lucas_FP0_val Tr (Lucas_dmr dm Pc Tc) 0) else NotReal
  end.
(** vapor.py:332-345 *)
Fixpoint psum (N : nat) (f : nat -> pyf) : pyf := match N with O => Flt 0 | S n => pmap2 Rplus (psum n f) (f n) end.
(** vapor.py:273-345 *)
Definition MUVMX_Lucas (N : nat) (T P : R) (y M Tc Pc Zc dm : nat -> R) : pyf :=
  let Tm := sumn N (fun i => y i * Tc i) in
  let Mm := sumn N (fun i => y i * M i) in
  let Pm := Rgas * Tm * sumn N (fun i => y i * Zc i) / sumn N (fun i => y i * (Rgas * Tc i * Zc i / Pc i)) in
  pmap (Lucas_mu (T / Tm) (P / Pm) Mm Tm Pm)
    (psum N (fun i => pmap (Rmult (y i)) (Lucas_FP0_arr (T / Tc i) (Tc i) (Pc i) (Zc i) (dm i)))).

(* ------------------------------------------------------------------ *)
(** * Thermal conductivity (properties/thermal_conductivity)          *)
(* ------------------------------------------------------------------ *)

(** liquid.py:70-74 — KLMX2_Li *)
Definition KLMX2_Li (N : nat) (w k rho : nat -> R) : R :=
  let phi := fun i => w i / rho i in
  quadratic_mixing N (fun i => phi i / sumn N phi) (fun i j => 2 / (1 / k j + 1 / k i)).
(** vapor.py:75-82 — the density function of Stiel and Thodos *)
Definition NA : R := 602214076 * 10 ^ 15.
(** vapor.py:75-82 *)
Definition ST_a (rhor : R) : res R :=
  if Rltb rhor (1 / 2) then Ok (122 / 10000 * (exp (535 / 1000 * rhor) - 1))
  else if Rltb rhor 2 then Ok (114 / 10000 * (exp (67 / 100 * rhor) - 1069 / 1000))
  else if Rltb rhor (28 / 10) then Ok (26 / 10000 * (exp (1155 / 1000 * rhor) + 2016 / 1000))
  else Err ValueError.
(** vapor.py:71-84 — KVPC_Stiel_Thodos *)
Definition KVPC_Stiel_Thodos (v M Tc Pc Zc : R) : res R :=
  let gamma := Rpower (Tc * M ^ 3 * NA ^ 2 / (Rgas ^ 5 * Pc ^ 4)) (1 / 6) in
  let vc := Zc * Rgas * Tc / Pc in
  do a <- ST_a (vc / v);
  Ok (a / (gamma * Zc ^ 5)).
(** vapor.py:151-176 — KVMXPC_Stiel_Thodos *)
Definition KVMXPC_Stiel_Thodos (N : nat) (v : R) (y M Tc Pc Zc w : nat -> R) : res R :=
  let vc := fun i => Zc i * Rgas * Tc i / Pc i in
  let vcij := fun i j => if Nat.eqb i j then vc i else 1 / 8 * (Rpower (vc i) (1 / 3) + Rpower (vc j) (1 / 3)) ^ 3 in
  let Tcij := fun i j => if Nat.eqb i j then Tc i else sqrt (Tc i * Tc j) in
  let vm := sumn N (fun i => sumn N (fun j => y i * y j * vcij i j)) in
  let Tm := sumn N (fun i => sumn N (fun j => y i * y j * vcij i j * Tcij i j)) / vm in
  let Zm := 291 / 1000 - 8 / 100 * sumn N (fun i => y i * w i) in
  let Pm := Zm * Rgas * Tm / vm in
  KVPC_Stiel_Thodos v (sumn N (fun i => y i * M i)) Tm Pm Zm.

(* ------------------------------------------------------------------ *)
(** * Diffusion (properties/diffusion)                                *)
(* ------------------------------------------------------------------ *)

(** vapor.py:95-125 — DV_Wilke_Lee *)
Definition WL_sigma (M rho : R) : R := 118 / 100 * Rpower (1000000 * M / rho) (1 / 3).
(** vapor.py:95-125 *)
Definition WL_omega (Ts : R) : R :=
  106036 / 100000 / Rpower Ts (15610 / 100000) + 19300 / 100000 / exp (47635 / 100000 * Ts)
  + 103587 / 100000 / exp (152996 / 100000 * Ts) + 176474 / 100000 / exp (389411 / 100000 * Ts).
(** vapor.py:13-125 *)
Definition DV_Wilke_Lee (T P MA MB rhoA : R) (rhoB : option R) (TA : R) (TB : option R) : res R :=
  let MAB := 1000 * 2 / (1 / MA + 1 / MB) in
  let eA := 115 / 100 * TA in
  let sA := WL_sigma MA rhoA in
  do sB_eB <- match rhoB, TB with
              | None, None => Ok (362 / 100, 97)
              | Some r, Some t => Ok (WL_sigma MB r, 115 / 100 * t)
              | _, _ => Err ValueError
              end;
  let '(sB, eB) := sB_eB in
  let eAB := sqrt (eA * eB) in
  let sAB := (sA + sB) / 2 in
  Ok (1 / 100 * (303 / 100 - 98 / 100 / sqrt MAB) * Rpower T (3 / 2) / (P * sqrt MAB * sAB ^ 2 * WL_omega (T / eAB))).
(** vapor.py:147-149 — DVMX *)
Definition DVMX (N : nat) (x D : nat -> R) : R := sumn N x / sumn N (fun i => x i / D i).
(** liquid.py:91-93 — DL_Wilke_Chang; 149-160 — DL_Hayduk_Minhas; 209 — DL_Stokes_Einstein *)
Definition DL_Wilke_Chang (T MA MB rhoA viscB phi : R) : R :=
  74 / 10 ^ 13 * sqrt (phi * MB * 1000) * T / (viscB * 1000 * Rpower (1000000 * MA / rhoA) (6 / 10)).
(** liquid.py:149-160 *)
Inductive hm_method := HmParaffin | HmAqueous | HmOther.
(** liquid.py:149-160 *)
Definition DL_Hayduk_Minhas (T : R) (m : hm_method) (MA rhoA viscB : R) : res R :=
  let VA := 1000000 * MA / rhoA in
  match m with
  | HmParaffin => Ok (133 / 10 ^ 13 * Rpower T (147 / 100) * Rpower (viscB * 1000) (102 / 10 / VA - 791 / 1000) / Rpower VA (71 / 100))
  | HmAqueous => Ok (125 / 10 ^ 14 * (Rpower VA (- (19 / 100)) - 292 / 1000) * Rpower T (152 / 100) * Rpower (viscB * 1000) (958 / 100 / VA - 112 / 100))
  | HmOther => Err ValueError
  end.
(** liquid.py:209 *)
Definition DL_Stokes_Einstein (T Rs mu : R) : R := kB * T / (6 * PI * mu * Rs).

(** vrentasduda.py:115-161 — parameters and bounds *)
Record vrentas := mkVD { vD0 : R; vE : R; vV1 : R; vV2 : R; vz : R; vK11 : R; vK12 : R; vK21 : R; vK22 : R; vTg1 : R; vTg2 : R; vy : R; vX : R }.
(** vrentasduda.py:115-161 *)
Definition vd_ok (p : vrentas) : Prop :=
  0 <= vD0 p /\ 0 <= vE p /\ 0 <= vV1 p /\ 0 <= vV2 p /\ 0 <= vz p /\ 0 <= vK11 p /\ 0 <= vK12 p /\
  0 <= vTg1 p /\ 0 <= vTg2 p /\ 1 / 2 <= vy p <= 1 /\ -10 <= vX p <= 10.
(** vrentasduda.py:258-280 — selfd; 302-305 — mutual; 227-236 — __call__ for w1 in [0, 1] *)
Definition vd_free (p : vrentas) (w1 T : R) : R :=
  w1 * (vK11 p / vy p) * (vK21 p - vTg1 p + T) + (1 - w1) * (vK12 p / vy p) * (vK22 p - vTg2 p + T).
(** vrentasduda.py:258-280 *)
Definition vd_self (p : vrentas) (w1 T : R) : R :=
  vD0 p * exp (- vE p / (Rgas * T)) * exp (- (w1 * vV1 p + (1 - w1) * vz p * vV2 p) / vd_free p w1 T).
(** vrentasduda.py:302-305 *)
Definition vd_mutual (p : vrentas) (w1 T : R) : R := vd_self p w1 T * (1 - w1) ^ 2 * (1 - 2 * vX p * w1).
(** vrentasduda.py:227-236 *)
Definition vd_call (p : vrentas) (w1 T : R) (selfd : bool) : res R :=
  if Rleb 0 w1 && Rleb w1 1 then Ok (if selfd then vd_self p w1 T else vd_mutual p w1 T) else Err RangeError.
