(** Model of src/polykin/thermo/flash/vle.py.  Vectors of N components are functions
    nat -> R read at indices below N. *)
From Coq Require Import Reals Lra Lia List Bool Arith.
From Verif Require Import Prelude RootsModel CopoModel.
Import ListNotations.
Open Scope R_scope.

(* ------------------------------------------------------------------ *)
(** * numpy float arithmetic with infinities and NaN                  *)
(* ------------------------------------------------------------------ *)

(** float addition *)
Definition fl_plus (a b : fl) : fl :=
  match a, b with
  | Fin x, Fin y => Fin (x + y)
  | NaN, _ | _, NaN => NaN
  | PInf, NInf | NInf, PInf => NaN
  | PInf, _ | _, PInf => PInf
  | NInf, _ | _, NInf => NInf
  end.
Definition fl_neg (a : fl) : fl :=
  match a with Fin x => Fin (- x) | PInf => NInf | NInf => PInf | NaN => NaN end.
(** product with a finite float *)
Definition fl_scal (c : R) (a : fl) : fl :=
  match a with
  | Fin x => Fin (c * x)
  | NaN => NaN
  | PInf => if Reqb c 0 then NaN else if Rltb 0 c then PInf else NInf
  | NInf => if Reqb c 0 then NaN else if Rltb 0 c then NInf else PInf
  end.
(** numpy division (np_div: finite operands) *)
Definition fl_quot (a b : fl) : fl :=
  match a, b with
  | Fin x, Fin y => np_div x y
  | NaN, _ | _, NaN => NaN
  | Fin _, _ => Fin 0
  | PInf, Fin y => if Rltb y 0 then NInf else PInf
  | NInf, Fin y => if Rltb y 0 then PInf else NInf
  | _, _ => NaN
  end.
(** comparisons with a finite float; NaN compares False *)
Definition fl_lt0 (a : fl) : bool := match a with Fin x => Rltb x 0 | NInf => true | _ => false end.
Definition fl_gt0 (a : fl) : bool := match a with Fin x => Rltb 0 x | PInf => true | _ => false end.
Definition fl_abs_le (a : fl) (t : R) : bool := match a with Fin x => Rleb (Rabs x) t | _ => false end.
(** np.log and np.exp on floats (exp: finite arguments and infinities) *)
Definition fl_log (k : R) : fl := if Rltb 0 k then Fin (ln k) else if Reqb k 0 then NInf else NaN.
Definition fl_exp (a : fl) : fl :=
  match a with Fin x => Fin (exp x) | NInf => Fin 0 | PInf => PInf | NaN => NaN end.
(** np.sum *)
Fixpoint fl_sumn (n : nat) (f : nat -> fl) : fl :=
  match n with O => Fin 0 | S k => fl_plus (fl_sumn k f) (f k) end.

(* ------------------------------------------------------------------ *)
(** * Rachford-Rice                                                   *)
(* ------------------------------------------------------------------ *)

(** vle.py:607 — one term of the residual, z (K-1)/(1 + beta (K-1)); a NaN K-value gives NaN.
    Simplification: an infinite K-value is treated like NaN. *)
Definition rr_term (beta : R) (k : fl) (z : R) : fl :=
  match k with Fin k => np_div (z * (k - 1)) (1 + beta * (k - 1)) | _ => NaN end.
(** vle.py:612 — one term of minus the derivative. *)
Definition rr_dterm (beta : R) (k : fl) (z : R) : fl :=
  match k with Fin k => np_div (z * (k - 1) ^ 2) ((1 + beta * (k - 1)) ^ 2) | _ => NaN end.

(** vle.py:560-613 — residual_Rachford_Rice: F and dF. *)
Definition residual_RR (N : nat) (beta : R) (K : nat -> fl) (z : nat -> R) : fl :=
  fl_sumn N (fun i => rr_term beta (K i) (z i)).
(** vle.py:560-613 *)
Definition residual_RR_deriv (N : nat) (beta : R) (K : nat -> fl) (z : nat -> R) : fl :=
  fl_neg (fl_sumn N (fun i => rr_dterm beta (K i) (z i))).

(** vle.py:458-465 — RachfordRiceResult *)
Record RRresult := mkRRR { rs_success : bool; rs_niter : nat; rs_beta : R; rs_F : fl }.

(** vle.py:520-522 — the lower bound on beta: the largest of the (K z - 1)/(K - 1), K > 1,
    that lies in (0, 1), or 0. *)
Fixpoint rr_bmin (N : nat) (K : nat -> fl) (z : nat -> R) : R :=
  match N with
  | O => 0
  | S n =>
      let m := rr_bmin n K z in
      match K n with
      | Fin k =>
          if Rltb 1 k then
            let b := (k * z n - 1) / (k - 1) in
            if Rltb 0 b && Rltb b 1 then Rmax m b else m
          else m
      | _ => m
      end
  end.
(** vle.py:523-525 — the upper bound: the smallest of the (1 - z)/(1 - K), K < 1, in (0, 1), or 1. *)
Fixpoint rr_bmax (N : nat) (K : nat -> fl) (z : nat -> R) : R :=
  match N with
  | O => 1
  | S n =>
      let m := rr_bmax n K z in
      match K n with
      | Fin k =>
          if Rltb k 1 then
            let b := (1 - z n) / (1 - k) in
            if Rltb 0 b && Rltb b 1 then Rmin m b else m
          else m
      | _ => m
      end
  end.

(** np.clip *)
Definition clip (x lo hi : R) : R := Rmin (Rmax x lo) hi.

(** vle.py:551-555 — the next iterate: the Newton point if inside the open bracket, else the midpoint. *)
Definition rr_next (bmin bmax beta : R) (F dF : fl) : R :=
  match fl_plus (Fin beta) (fl_neg (fl_quot F dF)) with
  | Fin b => if Rltb bmin b && Rltb b bmax then b else (bmin + bmax) / 2
  | _ => (bmin + bmax) / 2
  end.

(** vle.py:535-557 — iteration loop: [n] iterations left, [k] done, [last] the last residual. *)
Fixpoint rr_loop (N : nat) (K : nat -> fl) (z : nat -> R) (atol : R) (n k : nat)
    (bmin bmax beta : R) (last : fl) : res RRresult :=
  match n with
  | O => if Nat.eqb k 0 then Err UnboundLocalError else Ok (mkRRR false k beta last)
  | S n' =>
      let F := residual_RR N beta K z in
      let dF := residual_RR_deriv N beta K z in
      if fl_abs_le F atol then Ok (mkRRR true (k + 1) beta F)
      else
        let bmin' := if fl_gt0 F then beta else bmin in
        let bmax' := if fl_gt0 F then bmax else beta in
        rr_loop N K z atol n' (k + 1) bmin' bmax' (rr_next bmin' bmax' beta F dF) F
  end.

(** vle.py:468-557 — solve_Rachford_Rice; beta0 = None stands for NaN. *)
Definition solve_RR (N : nat) (K : nat -> fl) (z : nat -> R) (beta0 : option R) (maxiter : nat) (atol : R)
  : res RRresult :=
  let F0 := residual_RR N 0 K z in
  if fl_lt0 F0 then Ok (mkRRR true 0 0 F0)
  else
    let F1 := residual_RR N 1 K z in
    if fl_gt0 F1 then Ok (mkRRR true 0 1 F1)
    else
      let bmin := rr_bmin N K z in
      let bmax := rr_bmax N K z in
      let beta := match beta0 with Some b => clip b bmin bmax | None => (bmin + bmax) / 2 end in
      rr_loop N K z atol maxiter 0 bmin bmax beta NaN.

(* ------------------------------------------------------------------ *)
(** * Flash calculations                                              *)
(* ------------------------------------------------------------------ *)

Inductive fmsg := FNone | FInner | FOuter | FConverged | FPressure.

(** vle.py:22-68 — FlashResult (without the constant method name). *)
Record flash := mkFlash {
  fr_success : bool; fr_msg : fmsg; fr_T : R; fr_P : R; fr_F : R; fr_L : fl; fr_V : fl; fr_beta : fl;
  fr_z : nat -> R; fr_x : nat -> R; fr_y : nat -> R; fr_K : nat -> fl }.

(** A K-value model Kcalc(T, P, x, y). *)
Definition kmodel := R -> R -> (nat -> R) -> (nat -> R) -> (nat -> R).

(** v / v.sum().  Simplification: real division (positive totals). *)
Definition normalise (N : nat) (v : nat -> R) : nat -> R := fun i => v i / sumn N v.

(** min(k for k in v if k > 0); an empty sequence raises ValueError. *)
Fixpoint min_pos_opt (N : nat) (v : nat -> R) : option R :=
  match N with
  | O => None
  | S n =>
      if Rltb 0 (v n) then
        match min_pos_opt n v with None => Some (v n) | Some m => Some (Rmin m (v n)) end
      else min_pos_opt n v
  end.
Definition min_pos (N : nat) (v : nat -> R) : res R :=
  match min_pos_opt N v with None => Err ValueError | Some m => Ok m end.

(** np.allclose(a, b, atol=atol) — the default rtol is 1e-5 and multiplies |b|. *)
Definition allclose (N : nat) (a b : nat -> R) (atol : R) : bool :=
  forallb (fun i => Rleb (Rabs (a i - b i)) (atol + 1 / 10 ^ 5 * Rabs (b i))) (seq 0 N).

(** finite part; K-values are finite whenever this is used (a NaN makes the inner loop fail) *)
Definition kfin (k : fl) : R := match k with Fin r => r | _ => 0 end.

(** vle.py:180 — exp(alpha log(K_new) + (1 - alpha) log(K_old)) for one component. *)
Definition k_update (alpha knew : R) (kold : fl) : fl :=
  fl_exp (fl_plus (fl_scal alpha (fl_log knew))
                  (fl_scal (1 - alpha) (match kold with Fin k => fl_log k | a => a end))).

(** vle.py:180 *)
Record ptst := mkPT { pt_ok : bool; pt_msg : fmsg; pt_beta : option R; pt_x : nat -> R; pt_y : nat -> R; pt_K : nat -> fl }.

(** vle.py:154-183 — outer loop of flash2_PT.  Simplification: x = z/(1 + beta (K-1)) and the
    normalisations are real divisions. *)
Fixpoint pt_loop (Kcalc : kmodel) (N : nat) (z : nat -> R) (T P : R) (maxiter : nat) (atol rtol alpha : R)
    (n : nat) (K : nat -> fl) (x y : nat -> R) (beta : option R) : res ptst :=
  match n with
  | O => Ok (mkPT false FOuter beta x y K)
  | S n' =>
      do sol <- solve_RR N K z beta maxiter atol;
      let b := rs_beta sol in
      if negb (rs_success sol) then Ok (mkPT false FInner (Some b) x y K)
      else
        let x1 i := z i / (1 + b * (kfin (K i) - 1)) in
        let y1 i := kfin (K i) * x1 i in
        let x2 := normalise N x1 in
        let y2 := normalise N y1 in
        let Knew := Kcalc T P x2 y2 in
        do k0 <- min_pos N Knew;
        if allclose N Knew (fun i => kfin (K i)) (k0 * rtol) then Ok (mkPT true FConverged (Some b) x2 y2 K)
        else pt_loop Kcalc N z T P maxiter atol rtol alpha n' (fun i => k_update alpha (Knew i) (K i)) x2 y2 (Some b)
  end.

(** an optional initial composition *)
Definition guess (N : nat) (o : option (nat -> R)) (z : nat -> R) : nat -> R :=
  match o with Some v => normalise N v | None => z end.

(** vle.py:89-189 — flash2_PT. *)
Definition flash2_PT (Kcalc : kmodel) (N : nat) (F : R) (z : nat -> R) (P T : R)
    (x0 y0 : option (nat -> R)) (beta0 : option R) (maxiter : nat) (atol rtol alpha : R) : res flash :=
  let z := normalise N z in
  let x := guess N x0 z in
  let y := guess N y0 z in
  let K i := Fin (Kcalc T P x y i) in
  let beta := match beta0 with Some b => Some (clip b 0 1) | None => None end in
  do s <- pt_loop Kcalc N z T P maxiter atol rtol alpha maxiter K x y beta;
  let b := match pt_beta s with Some b => Fin b | None => NaN end in
  let V := fl_scal F b in
  let L := fl_plus (Fin F) (fl_neg V) in
  Ok (mkFlash (pt_ok s) (pt_msg s) T P F L V b z (pt_x s) (pt_y s) (pt_K s)).

(** vle.py:616-632 — _Rloop *)
Definition Rloop (N : nat) (u : nat -> R) (Kb0 beta : R) (z : nat -> R) (r : R) : R :=
  1 - beta - (1 - r) * sumn N (fun i => z i / (1 - r + Kb0 * r * exp (u i))).

(** vle.py:657-666, 707-716 — the common part of _parameters_PV and _parameters_TV: weights w,
    ln Kb.  Simplification: K-values are positive, so np.log is the real logarithm. *)
Definition weights (N : nat) (beta : R) (K y : nat -> R) : nat -> R :=
  normalise N (fun i => y i / (1 + beta * (K i - 1))).
(** vle.py:657-666, 707-716 *)
Definition lnKb (N : nat) (w K : nat -> R) : R := sumn N (fun i => w i * ln (K i)).

(** vle.py:635-682 — _parameters_PV (dT = 1): B from the all=True call, and (u, A, K). *)
Definition par_PV_B (Kcalc : kmodel) (N : nat) (T P : R) (x y : nat -> R) (beta : R) : R :=
  let K := Kcalc T P x y in
  let w := weights N beta K y in
  let Tp := T + 1 in
  (lnKb N w (Kcalc Tp P x y) - lnKb N w K) / (1 / Tp - 1 / T).
(** vle.py:635-682 *)
Definition par_PV (Kcalc : kmodel) (N : nat) (T P : R) (x y : nat -> R) (beta B Tref : R)
  : (nat -> R) * R * (nat -> R) :=
  let K := Kcalc T P x y in
  let l := lnKb N (weights N beta K y) K in
  (fun i => ln (K i) - l, l - B * (1 / T - 1 / Tref), K).

(** vle.py:685-732 — _parameters_TV (dP = 1e3). *)
Definition par_TV_B (Kcalc : kmodel) (N : nat) (T P : R) (x y : nat -> R) (beta Pref : R) : R :=
  let K := Kcalc T P x y in
  let w := weights N beta K y in
  let Pp := P + 1000 in
  (lnKb N w (Kcalc T Pp x y) - lnKb N w K + ln (Pp / P)) * Pref / 1000.
(** vle.py:685-732 *)
Definition par_TV (Kcalc : kmodel) (N : nat) (T P : R) (x y : nat -> R) (beta B Pref : R)
  : (nat -> R) * R * (nat -> R) :=
  let K := Kcalc T P x y in
  let l := lnKb N (weights N beta K y) K in
  (fun i => ln (K i) - l, l + ln P - B * (P / Pref), K).

(** np.concatenate((u, [A])) *)
Definition snoc (N : nat) (u : nat -> R) (A : R) : nat -> R := fun i => if Nat.ltb i N then u i else A.

(** vle.py:270-286, 397-413 — the inner R-loop; None: did not converge (break). *)
Definition inner_R (N : nat) (u : nat -> R) (Kb0 beta : R) (z : nat -> R) (maxiter : nat) (atol : R) : res (option R) :=
  if Rleb (Rabs (beta - 0)) eps then Ok (Some 0)
  else if Rleb (Rabs (beta - 1)) eps then Ok (Some 1)
  else
    do sol <- snd (root_brent (Rloop N u Kb0 beta z) 0 1 atol atol maxiter);
    Ok (if rr_success sol then Some (rr_x sol) else None).

Record pvst := mkPV { pv_ok : bool; pv_msg : fmsg; pv_v : R; pv_x : nat -> R; pv_y : nat -> R; pv_K : nat -> R }.

(** vle.py:289-295, 416-424 — phase compositions and Kb from R. *)
Definition phase_x (N : nat) (u : nat -> R) (Kb0 : R) (z : nat -> R) (r : R) : nat -> R :=
  normalise N (fun i => z i / (1 - r + Kb0 * r * exp (u i))).
(** vle.py:289-295, 416-424 *)
Definition phase_y (N : nat) (u : nat -> R) (Kb0 : R) (z : nat -> R) (r : R) : nat -> R :=
  normalise N (fun i => exp (u i) * (z i / (1 - r + Kb0 * r * exp (u i)))).
(** vle.py:289-295, 416-424 *)
Definition phase_Kb (N : nat) (u : nat -> R) (Kb0 : R) (z : nat -> R) (r : R) : R :=
  sumn N (fun i => z i / (1 - r + Kb0 * r * exp (u i))) /
  sumn N (fun i => exp (u i) * (z i / (1 - r + Kb0 * r * exp (u i)))).

(** vle.py:265-310 — outer loop of flash2_PV; [v] is the temperature. *)
Fixpoint pv_loop (Kcalc : kmodel) (N : nat) (z : nat -> R) (P beta Kb0 B Tref : R) (maxiter : nat) (atol rtol : R)
    (n : nat) (u : nat -> R) (A T : R) (x y K : nat -> R) : res pvst :=
  match n with
  | O => Ok (mkPV false FOuter T x y K)
  | S n' =>
      do r <- inner_R N u Kb0 beta z maxiter atol;
      match r with
      | None => Ok (mkPV false FInner T x y K)
      | Some r =>
          let x := phase_x N u Kb0 z r in
          let y := phase_y N u Kb0 z r in
          let Kb := phase_Kb N u Kb0 z r in
          let T := 1 / (1 / Tref + (ln Kb - A) / B) in
          let '(u', A', K) := par_PV Kcalc N T P x y beta B Tref in
          do v0 <- min_pos (S N) (snoc N u' A');
          if allclose (S N) (snoc N u' A') (snoc N u A) (v0 * rtol) then Ok (mkPV true FConverged T x y K)
          else pv_loop Kcalc N z P beta Kb0 B Tref maxiter atol rtol n' u' A' T x y K
      end
  end.

(** vle.py:192-316 — flash2_PV.  Simplification: temperatures and B stay away from zero, so
    the divisions are real. *)
Definition flash2_PV (Kcalc : kmodel) (N : nat) (F : R) (z : nat -> R) (P beta : R)
    (x0 y0 : option (nat -> R)) (T0 : R) (maxiter : nat) (atol rtol : R) : res flash :=
  let z := normalise N z in
  let x := guess N x0 z in
  let y := guess N y0 z in
  let K := Kcalc T0 P x y in
  let x := normalise N (fun i => z i / (1 + beta * (K i - 1))) in
  let y := normalise N (fun i => K i * (z i / (1 + beta * (K i - 1)))) in
  let Tref := 300 in
  let B := par_PV_B Kcalc N T0 P x y beta in
  let '(u, A, K1) := par_PV Kcalc N T0 P x y beta B Tref in
  let Kb0 := exp (lnKb N (weights N beta K1 y) K1) in
  do s <- pv_loop Kcalc N z P beta Kb0 B Tref maxiter atol rtol maxiter u A T0 x y K;
  let V := F * beta in
  let L := F - V in
  Ok (mkFlash (pv_ok s) (pv_msg s) (pv_v s) P F (Fin L) (Fin V) (Fin beta) z (pv_x s) (pv_y s) (fun i => Fin (pv_K s i))).

(** real and imaginary part of log(Kb P) - A - B P/Pref at the complex point p + i q (q > 0). *)
Definition carg (p q : R) : R := if Rltb 0 p then atan (q / p) else if Rltb p 0 then PI + atan (q / p) else PI / 2.
Definition logP_re (Kb A B Pref : R) (p q : R) : R := ln (Kb * sqrt (p ^ 2 + q ^ 2)) - A - B * (p / Pref).
Definition logP_im (Kb A B Pref : R) (p q : R) : R := carg p q - B * (q / Pref).

(** vle.py:392-449 — outer loop of flash2_TV; [v] is the pressure. *)
Fixpoint tv_loop (Kcalc : kmodel) (N : nat) (z : nat -> R) (T beta Kb0 B Pref : R) (maxiter : nat) (atol rtol : R)
    (n : nat) (u : nat -> R) (A P : R) (x y K : nat -> R) (m : fmsg) : res pvst :=
  match n with
  | O => Ok (mkPV false m P x y K)
  | S n' =>
      do r <- inner_R N u Kb0 beta z maxiter atol;
      match r with
      | None => Ok (mkPV false FInner P x y K)
      | Some r =>
          let x := phase_x N u Kb0 z r in
          let y := phase_y N u Kb0 z r in
          let Kb := phase_Kb N u Kb0 z r in
          do sol <- snd (root_newton (logP_re Kb A B Pref) (logP_im Kb A B Pref) (exp A / Kb) 0 (1 / 10 ^ 10) 50);
          if rr_success sol then
            let P := rr_x sol in
            let '(u', A', K) := par_TV Kcalc N T P x y beta B Pref in
            do v0 <- min_pos (S N) (snoc N u' A');
            if allclose (S N) (snoc N u' A') (snoc N u A) (v0 * rtol) then Ok (mkPV true FConverged P x y K)
            else tv_loop Kcalc N z T beta Kb0 B Pref maxiter atol rtol n' u' A' P x y K FOuter
          else Ok (mkPV false FPressure P x y K)
      end
  end.

(** vle.py:319-455 — flash2_TV. *)
Definition flash2_TV (Kcalc : kmodel) (N : nat) (F : R) (z : nat -> R) (T beta : R)
    (x0 y0 : option (nat -> R)) (P0 : R) (maxiter : nat) (atol rtol : R) : res flash :=
  let z := normalise N z in
  let x := guess N x0 z in
  let y := guess N y0 z in
  let K := Kcalc T P0 x y in
  let x := normalise N (fun i => z i / (1 + beta * (K i - 1))) in
  let y := normalise N (fun i => K i * (z i / (1 + beta * (K i - 1)))) in
  let Pref := 10 ^ 5 in
  let B := par_TV_B Kcalc N T P0 x y beta Pref in
  let '(u, A, K1) := par_TV Kcalc N T P0 x y beta B Pref in
  let Kb0 := exp (lnKb N (weights N beta K1 y) K1) in
  do s <- tv_loop Kcalc N z T beta Kb0 B Pref maxiter atol rtol maxiter u A P0 x y K FNone;
  let V := F * beta in
  let L := F - V in
  Ok (mkFlash (pv_ok s) (pv_msg s) T (pv_v s) F (Fin L) (Fin V) (Fin beta) z (pv_x s) (pv_y s) (fun i => Fin (pv_K s i))).
