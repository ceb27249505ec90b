(** Model of src/polykin/math/roots/vector.py (quasi-Newton with line search or
    dogleg).  Vectors are functions [nat -> R] of length N, exact arithmetic.
    The unbounded inner loops take a [fuel]; None means not finished. *)
From Coq Require Import Reals Lra Lia List Bool Arith.
From Verif Require Import Prelude RootsModel DiffModel FixModel PolyModel.
Import ListNotations.
Open Scope R_scope.

Definition dot (N : nat) (u v : vec) : R := sumn N (fun i => u i * v i).
Definition matvec (N : nat) (M : nat -> nat -> R) (v : vec) : vec :=
  fun i => sumn N (fun j => M i j * v j).

(** Python's builtin max(a, x) for a finite [a] and an IEEE value x which is not
    +inf: a unless x > a (a comparison with nan is False). *)
Definition pymax (a : R) (x : fl) : R :=
  match x with Fin r => if Rltb a r then r else a | _ => a end.
(** Python's builtin min(x, b) for a finite [b]: x unless b < x. *)
Definition pymin (x : fl) (b : R) : fl :=
  match x with
  | Fin r => if Rltb b r then Fin b else Fin r
  | PInf => Fin b
  | NInf => NInf
  | NaN => NaN
  end.

(** vector.py:495 — first backtracking estimate (quadratic model).  A zero
    denominator needs slope > 0 and is treated as nan. *)
Definition ls_quad (slope fNc fNp : R) : fl :=
  let den := 2 * (fNp - fNc - slope) in
  if Req_EM_T den 0 then NaN else Fin (- slope / den).

(** vector.py:498-504 — coefficients (a, b) of the cubic model. *)
Definition ls_cubic_ab (slope fNc lam lamp fNp fNpp : R) : R * R :=
  let A00 := 1 / lam ^ 2 in
  let A01 := - 1 / lamp ^ 2 in
  let A10 := - lamp / lam ^ 2 in
  let A11 := lam / lamp ^ 2 in
  let B0 := fNp - fNc - lam * slope in
  let B1 := fNpp - fNc - lamp * slope in
  (1 / (lam - lamp) * (A00 * B0 + A01 * B1), 1 / (lam - lamp) * (A10 * B0 + A11 * B1)).

(** vector.py:505-508 — minimiser of the cubic model; numpy isclose(a, 0) is
    |a| <= 1e-8; numpy division by zero and square root of a negative number. *)
Definition ls_cubic (slope fNc lam lamp fNp fNpp : R) : fl :=
  let '(a, b) := ls_cubic_ab slope fNc lam lamp fNp fNpp in
  if Rleb (Rabs a) (/ 100000000) then
    if Req_EM_T b 0 then
      (if Rltb slope 0 then PInf else if Rltb 0 slope then NInf else NaN)
    else Fin (- slope / (2 * b))
  else
    let rad := b ^ 2 - 3 * a * slope in
    if Rltb rad 0 then NaN else Fin ((- b + sqrt rad) / (3 * a)).

(** vector.py:466-514, loop state *)
Record LS := mkLS { ls_ok : bool; ls_max : bool; ls_nf : nat; ls_x : vec; ls_f : vec; ls_fN : R;
                    ls_lam : R (* last lambda, ghost *) }.

Definition ls_alpha : R := / 10000.

(** vector.py:473-514 — the while loop of line_search. *)
Fixpoint ls_loop (fuel : nat) (f : vec -> vec) (fN : vec -> R) (xc p : vec)
    (fNc slope lammin newtlen maxlen : R) (first : bool) (lam lamp fNpp : R) (nf : nat)
  : option LS :=
  match fuel with
  | O => None
  | S k =>
      let xp := fun i => xc i + lam * p i in
      let fp := f xp in
      let fNp := fN fp in
      let nf := S nf in
      if Rleb fNp (fNc + ls_alpha * lam * slope) then
        Some (mkLS true (first && Rltb (99 / 100 * maxlen) newtlen) nf xp fp fNp lam)
      else if Rltb lam lammin then
        Some (mkLS false false nf xc fp fNp lam)
      else
        let lamtemp :=
          if first then ls_quad slope fNc fNp
          else pymin (ls_cubic slope fNc lam lamp fNp fNpp) (/ 2 * lam) in
        ls_loop k f fN xc p fNc slope lammin newtlen maxlen false
          (pymax (/ 10 * lam) lamtemp) lam fNp nf
  end.

(** vector.py:402-514 — line_search.  [lammin] (line 466) is
    tolx / max(|p|/max(|xc|, 1/sclx)); for a zero step it is +inf, replaced
    by 2 (lam <= 1 is below both). *)
Definition relstep (N : nat) (p xc sclx : vec) : R :=
  maxn N (fun i => Rabs (p i) / Rmax (Rabs (xc i)) (1 / sclx i)).

Definition line_search (fuel N : nat) (f : vec -> vec) (fN : vec -> R) (xc fc gc p : vec)
    (tolx : R) (sclx : vec) (maxlen : R) : option LS :=
  let newtlen := norm2 N (fun i => sclx i * p i) in
  let '(p, newtlen) :=
    if Rltb maxlen newtlen then ((fun i => p i * (maxlen / newtlen)), maxlen) else (p, newtlen) in
  let fNc := fN fc in
  let slope := dot N gc p in
  let rs := relstep N p xc sclx in
  let lammin := if Req_EM_T rs 0 then 2 else tolx / rs in
  ls_loop fuel f fN xc p fNc slope lammin newtlen maxlen true 1 0 0 0.

(** vector.py:517-524 — TrustState. *)
Inductive tstate := TAccepted | TConvergence | TRejected | TExploratory | TStart.

(** vector.py:517-524 *)
Record TR := mkTR { t_state : tstate; t_max : bool; t_len : R; t_x : vec; t_f : vec; t_fN : R;
                    t_xprev : vec; t_fprev : vec; t_fNprev : R }.

(** np.clip with lo <= hi. *)
Definition clip (x lo hi : R) : R := Rmin (Rmax x lo) hi.

Definition is_expl (s : tstate) : bool := match s with TExploratory => true | _ => false end.
Definition is_rej (s : tstate) : bool := match s with TRejected => true | _ => false end.

(** vector.py:656-781 — _update_trust_region. *)
Definition update_trust (N : nat) (f : vec -> vec) (fN : vec -> R) (fNc : R) (xc gc : vec)
    (Rm : nat -> nat -> R) (s sclx : vec) (tolx maxlen trustlen : R) (isnewt : bool)
    (xprev fprev : vec) (fNprev : R) (state : tstate) : TR :=
  let alpha := / 10000 in
  let steplen := norm2 N (fun i => sclx i * s i) in
  let slope := dot N gc s in
  let xp := fun i => xc i + s i in
  let fp := f xp in
  let fNp := fN fp in
  let dfN := fNp - fNc in
  if is_expl state && (Rleb fNprev fNp || Rltb (alpha * slope) dfN) then
    mkTR TAccepted false (trustlen * / 2) xprev fprev fNprev xprev fprev fNprev
  else if Rleb (alpha * slope) dfN then
    let rlen := maxn N (fun i => Rabs (s i) / Rmax (Rabs (xp i)) (1 / sclx i)) in
    if Rltb rlen tolx then
      mkTR TConvergence false trustlen xc fp fNp xprev fprev fNprev
    else
      mkTR TRejected false
        (clip (- slope * steplen / (2 * (dfN - slope))) (/ 10 * trustlen) (/ 2 * trustlen))
        xp fp fNp xprev fprev fNprev
  else
    let pred := slope + / 2 * norm2 N (matvec N Rm s) ^ 2 in
    if negb (is_rej state) && negb isnewt && Rleb trustlen (99 / 100 * maxlen)
       && (Rleb (Rabs (pred - dfN)) (/ 10 * Rabs dfN) || Rleb dfN slope)
    then mkTR TExploratory false (Rmin (2 * trustlen) maxlen) xp fp fNp xp fp fNp
    else
      mkTR TAccepted (Rleb (99 / 100 * maxlen) steplen)
        (if Rleb (/ 10 * pred) dfN then trustlen * / 2
         else if Rleb dfN (3 / 4 * pred) then Rmin (2 * trustlen) maxlen
         else trustlen)
        xp fp fNp xprev fprev fNprev.

(** vector.py:605-614 — quantities of the dogleg path, computed once. *)
Record DG := mkDG { d_cauchy : R; d_eta : R; d_sSD : vec; d_v : vec }.
(** vector.py:605-614 *)
Definition dogleg_path (N : nat) (gc p sclx : vec) (Rm : nat -> nat -> R) : DG :=
  let alpha := norm2 N (fun i => gc i / sclx i) ^ 2 in
  let beta := norm2 N (matvec N Rm (fun i => gc i / sclx i ^ 2)) ^ 2 in
  let sSD := fun i => - (alpha / beta) * (gc i / sclx i) in
  let cauchylen := alpha * sqrt alpha / beta in
  let eta := 2 / 10 + 8 / 10 * alpha ^ 2 / (beta * Rabs (dot N gc p)) in
  let v := fun i => eta * (p i * sclx i) - sSD i in
  mkDG cauchylen eta sSD v.

(** vector.py:616-624 — the step for a trust radius smaller than the Newton step. *)
Definition dogleg_step (N : nat) (d : DG) (p sclx : vec) (newtlen trustlen : R) : vec :=
  if Rleb (d_eta d * newtlen) trustlen then fun i => trustlen / newtlen * p i
  else if Rleb trustlen (d_cauchy d) then
    fun i => trustlen / d_cauchy d * (d_sSD d i / sclx i)
  else
    let a := dot N (d_v d) (d_v d) in
    let b := dot N (d_v d) (d_sSD d) in
    let lam := (- b + sqrt (b ^ 2 - a * (d_cauchy d ^ 2 - trustlen ^ 2))) / a in
    fun i => (d_sSD d i + lam * d_v d i) / sclx i.

(** vector.py:616-624 *)
Record DL := mkDL { dl_ok : bool; dl_max : bool; dl_nf : nat; dl_x : vec; dl_f : vec; dl_fN : R;
                    dl_len : R }.

(** vector.py:595-653 — the while loop of dogleg ([first]: path not yet computed). *)
Fixpoint dl_loop (fuel N : nat) (f : vec -> vec) (fN : vec -> R) (fNc : R) (xc gc p : vec)
    (Rm : nat -> nat -> R) (tolx : R) (sclx : vec) (maxlen newtlen : R) (first : bool)
    (trustlen : R) (state : tstate) (xprev fprev : vec) (fNprev : R) (nf : nat) : option DL :=
  match fuel with
  | O => None
  | S k =>
      let isnewt := Rleb newtlen trustlen in
      let d := dogleg_path N gc p sclx Rm in
      let trust1 := if isnewt then newtlen
                    else if first && Rleb trustlen 0 then Rmin (d_cauchy d) maxlen
                    else trustlen in
      let s := if isnewt then p else dogleg_step N d p sclx newtlen trust1 in
      let t := update_trust N f fN fNc xc gc Rm s sclx tolx maxlen trust1 isnewt
                 xprev fprev fNprev state in
      let nf := S nf in
      match t_state t with
      | TAccepted => Some (mkDL true (t_max t) nf (t_x t) (t_f t) (t_fN t) (t_len t))
      | TConvergence => Some (mkDL false (t_max t) nf (t_x t) (t_f t) (t_fN t) (t_len t))
      | st => dl_loop k N f fN fNc xc gc p Rm tolx sclx maxlen newtlen (first && isnewt)
                (t_len t) st (t_xprev t) (t_fprev t) (t_fNprev t) nf
      end
  end.

(** vector.py:527-653 — dogleg. *)
Definition dogleg (fuel N : nat) (f : vec -> vec) (fN : vec -> R) (xc fc gc p : vec)
    (Rm : nat -> nat -> R) (tolx : R) (sclx : vec) (maxlen trustlen : R) : option DL :=
  dl_loop fuel N f fN (fN fc) xc gc p Rm tolx sclx maxlen
    (norm2 N (fun i => sclx i * p i)) true trustlen TStart xc fc 0 0.

(* ------------------------------------------------------------------ *)
(** vector.py:527-653 *)
Inductive gmethod := GNone | GLineSearch | GDogleg | GUnknown.

(** vector.py:226-250 — linear algebra of one iteration: QR failure (caught),
    an exception of the Cholesky branch (propagates), or gradient, step and R.
    Simplification: the Jacobian, its QR factors, the Broyden update and the
    condition-number switch are an oracle indexed by the iteration number. *)
Inductive linres := LinQRFail | LinRaise | LinStep (gc p : vec) (Rm : nat -> nat -> R).

(** vector.py:226-250 *)
Inductive qmsg := QTol0 | QTolF | QTolX | QGlobalFailed | QMaxSteps | QMaxIter | QQRFail.

(** vector.py:226-250 *)
Record QRes := mkQR { q_success : bool; q_msg : qmsg; q_niter : nat; q_x : vec; q_f : vec }.

(** vector.py:252-268 — one global step: success, ismaxstep, xp, fp, trustlen. *)
Definition global_step (fuel N : nat) (gm : gmethod) f fN (xc fc gc p : vec) Rm tolx sclx maxlen
    trustlen : option (res (bool * bool * vec * vec * R)) :=
  match gm with
  | GNone => let xp := fun i => xc i + p i in Some (Ok (true, true, xp, f xp, trustlen))
  | GLineSearch =>
      match line_search fuel N f fN xc fc gc p tolx sclx maxlen with
      | Some l => Some (Ok (ls_ok l, ls_max l, ls_x l, ls_f l, trustlen))
      | None => None
      end
  | GDogleg =>
      match dogleg fuel N f fN xc fc gc p Rm tolx sclx maxlen trustlen with
      | Some l => Some (Ok (dl_ok l, dl_max l, dl_x l, dl_f l, dl_len l))
      | None => None
      end
  | GUnknown => Some (Err ValueError)
  end.

(** vector.py:221-340 — the main loop ([n] iterations remain). *)
Fixpoint qn_loop (fuel N : nat) (gm : gmethod) (f : vec -> vec) (lin : nat -> linres)
    (tolx tolf : R) (sclx sclf : vec) (maxlen : R)
    (n niter : nat) (xc fc : vec) (restart : bool) (nmax : nat) (trustlen : R)
  : option (res QRes) :=
  let fN := fun v : vec => / 2 * sumn N (fun i => (sclf i * v i) ^ 2) in
  match n with
  | O => None
  | S n' =>
      match lin niter with
      | LinQRFail => Some (Ok (mkQR false QQRFail niter xc fc))
      | LinRaise => Some (Err LinAlgError)
      | LinStep gc p Rm =>
          match global_step fuel N gm f fN xc fc gc p Rm tolx sclx maxlen trustlen with
          | None => None
          | Some (Err e) => Some (Err e)
          | Some (Ok (gok, gmax, xp, fp, trustlen)) =>
              let nmax := if gmax then S nmax else O in
              let stop b m := Some (Ok (mkQR b m niter xp fp)) in
              let next xc fc restart :=
                match n' with
                | O => Some (Ok (mkQR false QMaxIter niter xc fc))
                | S _ => qn_loop fuel N gm f lin tolx tolf sclx sclf maxlen
                           n' (S niter) xc fc restart nmax trustlen
                end in
              if negb gok && negb restart then next xc fc true
              else if negb gok then stop false QGlobalFailed
              else if Rleb (norm_inf N (fun i => sclf i * fp i)) tolf then stop true QTolF
              else if Rleb (norm_inf N (fun i => (xp i - xc i) / Rmax (Rabs (xp i)) (1 / sclx i))) tolx
                   then stop false QTolX
              else if (match gm with GNone => false | _ => true end) && (5 <=? nmax)%nat
                   then stop false QMaxSteps
              else next xp fp false
          end
      end
  end.

(** vector.py:22-340 — rootvec_qnewton; the initial Jacobian (and the automatic
    sclf derived from it) are inputs. *)
Definition rootvec_qnewton (fuel N : nat) (gm : gmethod) (f : vec -> vec) (lin : nat -> linres)
    (x0 : vec) (tolx tolf : R) (sclx sclf : vec) (maxiter : nat) (maxlenfac : R)
    (trustlen : option R) : option (res QRes) :=
  let fc := f x0 in
  if Rleb (norm_inf N (fun i => sclf i * fc i)) (/ 100 * tolf)
  then Some (Ok (mkQR true QTol0 0 x0 fc))
  else
    let maxlen := Rmax 0 maxlenfac *
                  Rmax (norm2 N (fun i => sclx i * x0 i)) (norm2 N sclx) in
    let trustlen := match trustlen with None => -1 | Some t => Rmin t maxlen end in
    match maxiter with
    | O => Some (Err UnboundLocalError)
    | S _ => qn_loop fuel N gm f lin tolx tolf sclx sclf maxlen maxiter 1 x0 fc true 0 trustlen
    end.
