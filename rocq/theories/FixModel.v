(** Model of src/polykin/math/fixpoint/wegstein.py and anderson.py.
    Vectors of length N are functions [nat -> R]; exact real arithmetic; the
    trace is the list of the points at which g is evaluated, oldest first. *)
From Coq Require Import Reals Lra Lia List Bool Arith.
From Verif Require Import Prelude RootsModel DiffModel.
Import ListNotations.
Open Scope R_scope.

Definition vec := nat -> R.

(** Messages of the two solvers (wegstein.py:126,146; anderson.py:112,137,151,157,164). *)
Inductive fmsg := FMsgTolX | FMsgTol0 | FMsgMaxIter | FMsgQR | FMsgLsq.

(** math/roots/results.py — VectorRootResult (fields used here). *)
Record VRes := mkVR {
  v_success : bool; v_msg : fmsg; v_nfeval : nat; v_niter : nat;
  v_x : vec; v_f : vec }.

Definition foutcome : Type := (list vec * res VRes)%type.

(** wegstein.py:139-141 — the clipped acceleration factor for the slope s.
    For s = 1, s/(s-1) is +inf in numpy and is clipped to qmax. *)
Definition weg_q (qmin qmax s : R) : R :=
  if Req_EM_T s 1 then qmax else Rmin (Rmax (s / (s - 1)) qmin) qmax.

(** wegstein.py:135-139 — slope estimate, 0 where |dx| <= eps. *)
Definition weg_s (dx dg : R) : R := if Rltb eps (Rabs dx) then dg / dx else 0.

(** wegstein.py:118-148 — loop: [n] iterations remain, [k] is the counter, xm/gxm
    the previous point and its image (uninitialised NaN vectors at k = 0, never
    read because wait >= 1). *)
Fixpoint weg_loop (N : nat) (g : vec -> vec) (sclx : vec) (tolx : R) (wait : nat)
    (qmin qmax : R) (n k : nat) (x xm gxm : vec) (tr : list vec) : foutcome :=
  match n with
  | O => (tr, Err UnboundLocalError)          (* only reached when maxiter = 0 *)
  | S n' =>
      let gx := g x in
      let tr := tr ++ [x] in
      let fx := fun i => gx i - x i in
      let stop b m := (tr, Ok (mkVR b m (length tr) (k + 1) x fx)) in
      if Rleb (norm_inf N (fun i => sclx i * fx i)) tolx then stop true FMsgTolX
      else match n' with
           | O => stop false FMsgMaxIter
           | S _ =>
               if (k <? wait)%nat then
                 weg_loop N g sclx tolx wait qmin qmax n' (S k) gx x gx tr
               else
                 let q := fun i => weg_q qmin qmax (weg_s (x i - xm i) (gx i - gxm i)) in
                 weg_loop N g sclx tolx wait qmin qmax n' (S k)
                   (fun i => q i * x i + (1 - q i) * gx i) x gx tr
           end
  end.

(** wegstein.py:19-148 — fixpoint_wegstein (N = x0.size >= 1). *)
Definition fixpoint_wegstein (N : nat) (g : vec -> vec) (x0 : vec) (sclx : option vec)
    (tolx : R) (wait : nat) (qmin qmax : R) (maxiter : nat) (nan : vec) : foutcome :=
  let sclx := match sclx with Some s => s | None => scalex N x0 end in
  weg_loop N g sclx tolx (Nat.max wait 1) qmin qmax maxiter 0 x0 nan nan [].

(** anderson.py:141-158 — outcome of the QR update and least-squares solve.
    Simplification: the incremental QR factorisation of the last mk columns of
    dF and the triangular least-squares solve are one oracle, which sees the
    iteration counter, mk, those columns and f(x), and may fail in either way. *)
Inductive lsres := LsQRFail | LsFail | LsGamma (gamma : nat -> R).
(** anderson.py:141-158 *)
Definition lsq := nat -> nat -> (nat -> vec) -> vec -> lsres.

(** anderson.py:123-134 — shift the m stored differences and append the newest
    (rows of dG and columns of dF alike). *)
Definition shift_in (m : nat) (D : nat -> vec) (d : vec) : nat -> vec :=
  fun r => if (S r <? m)%nat then D (S r) else d.

(** anderson.py:119-166 — loop. *)
Fixpoint and_loop (N m : nat) (g : vec -> vec) (sclx : vec) (tolx : R) (orc : lsq)
    (n k : nat) (x gx fx : vec) (dG dF : nat -> vec) (tr : list vec) : foutcome :=
  match n with
  | O => (tr, Err UnboundLocalError)           (* only reached when maxiter <= 1 *)
  | S n' =>
      let mk := Nat.min m k in
      let gx' := g x in
      let tr := tr ++ [x] in
      let fx' := fun i => gx' i - x i in
      let dG := shift_in m dG (fun i => - gx i + gx' i) in
      let dF := shift_in m dF (fun i => - fx i + fx' i) in
      let stop b ms := (tr, Ok (mkVR b ms (length tr) (k + 1) x fx')) in
      if Rleb (norm_inf N (fun i => sclx i * fx' i)) tolx then stop true FMsgTolX
      else match orc k mk (fun j => dF (m - mk + j)%nat) fx' with
           | LsQRFail => stop false FMsgQR
           | LsFail => stop false FMsgLsq
           | LsGamma gamma =>
               match n' with
               | O => stop false FMsgMaxIter
               | S _ =>
                   let x' := fun i =>
                     gx' i - sumn mk (fun j => gamma j * dG (m - mk + j)%nat i) in
                   and_loop N m g sclx tolx orc n' (S k) x' gx' fx' dG dF tr
               end
           end
  end.

(** anderson.py:18-166 — fixpoint_anderson. *)
Definition fixpoint_anderson (N : nat) (g : vec -> vec) (x0 : vec) (m : nat)
    (sclx : option vec) (tolx : R) (maxiter : nat) (orc : lsq) : foutcome :=
  let sclx := match sclx with Some s => s | None => scalex N x0 end in
  let m := Nat.max m 1 in
  let g0 := g x0 in
  let f0 := fun i => g0 i - x0 i in
  if Rleb (norm_inf N (fun i => sclx i * f0 i)) (/ 100 * tolx) then
    ([x0], Ok (mkVR true FMsgTol0 1 0 x0 f0))
  else
    and_loop N m g sclx tolx orc (maxiter - 1) 1 g0 g0 f0
      (fun _ _ => 0) (fun _ _ => 0) [x0].
