(** Linear algebra of the iterations of rootvec_qnewton (src/polykin/math/roots/vector.py), which is an oracle in
    VecModel.  Matrices are functions [nat -> nat -> R] of order N; exact arithmetic. *)
From Coq Require Import Reals Lra Lia List Bool Arith.
From Verif Require Import Prelude RootsModel DiffModel FixModel PolyModel VecModel.
Open Scope R_scope.

Definition mat := nat -> nat -> R.
(** matrix product, transposed matrix times vector, and the sclf-scaled residual *)
Definition mmul (N : nat) (A B : mat) : mat := fun i j => sumn N (fun k => A i k * B k j).
Definition tmatvec (N : nat) (A : mat) (v : vec) : vec := fun j => sumn N (fun i => A i j * v i).

(** vector.py:238 — sqrt(eps) threshold of the condition number *)
Definition well_conditioned (rcond : fl) : bool := match rcond with Fin r => Rltb r (1 / sqrt eps) | _ => false end.
(** vector.py:241, 248 — gradient of the norm function, R^T (Q^T (sclf fc)) *)
Definition qn_grad (N : nat) (Q Rm : mat) (sclf fc : vec) : vec := tmatvec N Rm (tmatvec N Q (fun i => sclf i * fc i)).
(** vector.py:245-246 — H = R^T R and its scaled 1-norm (maximum column sum) *)
Definition qn_H0 (N : nat) (Rm : mat) : mat := fun i j => sumn N (fun k => Rm k i * Rm k j).
(** vector.py:245-246 *)
Definition qn_Hnorm (N : nat) (Rm : mat) (sclx : vec) : R :=
  maxn N (fun j => sumn N (fun i => Rabs (qn_H0 N Rm i j / (sclx i * sclx j)))).
(** vector.py:247 — the regularised matrix *)
Definition qn_H (N : nat) (Rm : mat) (sclx : vec) : mat :=
  fun i j => qn_H0 N Rm i j + delta i j * (sqrt (INR N * eps) * qn_Hnorm N Rm sclx * sclx i ^ 2).
(** vector.py:226-250 — step of one iteration, given the QR factors.  [rcond] is np.linalg.cond(R / sclx, 1);
    [tri] is scipy.linalg.solve_triangular, [cho] scipy.linalg.cho_factor (None: LinAlgError, not caught), which
    returns the factor in the upper triangle and leaves the entries below it unspecified, and [chosolve] cho_solve.
    The factor replaces R. *)
Definition qn_lin (N : nat) (tri : mat -> vec -> vec) (cho : mat -> option mat) (chosolve : mat -> vec -> vec)
    (rcond : fl) (Q Rm : mat) (sclx sclf fc : vec) : linres :=
  let gc := qn_grad N Q Rm sclf fc in
  if well_conditioned rcond then
    let z := tri Rm (tmatvec N Q (fun i => sclf i * fc i)) in LinStep gc (fun i => - z i) Rm
  else
    match cho (qn_H N Rm sclx) with
    | None => LinRaise
    | Some C => let z := chosolve C gc in LinStep gc (fun i => - z i) C
    end.

(** vector.py:389-396 — the vectors of the Broyden update *)
Definition broyden_w (N : nat) (xc xp fc fp : vec) (Q Rm : mat) (sclf : vec) : vec := fun i =>
  let w := sclf i * (fp i - fc i) - matvec N Q (matvec N Rm (fun j => xp j - xc j)) i in
  if Rltb (Rabs w) (eps * sclf i * (Rabs (fp i) + Rabs (fc i))) then 0 else w.
(** vector.py:389-396 *)
Definition broyden_s (N : nat) (xc xp sclx : vec) : vec :=
  let s := fun j => xp j - xc j in
  let t := fun j => s j * sclx j ^ 2 in
  fun j => t j / dot N s t.
(** vector.py:389-399 — _update_broyden_qr; [qr_update Q R u v] is scipy.linalg.qr_update (factors of Q R + u v^T) *)
Definition update_broyden_qr (N : nat) (qr_update : mat -> mat -> vec -> vec -> mat * mat)
    (xc xp fc fp : vec) (Q Rm : mat) (sclx sclf : vec) : mat * mat :=
  qr_update Q Rm (broyden_w N xc xp fc fp Q Rm sclf) (broyden_s N xc xp sclx).
(** vector.py:337-338 — the Jacobian returned with broyden_update *)
Definition broyden_J (N : nat) (Q Rm : mat) (sclf : vec) : mat := fun i j => mmul N Q Rm i j / sclf i.
