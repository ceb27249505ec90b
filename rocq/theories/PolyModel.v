(** Model of src/polykin/math/misc/filters.py (polyline simplification).
    A polyline is [pts : nat -> nat -> R] (vertex, coordinate) with N dimensions. *)
From Coq Require Import Reals Lra Lia List Bool Arith.
From Verif Require Import Prelude.
Import ListNotations.
Open Scope R_scope.

(** np.linalg.norm of a vector of length N. *)
Definition norm2 (N : nat) (v : nat -> R) : R := sqrt (sumn N (fun k => v k ^ 2)).

(** filters.py:149-176 — _perpendicular_distance.  None stands for nan: when the
    two end points coincide, d /= norm(d) is 0/0 in every component (numpy
    semantics of array division) and the result is nan. *)
Definition perp_dist (N : nat) (p a b : nat -> R) : option R :=
  let d := fun k => b k - a k in
  let nd := norm2 N d in
  if Req_EM_T nd 0 then None
  else
    let d := fun k => d k / nd in
    let pv := fun k => p k - a k in
    let pvdot := sumn N (fun k => d k * pv k) in
    let ds := fun k => pvdot * d k in
    Some (norm2 N (fun k => pv k - ds k)).

(** filters.py:140-144 — the loop of _farthest_point over i = i, …, i+n-1;
    a comparison with nan is False. *)
Fixpoint farthest_loop (N : nat) (pts : nat -> nat -> R) (istart iend n i imax : nat)
    (dmax : R) : nat * R :=
  match n with
  | O => (imax, dmax)
  | S n' =>
      match perp_dist N (pts i) (pts istart) (pts iend) with
      | Some d => if Rltb dmax d
                  then farthest_loop N pts istart iend n' (S i) i d
                  else farthest_loop N pts istart iend n' (S i) imax dmax
      | None => farthest_loop N pts istart iend n' (S i) imax dmax
      end
  end.

(** filters.py:116-146 — _farthest_point. *)
Definition farthest_point (N : nat) (pts : nat -> nat -> R) (istart iend : nat) : nat * R :=
  farthest_loop N pts istart iend (iend - (istart + 1)) (istart + 1) 0 0.

(** filters.py:77-113 — _ramer_douglas_peucker; [fuel] bounds the recursion
    depth, None means that the recursion has not finished within it. *)
Fixpoint rdp (fuel N : nat) (pts : nat -> nat -> R) (istart iend : nat) (tol : R)
  : option (list nat) :=
  match fuel with
  | O => None
  | S f =>
      let '(imax, dmax) := farthest_point N pts istart iend in
      if Rltb tol dmax then
        match rdp f N pts istart imax tol, rdp f N pts imax iend tol with
        | Some line1, Some line2 => Some (line1 ++ tl line2)
        | _, _ => None
        end
      else Some [istart; iend]
  end.

(** filters.py:13-74 — simplify_polyline, returning the kept indices (the rows
    points[idx]); nvert vertices, N dimensions. *)
Definition simplify_polyline (fuel N nvert : nat) (pts : nat -> nat -> R) (tol : R)
  : res (option (list nat)) :=
  if (N <? 2)%nat then Err ValueError
  else if (nvert <? 2)%nat then Err ValueError
  else if (nvert =? 2)%nat then Ok (Some [0; 1]%nat)
  else Ok (rdp fuel N pts 0 (nvert - 1) tol).
