(** Model of src/polykin/copolymerization/multicomponent.py.  Vectors are functions
    [nat -> R] of length N, matrices [nat -> nat -> R].  Simplification: the inner array
    quotients (f/r, f1/(r21*r31), ...) are real divisions, i.e. the reactivity ratios are
    non-zero; the final quotients follow numpy ([np_div]). *)
From Coq Require Import Reals Lra Lia List Bool Arith.
From Verif Require Import Prelude UtilsModel RootsModel CopoModel.
Import ListNotations.
Open Scope R_scope.

Definition vec := nat -> R.
Definition mat := nat -> nat -> R.

(** numpy.linalg.solve(A, b) for an N x N system, an argument of the functions below.  Its
    specification: a returned vector solves the system, and a nonsingular system is solved. *)
Definition solver := nat -> mat -> vec -> res vec.
Definition nonsingular (N : nat) (A : mat) : Prop :=
  forall y, (forall i, (i < N)%nat -> sumn N (fun j => A i j * y j) = 0) -> forall i, (i < N)%nat -> y i = 0.
Definition solve_spec (solve : solver) : Prop := forall N A b,
  (forall x, solve N A b = Ok x -> forall i, (i < N)%nat -> sumn N (fun j => A i j * x j) = b i) /\
  (nonsingular N A -> exists x, solve N A b = Ok x).

(** multicomponent.py:113-131 — inst_copolymer_ternary for one composition. *)
Definition inst_copolymer_ternary (f1 f2 r12 r21 r13 r31 r23 r32 : R) : option (R * R * R) :=
  let f3 := 1 - (f1 + f2) in
  let a := f1 / (r21 * r31) + f2 / (r21 * r32) + f3 / (r31 * r23) in
  let b := f1 + f2 / r12 + f3 / r13 in
  let c := f1 / (r12 * r31) + f2 / (r12 * r32) + f3 / (r13 * r32) in
  let d := f2 + f1 / r21 + f3 / r23 in
  let e := f1 / (r13 * r21) + f2 / (r23 * r12) + f3 / (r13 * r23) in
  let g := f3 + f1 / r31 + f2 / r32 in
  let denominator := f1 * a * b + f2 * c * d + f3 * e * g in
  match np_div (f1 * a * b) denominator, np_div (f2 * c * d) denominator with
  | Fin F1, Fin F2 => Some (F1, F2, 1 - (F1 + F2))
  | _, _ => None (* nan or inf entries *)
  end.

(** multicomponent.py:558-567 — transitions_multi. *)
Definition transitions_multi (N : nat) (f : vec) (r : mat) : mat :=
  fun i j => (f j / r i j) / sumn N (fun l => f l / r i l).

(** multicomponent.py:228-235 — the linear system of inst_copolymer_multi. *)
Definition stat_matrix (N : nat) (P : mat) : mat :=
  fun i j => if Nat.eqb i (N - 1) then 1 else P j i - (if Nat.eqb i j then 1 else 0).
(** multicomponent.py:228-235 *)
Definition last_unit (N : nat) : vec := fun i => if Nat.eqb i (N - 1) then 1 else 0.

(** multicomponent.py:221-235 — inst_copolymer_multi.  N is the number of monomers. *)
Definition inst_copolymer_multi (solve : solver) (N : nat) (f : option vec) (r : option mat)
    (P : option mat) : res vec :=
  do P <- match P, f, r with
          | Some P, None, None => Ok P
          | None, Some f, Some r => Ok (transitions_multi N f r)
          | _, _, _ => Err ValueError
          end;
  solve N (stat_matrix N P) (last_unit N).

(** multicomponent.py:311-325 — radical_fractions_ternary for one composition. *)
Definition radical_fractions_ternary (f1 f2 k12 k21 k13 k31 k23 k32 : R) : fl * fl * fl :=
  let f3 := 1 - (f1 + f2) in
  let p1 := k21 * k31 * f1 ^ 2 + k21 * k32 * f1 * f2 + k23 * k31 * f1 * f3 in
  let p2 := k12 * k31 * f1 * f2 + k12 * k32 * f2 ^ 2 + k13 * k32 * f2 * f3 in
  let p3 := k12 * k23 * f2 * f3 + k13 * k21 * f1 * f3 + k13 * k23 * f3 ^ 2 in
  let denominator := p1 + p2 + p3 in
  (np_div p1 denominator, np_div p2 denominator, np_div p3 denominator).

(** multicomponent.py:382-392 — radical_fractions_multi. *)
Definition radical_matrix (N : nat) (f : vec) (k : mat) : mat :=
  fun i j =>
    if Nat.eqb i (N - 1) then 1
    else k j i * f i - (if Nat.eqb i j then sumn N (fun l => k j l * f l) else 0).
(** multicomponent.py:328-392 *)
Definition radical_fractions_multi (solve : solver) (N : nat) (f : vec) (k : mat) : res vec :=
  solve N (radical_matrix N f k) (last_unit N).

(** multicomponent.py:469-471 — dfdx inside monomer_drift_multi; f has N-1 entries. *)
Definition dfdx (solve : solver) (N : nat) (r : mat) (x : R) (f : vec) : res vec :=
  do F <- inst_copolymer_multi solve N
            (Some (fun i => if Nat.ltb i (N - 1) then f i else 1 - sumn (N - 1) f)) (Some r) None;
  Ok (fun i => (f i - F i) / (1 - x + eps)).

(** multicomponent.py:483-490 — the row of the returned matrix built from one column y of
    the integrator's solution. *)
Definition drift_row (N : nat) (y : vec) : vec :=
  fun i => if Nat.ltb i (N - 1) then y i else 1 - sumn (N - 1) y.

(** multicomponent.py:650-661 — sequence_multi: mean (k is None) and k-th entry. *)
Definition sequence_multi_mean (Pself : R) : fl := np_div 1 (1 - Pself + eps).
(** multicomponent.py:570-661 *)
Definition sequence_multi (Pself : R) (k : nat) : R := (1 - Pself) * Pself ^ (k - 1).

(** itertools.product(range(N), repeat=n), in its order. *)
Fixpoint product (N n : nat) : list (list nat) :=
  match n with
  | O => [[]]
  | S m => flat_map (fun i => map (cons i) (product N m)) (seq 0 N)
  end.

(** A dict from tuples to floats, in insertion order. *)
Definition tdict := list (list nat * R).
Definition key_eqb (s t : list nat) : bool := if list_eq_dec Nat.eq_dec s t then true else false.
Fixpoint tget (d : tdict) (t : list nat) : option R :=
  match d with
  | [] => None
  | (s, v) :: d' => if key_eqb s t then Some v else tget d' t
  end.
(** result[t] += v for a key that is present *)
Fixpoint tincr (d : tdict) (t : list nat) (v : R) : tdict :=
  match d with
  | [] => []
  | (s, w) :: d' => if key_eqb s t then (s, w + v) :: d' else (s, w) :: tincr d' t v
  end.

(** multicomponent.py:748-750 — product of the transition probabilities along a tuple. *)
Definition P_product (P : mat) (n : nat) (idx : list nat) : R :=
  fold_left (fun acc j => acc * P (nth j idx 0%nat) (nth (j + 1) idx 0%nat)) (seq 0 (n - 1)) 1.
(** multicomponent.py:751 — idx[0] raises IndexError on the empty tuple. *)
Definition tuple_prob (P : mat) (F : vec) (n : nat) (idx : list nat) : res R :=
  match idx with
  | [] => Err IndexError
  | i :: _ => Ok (F i * P_product P n idx)
  end.
(** multicomponent.py:746-757 — one pass of the loop. *)
Definition tuple_step (P : mat) (F : vec) (n : nat) (d : tdict) (idx : list nat) : res tdict :=
  do A <- tuple_prob P F n idx;
  match tget d (rev idx) with
  | Some _ => Ok (tincr d (rev idx) A)
  | None => Ok (d ++ [(idx, A)])
  end.
(** multicomponent.py:746-757 *)
Fixpoint tuple_loop (P : mat) (F : vec) (n : nat) (l : list (list nat)) (d : tdict) : res tdict :=
  match l with
  | [] => Ok d
  | idx :: l' => do d' <- tuple_step P F n d idx; tuple_loop P F n l' d'
  end.
(** multicomponent.py:737-759 — tuples_multi.  Simplification: a new key is appended at the
    end (it cannot already be present, since the tuples are pairwise different); negative n
    is not represented. *)
Definition tuples_multi (solve : solver) (N : nat) (P : mat) (n : nat) (F : option vec) : res tdict :=
  do F <- match F with Some F => Ok F | None => inst_copolymer_multi solve N None None (Some P) end;
  tuple_loop P F n (product N n) [].

(** multicomponent.py:807-816 — convert_Qe_to_r.  The double loop is given entry by entry:
    entry (i,j), or the exception raised at the first failing entry (all failures are
    divisions by a zero Q). *)
Definition Qe_entry (Qe : list (R * R)) (i j : nat) : res R :=
  let Q k := fst (nth k Qe (0, 0)) in
  let e k := snd (nth k Qe (0, 0)) in
  do q <- pydiv (Q i) (Q j);
  Ok (q * exp (- e i * (e i - e j))).
(** multicomponent.py:807-816 *)
Fixpoint traverse {A B : Type} (g : A -> res B) (l : list A) : res (list B) :=
  match l with
  | [] => Ok []
  | a :: l' => do b <- g a; do bs <- traverse g l'; Ok (b :: bs)
  end.
(** multicomponent.py:762-816 *)
Definition convert_Qe_to_r (Qe : list (R * R)) : res (list (list R)) :=
  let N := length Qe in
  traverse (fun i => traverse (fun j => Qe_entry Qe i j) (seq 0 N)) (seq 0 N).
