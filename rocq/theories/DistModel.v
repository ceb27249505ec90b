(** Model of src/polykin/distributions/base.py and analyticaldistributions.py:
    closed-form families, objects with cached moments, and blending. *)
From Coq Require Import Reals Lra Lia List Bool Arith.
From Verif Require Import Prelude UtilsModel.
Import ListNotations.
Open Scope R_scope.

(* ------------------------------------------------------------------ *)
(** * Closed-form families                                             *)
(* ------------------------------------------------------------------ *)

(** analyticaldistributions.py:81-83 — Flory internal parameter. *)
Definition flory_a (DPn : R) : R := 1 - 1 / DPn.
(** analyticaldistributions.py:85-87, for integer k >= 1. *)
Definition flory_pdf0 (a : R) (k : nat) : R := (1 - a) * a ^ (k - 1).
(** analyticaldistributions.py:89-105.  [polylog n a] stands for mpmath's
    polylog(-n, a). *)
Definition flory_moment (polylog : nat -> R -> R) (a : R) (order : nat) : R :=
  let p := 1 - a in
  match order with
  | 0%nat => 1
  | 1%nat => 1 / p
  | 2%nat => 2 / p ^ 2 - 1 / p
  | 3%nat => 6 / p ^ 3 - 6 / p ^ 2 + 1 / p
  | 4%nat => 24 / p ^ 4 - 36 / p ^ 3 + 14 / p ^ 2 - 1 / p
  | n => p / a * polylog n a
  end.
(** The same with Python's division: for order >= 5 the quotient p / a raises
    ZeroDivisionError when a = 0. *)
Definition flory_moment_res (polylog : nat -> R -> R) (a : R) (order : nat) : res R :=
  if (order <=? 4)%nat then Ok (flory_moment polylog a order)
  else do q <- pydiv (1 - a) a; Ok (q * polylog order a).
(** analyticaldistributions.py:107-115, for integer k (the moment of order 0 or 1
    does not use polylog). *)
Definition flory_cdf (a : R) (k order : nat) : res R :=
  match order with
  | 0%nat => Ok ((1 - a ^ k) / flory_moment (fun _ _ => 0) a 0)
  | 1%nat => Ok ((a ^ k * (- a * INR k + INR k + 1) - 1) / (a - 1) / flory_moment (fun _ _ => 0) a 1)
  | _ => Err ValueError
  end.

(** analyticaldistributions.py:178-180 *)
Definition poisson_a (DPn : R) : R := DPn - 1.
(** analyticaldistributions.py:182-184 and 429-434; [gammaln] is an argument. *)
Definition poisson_pdf (gammaln : R -> R) (k a : R) (k0 : bool) : R :=
  let shift := if k0 then 0 else -1 in
  exp ((k + shift) * ln a - a - gammaln (k + 1 + shift)).
(** scipy.special.stirling2 (Stirling numbers of the second kind). *)
Fixpoint stirling2 (n k : nat) : R :=
  match n, k with
  | O, O => 1
  | O, S _ => 0
  | S _, O => 0
  | S n', S k' => INR (S k') * stirling2 n' (S k') + stirling2 n' k'
  end.
(** analyticaldistributions.py:186-202 *)
Definition poisson_moment (a : R) (order : nat) : R :=
  match order with
  | 0%nat => 1
  | 1%nat => a + 1
  | 2%nat => a ^ 2 + 3 * a + 1
  | 3%nat => a ^ 3 + 6 * a ^ 2 + 7 * a + 1
  | n => sumn (n + 1) (fun j => stirling2 (n + 1) (j + 1) * a ^ j)
  end.
(** analyticaldistributions.py:204-212; [gammaincc k a], [gammaln k] are arguments. *)
Definition poisson_cdf (gammaincc : R -> R -> R) (gammaln : R -> R) (a k : R) (order : nat) : res R :=
  match order with
  | 0%nat => Ok (gammaincc k a / poisson_moment a 0)
  | 1%nat => Ok (((a + 1) * gammaincc k a - exp (k * ln a - a - gammaln k)) / poisson_moment a 1)
  | _ => Err ValueError
  end.

(** analyticaldistributions.py:281-289 *)
Definition logn_sigma (DPn PDI : R) : R := sqrt (ln PDI).
(** analyticaldistributions.py:281-289 *)
Definition logn_mu (DPn PDI : R) : R := ln (DPn / sqrt PDI).
(** analyticaldistributions.py:291-294 *)
Definition logn_pdf0 (mu sigma x : R) : R :=
  exp (- (ln x - mu) ^ 2 / (2 * sigma ^ 2)) / (x * sigma * sqrt (2 * PI)).
(** analyticaldistributions.py:296-300 *)
Definition logn_moment (mu sigma : R) (order : nat) : R :=
  exp (INR order * mu + / 2 * INR order ^ 2 * sigma ^ 2).
(** analyticaldistributions.py:302-311; [erf], [erfc] are arguments. *)
Definition logn_cdf (erf erfc : R -> R) (mu sigma x : R) (order : nat) : res R :=
  match order with
  | 0%nat => Ok ((1 + erf ((ln x - mu) / (sigma * sqrt 2))) / 2)
  | 1%nat => Ok (erfc ((mu + sigma ^ 2 - ln x) / (sigma * sqrt 2)) / 2)
  | _ => Err ValueError
  end.

(** analyticaldistributions.py:385-393 *)
Definition sz_k (DPn PDI : R) : R := 1 / (PDI - 1).
(** analyticaldistributions.py:385-393 *)
Definition sz_theta (DPn PDI : R) : R := DPn * (PDI - 1).
(** analyticaldistributions.py:395-398; [gamma] is an argument. *)
Definition sz_pdf0 (gamma : R -> R) (k theta x : R) : R :=
  Rpower x (k - 1) * exp (- x / theta) / (Rpower theta k * gamma k).
(** scipy.special.poch at an integer second argument. *)
Fixpoint poch (x : R) (n : nat) : R :=
  match n with O => 1 | S m => poch x m * (x + INR m) end.
(** analyticaldistributions.py:400-404 *)
Definition sz_moment (k theta : R) (order : nat) : R := poch k order * theta ^ order.
(** analyticaldistributions.py:406-415; [gammainc], [gammaincc] are arguments. *)
Definition sz_cdf (gammainc gammaincc : R -> R -> R) (k theta x : R) (order : nat) : res R :=
  match order with
  | 0%nat => Ok (gammainc k (x / theta))
  | 1%nat => Ok (1 - gammaincc (1 + k) (x / theta))
  | _ => Err ValueError
  end.

(* ------------------------------------------------------------------ *)
(** * Individual distributions: averages, pdf and cdf                  *)
(* ------------------------------------------------------------------ *)

(** An individual distribution reduced to what base.py uses: number pdf, partial
    moments (_cdf_length), moments, and M0. *)
Record idist := mkI { i_pdf0 : R -> R; i_cdf : R -> nat -> R; i_mom : nat -> R; i_M0 : R }.

(** base.py:422-423 — IndividualDistribution._moment_mass; [Rpowz] is the integer
    power M0 ** (order - shift). *)
Definition Rpowz (x : R) (z : Z) : R := powerRZ x z.
(** base.py:422-423 *)
Definition moment_mass (d : idist) (order shift : nat) : R :=
  i_mom d order * Rpowz (i_M0 d) (Z.of_nat order - Z.of_nat shift).

(** base.py:58-96 — averages of any distribution given its [_moment_mass]. *)
Section Averages.
  Variable mm : nat -> nat -> R.
  (** base.py:58-96 *)
  Definition av_DPn : res R := pydiv (mm 1 1)%nat (mm 0 0)%nat.
  (** base.py:58-96 *)
  Definition av_DPw : res R := pydiv (mm 2 1)%nat (mm 1 0)%nat.
  (** base.py:58-96 *)
  Definition av_DPz : res R := pydiv (mm 3 1)%nat (mm 2 0)%nat.
  (** base.py:58-96 *)
  Definition av_Mn : res R := pydiv (mm 1 0)%nat (mm 0 0)%nat.
  (** base.py:58-96 *)
  Definition av_Mw : res R := pydiv (mm 2 0)%nat (mm 1 0)%nat.
  (** base.py:58-96 *)
  Definition av_Mz : res R := pydiv (mm 3 0)%nat (mm 2 0)%nat.
  (** base.py:58-96 *)
  Definition av_PDI : res R := do mw <- av_Mw; do mn <- av_Mn; pydiv mw mn.
  (** base.py:58-96 *)
  Definition av_M0 : res R := do mn <- av_Mn; do dp <- av_DPn; pydiv mn dp.
End Averages.

(** base.py:425-434 — IndividualDistribution._pdf (positive size). *)
Definition ind_pdf (d : idist) (size : R) (order : nat) (sizeasmass : bool) : R :=
  let sz := if sizeasmass then size / i_M0 d else size in
  let factor := if sizeasmass then i_M0 d else 1 in
  i_pdf0 d sz * sz ^ order / (i_mom d order * factor).
(** base.py:436-439 — IndividualDistribution._cdf. *)
Definition ind_cdf (d : idist) (size : R) (order : nat) (sizeasmass : bool) : R :=
  let sz := if sizeasmass then size / i_M0 d else size in i_cdf d sz order.

(* ------------------------------------------------------------------ *)
(** * Mixtures                                                         *)
(* ------------------------------------------------------------------ *)

(** base.py:809-815 — _molefrac: w / d.Mn normalised by the sum. *)
Definition ind_Mn (d : idist) : R := moment_mass d 1 0 / moment_mass d 0 0.
(** base.py:809-815 *)
Definition lsum (l : list R) : R := fold_right Rplus 0 l.
(** base.py:809-815 *)
Definition molefrac (comps : list (idist * R)) : list R :=
  let xn := map (fun '(d, w) => w / ind_Mn d) comps in
  map (fun x => x / lsum xn) xn.
(** base.py:809-815 *)
Definition zipsum (f : R -> idist -> R) (xs : list R) (comps : list (idist * R)) : R :=
  lsum (map (fun '(x, (d, _)) => f x d) (combine xs comps)).
(** base.py:817-822 — MixtureDistribution._moment_mass. *)
Definition mix_moment_mass (comps : list (idist * R)) (order shift : nat) : R :=
  zipsum (fun x d => x * moment_mass d order shift) (molefrac comps) comps.
(** base.py:824-833 — MixtureDistribution._pdf. *)
Definition mix_pdf (comps : list (idist * R)) (size : R) (order : nat) (sizeasmass : bool) : R :=
  zipsum (fun x d => x * moment_mass d order 0 * ind_pdf d size order sizeasmass) (molefrac comps) comps
  / zipsum (fun x d => x * moment_mass d order 0) (molefrac comps) comps.
(** base.py:835-844 — MixtureDistribution._cdf. *)
Definition mix_cdf (comps : list (idist * R)) (size : R) (order : nat) (sizeasmass : bool) : R :=
  zipsum (fun x d => x * moment_mass d order 0 * ind_cdf d size order sizeasmass) (molefrac comps) comps
  / zipsum (fun x d => x * moment_mass d order 0) (molefrac comps) comps.

(* ------------------------------------------------------------------ *)
(** * Dictionaries and blending expressions on a heap                  *)
(* ------------------------------------------------------------------ *)

(** A dict {distribution object: weight}, in insertion order; distribution objects
    hash by identity, represented by a number. *)
Definition dict := list (nat * R).
Fixpoint dget (d : dict) (k : nat) : option R :=
  match d with
  | [] => None
  | (k', v) :: r => if (k' =? k)%nat then Some v else dget r k
  end.
Fixpoint dset (d : dict) (k : nat) (v : R) : dict :=
  match d with
  | [] => [(k, v)]
  | (k', v') :: r => if (k' =? k)%nat then (k, v) :: r else (k', v') :: dset r k v
  end.
(** utils/math.py:64-66 — the loop body of add_dicts. *)
Definition add_item (d : dict) (kv : nat * R) : dict :=
  dset d (fst kv) ((match dget d (fst kv) with Some v => v | None => 0 end) + snd kv).
(** utils/math.py:37-67 — add_dicts as a value (the iteration is over the items of d2
    and d1 is not d2). *)
Definition add_dicts (d1 d2 : dict) : dict := fold_left add_item d2 d1.
(** When both arguments are the same dict object and it is updated in place, the loop
    assigns existing keys while iterating, which doubles every value. *)
Definition double_dict (d : dict) : dict := map (fun '(k, v) => (k, v + v)) d.

Definition heap := list dict.
Definition hget (h : heap) (l : nat) : dict := nth l h [].
Fixpoint hset (h : heap) (l : nat) (d : dict) : heap :=
  match h, l with
  | [], _ => []
  | _ :: r, O => d :: r
  | x :: r, S l' => x :: hset r l' d
  end.

(** Operands: an individual distribution (identity), a mixture (its components dict
    lives at a heap location), or a plain number. *)
Inductive operand := OInd (id : nat) | OMix (loc : nat) | ONum (x : R).

(** base.py:391-401 — number * individual distribution. *)
Definition op_mul (h : heap) (c : R) (id : nat) : heap * operand :=
  (h ++ [if Rltb 0 c then [(id, c)] else []], OMix (length h)).

(** base.py:403-410, 726-743 — x + y, including the reflected call when the left
    operand returns NotImplemented; the result shares the dict of the updated operand.
    None: TypeError. *)
Definition op_add (h : heap) (x y : operand) : option (heap * operand) :=
  match x, y with
  | OInd a, OInd b => Some (h ++ [add_dicts [(a, 1)] [(b, 1)]], OMix (length h))
  | OMix l, OMix m =>
      Some (hset h l (if (l =? m)%nat then double_dict (hget h l)
                      else add_dicts (hget h l) (hget h m)), OMix l)
  | OMix l, OInd b => Some (hset h l (add_dicts (hget h l) [(b, 1)]), OMix l)
  | OInd a, OMix m => Some (hset h m (add_dicts (hget h m) [(a, 1)]), OMix m)
  | OMix l, ONum _ => Some (h, OMix l)
  | ONum _, OMix m => Some (h, OMix m)
  | _, _ => None
  end.

(** Expressions without shared sub-expressions. *)
Inductive expr := EInd (id : nat) | EScale (c : R) (id : nat) | EPlus (a b : expr).
Fixpoint eval_expr (h : heap) (e : expr) : option (heap * operand) :=
  match e with
  | EInd id => Some (h, OInd id)
  | EScale c id => Some (op_mul h c id)
  | EPlus a b =>
      match eval_expr h a with
      | None => None
      | Some (h1, x) =>
          match eval_expr h1 b with
          | None => None
          | Some (h2, y) => op_add h2 x y
          end
      end
  end.

(* ------------------------------------------------------------------ *)
(** * Distribution objects with caches                                 *)
(* ------------------------------------------------------------------ *)

(** A family of analytical distributions: number of parameters, internal parameters
    as a function of DPn and PDI, moments (may raise) and default range. *)
Record family := mkFam {
  fI : Type;
  f_two : bool;
  f_int : fl -> option fl -> fI;
  f_mom : fI -> nat -> res R;
  f_rng : fI -> list fl }.

(** Instance attributes: DPn, PDI (absent until assigned, never present for
    1-parameter families), M0, internal parameters, cached default range. *)
Record obj (F : family) := mkObj {
  o_dpn : fl; o_pdi : option fl; o_m0 : fl; o_int : option (fI F); o_rng : option (list fl) }.
Arguments mkObj {F}. Arguments o_dpn {F}. Arguments o_pdi {F}. Arguments o_m0 {F}.
Arguments o_int {F}. Arguments o_rng {F}.

(** All objects of the class (index = identity) and the class-level functools.cache of
    _moment_length, keyed by (self, order). *)
Record world (F : family) := mkW { w_objs : list (obj F); w_cache : list ((nat * nat) * R) }.
Arguments mkW {F}. Arguments w_objs {F}. Arguments w_cache {F}.

Definition lset {A} (l : list A) (i : nat) (x : A) : list A :=
  firstn i l ++ (match skipn i l with [] => [] | _ :: r => x :: r end).

Section World.
  Variable F : family.

  (** base.py:447-454 and the subclass methods (e.g. analyticaldistributions.py:81-83,
      281-289): clear the class cache, drop the cached range, recompute the internal
      parameters (skipped while PDI is not yet assigned). *)
  Definition update_internal (o : obj F) : obj F :=
    let int := if f_two F then
                 match o_pdi o with None => o_int o | Some p => Some (f_int F (o_dpn o) (Some p)) end
               else Some (f_int F (o_dpn o) None) in
    mkObj (o_dpn o) (o_pdi o) (o_m0 o) int None.

  Definition one : fl := Fin 1.
  Definition pdi_min : fl := Fin (1000001 / 1000000).

  (** base.py:579-595, 659-673, 417-420: constructors of 1- and 2-parameter families. *)
  Definition construct (dpn : fl) (pdi : option fl) (m0 : fl) : res (obj F) :=
    do _ <- check_bounds (VNum dpn) one PInf;
    let o := update_internal (mkObj dpn None m0 None None) in
    do _ <- check_bounds (VNum m0) (Fin 0) PInf;
    if f_two F then
      match pdi with
      | None => Err TypeError
      | Some p => do _ <- check_bounds (VNum p) pdi_min PInf;
                  Ok (update_internal (mkObj dpn (Some p) m0 (o_int o) (o_rng o)))
      end
    else match pdi with None => Ok o | Some _ => Err TypeError end.

  (** base.py:579-595, 659-673, 417-420 *)
  Inductive op :=
  | New (dpn : fl) (pdi : option fl) (m0 : fl)
  | SetDPn (id : nat) (v : fl) | SetPDI (id : nat) (v : fl) | SetM0 (id : nat) (v : fl).

  (** A query is any program that reads attributes, moments (through the cache) and
      the default range (through the cached property). *)
  Inductive prog (A : Type) :=
  | Ret (a : A) | Raise (e : exn)
  | AskAttrs (k : fl -> option fl -> fl -> prog A)
  | AskInt (k : fI F -> prog A)
  | AskMoment (n : nat) (k : R -> prog A)
  | AskRange (k : list fl -> prog A).
  Arguments Ret {A}. Arguments Raise {A}. Arguments AskAttrs {A}. Arguments AskInt {A}.
  Arguments AskMoment {A}. Arguments AskRange {A}.

  Fixpoint cache_get (c : list ((nat * nat) * R)) (id n : nat) : option R :=
    match c with
    | [] => None
    | ((i, m), v) :: r => if (i =? id)%nat && (m =? n)%nat then Some v else cache_get r id n
    end.

  Fixpoint eval {A} (w : world F) (id : nat) (p : prog A) : world F * res A :=
    match nth_error (w_objs w) id with
    | None => (w, Err KeyError)
    | Some o =>
        match p with
        | Ret a => (w, Ok a)
        | Raise e => (w, Err e)
        | AskAttrs k => eval w id (k (o_dpn o) (o_pdi o) (o_m0 o))
        | AskInt k => match o_int o with None => (w, Err AttributeError) | Some i => eval w id (k i) end
        | AskMoment n k =>
            match cache_get (w_cache w) id n with
            | Some v => eval w id (k v)
            | None =>
                match o_int o with
                | None => (w, Err AttributeError)
                | Some i =>
                    match f_mom F i n with
                    | Err e => (w, Err e)
                    | Ok v => eval (mkW (w_objs w) (((id, n), v) :: w_cache w)) id (k v)
                    end
                end
            end
        | AskRange k =>
            match o_rng o with
            | Some r => eval w id (k r)
            | None =>
                match o_int o with
                | None => (w, Err AttributeError)
                | Some i =>
                    let r := f_rng F i in
                    eval (mkW (lset (w_objs w) id
                               (mkObj (o_dpn o) (o_pdi o) (o_m0 o) (o_int o) (Some r))) (w_cache w))
                      id (k r)
                end
            end
        end
    end.

  (** One assignment or construction; the moment cache of the class is cleared by every
      update of the internal parameters. *)
  Definition step (w : world F) (x : op) : world F * res unit :=
    match x with
    | New dpn pdi m0 =>
        match construct dpn pdi m0 with
        | Ok o => (mkW (w_objs w ++ [o]) [], Ok tt)
        | Err e =>
            (* the cache has been cleared if DPn was already accepted *)
            (mkW (w_objs w) (if between one PInf dpn then [] else w_cache w), Err e)
        end
    | SetDPn id v =>
        match nth_error (w_objs w) id with
        | None => (w, Err KeyError)
        | Some o =>
            match check_bounds (VNum v) one PInf with
            | Err e => (w, Err e)
            | Ok _ => (mkW (lset (w_objs w) id
                        (update_internal (mkObj v (o_pdi o) (o_m0 o) (o_int o) (o_rng o)))) [], Ok tt)
            end
        end
    | SetPDI id v =>
        match nth_error (w_objs w) id with
        | None => (w, Err KeyError)
        | Some o =>
            if f_two F then
              match check_bounds (VNum v) pdi_min PInf with
              | Err e => (w, Err e)
              | Ok _ => (mkW (lset (w_objs w) id
                          (update_internal (mkObj (o_dpn o) (Some v) (o_m0 o) (o_int o) (o_rng o)))) [], Ok tt)
              end
            else (w, Err AttributeError)
        end
    | SetM0 id v =>
        match nth_error (w_objs w) id with
        | None => (w, Err KeyError)
        | Some o =>
            match check_bounds (VNum v) (Fin 0) PInf with
            | Err e => (w, Err e)
            | Ok _ => (mkW (lset (w_objs w) id
                        (mkObj (o_dpn o) (o_pdi o) v (o_int o) (o_rng o))) (w_cache w), Ok tt)
            end
        end
    end.

  (** A history interleaves assignments and queries on any objects of the class. *)
  Inductive event := Do (x : op) | Ask (id : nat) (A : Type) (p : prog A).
  Definition play (w : world F) (e : event) : world F :=
    match e with Do x => fst (step w x) | Ask id A p => fst (eval w id p) end.
  Definition run (h : list event) : world F := fold_left play h (mkW [] []).
End World.
Arguments Ret {F A}. Arguments Raise {F A}. Arguments AskAttrs {F A}. Arguments AskInt {F A}.
Arguments AskMoment {F A}. Arguments AskRange {F A}.
Arguments Do {F}. Arguments Ask {F}.
Arguments run {F}. Arguments eval {F A}. Arguments step {F}. Arguments play {F}.
