(** Model of the input protocol and of the plots of src/polykin/distributions/base.py:
    Distribution.pdf, cdf, plot, _verify_kind, _verify_sizeasmass; the cached default
    range of the individual distributions and the range of a mixture. *)
From Coq Require Import Reals Lra Lia List Bool Arith String.
From Verif Require Import Prelude UtilsModel CopoDataModel DataModel.
Import ListNotations.
Open Scope R_scope.

(** Run-time values given as [kind] or [sizeasmass]: a string, a list, a boolean or
    anything else (numpy booleans belong to the last). *)
Inductive karg := KStr (s : string) | KList (l : list karg) | KBool (b : bool) | KOther.

(** base.py:33 — the keys of kind_order *)
Definition kind_names : list string := ["number"; "mass"; "gpc"]%string.
(** base.py:33 — kind_order[...] *)
Definition kind_lookup (s : string) : res nat :=
  if String.eqb s "number" then Ok 0%nat
  else if String.eqb s "mass" then Ok 1%nat
  else if String.eqb s "gpc" then Ok 2%nat else Err KeyError.

(** tools.py:82-107 — check_type(kind, str, check_inside=True) on a list *)
Fixpoint all_str (l : list karg) : res (list string) :=
  match l with
  | [] => Ok []
  | KStr s :: r => do rs <- all_str r; Ok (s :: rs)
  | _ => Err TypeError
  end.

(** base.py:329-343 — _verify_kind; the last branch is check_type (tools.py:82-107) on a
    value which is neither a string nor an accepted list *)
Definition verify_kind (k : karg) (accept_list : bool) : res (string + list string) :=
  match k with
  | KStr s => check_in_set (inl (lower s)) kind_names
  | KList l => if accept_list then do ls <- all_str l; check_in_set (inr (map lower ls)) kind_names
               else Err TypeError
  | _ => Err TypeError
  end.

(** base.py:345-347 — _verify_sizeasmass *)
Definition verify_sizeasmass (v : karg) : res bool :=
  match v with KBool b => Ok b | _ => Err TypeError end.

(** base.py:98-128 — pdf; [f order sizeasmass] is the method _pdf of the subclass.  A list
    never passes _verify_kind here, so that the second branch is not reached. *)
Definition pdf_call {A} (f : nat -> bool -> A) (kind sizeasmass : karg) : res A :=
  do b <- verify_sizeasmass sizeasmass;
  do k <- verify_kind kind false;
  match k with inl s => do m <- kind_lookup s; Ok (f m b) | inr _ => Err TypeError end.

(** base.py:130-176 — cdf; [f order sizeasmass] is the method _cdf of the subclass *)
Definition cdf_call {A} (f : nat -> bool -> A) (kind sizeasmass : karg) : res A :=
  do k <- verify_kind kind false;
  match k with
  | inl s => if String.eqb s "gpc" then Err ValueError
             else do m <- kind_lookup s; do b <- verify_sizeasmass sizeasmass; Ok (f m b)
  | inr _ => Err TypeError
  end.

(** An individual distribution as seen by the plots: is it an AnalyticalDistribution, the
    molar mass of its unit, the value which the subclass computes for
    _range_length_default from the present parameters, and the array held by the
    functools.cached_property (analyticaldistributions.py:120, 217, 318, 422 and
    datadistribution.py:101). *)
Record dobj := mkO { o_analytic : bool; o_M0 : R; o_default : R * R; o_cache : option (R * R) }.
(** The objects of a program, by identity. *)
Definition heap := nat -> dobj.
(** assignment of an object in the heap *)
Definition hset (h : heap) (i : nat) (o : dobj) : heap := fun j => if Nat.eqb j i then o else h j.

(** A float array of two elements: the very array held by the cache of object [i], or a
    new one. *)
Inductive arr := Cell (i : nat) | Fresh (p : R * R).

(** functools.cached_property: the array is computed once and kept *)
Definition cached_range (h : heap) (i : nat) : (R * R) * heap :=
  let o := h i in
  match o_cache o with
  | Some v => (v, h)
  | None => (o_default o, hset h i (mkO (o_analytic o) (o_M0 o) (o_default o) (Some (o_default o))))
  end.

(** base.py:441-445 — IndividualDistribution._xrange_plot: the cached array itself, or its
    product with M0 (a new array) *)
Definition xrange_ind (h : heap) (i : nat) (sam : bool) : arr * heap :=
  let '(v, h1) := cached_range h i in
  if sam then (Fresh (fst v * o_M0 (h i), snd v * o_M0 (h i)), h1) else (Cell i, h1).

(** the numbers of an array *)
Definition aread (h : heap) (a : arr) : R * R :=
  match a with Fresh p => p | Cell i => match o_cache (h i) with Some v => v | None => o_default (h i) end end.

(** ranges of the components of a mixture, evaluated in turn *)
Fixpoint xranges (h : heap) (ids : list nat) (sam : bool) : list (R * R) * heap :=
  match ids with
  | [] => ([], h)
  | i :: r => let '(a, h1) := xrange_ind h i sam in
              let '(l, h2) := xranges h1 r sam in (aread h1 a :: l, h2)
  end.

(** builtin min and max of a non-empty list *)
Definition list_min (a : R) (l : list R) : R := fold_left Rmin l a.
(** builtin min and max of a non-empty list *)
Definition list_max (a : R) (l : list R) : R := fold_left Rmax l a.

(** base.py:846-850 — MixtureDistribution._xrange_plot; min and max of an empty list are a
    ValueError.  The components are visited twice in the code, the second time with the
    caches already filled. *)
Definition xrange_mix (h : heap) (ids : list nat) (sam : bool) : heap * res arr :=
  let '(l, h1) := xranges h ids sam in
  (h1, match l with
       | [] => Err ValueError
       | p :: r => Ok (Fresh (list_min (fst p) (map fst r), list_max (snd p) (map snd r)))
       end).

(** What is plotted: an individual distribution or a mixture with the given components. *)
Inductive target := Ind (i : nat) | Mix (ids : list nat).

(** base.py:382, 441, 846 — _xrange_plot *)
Definition xrange_plot (h : heap) (t : target) (sam : bool) : heap * res arr :=
  match t with
  | Ind i => let '(a, h1) := xrange_ind h i sam in (h1, Ok a)
  | Mix ids => xrange_mix h ids sam
  end.

(** [vrange[1] *= 10], in place *)
Definition widen (h : heap) (a : arr) : heap * arr :=
  match a with
  | Fresh p => (h, Fresh (fst p, snd p * 10))
  | Cell i => let v := aread h a in
              (hset h i (mkO (o_analytic (h i)) (o_M0 (h i)) (o_default (h i)) (Some (fst v, snd v * 10))), Cell i)
  end.

(** isinstance(self, (AnalyticalDistribution, MixtureDistribution)) *)
Definition widenable (h : heap) (t : target) : bool :=
  match t with Ind i => o_analytic (h i) | Mix _ => true end.

(** log10 *)
Definition log10 (x : R) : R := ln x / ln 10.

(** base.py:229-235 — the scale of the x axis: true when logarithmic *)
Definition logscale (xscale : string) (kinds : list string) : bool :=
  if String.eqb xscale "auto" && (negb (Nat.eqb (List.length kinds) 0) && forallb (String.eqb "gpc") kinds) then true
  else String.eqb xscale "log".

(** base.py:237-248 — the range of the x axis.  [xrange] is None or a pair of finite
    numbers; other objects are rejected by check_valid_range as in C64. *)
Definition plot_range (h : heap) (t : target) (islog sam : bool) (xrange : option (R * R)) : heap * res (R * R) :=
  match xrange with
  | Some r => (h, do _ <- check_valid_range (RTuple [Some (Fin (fst r)); Some (Fin (snd r))]) (Fin 0) PInf; Ok r)
  | None =>
      let '(h1, a) := xrange_plot h t sam in
      match a with
      | Err e => (h1, Err e)
      | Ok v =>
          let p := aread h1 v in
          if islog && Rltb 3 (log10 (snd p / fst p)) && widenable h1 t then
            let '(h2, v2) := widen h1 v in (h2, Ok (aread h2 v2))
          else (h1, Ok p)
      end
  end.

(** base.py:250-253 — number of points *)
Definition npoints (t : target) : nat :=
  match t with Ind _ => 200 | Mix ids => 200 + 100 * List.length ids - 100 end%nat.

(** np.linspace(a, b, n), n > 1 *)
Definition linspace (a b : R) (n : nat) : list R := map (fun i => a + INR i * ((b - a) / INR (n - 1))) (seq 0 n).
(** np.geomspace(a, b, n), n > 1, on non-negative ends; a ValueError when an end is zero *)
Definition geomspace (a b : R) (n : nat) : res (list R) :=
  if Reqb a 0 || Reqb b 0 then Err ValueError
  else Ok (map (fun i => a * exp (INR i / INR (n - 1) * ln (b / a))) (seq 0 n)).

(** A curve: the y axis (1 or 2), the points. *)
Record curve := mkC { c_axis : nat; c_x : list R; c_y : list R }.

(** base.py:282-305 — the curves of one kind.  [pdf] and [cdf] are the methods _pdf and
    _cdf applied to one size. *)
Definition curves_of (pdf cdf : nat -> bool -> R -> R) (x : list R) (sam : bool) (ncdf : nat) (k : string) : res (list curve) :=
  do y1 <- (if Nat.eqb ncdf 1 then Ok [] else pdf_call (fun m b => map (pdf m b) x) (KStr k) (KBool sam));
  do y2 <- (if Nat.ltb 0 ncdf then cdf_call (fun m b => map (cdf m b) x) (KStr (if String.eqb k "gpc" then "mass"%string else k)) (KBool sam) else Ok []);
  let y := if Nat.eqb ncdf 1 then y2 else y1 in
  Ok (mkC 1 x y :: (if Nat.eqb ncdf 2 then [mkC 2 x y2] else [])).

(** the loop over the kinds *)
Fixpoint curves_all (pdf cdf : nat -> bool -> R -> R) (x : list R) (sam : bool) (ncdf : nat) (ks : list string) : res (list curve) :=
  match ks with
  | [] => Ok []
  | k :: r => do a <- curves_of pdf cdf x sam ncdf k; do b <- curves_all pdf cdf x sam ncdf r; Ok (a ++ b)
  end.

(** base.py:178-327 — plot.  Labels, titles and legends are dropped; the figure is the
    scale of the x axis and the list of curves. *)
Definition plot (pdf cdf : nat -> bool -> R -> R) (h : heap) (t : target) (kind sizeasmass : karg) (xscale : string)
  (xrange : option (R * R)) (ncdf : nat) : heap * res (bool * list curve) :=
  match verify_kind kind true with
  | Err e => (h, Err e)
  | Ok k =>
      match verify_sizeasmass sizeasmass with
      | Err e => (h, Err e)
      | Ok sam =>
          match check_in_set (inl xscale) ["linear"; "log"; "auto"]%string with
          | Err e => (h, Err e)
          | Ok _ =>
              if Nat.ltb 2 ncdf then (h, Err ValueError)
              else
                let kinds := elems k in
                let islog := logscale xscale kinds in
                let '(h1, r) := plot_range h t islog sam xrange in
                (h1, do r <- r;
                     do x <- (if islog then geomspace (fst r) (snd r) (npoints t) else Ok (linspace (fst r) (snd r) (npoints t)));
                     do cs <- curves_all pdf cdf x sam ncdf kinds;
                     Ok (islog, cs))
          end
      end
  end.

(** base.py:447-453 — _update_internal_parameters, as called by the setters of DPn and
    PDI (592-595, 670-673): the cached range is dropped.  [d] is the range for the new parameters. *)
Definition update_parameters (h : heap) (i : nat) (d : R * R) : heap :=
  hset h i (mkO (o_analytic (h i)) (o_M0 (h i)) d None).

(** [n] successive plots of the same kind *)
Fixpoint plots (pdf cdf : nat -> bool -> R -> R) (n : nat) (h : heap) (t : target) (kind sizeasmass : karg) (xscale : string) (ncdf : nat) : heap :=
  match n with
  | O => h
  | S m => fst (plot pdf cdf (plots pdf cdf m h t kind sizeasmass xscale ncdf) t kind sizeasmass xscale None ncdf)
  end.

(** Results of __iter__: a dictionary (its keys), or an iterator. *)
Inductive iterres := IDict (keys : list nat) | IIter (items : list nat).
(** base.py:745-746 — MixtureDistribution.__iter__ returns the dictionary itself *)
Definition mix_iter (ids : list nat) : iterres := IDict ids.
(** [for d in obj], where [obj.__iter__()] gave [r]: the interpreter requires an iterator *)
Definition for_in (r : iterres) : res (list nat) :=
  match r with IIter l => Ok l | IDict _ => Err TypeError end.
(** base.py:812, 820, 828, 839, 848, 849 — [for d in self.__iter__()]: the returned
    dictionary is itself iterated, over its keys *)
Definition for_in_iter (r : iterres) : list nat :=
  match r with IIter l => l | IDict ks => ks end.
(** base.py:748-749 — __contains__ (keys compare by identity) *)
Definition mix_contains (ids : list nat) (i : nat) : bool := existsb (Nat.eqb i) ids.
(** base.py:757-758 — __bool__ *)
Definition mix_bool (ids : list nat) : bool := negb (Nat.eqb (List.length ids) 0).
