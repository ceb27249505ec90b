(** Model of the module-level caches of math/special.py (functools.cache on roots_xtanx and roots_xcotx) and of
    the arrays they share with every caller, and of the conversion of arguments in utils/math.py with the
    constructors of the equations of state which use it. *)
From Coq Require Import Reals List Bool Arith.
From Verif Require Import Prelude RootsModel HmtModel UtilsModel.
Import ListNotations.
Open Scope R_scope.

(** special.py:74 and 131 — the two decorated functions *)
Inductive rfun := FTan | FCot.
(** special.py:74-75, 131-132 — key of functools.cache: the function and its arguments as written in the call.  [ck_a =
    None] is inf; [ck_tol = None] is a call which leaves tolx at its default, which is an entry of its own.
    Simplification: keyword spellings of the same argument (further keys) are not distinguished, and nan arguments
    are left out. *)
Record rkey := mkKey { ck_fn : rfun; ck_a : option R; ck_N : nat; ck_tol : option R }.
Definition opt_eqb (a b : option R) : bool :=
  match a, b with None, None => true | Some x, Some y => Reqb x y | _, _ => false end.
Definition fn_eqb (f g : rfun) : bool := match f, g with FTan, FTan | FCot, FCot => true | _, _ => false end.
(** equality of two keys *)
Definition key_eqb (k k' : rkey) : bool :=
  fn_eqb (ck_fn k) (ck_fn k') && opt_eqb (ck_a k) (ck_a k') && Nat.eqb (ck_N k) (ck_N k') && opt_eqb (ck_tol k) (ck_tol k').
(** special.py:75, 132 — tolx: float = 1e-6 *)
Definition key_tol (k : rkey) : R := match ck_tol k with Some t => t | None => 1 / 10 ^ 6 end.
Definition key_root (k : rkey) (i : nat) : res R :=
  match ck_fn k with FTan => roots_xtanx (ck_a k) i (key_tol k) | FCot => roots_xcotx (ck_a k) i (key_tol k) end.
(** special.py:98-128, 154-184 — the loops over the N elements of the result *)
Fixpoint fill (rt : nat -> res R) (i n : nat) : res (list R) :=
  match n with O => Ok [] | S n' => do x <- rt i; do l <- fill rt (S i) n'; Ok (x :: l) end.
(** the undecorated functions *)
Definition roots_plain (k : rkey) : res (list R) := fill (key_root k) 0 (ck_N k).

(** the cache (key, array) and the arrays handed out; an array is the position of its contents in [cs_heap] *)
Record cstate := mkC { cs_memo : list (rkey * nat); cs_heap : list (list R) }.
Fixpoint clookup (k : rkey) (m : list (rkey * nat)) : option nat :=
  match m with [] => None | (k', l) :: m' => if key_eqb k k' then Some l else clookup k m' end.
Definition arr (s : cstate) (l : nat) : list R := nth l (cs_heap s) [].
(** special.py:74, 131 — a call of the decorated function: a stored array is returned itself, not a copy; an
    exception is not stored *)
Definition cached_roots (k : rkey) (s : cstate) : res nat * cstate :=
  match clookup k (cs_memo s) with
  | Some l => (Ok l, s)
  | None => match roots_plain k with
            | Ok v => (Ok (List.length (cs_heap s)), mkC ((k, List.length (cs_heap s)) :: cs_memo s) (cs_heap s ++ [v]))
            | Err e => (Err e, s)
            end
  end.
(** the caller assigns to an element of an array it holds (x[i] = v).  Simplification: an index outside of the array
    (IndexError) leaves everything as it is. *)
Fixpoint set_nth {A} (l : list A) (i : nat) (v : A) : list A :=
  match l, i with [], _ => [] | _ :: r, O => v :: r | x :: r, S i' => x :: set_nth r i' v end.
Definition cwrite (l i : nat) (v : R) (s : cstate) : cstate := mkC (cs_memo s) (set_nth (cs_heap s) l (set_nth (arr s l) i v)).
(** diffusion.py:432-441 — uptake_convection_sheet, through the cache; 500-509 — uptake_convection_sphere *)
Definition sheet_key (Bi : R) : rkey := mkKey FTan (Some Bi) 4 None.
(** diffusion.py:503 *)
Definition sphere_key (Bi : R) : rkey := mkKey FCot (Some Bi) 4 None.
Definition sheet_c (Fo Bi : R) (s : cstate) : res R * cstate :=
  if negb (Reqb Fo 0) && negb (Reqb Bi 0) then
    match cached_roots (sheet_key Bi) s with
    | (Ok l, s') => (Ok (uptake_conv_sheet (fun n => nth n (arr s' l) 0) Fo Bi), s')
    | (Err e, s') => (Err e, s')
    end
  else (Ok 0, s).
(** diffusion.py:500-509 *)
Definition sphere_c (Fo Bi : R) (s : cstate) : res R * cstate :=
  if negb (Reqb Fo 0) && negb (Reqb Bi 0) then
    match cached_roots (sphere_key Bi) s with
    | (Ok l, s') => (Ok (uptake_conv_sphere (fun n => nth n (arr s' l) 0) Fo Bi), s')
    | (Err e, s') => (Err e, s')
    end
  else (Ok 0, s).

(** what a program does with these functions, and what it sees: the array with the contents it had when it was
    returned, or the number *)
Inductive cop := OCall (k : rkey) | OWrite (l i : nat) (v : R) | OSheet (Fo Bi : R) | OSphere (Fo Bi : R).
Inductive cout := VArr (r : res (nat * list R)) | VNum (r : res R) | VNone.
Definition cstep (o : cop) (s : cstate) : cout * cstate :=
  match o with
  | OCall k => match cached_roots k s with
               | (Ok l, s') => (VArr (Ok (l, arr s' l)), s')
               | (Err e, s') => (VArr (Err e), s')
               end
  | OWrite l i v => (VNone, cwrite l i v s)
  | OSheet Fo Bi => let (r, s') := sheet_c Fo Bi s in (VNum r, s')
  | OSphere Fo Bi => let (r, s') := sphere_c Fo Bi s in (VNum r, s')
  end.
Fixpoint crun (h : list cop) (s : cstate) : list cout * cstate :=
  match h with
  | [] => ([], s)
  | o :: h' => let (v, s1) := cstep o s in let (vs, s2) := crun h' s1 in (v :: vs, s2)
  end.
(** a fresh interpreter *)
Definition cinit : cstate := mkC [] [].

(* ------------------------------------------------------------------ *)
(** * Conversion of arguments and the constructors of the EoS         *)
(* ------------------------------------------------------------------ *)

(** a numpy array of floats *)
Record nd := mkNd { nd_shape : shape; nd_data : list R }.
(** the arrays of a program; an array object is its position *)
Definition ndheap := list nd.
Definition nd_at (h : ndheap) (l : nat) : nd := nth l h (mkNd [] [0]).
(** an argument: a number, a list or tuple of numbers, or an array the caller holds.  Simplification: nested sequences
    and objects which numpy cannot convert are left out. *)
Inductive varg := AScalar (x : R) | ASeq (l : list R) | AArray (l : nat).
(** math.py:115-120 — one item of convert_FloatOrVectorLike_to_FloatVector: a number becomes a tuple, a sequence a new
    array, an array is taken as it is *)
Definition conv_item (a : varg) (h : ndheap) : nat * ndheap :=
  match a with
  | AScalar x => (List.length h, h ++ [mkNd [1%nat] [x]])
  | ASeq l => (List.length h, h ++ [mkNd [List.length l] l])
  | AArray l => (l, h)
  end.
Fixpoint conv_items (a : list varg) (h : ndheap) : list nat * ndheap :=
  match a with [] => ([], h) | x :: r => let (l, h1) := conv_item x h in let (ls, h2) := conv_items r h1 in (l :: ls, h2) end.
(** math.py:108-123 — convert_FloatOrVectorLike_to_FloatVector *)
Definition to_vectors (a : list varg) (equal_shapes : bool) (h : ndheap) : res (list nat) * ndheap :=
  let (ls, h') := conv_items a h in
  (if equal_shapes then do _ <- check_shapes (map (fun l => nd_shape (nd_at h' l)) ls) []; Ok ls else Ok ls, h').
(** len() of an array *)
Definition nd_len (a : nd) : res nat := match nd_shape a with [] => Err TypeError | n :: _ => Ok n end.
(** base.py:27-29, cubic.py:93-98, virial.py:76-81 — the object: the number of components, the arrays of the parameters
    (Tc, Pc, w, or Tc, Pc, Zc, w) and the array k *)
Record eosobj := mkEos { eo_N : nat; eo_par : list nat; eo_k : option nat }.
Definition eos_init (pars : list varg) (k : option nat) (h : ndheap) : res eosobj * ndheap :=
  match to_vectors pars true h with
  | (Err e, h') => (Err e, h')
  | (Ok ls, h') => (do n <- nd_len (nd_at h' (hd 0%nat ls)); Ok (mkEos n ls k), h')
  end.
(** cubic.py:82-98 — CubicEoS, and with it Soave (516-522) and PengRobinson (585-592) *)
Definition cubic_init (Tc Pc w : varg) (k : option nat) (h : ndheap) := eos_init [Tc; Pc; w] k h.
(** cubic.py:446-454 — RedlichKwong: w = np.zeros_like(Tc) for iterables (arrays of any dimension among them), else 0.0 *)
Definition rk_init (Tc Pc : varg) (k : option nat) (h : ndheap) : res eosobj * ndheap :=
  match Tc with
  | AScalar _ => cubic_init Tc Pc (AScalar 0) k h
  | ASeq l => cubic_init Tc Pc (AArray (List.length h)) k (h ++ [mkNd [List.length l] (map (fun _ => 0) l)])
  | AArray t => cubic_init Tc Pc (AArray (List.length h)) k (h ++ [mkNd (nd_shape (nd_at h t)) (map (fun _ => 0) (nd_data (nd_at h t)))])
  end.
(** virial.py:65-81 — Virial *)
Definition virial_init (Tc Pc Zc w : varg) (h : ndheap) := eos_init [Tc; Pc; Zc; w] None h.
(** an element of an array is assigned by whoever holds it *)
Definition nd_write (l i : nat) (v : R) (h : ndheap) : ndheap :=
  set_nth h l (mkNd (nd_shape (nd_at h l)) (set_nth (nd_data (nd_at h l)) i v)).
(** an element of parameter p (0: Tc, 1: Pc, ...), as read through the object *)
Definition eo_elem (o : eosobj) (p i : nat) (h : ndheap) : R := nth i (nd_data (nd_at h (nth p (eo_par o) 0%nat))) 0.
(** mixing_rules.py:89-95 — the elements of k which geometric_interaction_mixing reads for a mixture of N components;
    [r], [c] are the numbers of rows and columns of k (two-dimensional), an element outside of it raises IndexError *)
Definition k_reads (N : nat) : list (nat * nat) :=
  concat (map (fun i => map (fun j => (i, j)) (seq (S i) (N - S i))) (seq 0 N)).
(** mixing_rules.py:94 *)
Definition am_shape (N r c : nat) : res unit :=
  if forallb (fun ij => Nat.ltb (fst ij) r && Nat.ltb (snd ij) c) (k_reads N) then Ok tt else Err IndexError.
