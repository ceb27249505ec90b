(** src/polykin/thermo/acm: activity models (NRTL, Wilson, UNIQUAC, Flory-Huggins), their
    constructors (which write to caller-owned numpy arrays) and their per-instance caches. *)
From Coq Require Import Reals Lra Lia List Bool Arith.
From Verif Require Import Prelude KinModel RootsModel.
Import ListNotations.
Open Scope R_scope.

Definition mat := nat -> nat -> R.

(* ------------------------------------------------------------------ *)
(** * Formulae                                                        *)
(* ------------------------------------------------------------------ *)

(** nrtl.py:235, 182 — G = exp(-alpha * tau) *)
Definition NRTL_G (tau alpha : mat) : mat := fun i j => exp (- alpha i j * tau i j).
(** nrtl.py:247-248 — A = dot(x, tau*G), B = dot(x, G) (row vector times matrix) *)
Definition NRTL_A (N : nat) (x : nat -> R) (tau alpha : mat) (i : nat) : R :=
  sumn N (fun j => x j * (tau j i * NRTL_G tau alpha j i)).
(** nrtl.py:247-248 *)
Definition NRTL_B (N : nat) (x : nat -> R) (tau alpha : mat) (i : nat) : R :=
  sumn N (fun j => x j * NRTL_G tau alpha j i).
(** nrtl.py:191-251 — NRTL_gamma *)
Definition NRTL_gamma (N : nat) (x : nat -> R) (tau alpha : mat) (i : nat) : R :=
  let G := NRTL_G tau alpha in
  let A := NRTL_A N x tau alpha in
  let B := NRTL_B N x tau alpha in
  let C := sumn N (fun j => tau i j * G i j * (x j / B j)) - sumn N (fun j => G i j * (x j * A j / (B j) ^ 2)) in
  exp (A i / B i + C).
(** nrtl.py:179-185 — NRTL.gE, with the matrices tau(T), alpha(T) as arguments *)
Definition NRTL_gE (N : nat) (T : R) (x : nat -> R) (tau alpha : mat) : R :=
  Rgas * T * sumn N (fun i => x i * (NRTL_A N x tau alpha i / NRTL_B N x tau alpha i)).
(** nrtl.py:144-159, 162-177 — alpha(T), tau(T) from the stored matrices *)
Definition NRTL_alpha (c d : mat) (T : R) : mat := fun i j => c i j + d i j * (T - 27315 / 100).
(** nrtl.py:177 *)
Definition NRTL_tau (a b e f : mat) (T : R) : mat := fun i j => a i j + b i j / T + e i j * ln T + f i j * T.

(** wilson.py:137-175 — Wilson_gamma; 130-131 — Wilson.gE; 113-128 — Lambda(T) *)
Definition Wilson_A (N : nat) (x : nat -> R) (L : mat) (i : nat) : R := sumn N (fun j => L i j * x j).
(** wilson.py:137-175 *)
Definition Wilson_gamma (N : nat) (x : nat -> R) (L : mat) (i : nat) : R :=
  exp (1 - sumn N (fun j => x j / Wilson_A N x L j * L j i)) / Wilson_A N x L i.
(** wilson.py:130-131 *)
Definition Wilson_gE (N : nat) (T : R) (x : nat -> R) (L : mat) : R :=
  - Rgas * T * sumn N (fun i => x i * ln (Wilson_A N x L i)).
(** wilson.py:128, uniquac.py:157 *)
Definition exp_par (a b c d : mat) (T : R) : mat := fun i j => exp (a i j + b i j / T + c i j * ln T + d i j * T).

(** uniquac.py:178-243 — UNIQUAC_gamma *)
Definition UNIQUAC_gamma (N : nat) (x q r : nat -> R) (tau : mat) (i : nat) : R :=
  let J := fun i => r i / sumn N (fun j => x j * r j) in
  let L := fun i => q i / sumn N (fun j => x j * q j) in
  let theta := fun i => x i * L i in
  let s := fun i => sumn N (fun j => theta j * tau j i) in
  J i * exp (1 - J i + q i * (1 - ln (s i) - sumn N (fun j => tau i j * (theta j / s j)) - 5 * (1 - J i / L i + ln (J i / L i)))).
(** uniquac.py:159-172 — UNIQUAC.gE; the boolean mask p selects x > 0 *)
Definition UNIQUAC_gE (N : nat) (T : R) (x q r : nat -> R) (tau : mat) : R :=
  let phi := fun i => x i * r i / sumn N (fun j => x j * r j) in
  let theta := fun i => x i * q i / sumn N (fun j => x j * q j) in
  let gC := sumn N (fun i => if Rltb 0 (x i) then x i * (ln (phi i / x i) + 5 * q i * ln (theta i / phi i)) else 0) in
  let gR := - sumn N (fun i => if Rltb 0 (x i) then q i * x i * ln (sumn N (fun j => theta j * tau j i)) else 0) in
  Rgas * T * (gC + gR).

(** floryhuggins.py:261-322 — FloryHuggins_activity (= polynrtl.py:240-297 PolyNRTL_a);
    325-388 — FloryHuggins2_activity; 148-175 — Dgmix; 129-146 — chi(T) *)
Definition FH_quad (N : nat) (phi : nat -> R) (chi : mat) : R := sumn N (fun i => phi i * sumn N (fun j => phi j * chi j i)).
(** floryhuggins.py:319-322 *)
Definition FH_activity (N : nat) (phi m : nat -> R) (chi : mat) (i : nat) : R :=
  let A := sumn N (fun j => phi j * (1 / m j)) in
  let B := sumn N (fun j => chi i j * phi j) in
  let C := 1 / 2 * FH_quad N phi chi in
  phi i * exp (1 - m i * (A - B + C)).
(** floryhuggins.py:387-388 *)
Definition FH2_activity (phi1 m chi : R) : R :=
  let phi2 := 1 - phi1 in phi1 * exp ((1 - 1 / m) * phi2 + chi * phi2 ^ 2).
(** floryhuggins.py:172-174 *)
Definition FH_comb (N : nat) (phi m : nat -> R) : R :=
  sumn N (fun i => if Rltb 0 (phi i) then phi i / m i * ln (phi i) else 0).
(** floryhuggins.py:172-175 *)
Definition FH_Dgmix (N : nat) (T : R) (phi m : nat -> R) (chi : mat) : R :=
  Rgas * T * (FH_comb N phi m + 1 / 2 * FH_quad N phi chi).
(** floryhuggins.py:146 *)
Definition FH_chi (a b c d e : mat) (T : R) : mat :=
  fun i j => a i j + b i j / T + c i j * ln T + d i j * T + e i j * T ^ 2.

(** base.py:30-48 — _Dsmix_ideal; 54-147 — mixing functions in terms of gE and sE *)
Definition Dsmix_ideal (N : nat) (x : nat -> R) : R := - Rgas * sumn N (fun i => if Rltb 0 (x i) then x i * ln (x i) else 0).
(** base.py:54-147 *)
Record mixfun := mkMix { mx_gE : R; mx_sE : R; mx_hE : R; mx_Dg : R; mx_Dh : R; mx_Ds : R }.
(** base.py:71, 90, 109, 128 *)
Definition mixing (N : nat) (T : R) (x : nat -> R) (gE sE : R) : mixfun :=
  let hE := gE + T * sE in
  mkMix gE sE hE (gE - T * Dsmix_ideal N x) hE (sE + Dsmix_ideal N x).

(* ------------------------------------------------------------------ *)
(** * Complex temperatures (derivative_complex)                       *)
(* ------------------------------------------------------------------ *)

(** numpy complex scalars as pairs; exp and log as in numpy (principal branch for positive
    real part, which is the only case that occurs for T > 0). *)
Definition cx : Type := (R * R)%type.
Definition cre (a : R) : cx := (a, 0).
Definition cadd (u v : cx) : cx := (fst u + fst v, snd u + snd v).
Definition cmul (u v : cx) : cx := (fst u * fst v - snd u * snd v, fst u * snd v + snd u * fst v).
Definition cscal (a : R) (u : cx) : cx := (a * fst u, a * snd u).
Definition cdiv (u v : cx) : cx :=
  let q := fst v ^ 2 + snd v ^ 2 in
  ((fst u * fst v + snd u * snd v) / q, (snd u * fst v - fst u * snd v) / q).
Definition cln (u : cx) : cx := (ln (sqrt (fst u ^ 2 + snd u ^ 2)), atan (snd u / fst u)).
Definition cexp (u : cx) : cx := (exp (fst u) * cos (snd u), exp (fst u) * sin (snd u)).
Definition csum (N : nat) (f : nat -> cx) : cx := (sumn N (fun i => fst (f i)), sumn N (fun i => snd (f i))).
Definition cpow2 (u : cx) : cx := cmul u u.

(** tau(T) / ln Lambda(T) / chi(T) at a complex temperature *)
Definition ctau (a b e f : mat) (T : cx) (i j : nat) : cx :=
  cadd (cadd (cadd (cre (a i j)) (cdiv (cre (b i j)) T)) (cscal (e i j) (cln T))) (cscal (f i j) T).
(** nrtl.py:159 *)
Definition calpha (c d : mat) (T : cx) (i j : nat) : cx := cadd (cre (c i j)) (cscal (d i j) (cadd T (cre (- (27315 / 100))))).
(** floryhuggins.py:146 *)
Definition cchi (a b c d e : mat) (T : cx) (i j : nat) : cx := cadd (ctau a b c d T i j) (cscal (e i j) (cpow2 T)).

(** nrtl.py:179-185, wilson.py:130-131, floryhuggins.py:148-175 evaluated at a complex T, as done
    by derivative_complex in base.py:147 and floryhuggins.py:232 *)
Definition NRTL_gEc (N : nat) (x : nat -> R) (a b c d e f : mat) (T : cx) : cx :=
  let tau := ctau a b e f T in
  let G := fun i j => cexp (cscal (-1) (cmul (calpha c d T i j) (tau i j))) in
  let A := fun i => csum N (fun j => cscal (x j) (cmul (tau j i) (G j i))) in
  let B := fun i => csum N (fun j => cscal (x j) (G j i)) in
  cmul (cscal Rgas T) (csum N (fun i => cscal (x i) (cdiv (A i) (B i)))).
(** wilson.py:131 *)
Definition Wilson_gEc (N : nat) (x : nat -> R) (a b c d : mat) (T : cx) : cx :=
  let L := fun i j => cexp (ctau a b c d T i j) in
  cmul (cscal (- Rgas) T) (csum N (fun i => cscal (x i) (cln (csum N (fun j => cscal (x j) (L i j)))))).
(** uniquac.py:159-172 at a complex T: only tau depends on T *)
Definition UNIQUAC_gEc (N : nat) (x q r : nat -> R) (a b c d : mat) (T : cx) : cx :=
  let phi := fun i => x i * r i / sumn N (fun j => x j * r j) in
  let theta := fun i => x i * q i / sumn N (fun j => x j * q j) in
  let gC := sumn N (fun i => if Rltb 0 (x i) then x i * (ln (phi i / x i) + 5 * q i * ln (theta i / phi i)) else 0) in
  let tau := fun i j => cexp (ctau a b c d T i j) in
  let gR := csum N (fun i => if Rltb 0 (x i) then cscal (q i * x i) (cln (csum N (fun j => cscal (theta j) (tau j i)))) else cre 0) in
  cmul (cscal Rgas T) (cadd (cre gC) (cscal (-1) gR)).
(** floryhuggins.py:172-175 *)
Definition FH_Dgmixc (N : nat) (phi m : nat -> R) (a b c d e : mat) (T : cx) : cx :=
  let gR := cscal (1 / 2) (csum N (fun i => cscal (phi i) (csum N (fun j => cscal (phi j) (cchi a b c d e T j i))))) in
  cmul (cscal Rgas T) (cadd (cre (FH_comb N phi m)) gR).
(** ndiff.py:71-72 with h = eps: real and imaginary part *)
Definition cstep (f : cx -> cx) (T : R) : R := snd (f (T, eps)) / eps.
(** base.py:147 — sE; floryhuggins.py:232, 203 — Dsmix, Dhmix *)
Definition NRTL_sE (N : nat) (T : R) (x : nat -> R) (a b c d e f : mat) : R := - cstep (NRTL_gEc N x a b c d e f) T.
(** base.py:147 *)
Definition Wilson_sE (N : nat) (T : R) (x : nat -> R) (a b c d : mat) : R := - cstep (Wilson_gEc N x a b c d) T.
(** base.py:147 *)
Definition UNIQUAC_sE (N : nat) (T : R) (x q r : nat -> R) (a b c d : mat) : R := - cstep (UNIQUAC_gEc N x q r a b c d) T.
(** floryhuggins.py:232 *)
Definition FH_Dsmix (N : nat) (T : R) (phi m : nat -> R) (a b c d e : mat) : R := - cstep (FH_Dgmixc N phi m a b c d e) T.
(** floryhuggins.py:203 *)
Definition FH_Dhmix (N : nat) (T : R) (phi m : nat -> R) (a b c d e : mat) : R :=
  FH_Dgmix N T phi m (FH_chi a b c d e T) + T * FH_Dsmix N T phi m a b c d e.

(* ------------------------------------------------------------------ *)
(** * Arrays on a heap, constructors, caches                          *)
(* ------------------------------------------------------------------ *)

(** A numpy matrix: its shape and its entries.  The heap maps addresses to matrices; two
    variables holding the same array hold the same address. *)
Record arr := mkArr { a_shape : nat * nat; a_dat : mat }.
Record heap := mkHeap { h_arr : nat -> arr; h_next : nat }.
Definition alloc (h : heap) (v : arr) : nat * heap :=
  (h_next h, mkHeap (upd (h_arr h) (h_next h) v) (S (h_next h))).
Definition store (h : heap) (p : nat) (v : mat) : heap :=
  mkHeap (upd (h_arr h) p (mkArr (a_shape (h_arr h p)) v)) (h_next h).
Definition dat (h : heap) (p : nat) : mat := a_dat (h_arr h p).

(** numpy.fill_diagonal(m, 0.0) *)
Definition zero_diag (m : mat) : mat := fun i j => if Nat.eqb i j then 0 else m i j.
(** utils/math.py:125-138 — enforce_symmetry: the strict lower triangle gets the transpose *)
Definition symm (m : mat) : mat := fun i j => if Nat.ltb j i then m j i else m i j.

(** One constructor argument: default value, bounds (None: not checked), symmetrised or not. *)
Record pspec := mkP { p_def : R; p_bnd : option (R * R); p_sym : bool }.

(** nrtl.py:99-111 (wilson.py:81-89, uniquac.py:101-109, floryhuggins.py:90-100) — defaults:
    a fresh matrix per missing argument; supplied matrices are used as they are (no copy). *)
Fixpoint defaults (N : nat) (l : list (pspec * option nat)) (h : heap) : list (pspec * nat) * heap :=
  match l with
  | [] => ([], h)
  | (s, Some p) :: l' => let '(r, h') := defaults N l' h in ((s, p) :: r, h')
  | (s, None) :: l' =>
      let '(p, h1) := alloc h (mkArr (N, N) (fun _ _ => p_def s)) in
      let '(r, h') := defaults N l' h1 in ((s, p) :: r, h')
  end.

(** all entries of an N x N matrix satisfy a test *)
Definition allm (N : nat) (t : R -> bool) (m : mat) : bool :=
  forallb (fun i => forallb (fun j => t (m i j)) (seq 0 N)) (seq 0 N).
(** nrtl.py:113-118 (check_shapes) *)
Definition shape_ok (N : nat) (h : heap) (q : pspec * nat) : bool :=
  let s := a_shape (h_arr h (snd q)) in Nat.eqb (fst s) N && Nat.eqb (snd s) N.
(** nrtl.py:120-124 (check_bounds) *)
Definition bounds_ok (N : nat) (h : heap) (q : pspec * nat) : bool :=
  match p_bnd (fst q) with
  | None => true
  | Some (lo, hi) => allm N (fun v => Rleb lo v && Rleb v hi) (dat h (snd q))
  end.

(** nrtl.py:126-133 (wilson.py:102-104, uniquac.py:129-131, floryhuggins.py:116-119) — in-place
    zeroing of the diagonals, then in-place symmetrisation. *)
Definition fix_one (h : heap) (q : pspec * nat) : heap :=
  let h1 := store h (snd q) (zero_diag (dat h (snd q))) in
  if p_sym (fst q) then store h1 (snd q) (symm (dat h1 (snd q))) else h1.

(** The common constructor.  Simplification: out-of-bounds matrices raise ValueError
    (RangeError for a 1 x 1 matrix), see check_bounds in UtilsModel. *)
Definition acm_init (N : nat) (l : list (pspec * option nat)) (h : heap) : res (list nat * heap) :=
  let '(q, h1) := defaults N l h in
  if forallb (shape_ok N h1) q then
    if forallb (bounds_ok N h1) q then
      Ok (map snd q, fold_left fix_one (filter (fun s => negb (p_sym (fst s))) q ++ filter (fun s => p_sym (fst s)) q) h1)
    else Err (if Nat.eqb N 1 then RangeError else ValueError)
  else Err ShapeError.

(** nrtl.py:87-141 — arguments in the order a, b, c, d, e, f *)
Definition NRTL_specs : list pspec :=
  [mkP 0 (Some (-100, 100)) false; mkP 0 (Some (-30000, 30000)) false; mkP (3 / 10) (Some (0, 1)) true;
   mkP 0 (Some (- (2 / 100), 2 / 100)) true; mkP 0 None false; mkP 0 None false].
(** nrtl.py:87-141 *)
Definition NRTL_init (N : nat) (args : list (option nat)) (h : heap) := acm_init N (combine NRTL_specs args) h.
(** wilson.py:71-110, uniquac.py:89-139 — a, b, c, d *)
Definition Wilson_specs : list pspec :=
  [mkP 0 (Some (-50, 50)) false; mkP 0 (Some (-15000, 15000)) false; mkP 0 None false; mkP 0 None false].
Definition Wilson_init (N : nat) (args : list (option nat)) (h : heap) := acm_init N (combine Wilson_specs args) h.
(** floryhuggins.py:80-126 — a, b, c, d, e *)
Definition FH_specs : list pspec :=
  mkP 0 (Some (-100, 100)) true :: repeat (mkP 0 (Some (-1000000, 1000000)) true) 4.
(** floryhuggins.py:80-126 *)
Definition FH_init (N : nat) (args : list (option nat)) (h : heap) := acm_init N (combine FH_specs args) h.

(** functools.cache on the matrix-valued methods (nrtl.py:143-177, wilson.py:112, uniquac.py:141,
    floryhuggins.py:128): the cache holds references, and the caller receives the cached array. *)
Record obj := mkObj { o_heap : heap; o_cache : list (nat * R * nat) }.
Fixpoint lookup (k : nat) (T : R) (c : list (nat * R * nat)) : option nat :=
  match c with
  | [] => None
  | (k', T', p) :: c' => if Nat.eqb k k' && Reqb T T' then Some p else lookup k T c'
  end.
(** [form k ms T]: method number k computed from the current contents of the parameter arrays *)
Definition query (form : nat -> list mat -> R -> mat) (N : nat) (refs : list nat) (k : nat) (T : R) (s : obj) : nat * obj :=
  match lookup k T (o_cache s) with
  | Some p => (p, s)
  | None =>
      let '(p, h) := alloc (o_heap s) (mkArr (N, N) (form k (map (dat (o_heap s)) refs) T)) in
      (p, mkObj h ((k, T, p) :: o_cache s))
  end.
(** What the surrounding program can do: query a matrix, or assign one entry of an array it holds. *)
Inductive op := OQuery (k : nat) (T : R) | OWrite (p i j : nat) (v : R).
Definition set_entry (m : mat) (i j : nat) (v : R) : mat := upd m i (upd (m i) j v).
Fixpoint run (form : nat -> list mat -> R -> mat) (N : nat) (refs : list nat) (l : list op) (s : obj)
  : list (nat * R * mat) * obj :=
  match l with
  | [] => ([], s)
  | OWrite p i j v :: l' => run form N refs l' (mkObj (store (o_heap s) p (set_entry (dat (o_heap s) p) i j v)) (o_cache s))
  | OQuery k T :: l' =>
      let '(p, s1) := query form N refs k T s in
      let '(r, s2) := run form N refs l' s1 in
      ((k, T, dat (o_heap s1) p) :: r, s2)
  end.

Definition nthm (l : list mat) (i : nat) : mat := nth i l (fun _ _ => 0).
(** methods: 0 = tau, 1 = alpha *)
Definition NRTL_form (k : nat) (l : list mat) (T : R) : mat :=
  match k with
  | O => NRTL_tau (nthm l 0) (nthm l 1) (nthm l 4) (nthm l 5) T
  | _ => NRTL_alpha (nthm l 2) (nthm l 3) T
  end.
(** wilson.py:112-128, uniquac.py:141-157 *)
Definition Wilson_form (_ : nat) (l : list mat) (T : R) : mat := exp_par (nthm l 0) (nthm l 1) (nthm l 2) (nthm l 3) T.
(** floryhuggins.py:128-146 *)
Definition FH_form (_ : nat) (l : list mat) (T : R) : mat := FH_chi (nthm l 0) (nthm l 1) (nthm l 2) (nthm l 3) (nthm l 4) T.

(* ------------------------------------------------------------------ *)
(** * PolymerActivityModel / PolyNRTL                                 *)
(* ------------------------------------------------------------------ *)

(** abc.ABCMeta: a class can be instantiated iff no abstract method is left.  base.py:403,430 declare
    gE and activity abstract; polynrtl.py:21-237 defines gE and gamma only (methods as strings). *)
Definition PolymerActivityModel_abstract : list nat := [0; 1]%nat.     (* 0 = gE, 1 = activity *)
(** polynrtl.py:21-237 *)
Definition PolyNRTL_methods : list nat := [0; 2; 3; 4; 5]%nat.          (* gE, gamma, alpha, tau, _m *)
(** base.py:403, 430 *)
Definition instantiate (abstract methods : list nat) : res unit :=
  if forallb (fun m => existsb (Nat.eqb m) methods) abstract then Ok tt else Err TypeError.

(** numpy shape of an elementwise operation on two vectors; dot of two vectors *)
Definition bcast (n m : nat) : res nat :=
  if Nat.eqb n m then Ok n else if Nat.eqb n 1 then Ok m else if Nat.eqb m 1 then Ok n else Err ValueError.
Definition dotsh (n m : nat) : res unit := if Nat.eqb n m then Ok tt else Err ValueError.
(** assignment m[Ns:] = v needs shape Np (or 1) *)
Definition assignsh (target v : nat) : res unit := if Nat.eqb v target || Nat.eqb v 1 then Ok tt else Err ValueError.
(** polynrtl.py:218-234 with base.py:369-371 — the shapes of the combinatorial part of PolyNRTL.gE for a
    vector DP of length d (documented: d = Np) *)
Definition PolyNRTL_gE_shapes (Ns Np d : nat) : res unit :=
  do nx <- bcast (Ns + Np) d;
  do nm <- bcast Np d;
  do _ <- assignsh Np nm;
  do _ <- dotsh nx (Ns + Np);
  dotsh nx d.
(** base.py:233-234, 292-293 — Dgmix / Dsmix evaluate _Dsmix_ideal(T, 0): indexing an int *)
Definition subscript_int : res R := Err TypeError.
(** base.py:233-234, 292-293 *)
Definition Polymer_Dgmix (T gE : R) : res R := do s <- subscript_int; Ok (gE - T * s).
(** base.py:233-234, 292-293 *)
Definition Polymer_Dsmix (sE : R) : res R := do s <- subscript_int; Ok (sE + s).
(** base.py:353-371 — _convert_xs_to_x (after broadcasting); 373-401 — _convert_xs_to_X *)
Definition xs_to_x (N : nat) (xs DP : nat -> R) : nat -> R :=
  fun i => xs i / DP i / sumn N (fun j => xs j / DP j).
(** base.py:393-401 *)
Definition xs_to_X (Ns Np Nru : nat) (xs : nat -> R) (F : mat) : nat -> R :=
  let X := fun i => if Nat.ltb i Ns then xs i else sumn Np (fun k => xs (Ns + k)%nat * F k (i - Ns)%nat) in
  fun i => X i / sumn (Ns + Nru) X.
