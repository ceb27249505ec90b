(** src/polykin/thermo/eos (ideal gas, virial, cubic equations of state), properties/pvt/mixing_rules.py,
    properties/pvt/virial.py and properties/vaporization/pvap.py (PL_Wilson).
    Compositions and parameters are vectors [nat -> R] with a length N; exact real arithmetic. *)
From Coq Require Import Reals Lra Lia List Bool Arith.
From Verif Require Import Prelude KinModel RootsModel DiffModel FixModel AcmModel.
Import ListNotations.
Open Scope R_scope.

(* ------------------------------------------------------------------ *)
(** * Mixing rules (properties/pvt/mixing_rules.py)                   *)
(* ------------------------------------------------------------------ *)

(** mixing_rules.py:48 — quadratic_mixing: dot(y, dot(y, Q)) *)
Definition quadratic_mixing (N : nat) (y : nat -> R) (Q : mat) : R :=
  sumn N (fun i => y i * sumn N (fun j => y j * Q j i)).

(** mixing_rules.py:86-95 — geometric_interaction_mixing; the loop over i and j in range(i+1, N) *)
Definition geometric_interaction_mixing (N : nat) (y Q : nat -> R) (k : option mat) : R :=
  match k with
  | None => (sumn N (fun i => y i * sqrt (Q i))) ^ 2
  | Some k =>
      sumn N (fun i => (y i) ^ 2 * Q i
        + sumn (N - (i + 1)) (fun d => let j := (i + 1 + d)%nat in 2 * y i * y j * sqrt (Q i * Q j) * (1 - k i j)))
  end.

(** mixing_rules.py:145-156 — pseudocritical_properties (Tc, Pc, vc, Zc, w) *)
Definition pseudocritical_properties (N : nat) (y Tc Pc Zc : nat -> R) (w : option (nat -> R)) : R * R * R * R * R :=
  let Tc_mix := sumn N (fun i => y i * Tc i) in
  let Zc_mix := sumn N (fun i => y i * Zc i) in
  let vc := fun i => Zc i * Rgas * Tc i / Pc i in
  let vc_mix := sumn N (fun i => y i * vc i) in
  let Pc_mix := Rgas * Zc_mix * Tc_mix / vc_mix in
  let w_mix := match w with Some w => sumn N (fun i => y i * w i) | None => - 10 ^ 99 end in
  (Tc_mix, Pc_mix, vc_mix, Zc_mix, w_mix).

(* ------------------------------------------------------------------ *)
(** * Second virial coefficients (properties/pvt/virial.py)           *)
(* ------------------------------------------------------------------ *)

(** virial.py:55-58 — B_pure, for T, Tc > 0 (powers of a positive base) *)
Definition B_pure (T Tc Pc w : R) : R :=
  let Tr := T / Tc in
  let B0 := 83 / 1000 - 422 / 1000 / Rpower Tr (16 / 10) in
  let B1 := 139 / 1000 - 172 / 1000 / Rpower Tr (42 / 10) in
  Rgas * Tc / Pc * (B0 + w * B1).

(** virial.py:115-121 — the cross coefficient of two different components *)
Definition B_cross (T : R) (Tc Pc Zc w : nat -> R) (i j : nat) : R :=
  let vc := fun i => Zc i * Rgas * Tc i / Pc i in
  let vcm := (Rpower (vc i) (1 / 3) + Rpower (vc j) (1 / 3)) ^ 3 / 8 in
  let km := 1 - sqrt (vc i * vc j) / vcm in
  let Tcm := sqrt (Tc i * Tc j) * (1 - km) in
  let Zcm := (Zc i + Zc j) / 2 in
  let wm := (w i + w j) / 2 in
  let Pcm := Zcm * Rgas * Tcm / vcm in
  B_pure T Tcm Pcm wm.

(** virial.py:109-123 — B_mixture: entries on and above the diagonal are computed, the rest copied *)
Definition B_mixture (T : R) (Tc Pc Zc w : nat -> R) : mat := fun i j =>
  if Nat.eqb i j then B_pure T (Tc i) (Pc i) (w i)
  else if Nat.ltb i j then B_cross T Tc Pc Zc w i j else B_cross T Tc Pc Zc w j i.

(* ------------------------------------------------------------------ *)
(** * Ideal gas and virial equation (thermo/eos/idealgas.py, virial.py) *)
(* ------------------------------------------------------------------ *)

(** idealgas.py:38-107 *)
Definition IG_Z : R := 1.
(** idealgas.py:38-107 *)
Definition IG_P (T v : R) : R := Rgas * T / v.
(** idealgas.py:38-107 *)
Definition IG_phi (i : nat) : R := 1.
(** idealgas.py:38-107 *)
Definition IG_DA (N : nat) (T V : R) (n : nat -> R) (v0 : R) : R :=
  let nT := sumn N n in - nT * Rgas * T * ln (V / (nT * v0)).

(** virial.py:83-243 with the matrix Bij(T) as an argument *)
Definition Vir_Bm (N : nat) (B : mat) (y : nat -> R) : R := quadratic_mixing N y B.
(** virial.py:83-243 *)
Definition Vir_Z (N : nat) (B : mat) (T P : R) (y : nat -> R) : R := 1 + Vir_Bm N B y * P / (Rgas * T).
(** virial.py:83-243 *)
Definition Vir_P (N : nat) (B : mat) (T v : R) (y : nat -> R) : R := Rgas * T / (v - Vir_Bm N B y).
(** virial.py:83-243 *)
Definition Vir_phi (N : nat) (B : mat) (T P : R) (y : nat -> R) (i : nat) : R :=
  exp ((2 * sumn N (fun j => B i j * y j) - Vir_Bm N B y) * P / (Rgas * T)).
(** virial.py:83-243 *)
Definition Vir_DA (N : nat) (B : mat) (T V : R) (n : nat -> R) (v0 : R) : R :=
  let nT := sumn N n in
  let y := fun i => n i / nT in
  - nT * Rgas * T * ln ((V - nT * Vir_Bm N B y) / (nT * v0)).
(** base.py:144, 235 — molar volume; 175, 270 — fugacity *)
Definition eos_v (Z T P : R) : R := Z * Rgas * T / P.
(** base.py:175, 270 *)
Definition eos_f (phi : nat -> R) (y : nat -> R) (P : R) (i : nat) : R := phi i * y i * P.

(** base.py:69-95 — EoS.DX, with DA as a function of T and V at the composition y (nt = 1);
    Z is max(Z) for the cubic equations *)
Record dx := mkDX { dx_A : R; dx_G : R; dx_H : R; dx_S : R; dx_U : R }.
(** base.py:69-95 *)
Definition eos_DX (DA : R -> R -> R -> R) (Z T P P0 : R) : dx :=
  let v0 := Rgas * T / P0 in
  let V := Z * Rgas * T / P in
  let dT := 2 * sqrt eps * T in
  let m := DA (T - dT) V v0 in
  let p := DA (T + dT) V v0 in
  let A := (m + p) / 2 in
  let S := - (p - m) / (2 * dT) in
  let U := A + T * S in
  mkDX A (A + Rgas * T * (Z - 1)) (U + Rgas * T * (Z - 1)) S U.

(* ------------------------------------------------------------------ *)
(** * Cubic equations of state (thermo/eos/cubic.py)                  *)
(* ------------------------------------------------------------------ *)

(** The constants of a model, its temperature function and its parameters.
    cubic.py:440-443, 505-508, 578-581 — u, w, Omega_a, Omega_b *)
Record cubic := mkCubic { cu_u : R; cu_w : R; cu_Oa : R; cu_Ob : R }.
(** cubic.py:440-443, 505-508 *)
Definition RK_consts : cubic := mkCubic 1 0 (42748 / 100000) (8664 / 100000).
(** cubic.py:578-581 *)
Definition PR_consts : cubic := mkCubic 2 (-1) (45724 / 100000) (7780 / 100000).

(** cubic.py:456-457, 524-533, 594-598 — alpha(T) of RedlichKwong, SoaveRedlichKwong, PengRobinson *)
Definition RK_alpha (T Tc w : R) : R := sqrt (Tc / T).
(** cubic.py:524-533 *)
Definition SRK_fw (graboski : bool) (w : R) : R :=
  if graboski then 48508 / 100000 + 155171 / 100000 * w - 1561 / 10000 * w ^ 2
  else 48 / 100 + 1574 / 1000 * w - 176 / 1000 * w ^ 2.
(** cubic.py:524-533 *)
Definition SRK_alpha (graboski : bool) (T Tc w : R) : R := (1 + SRK_fw graboski w * (1 - sqrt (T / Tc))) ^ 2.
(** cubic.py:594-598 *)
Definition PR_alpha (T Tc w : R) : R :=
  (1 + (37464 / 100000 + 154226 / 100000 * w - 26992 / 100000 * w ^ 2) * (1 - sqrt (T / Tc))) ^ 2.

(** cubic.py:119 — a(T); 131 — b *)
Definition cu_a (e : cubic) (alpha : R -> R -> R -> R) (Tc Pc w : nat -> R) (T : R) (i : nat) : R :=
  cu_Oa e * (Rgas * Tc i) ^ 2 / Pc i * alpha T (Tc i) (w i).
(** cubic.py:131 *)
Definition cu_b (e : cubic) (Tc Pc : nat -> R) (i : nat) : R := cu_Ob e * Rgas * Tc i / Pc i.

(** cubic.py:133-203 — am, bm, Bm from the vectors a and b *)
Definition cu_am (N : nat) (a : nat -> R) (k : option mat) (z : nat -> R) : R := geometric_interaction_mixing N z a k.
(** cubic.py:158-179 *)
Definition cu_bm (N : nat) (b z : nat -> R) : R := sumn N (fun i => z i * b i).
(** cubic.py:181-203 *)
Definition cu_Bm (am bm T : R) : R := bm - am / (Rgas * T).
(** cubic.py:227-231 — P(T, v) *)
Definition cu_P (e : cubic) (am bm T v : R) : R :=
  Rgas * T / (v - bm) - am / (v ^ 2 + cu_u e * v * bm + cu_w e * bm ^ 2).
(** cubic.py:387-398 — DA *)
Definition cu_d (e : cubic) : R := sqrt (cu_u e ^ 2 - 4 * cu_w e).
(** cubic.py:387-398 *)
Definition cu_DA (e : cubic) (am bm nT T V v0 : R) : R :=
  nT * am / (bm * cu_d e) * ln ((2 * V + nT * bm * (cu_u e - cu_d e)) / (2 * V + nT * bm * (cu_u e + cu_d e)))
  - nT * Rgas * T * ln ((V - nT * bm) / (nT * v0)).

(** cubic.py:646-649 — coefficients of the cubic in Z (c3 = 1) *)
Definition Zc2 (u w A B : R) : R := - (1 + B - u * B).
(** cubic.py:646-649 *)
Definition Zc1 (u w A B : R) : R := A + w * B ^ 2 - u * B - u * B ^ 2.
(** cubic.py:646-649 *)
Definition Zc0 (u w A B : R) : R := - (A * B + w * B ^ 2 + w * B ^ 3).
(** np.roots: an oracle returning the three complex roots with multiplicity.  Simplification: no
    rounding; the roots are the exact ones. *)
Definition roots_oracle := R -> R -> R -> list cx.
Definition roots_spec (orc : roots_oracle) : Prop := forall c2 c1 c0, exists r1 r2 r3,
  orc c2 c1 c0 = [r1; r2; r3] /\
  cadd r1 (cadd r2 r3) = (- c2, 0) /\
  cadd (cmul r1 r2) (cadd (cmul r1 r3) (cmul r2 r3)) = (c1, 0) /\
  cmul r1 (cmul r2 r3) = (- c0, 0).
(** cubic.py:651-658 — Z_cubic_roots; min([]) raises ValueError *)
Definition Z_select (B : R) (l : list cx) : res (list R) :=
  match map fst (filter (fun x => Rltb (Rabs (snd x)) eps && Rltb B (fst x)) l) with
  | [] => Err ValueError
  | r :: rs =>
      let mn := fold_left Rmin rs r in
      Ok (match rs with [] => [mn] | _ => [mn; fold_left Rmax rs r] end)
  end.
(** cubic.py:601-658 *)
Definition Z_cubic_roots (orc : roots_oracle) (u w A B : R) : res (list R) :=
  Z_select B (orc (Zc2 u w A B) (Zc1 u w A B) (Zc0 u w A B)).
(** cubic.py:259-262 — Z(T, P, z) *)
Definition cu_A (am T P : R) : R := am * P / (Rgas * T) ^ 2.
(** cubic.py:259-262 *)
Definition cu_B (bm T P : R) : R := bm * P / (Rgas * T).
(** cubic.py:259-262 *)
Definition cu_Z (orc : roots_oracle) (e : cubic) (am bm T P : R) : res (list R) :=
  Z_cubic_roots orc (cu_u e) (cu_w e) (cu_A am T P) (cu_B bm T P).

(** cubic.py:318-321 — delta: with k given, the row sum over z_j sqrt(a_j) (1 - k_ij) *)
Definition cu_delta (N : nat) (a : nat -> R) (am : R) (k : option mat) (z : nat -> R) (i : nat) : R :=
  match k with
  | None => 2 * sqrt (a i / am)
  | Some k => sumn N (fun j => z j * sqrt (a j) * (1 - k i j))
  end.
(** cubic.py:330-337 — ln phi for a given compressibility factor Zi *)
Definition cu_lnphi (e : cubic) (bi am bm A B Zi delta : R) : R :=
  let u := cu_u e in let d := cu_d e in
  bi / bm * (Zi - 1) - ln (Zi - B)
  + A / (B * d) * (bi / bm - delta) * ln ((2 * Zi + B * (u + d)) / (2 * Zi + B * (u - d))).
(** cubic.py:323-328 — choice of the root *)
Inductive phase := PhL | PhV | PhOther.
(** cubic.py:323-328 *)
Definition pick (ph : phase) (Z : list R) : res R :=
  match ph with PhL => Ok (hd 0 Z) | PhV => Ok (last Z 0) | PhOther => Err ValueError end.
(** cubic.py:264-339 — phi *)
Definition cu_phi (orc : roots_oracle) (e : cubic) (N : nat) (a b : nat -> R) (k : option mat) (T P : R) (z : nat -> R) (ph : phase)
  : res (nat -> R) :=
  let am := cu_am N a k z in
  let bm := cu_bm N b z in
  do Z <- cu_Z orc e am bm T P;
  do Zi <- pick ph Z;
  Ok (fun i => exp (cu_lnphi e (b i) am bm (cu_A am T P) (cu_B bm T P) Zi (cu_delta N a am k z i))).
(** base.py:299-301 — K *)
Definition cu_K (orc : roots_oracle) (e : cubic) (N : nat) (a b : nat -> R) (k : option mat) (T P : R) (x y : nat -> R) : res (nat -> R) :=
  do pv <- cu_phi orc e N a b k T P y PhV;
  do pl <- cu_phi orc e N a b k T P x PhL;
  Ok (fun i => pl i / pv i).

(** pvap.py:173 — PL_Wilson *)
Definition PL_Wilson (T Tc Pc w : R) : R := Pc * exp (5373 / 1000 * (1 + w) * (1 - Tc / T)).

(** cubic.py:341-385 — Psat for a component set of size N; [K x] is the K-value of the pure component at
    pressure x.  Simplification: an exception raised by K inside the iteration is not modelled. *)
Definition cu_Psat (N : nat) (K : R -> R) (T Tc Pc w : R) (Psat0 : option R) (nan : vec) : res R :=
  if negb (Nat.eqb N 1) then Err ValueError
  else if Rleb Tc T then Err ValueError
  else
    let P0 := match Psat0 with Some p => p | None => PL_Wilson T Tc Pc w end in
    do sol <- snd (fixpoint_wegstein 1 (fun x i => x i * K (x 0%nat)) (fun _ => P0) None (/ 10 ^ 6) 1 (-5) 0 50 nan);
    if v_success sol then Ok (v_x sol 0%nat) else Err ConvergenceError.

(* ------------------------------------------------------------------ *)
(** * Caches of the equation-of-state objects                         *)
(* ------------------------------------------------------------------ *)

(** cubic.py:104-131 — a(T) under functools.cache (one entry per temperature), b under cached_property;
    virial.py:111-130 — Bij(T) under functools.cache.  [attrs] are the public attributes (Tc, Pc, w, Zc). *)
Record eobj {A : Type} := mkE { e_attrs : A; e_cacheT : list (R * (nat -> nat -> R)); e_cache0 : option (nat -> R) }.
Arguments eobj : clear implicits.
Arguments mkE {A}.
Inductive eop {A : Type} := ESet (v : A) | EQueryT (T : R) | EQuery0.
Arguments eop : clear implicits.
Fixpoint elookup {X} (T : R) (l : list (R * X)) : option X :=
  match l with [] => None | (T', v) :: l' => if Reqb T T' then Some v else elookup T l' end.
(** results of a history: the T-dependent queries and the constant queries, with the attributes in force *)
Inductive eres {A : Type} := RT (T : R) (cur : A) (v : nat -> nat -> R) | R0 (cur : A) (v : nat -> R).
Arguments eres : clear implicits.
Fixpoint erun {A} (fT : A -> R -> nat -> nat -> R) (f0 : A -> nat -> R) (l : list (eop A)) (s : eobj A) : list (eres A) :=
  match l with
  | [] => []
  | ESet v :: l' => erun fT f0 l' (mkE v (e_cacheT s) (e_cache0 s))
  | EQueryT T :: l' =>
      match elookup T (e_cacheT s) with
      | Some v => RT T (e_attrs s) v :: erun fT f0 l' s
      | None => let v := fT (e_attrs s) T in RT T (e_attrs s) v :: erun fT f0 l' (mkE (e_attrs s) ((T, v) :: e_cacheT s) (e_cache0 s))
      end
  | EQuery0 :: l' =>
      match e_cache0 s with
      | Some v => R0 (e_attrs s) v :: erun fT f0 l' s
      | None => let v := f0 (e_attrs s) in R0 (e_attrs s) v :: erun fT f0 l' (mkE (e_attrs s) (e_cacheT s) (Some v))
      end
  end.
(** instances: attributes (Tc, Pc, w) of a cubic EoS, (Tc, Pc, Zc, w) of Virial *)
Definition cubic_aT (e : cubic) (alpha : R -> R -> R -> R) (s : (nat -> R) * (nat -> R) * (nat -> R)) (T : R) (i _ : nat) : R :=
  cu_a e alpha (fst (fst s)) (snd (fst s)) (snd s) T i.
Definition cubic_b0 (e : cubic) (s : (nat -> R) * (nat -> R) * (nat -> R)) (i : nat) : R := cu_b e (fst (fst s)) (snd (fst s)) i.
