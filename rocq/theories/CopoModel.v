(** Model of src/polykin/copolymerization: binary.py, terminal.py, penultimate.py. *)
From Coq Require Import Reals Lra Lia List Bool Arith String.
From Verif Require Import Prelude UtilsModel RootsModel.
Import ListNotations.
Open Scope R_scope.

(** numpy division of finite floats: no exception, 0/0 = nan, x/0 = +-inf. *)
Definition np_div (a b : R) : fl :=
  if Reqb b 0 then (if Reqb a 0 then NaN else if Rltb 0 a then PInf else NInf)
  else Fin (a / b).

(** binary.py:22-83 — inst_copolymer_binary, for one element of the array f1. *)
Definition inst_copolymer_binary (f1 r1 r2 : R) : fl :=
  let f2 := 1 - f1 in
  np_div (r1 * f1 ^ 2 + f1 * f2) (r1 * f1 ^ 2 + 2 * f1 * f2 + r2 * f2 ^ 2).

(** binary.py:86-144 — kp_average_binary.  Simplification: the inner quotients by k11 and
    k22 are real divisions (k11, k22 non-zero). *)
Definition kp_average_binary (f1 r1 r2 k11 k22 : R) : fl :=
  let f2 := 1 - f1 in
  np_div (r1 * f1 ^ 2 + r2 * f2 ^ 2 + 2 * f1 * f2) ((r1 * f1 / k11) + (r2 * f2 / k22)).

(** binary.py:236-261 — df1dx, the right-hand side of the drift equation.  [F1] is the
    (finite) value of inst_copolymer_binary. *)
Definition df1dx (F1 : R -> R) (x f1 : R) : R := (f1 - F1 f1) / (1 - x + eps).

(** A binary copolymerization model: reactivity-ratio function, homo-propagation function
    and labels.  terminal.py:35-112, 460-608 and penultimate.py:24-200, 394-522.  The rate
    coefficients k1, k2 are represented by their value at the temperature of interest
    ([None] when not given). *)
Inductive model :=
| Terminal (r1 r2 : R) (k1 k2 : option R)
| Penultimate (r11 r12 r21 r22 s1 s2 : R) (k1 k2 : option R)
| ImplicitPenultimate (r1 r2 s1 s2 : R) (k1 k2 : option R).

(** x >= 0 as tested by check_bounds(x, 0, inf) *)
Definition nonneg_check (x : R) : res unit :=
  if Rleb 0 x then Ok tt else Err RangeError.

(** terminal.py:502-525, penultimate.py:87-115 and 453-471 — bounds checks of the
    constructors (labels are treated in CopoDataModel). *)
Definition make_model (m : model) : res model :=
  match m with
  | Terminal r1 r2 _ _ => do _ <- nonneg_check r1; do _ <- nonneg_check r2; Ok m
  | Penultimate r11 r12 r21 r22 s1 s2 _ _ =>
      do _ <- nonneg_check r11; do _ <- nonneg_check r12; do _ <- nonneg_check r21;
      do _ <- nonneg_check r22; do _ <- nonneg_check s1; do _ <- nonneg_check s2; Ok m
  | ImplicitPenultimate r1 r2 s1 s2 _ _ =>
      do _ <- nonneg_check s1; do _ <- nonneg_check s2;
      do _ <- nonneg_check r1; do _ <- nonneg_check r2; Ok m
  end.

(** terminal.py:594-598 and penultimate.py:117-150 — ri for a Python float f1. *)
Definition ri (m : model) (f1 : R) : res (R * R) :=
  match m with
  | Terminal r1 r2 _ _ | ImplicitPenultimate r1 r2 _ _ _ _ => Ok (r1, r2)
  | Penultimate r11 r12 r21 r22 _ _ _ _ =>
      let f2 := 1 - f1 in
      do a <- pydiv (r21 * (f1 * r11 + f2)) (f1 * r21 + f2);
      do b <- pydiv (r12 * (f2 * r22 + f1)) (f2 * r12 + f1);
      Ok (a, b)
  end.

(** terminal.py:600-608, penultimate.py:152-200 and 473-522 — kii for a float f1. *)
Definition kii (m : model) (f1 : R) : res (R * R) :=
  let f2 := 1 - f1 in
  let pen r1 r2 s1 s2 k1 k2 :=
    match k1, k2 with
    | Some k1, Some k2 =>
        do u <- pydiv f2 s1;
        do a <- pydiv (k1 * (f1 * r1 + f2)) (f1 * r1 + u);
        do v <- pydiv f1 s2;
        do b <- pydiv (k2 * (f2 * r2 + f1)) (f2 * r2 + v);
        Ok (a, b)
    | _, _ => Err ValueError
    end in
  match m with
  | Terminal _ _ (Some k1) (Some k2) => Ok (k1, k2)
  | Terminal _ _ _ _ => Err ValueError
  | Penultimate r11 _ _ r22 s1 s2 k1 k2 => pen r11 r22 s1 s2 k1 k2
  | ImplicitPenultimate r1 r2 s1 s2 k1 k2 => pen r1 r2 s1 s2 k1 k2
  end.

Definition check_f1 (f1 : R) : res unit :=
  if between (Fin 0) (Fin 1) (Fin f1) then Ok tt else Err RangeError.

(** terminal.py:90-112 — CopoModel.F1. *)
Definition model_F1 (m : model) (f1 : R) : res fl :=
  do _ <- check_f1 f1;
  do r <- ri m f1;
  Ok (inst_copolymer_binary f1 (fst r) (snd r)).

(** terminal.py:114-146 — CopoModel.kp. *)
Definition model_kp (m : model) (f1 : R) : res fl :=
  do _ <- check_f1 f1;
  do r <- ri m f1;
  do k <- kii m f1;
  Ok (kp_average_binary f1 (fst r) (snd r) (fst k) (snd k)).

(** terminal.py:568-592 — TerminalModel.azeotrope (inherited by the implicit penultimate
    model). *)
Definition azeotrope_terminal (r1 r2 : R) : option R :=
  if Rltb r1 1 && Rltb r2 1 then Some ((1 - r2) / (2 - r1 - r2)) else None.

(** np.allclose(x, 1.0, atol=1e-2): |x - 1| <= 1e-2 + 1e-5 *)
Definition close1 (x : R) : bool := Rleb (Rabs (x - 1)) (1 / 100 + 1 / 100000).

(** terminal.py:148-177 — CopoModel.azeotrope, used by PenultimateModel; [fin] extracts
    the finite value of F1 - f1 (the function values are finite for the models to which
    it is applied).  Warnings are not represented. *)
Definition fin (x : fl) : R := match x with Fin r => r | _ => 0 end.
(** terminal.py:159-177 *)
Definition fzero (m : model) (f1 : R) : R :=
  match ri m f1 with
  | Ok r => fin (inst_copolymer_binary f1 (fst r) (snd r)) - f1
  | Err _ => 0
  end.
(** terminal.py:159-177 *)
Definition azeotrope_generic (m : model) : res (option R) :=
  do a <- ri m (1 / 10);
  do b <- ri m (9 / 10);
  if close1 (fst a) && close1 (snd a) && close1 (fst b) && close1 (snd b) then Ok None
  else
    match snd (root_brent (fzero m) (1 / 10000) (9999 / 10000) (1 / 10 ^ 6) (1 / 10 ^ 6) 50) with
    | Ok s => Ok (if rr_success s then Some (rr_x s) else None)
    | Err ValueError => Ok None
    | Err e => Err e
    end.
(** terminal.py:586-592 *)
Definition azeotrope (m : model) : res (option R) :=
  match m with
  | Terminal r1 r2 _ _ | ImplicitPenultimate r1 r2 _ _ _ _ => Ok (azeotrope_terminal r1 r2)
  | Penultimate _ _ _ _ _ _ _ _ => azeotrope_generic m
  end.

(** terminal.py:610-654 — TerminalModel.transitions for a Python float. *)
Record trans := mkT { P11 : R; P12 : R; P21 : R; P22 : R }.
(** terminal.py:640-654 *)
Definition transitions (r1 r2 f1 : R) : res trans :=
  do _ <- check_f1 f1;
  let f2 := 1 - f1 in
  do p11 <- pydiv (r1 * f1) (r1 * f1 + f2);
  do p22 <- pydiv (r2 * f2) (r2 * f2 + f1);
  Ok (mkT p11 (1 - p11) (1 - p22) p22).

(** terminal.py:656-715 — TerminalModel.triads; [e] is the regularisation constant eps. *)
Record triad := mkTri { A111 : R; A112 : R; A212 : R; A222 : R; A221 : R; A121 : R }.
(** terminal.py:689-715 *)
Definition triads_e (e r1 r2 f1 : R) : res triad :=
  do P <- transitions r1 r2 f1;
  do F1 <- pydiv (P21 P) (P12 P + P21 P + e);
  let F2 := 1 - F1 in
  Ok (mkTri (F1 * P11 P ^ 2) (F1 * 2 * P11 P * P12 P) (F1 * P12 P ^ 2)
            (F2 * P22 P ^ 2) (F2 * 2 * P22 P * P21 P) (F2 * P21 P ^ 2)).
(** terminal.py:689-715 *)
Definition triads := triads_e eps.

(** terminal.py:717-772 — TerminalModel.sequence: average lengths (k is None) and the
    distribution at chain length k >= 1. *)
Definition seq_mean_e (e P : R) : res R := pydiv 1 (1 - P + e).
(** terminal.py:717-772 *)
Definition seq_dist (P : R) (k : nat) : R := (1 - P) * P ^ (k - 1).
(** terminal.py:717-772 *)
Definition sequence_mean_e (e r1 r2 f1 : R) : res (R * R) :=
  do P <- transitions r1 r2 f1;
  do a <- seq_mean_e e (P11 P);
  do b <- seq_mean_e e (P22 P);
  Ok (a, b).
(** terminal.py:717-772 *)
Definition sequence_mean := sequence_mean_e eps.
(** terminal.py:717-772 *)
Definition sequence_dist (r1 r2 f1 : R) (k : nat) : res (R * R) :=
  do P <- transitions r1 r2 f1; Ok (seq_dist (P11 P) k, seq_dist (P22 P) k).

(** penultimate.py:202-263 — PenultimateModel.transitions. *)
Record ptrans := mkPT { P111 : R; P211 : R; P112 : R; P212 : R;
                        P222 : R; P122 : R; P221 : R; P121 : R }.
(** penultimate.py:202-263 *)
Definition ptransitions (r11 r12 r21 r22 f1 : R) : res ptrans :=
  do _ <- check_f1 f1;
  let f2 := 1 - f1 in
  do p111 <- pydiv (r11 * f1) (r11 * f1 + f2);
  do p211 <- pydiv (r21 * f1) (r21 * f1 + f2);
  do p222 <- pydiv (r22 * f2) (r22 * f2 + f1);
  do p122 <- pydiv (r12 * f2) (r12 * f2 + f1);
  Ok (mkPT p111 p211 (1 - p111) (1 - p211) p222 p122 (1 - p222) (1 - p122)).

(** penultimate.py:265-330 — PenultimateModel.triads, normalised per centre. *)
Definition ptri3 (e Paaa Pbaa : R) : res (R * R * R) :=
  do q <- pydiv (Pbaa * Paaa) (1 - Paaa + e);
  let Faab := 2 * Pbaa in
  let Fbab := 1 - Pbaa in
  let s := q + Faab + Fbab in
  do a <- pydiv q s; do b <- pydiv Faab s; do c <- pydiv Fbab s;
  Ok (a, b, c).
(** penultimate.py:265-330 *)
Definition ptriads_e (e r11 r12 r21 r22 f1 : R) : res triad :=
  do P <- ptransitions r11 r12 r21 r22 f1;
  do x <- ptri3 e (P111 P) (P211 P);
  do y <- ptri3 e (P222 P) (P122 P);
  let '(a111, a112, a212) := x in
  let '(a222, a221, a121) := y in
  Ok (mkTri a111 a112 a212 a222 a221 a121).
(** penultimate.py:265-330 *)
Definition ptriads := ptriads_e eps.

(** penultimate.py:332-391 — PenultimateModel.sequence. *)
Definition pseq_mean_e (e Paaa Pbaa : R) : res R :=
  do q <- pydiv Pbaa (1 - Paaa + e); Ok (1 + q).
(** penultimate.py:332-391 *)
Definition pseq_dist (Paaa Pbaa : R) (k : nat) : R :=
  if Nat.eqb k 1 then 1 - Pbaa else Pbaa * (1 - Paaa) * Paaa ^ (k - 2).
(** penultimate.py:332-391 *)
Definition psequence_mean_e (e r11 r12 r21 r22 f1 : R) : res (R * R) :=
  do P <- ptransitions r11 r12 r21 r22 f1;
  do a <- pseq_mean_e e (P111 P) (P211 P);
  do b <- pseq_mean_e e (P222 P) (P122 P);
  Ok (a, b).
(** penultimate.py:332-391 *)
Definition psequence_mean := psequence_mean_e eps.
(** penultimate.py:332-391 *)
Definition psequence_dist (r11 r12 r21 r22 f1 : R) (k : nat) : res (R * R) :=
  do P <- ptransitions r11 r12 r21 r22 f1;
  Ok (pseq_dist (P111 P) (P211 P) k, pseq_dist (P222 P) (P122 P) k).

(** fitting.py:453 (also 343 and 364) — cumulative copolymer composition computed from the
    drift solution f1 at conversion x. *)
Definition F1_cum (f10 f1 x : R) : R := f1 + (f10 - f1) / (x + 1 / 10 ^ 10).
