(** Model of src/polykin/stepgrowth/solutions.py.  Scalar functions are pure
    Python, so a zero divisor raises ZeroDivisionError ([pydiv]); Stockmayer and
    Miller_2 go through numpy, where x/0 is inf/nan with a warning: there the
    divisions are the real ones and the theorems carry the nonzero guards. *)
From Coq Require Import Reals Lra Lia List Bool Arith.
From Verif Require Import Prelude.
Import ListNotations.
Open Scope R_scope.

(** solutions.py:27-88 — Case_1 (AA + BB). *)
Definition Case_1 (pB r_BB_AA MAA MBB : R) : res (R * R) :=
  let b := pB in
  let a := b * r_BB_AA in
  do Mn <- pydiv (b * MAA + a * MBB) (a + b - 2 * a * b);
  do q1 <- pydiv (1 + a * b) (1 - a * b);
  do q2 <- pydiv (q1 * (b * MAA ^ 2 + a * MBB ^ 2)) (b * MAA + a * MBB);
  do q3 <- pydiv (4 * a * b * MAA * MBB) ((1 - a * b) * (b * MAA + a * MBB));
  Ok (Mn, q2 + q3).

(** solutions.py:91-171 — Case_3 (AA + BC, both react with A). *)
Definition Case_3 (pB pC r_BC_AA MAA MBC : R) : res (R * R) :=
  let b := pB in
  let c := pC in
  let a := r_BC_AA * (b + c) / 2 in
  do Mn <- pydiv ((b + c) * MAA + 2 * a * MBC) (2 * a + b + c - 2 * a * (b + c));
  do q1 <- pydiv (2 * a * b * c) (b + c);
  do q2 <- pydiv (2 * a * (b + c + a * b ^ 2 + a * c ^ 2)) ((b + c) ^ 2);
  do q3 <- pydiv (2 * a) (b + c);
  do Mw <- pydiv ((1 + q1) * MAA ^ 2 + 4 * a * MAA * MBC + q2 * MBC ^ 2)
                 ((1 - q1) * (MAA + q3 * MBC));
  Ok (Mn, Mw).

(** solutions.py:174-250 — Case_5 (AA + BB + C). *)
Definition Case_5 (pB pC r_BC_A r_C_B MAA MBB MC : R) : res R :=
  let b := pB in
  let c := pC in
  let v := r_C_B in
  do a <- pydiv (r_BC_A * (b + v * c)) (1 + v);
  do q1 <- pydiv (2 * a) (2 * b + v * c);
  do q2 <- pydiv (2 * a * v) (2 * b + v * c);
  do q3 <- pydiv (2 * a * (1 + v)) (2 * b + v * c);
  pydiv (MAA + q1 * MBB + q2 * MC) (1 - 2 * a + q3).

(** solutions.py:253-325 — Case_6 (AA + BC, A and B react with C). *)
Definition Case_6 (pC r_BC_AA MAA MBC : R) : res R :=
  pydiv (MAA + r_BC_AA * MBC) (1 + r_BC_AA * (1 - pC)).

(** solutions.py:328-392 — Case_7 (AB + CD). *)
Definition Case_7 (pA pC r_CD_AB MAB MCD : R) : res R :=
  pydiv (MAB + r_CD_AB * MCD) (1 + r_CD_AB - (pA + r_CD_AB * pC)).

(** solutions.py:395-471 — Case_8 (AA + BB + CC). *)
Definition Case_8 (pB pC r_BC_A r_CC_BB MAA MBB MCC : R) : res R :=
  let b := pB in
  let c := pC in
  let v := r_CC_BB in
  do a <- pydiv (r_BC_A * (b + v * c)) (1 + v);
  do q1 <- pydiv (a * (MBB + v * MCC)) (b + v * c);
  do q2 <- pydiv (a * (1 + v)) (b + v * c);
  pydiv (MAA + q1) (1 - 2 * a + q2).

(** solutions.py:474-565 — Case_9 (AA + BB reacting with CC + DD). *)
Definition Case_9 (pB pC pD r_CD_AB r_BB_AA r_DD_CC MAA MBB MCC MDD : R) : res R :=
  let b := pB in
  let c := pC in
  let d := pD in
  let v := r_BB_AA in
  let r := r_DD_CC in
  do q0 <- pydiv (r_CD_AB * (1 + v)) (1 + r);
  let a := q0 * (c + r * d) - v * b in
  do q1 <- pydiv (a + v * b) (c + r * d);
  pydiv (MAA + v * MBB + q1 * (MCC + r * MDD))
        (1 - a + v * (1 - b) + q1 * (1 - c + r * (1 - d))).

(** solutions.py:568-650 — Case_10 (AA + BC + DD). *)
Definition Case_10 (pB pC pD r_BCD_A r_BC_DD MAA MBC MDD : R) : res R :=
  let b := pB in
  let c := pC in
  let d := pD in
  let v := r_BC_DD / 2 in
  do a <- pydiv (r_BCD_A * (v * (b + c) + d)) (2 * v + 1);
  do q1 <- pydiv (a * (MDD + 2 * v * MBC)) (v * (b + c) + d);
  do q2 <- pydiv a (v * (b + c) + d);
  pydiv (MAA + q1) (1 - a + q2 * ((1 - d) + v * (2 - b - c))).

(** solutions.py:653-734 — Case_11 (AA + BC + DD, A and B react with C and D). *)
Definition Case_11 (pB pC pD r_BC_AA r_DD_AA MAA MBC MDD : R) : res R :=
  let b := pB in
  let c := pC in
  let d := pD in
  let v := r_BC_AA / 2 in
  let a := v * (c - b) + r_DD_AA * d in
  do q1 <- pydiv (a + v * (b - c)) d;
  pydiv (MAA + 2 * v * MBC + q1 * MDD) (1 - 2 * a + 2 * v * (1 - b) + q1).

(** numpy [dot] of two vectors of length n. *)
Definition dot (n : nat) (x y : nat -> R) : R := sumn n (fun i => x i * y i).

(** Result of the gel-checking functions: NaN beyond gelation. *)
Definition nan2 : fl * fl := (NaN, NaN).

(** solutions.py:737-847 — Stockmayer.  N A-monomers, M B-monomers.  When
    sgB*(fe-1)*(ge-1) is 0 (or negative) numpy gives pB_gel = inf (nan), for sfA > 0, and the
    test pB >= pB_gel is False: no gel point. *)
Definition Stockmayer (N M : nat) (nA nB f g MA MB : nat -> R) (pB : R) : fl * fl :=
  let sMA := dot N MA nA in
  let sM2A := dot N (fun i => MA i ^ 2) nA in
  let sfA := dot N f nA in
  let sf2A := dot N (fun i => f i ^ 2) nA in
  let sMB := dot M MB nB in
  let sM2B := dot M (fun j => MB j ^ 2) nB in
  let sgB := dot M g nB in
  let sg2B := dot M (fun j => g j ^ 2) nB in
  let fe := sf2A / sfA in
  let ge := sg2B / sgB in
  let Ma := sumn N (fun i => MA i * f i * nA i) / sfA in
  let Mb := sumn M (fun j => MB j * g j * nB j) / sgB in
  let pA := pB * sgB / sfA in
  let den := sgB * (fe - 1) * (ge - 1) in
  let gel := if Rleb den 0 then false else Rleb (sqrt (sfA / den)) pB in
  if gel then nan2
  else
    let Mn := (sMA + sMB) / (sumn N nA + sumn M nB - pA * sfA) in
    let Mw :=
      (pB * (sM2A / sfA) + pA * (sM2B / sgB)
       + pA * pB * (pA * (fe - 1) * Mb ^ 2 + pB * (ge - 1) * Ma ^ 2 + 2 * Ma * Mb)
         / (1 - pA * pB * (fe - 1) * (ge - 1)))
      / (pB * (sMA / sfA) + pA * (sMB / sgB)) in
    (Fin Mn, Fin Mw).

(** solutions.py:850-905 — Flory_Af.  f is an integer (>= 1); f = 1 raises. *)
Definition Flory_Af (f : nat) (MAf p : R) : res (fl * fl * fl) :=
  let F := INR f in
  do p_gel <- pydiv 1 (F - 1);
  if Rleb p_gel p then Ok (NaN, NaN, NaN)
  else
    do Mn <- pydiv MAf (1 - (F / 2) * p);
    do Mw <- pydiv (MAf * (1 + p)) (1 - p * (F - 1));
    do Mz <- pydiv (MAf * ((1 + p) ^ 3 - (3 + p) * F * p ^ 2))
                   ((1 + p) * (1 - p * (F - 1)) ^ 2);
    Ok (Fin Mn, Fin Mw, Fin Mz).

(** solutions.py:908-995 — Miller_1 (Af + A2 + B1B2). *)
Definition Miller_1 (nAf nA2 nB2 : R) (f : nat) (MAf MA2 MB2 pB1 pB2 : R) : res (R * R) :=
  let F := INR f in
  do r <- pydiv (F * nAf + 2 * nA2) (2 * nB2);
  do pA <- pydiv (/ 2 * (pB1 + pB2)) r;
  do af <- pydiv (F * nAf) (F * nAf + 2 * nA2);
  do q <- pydiv (pB1 * pB2) r;
  do EAout <- pydiv (pA * MB2 + q * ((1 - af) * MA2 + af * MAf)) (1 - q * (1 + (F - 2) * af));
  let EBout := (1 - af) * MA2 + af * MAf + (1 + (F - 2) * af) * EAout in
  let EB1out := pB1 * EBout in
  let EB2out := pB2 * EBout in
  let EAf := MAf + F * EAout in
  let EA2 := MA2 + 2 * EAout in
  let EBB := MB2 + EB1out + EB2out in
  do Mn <- pydiv (MAf * nAf + MA2 * nA2 + MB2 * nB2) (nAf + nA2 + nB2 - nB2 * (pB1 + pB2));
  do Mw <- pydiv (MAf * nAf * EAf + MA2 * nA2 * EA2 + MB2 * nB2 * EBB)
                 (MAf * nAf + MA2 * nA2 + MB2 * nB2);
  Ok (Mn, Mw).

(** solutions.py:998-1086 — Miller_2.  p i is the fraction of Af units with
    exactly i+1 reacted sites (numpy index i, i < f). *)
Definition Miller_2 (nAf nB2 : R) (f : nat) (MAf MB2 : R) (p : nat -> R) : fl * fl :=
  let F := INR f in
  let sip := sumn f (fun i => INR (S i) * p i) in
  let m := sumn f (fun i => INR (S i) ^ 2 * p i) / sip in
  let pA := sip / F in
  let r := (F * nAf) / (2 * nB2) in
  if Rltb (r * pA * (m - 1)) 1 then
    let Mn := (MAf * nAf + MB2 * nB2) / (nAf + nB2 - F * nAf * pA) in
    let Mw :=
      ((2 * r / F) * (1 + r * pA * (F * pA - m + 1)) * MAf ^ 2
       + (1 + r * pA * (m - 1)) * MB2 ^ 2 + 4 * r * pA * MAf * MB2)
      / (((2 * r / F) * MAf + MB2) * (1 - r * pA * (m - 1))) in
    (Fin Mn, Fin Mw)
  else nan2.
