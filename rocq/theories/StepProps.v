(** Final theorems for the step-growth solutions: C37, C38, C39. *)
From Coq Require Import Reals Lra Lia List Bool Arith Psatz.
From Verif Require Import Prelude StepModel StepProofs.
Import ListNotations.
Open Scope R_scope.

(* ================================================================== *)
(** * C37 — Mn = total mass / (molecules - bonds)                       *)
(* ================================================================== *)
(** Full statement: for each of Case_1, 3, 5, 6, 7, 8, 9, 10, 11, Stockmayer,
    Flory_Af, Miller_1, Miller_2, with feed amounts n consistent with the
    documented ratios, Mn = (sum n M) / (sum n - bonds).  Proved below for all
    functions but Case_5, for which it is refuted; Case_1 and Case_3 raise at
    zero conversion. *)

Theorem C37_case1_Mn_partial nAA nBB MAA MBB pB :
  0 < nAA -> 0 < nBB -> 0 < MAA -> 0 < MBB -> 0 < pB ->
  nAA + nBB - pB * (2 * nBB) <> 0 -> pB * pB * nBB <> nAA ->
  exists Mw, Case_1 pB (nBB / nAA) MAA MBB =
    Ok ((nAA * MAA + nBB * MBB) / (nAA + nBB - pB * (2 * nBB)), Mw).
Proof. exact (Case_1_Mn nAA nBB MAA MBB pB). Qed.

Theorem C37_case3_Mn_partial nAA nBC MAA MBC pB pC :
  0 < nAA -> 0 < nBC -> 0 < MAA -> 0 < MBC -> 0 <= pB -> 0 <= pC -> 0 < pB + pC ->
  nAA + nBC - (pB + pC) * nBC <> 0 -> pB * pC * nBC <> nAA ->
  exists Mw, Case_3 pB pC (nBC / nAA) MAA MBC =
    Ok ((nAA * MAA + nBC * MBC) / (nAA + nBC - (pB * nBC + pC * nBC)), Mw).
Proof. exact (Case_3_Mn nAA nBC MAA MBC pB pC). Qed.

Theorem C37_case6_Mn nAA nBC MAA MBC pC :
  0 < nAA -> nAA + nBC - pC * nBC <> 0 ->
  Case_6 pC (nBC / nAA) MAA MBC = Ok ((nAA * MAA + nBC * MBC) / (nAA + nBC - pC * nBC)).
Proof. exact (Case_6_Mn nAA nBC MAA MBC pC). Qed.

Theorem C37_case7_Mn nAB nCD MAB MCD pA pC :
  0 < nAB -> nAB + nCD - (pA * nAB + pC * nCD) <> 0 ->
  Case_7 pA pC (nCD / nAB) MAB MCD =
    Ok ((nAB * MAB + nCD * MCD) / (nAB + nCD - (pA * nAB + pC * nCD))).
Proof. exact (Case_7_Mn nAB nCD MAB MCD pA pC). Qed.

Theorem C37_case8_Mn nAA nBB nCC MAA MBB MCC pB pC :
  0 < nAA -> 0 < nBB -> 0 <= nCC -> 0 < pB * nBB + pC * nCC ->
  nAA + nBB + nCC - (2 * nBB * pB + 2 * nCC * pC) <> 0 ->
  Case_8 pB pC ((2 * nBB + 2 * nCC) / (2 * nAA)) (nCC / nBB) MAA MBB MCC =
    Ok ((nAA * MAA + nBB * MBB + nCC * MCC) /
        (nAA + nBB + nCC - (2 * nBB * pB + 2 * nCC * pC))).
Proof. exact (Case_8_Mn nAA nBB nCC MAA MBB MCC pB pC). Qed.

Theorem C37_case9_Mn nAA nBB nCC nDD MAA MBB MCC MDD pB pC pD :
  0 < nAA -> 0 <= nBB -> 0 < nCC -> 0 <= nDD -> 0 < pC * nCC + pD * nDD ->
  nAA + nBB + nCC + nDD - (2 * nCC * pC + 2 * nDD * pD) <> 0 ->
  Case_9 pB pC pD ((2 * nCC + 2 * nDD) / (2 * nAA + 2 * nBB)) (nBB / nAA) (nDD / nCC)
         MAA MBB MCC MDD =
    Ok ((nAA * MAA + nBB * MBB + nCC * MCC + nDD * MDD) /
        (nAA + nBB + nCC + nDD - (2 * nCC * pC + 2 * nDD * pD))).
Proof. exact (Case_9_Mn nAA nBB nCC nDD MAA MBB MCC MDD pB pC pD). Qed.

Theorem C37_case10_Mn nAA nBC nDD MAA MBC MDD pB pC pD :
  0 < nAA -> 0 <= nBC -> 0 < nDD -> 0 < (pB + pC) * nBC + 2 * pD * nDD ->
  nAA + nBC + nDD - (pB * nBC + pC * nBC + 2 * nDD * pD) <> 0 ->
  Case_10 pB pC pD ((2 * nBC + 2 * nDD) / (2 * nAA)) (nBC / nDD) MAA MBC MDD =
    Ok ((nAA * MAA + nBC * MBC + nDD * MDD) /
        (nAA + nBC + nDD - (pB * nBC + pC * nBC + 2 * nDD * pD))).
Proof. exact (Case_10_Mn nAA nBC nDD MAA MBC MDD pB pC pD). Qed.

Theorem C37_case11_Mn nAA nBC nDD MAA MBC MDD pB pC pD :
  0 < nAA -> pD <> 0 ->
  nAA + nBC + nDD - (pC * nBC + 2 * nDD * pD) <> 0 ->
  Case_11 pB pC pD (nBC / nAA) (nDD / nAA) MAA MBC MDD =
    Ok ((nAA * MAA + nBC * MBC + nDD * MDD) /
        (nAA + nBC + nDD - (pC * nBC + 2 * nDD * pD))).
Proof. exact (Case_11_Mn nAA nBC nDD MAA MBC MDD pB pC pD). Qed.

(** Any numbers N, M of A- and B-monomers of any functionality, below the gel
    point pA pB (fe - 1) (ge - 1) < 1. *)
Theorem C37_stockmayer_Mn N M (nA nB f g MA MB : nat -> R) pB :
  let a := sumn N (fun i => f i * nA i) in
  let b := sumn M (fun j => g j * nB j) in
  let fe := sumn N (fun i => f i ^ 2 * nA i) / a in
  let ge := sumn M (fun j => g j ^ 2 * nB j) / b in
  let mass := sumn N (fun i => nA i * MA i) + sumn M (fun j => nB j * MB j) in
  0 < a -> 0 < b -> 0 < pB -> (pB * b / a) * pB * (fe - 1) * (ge - 1) < 1 -> mass <> 0 ->
  exists Mw, Stockmayer N M nA nB f g MA MB pB =
    (Fin (mass / (sumn N nA + sumn M nB - pB * b)), Fin Mw).
Proof.
  intros a b fe ge mass Ha Hb Hp HD Hm.
  destruct (stock_rec_solvable N M nA nB f g MA MB pB Ha Hb HD) as (EA & EB & HR).
  eexists. apply (Stockmayer_ok N M nA nB f g MA MB pB Ha Hb (Rlt_le _ _ Hp) HD Hp Hm EA EB HR).
Qed.

(** Self-condensing Af: one unit per molecule, f p / 2 bonds per unit. *)
Theorem C37_flory_Mn f MAf p :
  (2 <= f)%nat -> 0 < MAf -> 0 <= p -> (INR f - 1) * p < 1 ->
  exists Mw Mz, Flory_Af f MAf p = Ok (Fin (MAf / (1 - INR f * p / 2)), Mw, Mz).
Proof.
  intros Hf HM Hp Hg. destruct (Flory_rec_solvable f MAf p Hg) as (e1 & e2 & HR).
  do 2 eexists. apply (Flory_spec f MAf p e1 e2); auto.
Qed.

Theorem C37_miller1_Mn nAf nA2 nB2 (f : nat) MAf MA2 MB2 p1 p2 :
  0 <= nAf -> 0 <= nA2 -> 0 < INR f * nAf + 2 * nA2 -> 0 < nB2 ->
  0 <= p1 -> 0 <= p2 -> 0 < p1 + p2 ->
  let a := INR f * nAf + 2 * nA2 in
  let pA := nB2 * (p1 + p2) / a in
  2 * pA * p1 * p2 / (p1 + p2) * ((INR f ^ 2 * nAf + 2 ^ 2 * nA2) / a - 1) < 1 ->
  nAf + nA2 + nB2 - nB2 * (p1 + p2) <> 0 ->
  nAf * MAf + nA2 * MA2 + nB2 * MB2 <> 0 ->
  exists Mw, Miller_1 nAf nA2 nB2 f MAf MA2 MB2 p1 p2 =
    Ok ((nAf * MAf + nA2 * MA2 + nB2 * MB2) / (nAf + nA2 + nB2 - nB2 * (p1 + p2)), Mw).
Proof.
  intros H1 H2 H3 H4 H5 H6 H7 a pA HD Hn Hm.
  destruct (ab1b2_solvable 2 (pair2 nAf nA2) (pair2 (INR f) 2) (pair2 MAf MA2) nB2 MB2 p1 p2)
    as (EA & E1 & E2 & HR); try (rewrite ?sumn2; simpl pair2; auto).
  assert (Em : mass_AB2 2 (pair2 nAf nA2) (pair2 MAf MA2) nB2 MB2 = nAf * MAf + nA2 * MA2 + nB2 * MB2)
    by (unfold mass_AB2; rewrite sumn2; reflexivity).
  rewrite sumn2 in HR. simpl pair2 in HR.
  eexists. rewrite (Miller_1_spec nAf nA2 nB2 f MAf MA2 MB2 p1 p2 EA E1 E2); auto.
  - rewrite Em. reflexivity.
  - rewrite Em. auto.
Qed.

(** p i = fraction of Af units with i+1 reacted sites. *)
Theorem C37_miller2_Mn nAf nB2 (f : nat) MAf MB2 (p : nat -> R) :
  let s := sumn f (fun i => INR (S i) * p i) in
  0 < nAf -> 0 < nB2 -> 0 < s ->
  nAf * s / (2 * nB2) * (sumn f (fun i => INR (S i) ^ 2 * p i) / s - 1) < 1 ->
  nAf * MAf + nB2 * MB2 <> 0 ->
  exists Mw, Miller_2 nAf nB2 f MAf MB2 p =
    (Fin ((nAf * MAf + nB2 * MB2) / (nAf + nB2 - nAf * s)), Fin Mw).
Proof.
  intros s H1 H2 H3 HD Hm.
  destruct (m2_solvable nAf nB2 f MAf MB2 p H3 HD) as (EA & EB & HR).
  eexists. apply (Miller_2_spec nAf nB2 f MAf MB2 p H1 H2 H3 EA EB HD Hm HR).
Qed.

(** Finding: with r_C_B the documented ratio of C to B groups and r_BC_A the
    documented ratio of (B + C) to A groups, Case_5 is not mass / molecules. *)
Theorem C37_case5_refuted :
  exists nAA nBB nC MAA MBB MC pB pC Mn,
    0 < nAA /\ 0 < nBB /\ 0 < nC /\ 0 < pB < 1 /\ 0 < pC < 1 /\
    2 * nBB * pB + nC * pC < 2 * nAA /\
    Case_5 pB pC ((2 * nBB + nC) / (2 * nAA)) (nC / (2 * nBB)) MAA MBB MC = Ok Mn /\
    Mn <> (nAA * MAA + nBB * MBB + nC * MC) / (nAA + nBB + nC - (2 * nBB * pB + nC * pC)).
Proof.
  destruct Case_5_wrong as (Mn & H1 & H2 & H3).
  exists 1.01, 1, 0.01, 100, 90, 40, 0.99, 0.95, Mn.
  unfold Mn_of in H2. repeat split; first [exact H1 | lra].
Qed.

(** Case_5 is right in the limit without monofunctional C. *)
Theorem C37_case5_noC_partial nAA nBB MAA MBB MC pB pC :
  0 < nAA -> 0 < nBB -> 0 < pB -> nAA + nBB - 2 * nBB * pB <> 0 ->
  Case_5 pB pC ((2 * nBB) / (2 * nAA)) 0 MAA MBB MC =
    Ok ((nAA * MAA + nBB * MBB) / (nAA + nBB - 2 * nBB * pB)).
Proof. exact (Case_5_noC nAA nBB MAA MBB MC pB pC). Qed.

(** Finding: at zero conversion (Mn = mean monomer mass) Case_1 and Case_3 raise. *)
Theorem C37_zero_conversion_refuted :
  exists r MAA MBB, 0 < r /\ 0 < MAA /\ 0 < MBB /\
    Case_1 0 r MAA MBB = Err ZeroDivisionError /\ Case_3 0 0 r MAA MBB = Err ZeroDivisionError.
Proof.
  exists 1, 100, 100. repeat split; try lra. apply Case_1_zero. apply Case_3_zero.
Qed.

Example C37_case1_ex : exists Mw, Case_1 0.9 (1 / 2) 100 80 = Ok (140 / 0.6, Mw).
Proof.
  destruct (C37_case1_Mn_partial 2 1 100 80 0.9) as [Mw H]; try lra.
  exists Mw. rewrite H. do 2 f_equal. lra.
Qed.

Example C37_stockmayer_ex :
  exists Mw, Stockmayer 2 1 (pair2 1 2) (fun _ => 4) (pair2 3 2) (fun _ => 2)
     (pair2 100 80) (fun _ => 50) (/ 2) = (Fin (460 / 3), Fin Mw).
Proof.
  destruct (C37_stockmayer_Mn 2 1 (pair2 1 2) (fun _ => 4) (pair2 3 2) (fun _ => 2)
     (pair2 100 80) (fun _ => 50) (/ 2)) as [Mw H]; try (simpl; lra).
  exists Mw. rewrite H. do 2 f_equal. simpl. lra.
Qed.

Example C37_miller2_ex :
  exists Mw, Miller_2 1 2 3 100 50 (fun i => match i with O => / 2 | _ => 0 end) = (Fin 80, Fin Mw).
Proof.
  destruct (C37_miller2_Mn 1 2 3 100 50 (fun i => match i with O => / 2 | _ => 0 end)) as [Mw H];
    try (simpl; lra).
  exists Mw. rewrite H. do 2 f_equal. simpl. lra.
Qed.

(* ================================================================== *)
(** * C38 — Mw from the recursive branching argument                    *)
(* ================================================================== *)

(** [recursion_AB], [Mw_of_AB], … (StepProofs.v) state the Macosko-Miller
    equations and the mass-weighted mean; they do not mention the model.  The
    theorems hold for every solution of the recursion, and solutions exist. *)
Theorem C38_stockmayer_Mw N M (nA nB f g MA MB : nat -> R) pB EA EB :
  let a := sumn N (fun i => f i * nA i) in
  let b := sumn M (fun j => g j * nB j) in
  let fe := sumn N (fun i => f i ^ 2 * nA i) / a in
  let ge := sumn M (fun j => g j ^ 2 * nB j) / b in
  let pA := pB * b / a in
  0 < a -> 0 < b -> 0 < pB -> pA * pB * (fe - 1) * (ge - 1) < 1 ->
  mass_AB N M nA nB MA MB <> 0 ->
  recursion_AB N M nA nB f g MA MB pA pB EA EB ->
  exists Mn, Stockmayer N M nA nB f g MA MB pB =
    (Fin Mn, Fin (Mw_of_AB N M nA nB f g MA MB EA EB)).
Proof.
  intros a b fe ge pA Ha Hb Hp HD Hm HR. eexists.
  apply (Stockmayer_ok N M nA nB f g MA MB pB Ha Hb (Rlt_le _ _ Hp) HD Hp Hm EA EB HR).
Qed.

Theorem C38_stockmayer_recursion_solvable N M (nA nB f g MA MB : nat -> R) pB :
  let a := sumn N (fun i => f i * nA i) in
  let b := sumn M (fun j => g j * nB j) in
  let fe := sumn N (fun i => f i ^ 2 * nA i) / a in
  let ge := sumn M (fun j => g j ^ 2 * nB j) / b in
  let pA := pB * b / a in
  0 < a -> 0 < b -> pA * pB * (fe - 1) * (ge - 1) < 1 ->
  exists EA EB, recursion_AB N M nA nB f g MA MB pA pB EA EB.
Proof. exact (stock_rec_solvable N M nA nB f g MA MB pB). Qed.

Theorem C38_case1_is_stockmayer nAA nBB MAA MBB pB :
  0 < nAA -> 0 < nBB -> 0 < MAA -> 0 < MBB -> 0 < pB ->
  pB * (nBB / nAA) * pB < 1 -> nAA + nBB - pB * (2 * nBB) <> 0 ->
  exists Mn Mw, Case_1 pB (nBB / nAA) MAA MBB = Ok (Mn, Mw) /\
    Stockmayer 1 1 (fun _ => nAA) (fun _ => nBB) (fun _ => 2) (fun _ => 2)
      (fun _ => MAA) (fun _ => MBB) pB = (Fin Mn, Fin Mw).
Proof. exact (Case_1_Stockmayer nAA nBB MAA MBB pB). Qed.

Theorem C38_case3_Mw nAA nBC MAA MBC p1 p2 EA E1 E2 :
  0 < nAA -> 0 < nBC -> 0 < MAA -> 0 < MBC -> 0 <= p1 -> 0 <= p2 -> 0 < p1 + p2 ->
  p1 * p2 * nBC < nAA -> nAA + nBC - (p1 + p2) * nBC <> 0 ->
  recursion_AB1B2 1 (fun _ => nAA) (fun _ => 2) (fun _ => MAA) MBC
    (nBC * (p1 + p2) / (2 * nAA)) p1 p2 EA E1 E2 ->
  exists Mn, Case_3 p1 p2 (nBC / nAA) MAA MBC =
    Ok (Mn, Mw_of_AB1B2 1 (fun _ => nAA) (fun _ => 2) (fun _ => MAA) nBC MBC EA E1 E2).
Proof.
  intros. eexists. apply Case_3_spec; auto.
Qed.

Theorem C38_miller1_Mw nAf nA2 nB2 (f : nat) MAf MA2 MB2 p1 p2 EA E1 E2 :
  0 <= nAf -> 0 <= nA2 -> 0 < INR f * nAf + 2 * nA2 -> 0 < nB2 ->
  0 <= p1 -> 0 <= p2 -> 0 < p1 + p2 ->
  let nA := pair2 nAf nA2 in let fn := pair2 (INR f) 2 in let MA := pair2 MAf MA2 in
  let a := INR f * nAf + 2 * nA2 in
  let pA := nB2 * (p1 + p2) / a in
  2 * pA * p1 * p2 / (p1 + p2) * ((INR f ^ 2 * nAf + 2 ^ 2 * nA2) / a - 1) < 1 ->
  nAf + nA2 + nB2 - nB2 * (p1 + p2) <> 0 ->
  mass_AB2 2 nA MA nB2 MB2 <> 0 ->
  recursion_AB1B2 2 nA fn MA MB2 pA p1 p2 EA E1 E2 ->
  exists Mn, Miller_1 nAf nA2 nB2 f MAf MA2 MB2 p1 p2 =
    Ok (Mn, Mw_of_AB1B2 2 nA fn MA nB2 MB2 EA E1 E2).
Proof. intros. eexists. apply Miller_1_spec; auto. Qed.

(** With equal site conversions the B1B2 recursion (Case_3, Miller_1) is the
    Stockmayer recursion with g = 2, and the two specified Mw coincide. *)
Theorem C38_equal_sites N nA f MA nB MB pA p EA E1 E2 :
  0 < p -> nB <> 0 ->
  recursion_AB1B2 N nA f MA MB pA p p EA E1 E2 ->
  recursion_AB N 1 nA (fun _ => nB) f (fun _ => 2) MA (fun _ => MB) pA p EA E1 /\
  Mw_of_AB N 1 nA (fun _ => nB) f (fun _ => 2) MA (fun _ => MB) EA E1 =
  Mw_of_AB1B2 N nA f MA nB MB EA E1 E2.
Proof. exact (ab1b2_equal N nA f MA nB MB pA p EA E1 E2). Qed.

Theorem C38_miller2_Mw nAf nB2 (f : nat) MAf MB2 (p : nat -> R) EAin EBin :
  let s := sumn f (fun i => INR (S i) * p i) in
  let pB := nAf * s / (2 * nB2) in
  0 < nAf -> 0 < nB2 -> 0 < s ->
  pB * (sumn f (fun i => INR (S i) ^ 2 * p i) / s - 1) < 1 ->
  nAf * MAf + nB2 * MB2 <> 0 ->
  recursion_M2 f p MAf MB2 pB EAin EBin ->
  exists Mn, Miller_2 nAf nB2 f MAf MB2 p =
    (Fin Mn, Fin (Mw_of_M2 nAf nB2 f MAf MB2 p pB EAin EBin)).
Proof.
  intros s pB H1 H2 H3 HD Hm HR. eexists.
  apply (Miller_2_spec nAf nB2 f MAf MB2 p H1 H2 H3 EAin EBin HD Hm HR).
Qed.

(** Random (binomial) reaction of the f sites: Miller_2 = Stockmayer, on both
    sides of the gel point. *)
Theorem C38_miller2_binomial nAf nB2 (f : nat) MAf MB2 pA :
  0 < nAf -> 0 < nB2 -> (1 <= f)%nat -> 0 < pA ->
  let pB := INR f * nAf * pA / (2 * nB2) in
  nAf * MAf + nB2 * MB2 <> 0 -> nAf + nB2 - INR f * nAf * pA <> 0 ->
  Miller_2 nAf nB2 f MAf MB2 (fun i => C f (S i) * pA ^ S i * (1 - pA) ^ (f - S i)) =
  Stockmayer 1 1 (fun _ => nAf) (fun _ => nB2) (fun _ => INR f) (fun _ => 2)
     (fun _ => MAf) (fun _ => MB2) pB.
Proof. exact (Miller_2_binomial nAf nB2 f MAf MB2 pA). Qed.

Theorem C38_flory_Mw_Mz f MAf p e1 e2 :
  (2 <= f)%nat -> 0 < MAf -> 0 <= p -> (INR f - 1) * p < 1 -> recursion_Af f MAf p e1 e2 ->
  exists Mn, Flory_Af f MAf p = Ok (Mn, Fin (MAf + INR f * e1),
     Fin (((MAf + INR f * e1) ^ 2 + INR f * (e2 - e1 ^ 2)) / (MAf + INR f * e1))).
Proof. intros. eexists. apply Flory_spec; auto. Qed.

(** Non-vacuity: trifunctional A + bifunctional B. *)
Example C38_stockmayer_ex :
  exists Mn, Stockmayer 1 1 (fun _ => 2) (fun _ => 3) (fun _ => 3) (fun _ => 2)
     (fun _ => 100) (fun _ => 50) (/ 2) = (Fin Mn, Fin (2650 / 7)).
Proof.
  destruct (C38_stockmayer_Mw 1 1 (fun _ => 2) (fun _ => 3) (fun _ => 3) (fun _ => 2)
     (fun _ => 100) (fun _ => 50) (/ 2) 100 150) as [Mn H]; try (simpl; lra).
  - unfold mass_AB; simpl; lra.
  - unfold recursion_AB; simpl; split; field.
  - exists Mn. rewrite H. do 2 f_equal. unfold Mw_of_AB, mass_AB; simpl; field.
Qed.

Example C38_flory_ex : exists Mn, Flory_Af 3 100 (/ 4) = Ok (Mn, Fin 250, Fin 430).
Proof.
  destruct (C38_flory_Mw_Mz 3 100 (/ 4) 50 17500) as [Mn H]; try (simpl; lra); try lia.
  - split; simpl; lra.
  - exists Mn. rewrite H. simpl INR. repeat (apply f_equal2 || apply f_equal); lra || reflexivity.
Qed.

(* ================================================================== *)
(** * C39 — ordering and gelation                                       *)
(* ================================================================== *)
(** Full statement: for Stockmayer, Flory_Af, Miller_1, Miller_2, Case_1 and
    Case_3, 0 < Mn <= Mw (<= Mz) below the gel point and NaN at or beyond it.
    The ordering part is proved for all; the gelation part for Stockmayer,
    Flory_Af and Miller_2; Miller_1 has no gel check (refuted). *)

Theorem C39_stockmayer_order N M (nA nB f g MA MB : nat -> R) pB :
  let a := sumn N (fun i => f i * nA i) in
  let b := sumn M (fun j => g j * nB j) in
  let fe := sumn N (fun i => f i ^ 2 * nA i) / a in
  let ge := sumn M (fun j => g j ^ 2 * nB j) / b in
  let pA := pB * b / a in
  (forall i, (i < N)%nat -> 0 <= nA i) -> (forall j, (j < M)%nat -> 0 <= nB j) ->
  (forall i, (i < N)%nat -> 1 <= f i) -> (forall j, (j < M)%nat -> 1 <= g j) ->
  0 < a -> 0 < b -> 0 < pB <= 1 -> pA <= 1 ->
  pA * pB * (fe - 1) * (ge - 1) < 1 ->
  0 < sumn N (fun i => nA i * MA i) + sumn M (fun j => nB j * MB j) ->
  exists Mn Mw, Stockmayer N M nA nB f g MA MB pB = (Fin Mn, Fin Mw) /\ 0 < Mn <= Mw.
Proof. exact (Stockmayer_order N M nA nB f g MA MB pB). Qed.

Theorem C39_stockmayer_gel N M (nA nB f g MA MB : nat -> R) pB :
  let a := sumn N (fun i => f i * nA i) in
  let b := sumn M (fun j => g j * nB j) in
  let fe := sumn N (fun i => f i ^ 2 * nA i) / a in
  let ge := sumn M (fun j => g j ^ 2 * nB j) / b in
  let pA := pB * b / a in
  0 < a -> 0 < b -> 0 <= pB ->
  1 <= pA * pB * (fe - 1) * (ge - 1) ->
  Stockmayer N M nA nB f g MA MB pB = (NaN, NaN).
Proof. intros a b fe ge pA Ha Hb Hp HD. apply Stockmayer_gel; auto. Qed.

Theorem C39_flory_order f MAf p :
  (2 <= f)%nat -> 0 < MAf -> 0 <= p -> (INR f - 1) * p < 1 ->
  exists Mn Mw Mz, Flory_Af f MAf p = Ok (Fin Mn, Fin Mw, Fin Mz) /\ MAf <= Mn <= Mw /\ Mw <= Mz.
Proof. exact (Flory_order f MAf p). Qed.

Theorem C39_flory_gel f MAf p : (2 <= f)%nat -> 1 <= (INR f - 1) * p ->
  Flory_Af f MAf p = Ok (NaN, NaN, NaN).
Proof. exact (Flory_gel f MAf p). Qed.

Theorem C39_case1_order nAA nBB MAA MBB pB :
  0 < nAA -> 0 < nBB -> 0 < MAA -> 0 < MBB -> 0 < pB <= 1 ->
  pB * (nBB / nAA) <= 1 -> pB * (nBB / nAA) * pB < 1 ->
  exists Mn Mw, Case_1 pB (nBB / nAA) MAA MBB = Ok (Mn, Mw) /\ 0 < Mn <= Mw.
Proof.
  intros H1 H2 H3 H4 H5 H6 H7.
  assert (Hr : nBB = nBB / nAA * nAA) by (field; lra).
  assert (Hn : nAA + nBB - pB * (2 * nBB) <> 0).
  { set (r := nBB / nAA) in *.
    assert (Hr0 : 0 < r) by (apply Rdiv_lt_0_compat; auto).
    assert (0 < 1 + r - 2 * (pB * r)).
    { destruct (Rlt_le_dec (pB * r) 1).
      - destruct (Rle_lt_dec r (pB * r)); nra.
      - assert (pB * r = 1) by lra. assert (pB < 1) by nra. nra. }
    rewrite Hr. replace (nAA + r * nAA - pB * (2 * (r * nAA))) with (nAA * (1 + r - 2 * (pB * r))) by ring.
    apply Rmult_integral_contrapositive_currified; lra. }
  destruct (Case_1_Stockmayer nAA nBB MAA MBB pB) as (Mn & Mw & HC & HS); auto; try lra.
  exists Mn, Mw. split; auto.
  destruct (Stockmayer_order 1 1 (fun _ => nAA) (fun _ => nBB) (fun _ => 2) (fun _ => 2)
      (fun _ => MAA) (fun _ => MBB) pB) as (Mn' & Mw' & HS' & HO); intros;
    rewrite ?sumn1; auto; try lra.
  - replace (pB * (2 * nBB) / (2 * nAA)) with (pB * (nBB / nAA)) by (field; lra). auto.
  - replace (2 ^ 2 * nAA / (2 * nAA)) with 2 by (field; lra).
    replace (2 ^ 2 * nBB / (2 * nBB)) with 2 by (field; lra).
    replace (pB * (2 * nBB) / (2 * nAA)) with (pB * (nBB / nAA)) by (field; lra). lra.
  - unfold mass_AB. rewrite !sumn1.
    assert (0 < nAA * MAA) by (apply Rmult_lt_0_compat; auto).
    assert (0 < nBB * MBB) by (apply Rmult_lt_0_compat; auto). lra.
  - rewrite HS in HS'. injection HS' as -> ->. exact HO.
Qed.

Theorem C39_case3_order nAA nBC MAA MBC p1 p2 :
  0 < nAA -> 0 < nBC -> 0 < MAA -> 0 < MBC -> 0 <= p1 <= 1 -> 0 <= p2 <= 1 -> 0 < p1 + p2 ->
  nBC * (p1 + p2) <= 2 * nAA -> p1 * p2 * nBC < nAA ->
  exists Mn Mw, Case_3 p1 p2 (nBC / nAA) MAA MBC = Ok (Mn, Mw) /\ 0 < Mn <= Mw.
Proof.
  intros H1 H2 H3 H4 H5 H6 H7 H8 H9.
  assert (HA : sumn 1 (fun _ => 2 * nAA) = 2 * nAA) by apply sumn1.
  assert (HD : 2 * (nBC * (p1 + p2) / (2 * nAA)) * p1 * p2 / (p1 + p2) *
     (2 ^ 2 * nAA / (2 * nAA) - 1) < 1).
  { replace (2 * (nBC * (p1 + p2) / (2 * nAA)) * p1 * p2 / (p1 + p2) *
     (2 ^ 2 * nAA / (2 * nAA) - 1)) with (p1 * p2 * nBC / nAA) by (field; lra).
    apply (Rmult_lt_reg_r nAA); auto. unfold Rdiv. rewrite Rmult_assoc, Rinv_l; lra. }
  assert (HpA : nBC * (p1 + p2) / (2 * nAA) <= 1).
  { apply (Rmult_le_reg_r (2 * nAA)); [lra|]. unfold Rdiv. rewrite Rmult_assoc, Rinv_l; lra. }
  assert (HM : 0 < nAA * MAA + nBC * MBC).
  { assert (0 < nAA * MAA) by (apply Rmult_lt_0_compat; auto).
    assert (0 < nBC * MBC) by (apply Rmult_lt_0_compat; auto). lra. }
  destruct (ab1b2_solvable 1 (fun _ => nAA) (fun _ => 2) (fun _ => MAA) nBC MBC p1 p2)
    as (EA & E1 & E2 & HR); rewrite ?sumn1; auto; try lra.
  rewrite ?sumn1 in HR.
  destruct (ab1b2_order 1 (fun _ => nAA) (fun _ => 2) (fun _ => MAA) nBC MBC p1 p2) with
    (EA := EA) (E1 := E1) (E2 := E2) as [Hn HO]; intros; rewrite ?sumn1; auto; try lra.
  { unfold mass_AB2. rewrite sumn1. auto. }
  rewrite sumn1 in Hn.
  do 2 eexists. split.
  - apply (Case_3_spec nAA nBC MAA MBC p1 p2 EA E1 E2); auto; lra.
  - rewrite sumn1 in HO. unfold mass_AB2 in HO. rewrite sumn1 in HO.
    replace (p1 * nBC + p2 * nBC) with (nBC * (p1 + p2)) by ring. exact HO.
Qed.

Theorem C39_miller1_order_partial nAf nA2 nB2 (f : nat) MAf MA2 MB2 p1 p2 :
  (1 <= f)%nat ->
  0 <= nAf -> 0 <= nA2 -> 0 < INR f * nAf + 2 * nA2 -> 0 < nB2 ->
  0 <= p1 <= 1 -> 0 <= p2 <= 1 -> 0 < p1 + p2 ->
  let a := INR f * nAf + 2 * nA2 in
  let pA := nB2 * (p1 + p2) / a in
  pA <= 1 ->
  2 * pA * p1 * p2 / (p1 + p2) * ((INR f ^ 2 * nAf + 2 ^ 2 * nA2) / a - 1) < 1 ->
  0 < nAf * MAf + nA2 * MA2 + nB2 * MB2 ->
  exists Mn Mw, Miller_1 nAf nA2 nB2 f MAf MA2 MB2 p1 p2 = Ok (Mn, Mw) /\ 0 < Mn <= Mw.
Proof.
  intros Hf H1 H2 H3 H4 H5 H6 H7 a pA HpA HD HM.
  apply le_INR in Hf. simpl in Hf.
  set (nA := pair2 nAf nA2). set (fn := pair2 (INR f) 2). set (MA := pair2 MAf MA2).
  assert (Ea : sumn 2 (fun i => fn i * nA i) = a) by (rewrite sumn2; reflexivity).
  assert (Ef : sumn 2 (fun i => fn i ^ 2 * nA i) = INR f ^ 2 * nAf + 2 ^ 2 * nA2)
    by (rewrite sumn2; reflexivity).
  assert (Em : mass_AB2 2 nA MA nB2 MB2 = nAf * MAf + nA2 * MA2 + nB2 * MB2)
    by (unfold mass_AB2; rewrite sumn2; reflexivity).
  assert (En : sumn 2 nA = nAf + nA2) by (rewrite sumn2; reflexivity).
  destruct (ab1b2_solvable 2 nA fn MA nB2 MB2 p1 p2) as (EA & E1 & E2 & HR);
    rewrite ?Ea, ?Ef; auto.
  rewrite Ea in HR.
  destruct (ab1b2_order 2 nA fn MA nB2 MB2 p1 p2) with
    (EA := EA) (E1 := E1) (E2 := E2) as [Hn HO]; intros; rewrite ?Ea, ?Ef, ?Em; auto; try lra.
  { destruct i as [|[|i]]; simpl; auto; lia. }
  { destruct i as [|[|i]]; simpl; lra. }
  rewrite En in Hn, HO. rewrite Em in HO.
  do 2 eexists. split.
  - apply (Miller_1_spec nAf nA2 nB2 f MAf MA2 MB2 p1 p2 EA E1 E2); auto; try lra.
    fold nA MA. rewrite Em. lra.
  - fold nA MA fn. rewrite Em. exact HO.
Qed.

Theorem C39_miller2_order nAf nB2 (f : nat) MAf MB2 (p : nat -> R) :
  let s := sumn f (fun i => INR (S i) * p i) in
  let pB := nAf * s / (2 * nB2) in
  0 < nAf -> 0 < nB2 -> 0 < s ->
  (forall i, (i < f)%nat -> 0 <= p i) -> sumn f p <= 1 -> pB <= 1 ->
  pB * (sumn f (fun i => INR (S i) ^ 2 * p i) / s - 1) < 1 ->
  0 < nAf * MAf + nB2 * MB2 ->
  exists Mn Mw, Miller_2 nAf nB2 f MAf MB2 p = (Fin Mn, Fin Mw) /\ 0 < Mn <= Mw.
Proof. exact (Miller_2_order nAf nB2 f MAf MB2 p). Qed.

Theorem C39_miller2_gel nAf nB2 (f : nat) MAf MB2 (p : nat -> R) :
  let s := sumn f (fun i => INR (S i) * p i) in
  let pB := nAf * s / (2 * nB2) in
  0 < nAf -> 0 < nB2 -> 0 < s ->
  1 <= pB * (sumn f (fun i => INR (S i) ^ 2 * p i) / s - 1) ->
  Miller_2 nAf nB2 f MAf MB2 p = (NaN, NaN).
Proof.
  intros s pB H1 H2 H3 H4. apply Miller_2_gel; auto.
Qed.

(** Finding: beyond the gel point (pB1 pB2 / r * (fe - 1) = 1.62 > 1) Miller_1
    reports negative averages instead of NaN. *)
Theorem C39_miller1_gel_refuted :
  exists nAf nA2 nB2 f MAf MA2 MB2 p1 p2 Mn Mw,
    0 < nAf /\ 0 <= nA2 /\ 0 < nB2 /\ 0 < p1 < 1 /\ 0 < p2 < 1 /\
    nB2 * (p1 + p2) <= INR f * nAf + 2 * nA2 /\ 0 < MAf /\ 0 < MA2 /\ 0 < MB2 /\
    Miller_1 nAf nA2 nB2 f MAf MA2 MB2 p1 p2 = Ok (Mn, Mw) /\ Mn < 0 /\ Mw < 0.
Proof.
  destruct Miller_1_beyond_gel as (Mn & Mw & H1 & H2 & H3).
  exists 1, 0, (3/2), 3%nat, 100, 100, 100, (9/10), (9/10), Mn, Mw.
  repeat split; auto; try lra. simpl. lra.
Qed.

Example C39_stockmayer_ex :
  exists Mn Mw, Stockmayer 2 1 (pair2 1 2) (fun _ => 4) (pair2 3 2) (fun _ => 2)
     (pair2 100 80) (fun _ => 50) (/ 2) = (Fin Mn, Fin Mw) /\ 0 < Mn <= Mw.
Proof.
  apply C39_stockmayer_order; try (simpl; lra); intros i Hi; try lra.
  - destruct i as [|[|i]]; simpl; lra.
  - destruct i as [|[|i]]; simpl; lra.
Qed.

Example C39_gel_ex :
  Stockmayer 1 1 (fun _ => 2) (fun _ => 3) (fun _ => 3) (fun _ => 2)
     (fun _ => 100) (fun _ => 50) 0.8 = (NaN, NaN).
Proof. apply C39_stockmayer_gel; simpl; lra. Qed.

Example C39_flory_ex : Flory_Af 3 100 0.5 = Ok (NaN, NaN, NaN).
Proof. apply C39_flory_gel; [lia|simpl; lra]. Qed.

Print Assumptions C37_stockmayer_Mn.
Print Assumptions C37_case5_refuted.
Print Assumptions C38_stockmayer_Mw.
Print Assumptions C38_miller2_binomial.
Print Assumptions C38_flory_Mw_Mz.
Print Assumptions C39_stockmayer_order.
Print Assumptions C39_miller1_order_partial.
Print Assumptions C39_miller1_gel_refuted.
