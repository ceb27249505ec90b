(** Proofs about the step-growth solutions (model in StepModel.v). *)
From Coq Require Import Reals Lra Lia List Bool Arith Psatz.
From Verif Require Import Prelude StepModel.
Import ListNotations.
Open Scope R_scope.

(* ------------------------------------------------------------------ *)
(** * Specification of Mn: total mass over (molecules - bonds)          *)
(* ------------------------------------------------------------------ *)
Definition Mn_of (mass molecules bonds : R) : R := mass / (molecules - bonds).

Lemma Case_1_Mn nAA nBB MAA MBB pB :
  0 < nAA -> 0 < nBB -> 0 < MAA -> 0 < MBB -> 0 < pB -> 
  nAA + nBB - pB * (2 * nBB) <> 0 -> pB * pB * nBB <> nAA ->
  exists Mw, Case_1 pB (nBB / nAA) MAA MBB =
    Ok (Mn_of (nAA * MAA + nBB * MBB) (nAA + nBB) (pB * (2 * nBB)), Mw).
Proof.
  intros H1 H2 H3 H4 H5 H6 H7. unfold Case_1, Mn_of.
  set (r := nBB / nAA). assert (Hr : 0 < r) by (apply Rdiv_lt_0_compat; auto).
  assert (HrB : nBB = r * nAA) by (unfold r; field; lra).
  rewrite HrB in *. clearbody r.
  assert (D1 : pB * r + pB - 2 * (pB * r) * pB <> 0).
  { intros Z. apply H6.
    replace (nAA + r * nAA - pB * (2 * (r * nAA)))
      with (nAA / pB * (pB * r + pB - 2 * (pB * r) * pB)) by (field; lra).
    rewrite Z; ring. }
  assert (D2 : 1 - pB * r * pB <> 0).
  { intros Z. apply H7.
    replace (pB * pB * (r * nAA)) with (nAA - nAA * (1 - pB * r * pB)) by ring. rewrite Z; ring. }
  assert (D3 : 0 < pB * MAA + pB * r * MBB).
  { apply Rplus_lt_0_compat; repeat apply Rmult_lt_0_compat; auto. }
  rewrite pydiv_ok by auto. cbn [bind].
  rewrite pydiv_ok by auto. cbn [bind].
  rewrite pydiv_ok by lra. cbn [bind].
  rewrite pydiv_ok by (apply Rmult_integral_contrapositive_currified; [auto|lra]). cbn [bind].
  eexists. f_equal. f_equal. field. split; [auto|]. lra.
Qed.

Lemma Case_3_Mn nAA nBC MAA MBC pB pC :
  0 < nAA -> 0 < nBC -> 0 < MAA -> 0 < MBC -> 0 <= pB -> 0 <= pC -> 0 < pB + pC ->
  nAA + nBC - (pB + pC) * nBC <> 0 -> pB * pC * nBC <> nAA ->
  exists Mw, Case_3 pB pC (nBC / nAA) MAA MBC =
    Ok (Mn_of (nAA * MAA + nBC * MBC) (nAA + nBC) (pB * nBC + pC * nBC), Mw).
Proof.
  intros H1 H2 H3 H4 H5 H5' H5'' H6 H7. unfold Case_3, Mn_of.
  set (r := nBC / nAA). assert (Hr : 0 < r) by (apply Rdiv_lt_0_compat; auto).
  assert (HrB : nBC = r * nAA) by (unfold r; field; lra).
  rewrite HrB in *. clearbody r.
  set (s := pB + pC) in *.
  rewrite pydiv_ok.
  2:{ intros Z. apply H6.
      replace (nAA + r * nAA - s * (r * nAA)) with
        (nAA / s * (2 * (r * s / 2) + pB + pC - 2 * (r * s / 2) * s)).
      - rewrite Z; ring.
      - replace (2 * (r * s / 2) + pB + pC) with (r * s + s) by (unfold s; field). field; lra. }
  cbn [bind].
  rewrite pydiv_ok by lra. cbn [bind].
  rewrite pydiv_ok by (apply pow_nonzero; lra). cbn [bind].
  rewrite pydiv_ok by lra. cbn [bind].
  rewrite pydiv_ok.
  2:{ apply Rmult_integral_contrapositive_currified.
      - intros Z. apply H7.
        replace (pB * pC * (r * nAA)) with (nAA - nAA * (1 - 2 * (r * s / 2) * pB * pC / s))
          by (field; lra).
        rewrite Z; ring.
      - replace (2 * (r * s / 2) / s) with r by (field; lra).
        assert (0 < r * MBC) by (apply Rmult_lt_0_compat; auto). lra. }
  cbn [bind]. eexists. f_equal. f_equal.
  replace (2 * (r * s / 2) + pB + pC - 2 * (r * s / 2) * s) with (s * (r + 1 - r * s))
    by (unfold s; field).
  replace (nAA + r * nAA - (pB * (r * nAA) + pC * (r * nAA))) with (nAA * (r + 1 - r * s))
    by (unfold s; ring).
  assert (r + 1 - r * s <> 0).
  { intros Z; apply H6. replace (nAA + r * nAA - s * (r * nAA)) with (nAA * (r + 1 - r * s)) by ring.
    rewrite Z; ring. }
  field. repeat split; try lra.
Qed.

Lemma Case_6_Mn nAA nBC MAA MBC pC :
  0 < nAA -> nAA + nBC - pC * nBC <> 0 ->
  Case_6 pC (nBC / nAA) MAA MBC =
    Ok (Mn_of (nAA * MAA + nBC * MBC) (nAA + nBC) (pC * nBC)).
Proof.
  intros H1 H2. unfold Case_6, Mn_of.
  assert (E : 1 + nBC / nAA * (1 - pC) = (nAA + nBC - pC * nBC) / nAA) by (field; lra).
  rewrite pydiv_ok.
  - f_equal. rewrite E. field. split; [|lra]. lra.
  - rewrite E. unfold Rdiv. apply Rmult_integral_contrapositive_currified; auto.
    apply Rinv_neq_0_compat; lra.
Qed.

Lemma Case_7_Mn nAB nCD MAB MCD pA pC :
  0 < nAB -> nAB + nCD - (pA * nAB + pC * nCD) <> 0 ->
  Case_7 pA pC (nCD / nAB) MAB MCD =
    Ok (Mn_of (nAB * MAB + nCD * MCD) (nAB + nCD) (pA * nAB + pC * nCD)).
Proof.
  intros H1 H2. unfold Case_7, Mn_of.
  assert (E : 1 + nCD / nAB - (pA + nCD / nAB * pC) = (nAB + nCD - (pA * nAB + pC * nCD)) / nAB)
    by (field; lra).
  rewrite pydiv_ok.
  - f_equal. rewrite E. field. split; [|lra]. lra.
  - rewrite E. unfold Rdiv. apply Rmult_integral_contrapositive_currified; auto.
    apply Rinv_neq_0_compat; lra.
Qed.

Ltac nz := first [ assumption | lra | apply Rmult_integral_contrapositive_currified; nz
                 | apply Rinv_neq_0_compat; nz ].

Lemma Case_8_Mn nAA nBB nCC MAA MBB MCC pB pC :
  0 < nAA -> 0 < nBB -> 0 <= nCC -> 0 < pB * nBB + pC * nCC ->
  nAA + nBB + nCC - (2 * nBB * pB + 2 * nCC * pC) <> 0 ->
  Case_8 pB pC ((2 * nBB + 2 * nCC) / (2 * nAA)) (nCC / nBB) MAA MBB MCC =
    Ok (Mn_of (nAA * MAA + nBB * MBB + nCC * MCC) (nAA + nBB + nCC)
              (2 * nBB * pB + 2 * nCC * pC)).
Proof.
  intros H1 H2 H3 H4 H5. unfold Case_8, Mn_of.
  assert (E1 : 1 + nCC / nBB = (nBB + nCC) / nBB) by (field; lra).
  assert (E2 : pB + nCC / nBB * pC = (pB * nBB + pC * nCC) / nBB) by (field; lra).
  assert (D1 : 1 + nCC / nBB <> 0).
  { rewrite E1. unfold Rdiv. apply Rmult_integral_contrapositive_currified; [lra|].
    apply Rinv_neq_0_compat; lra. }
  assert (D2 : pB + nCC / nBB * pC <> 0).
  { rewrite E2. unfold Rdiv. apply Rmult_integral_contrapositive_currified; [lra|].
    apply Rinv_neq_0_compat; lra. }
  rewrite pydiv_ok by auto; cbn [bind].
  set (a := (2 * nBB + 2 * nCC) / (2 * nAA) * (pB + nCC / nBB * pC) / (1 + nCC / nBB)).
  assert (Ea : a = (pB * nBB + pC * nCC) / nAA).
  { unfold a; rewrite E1, E2; field; repeat split; lra. }
  rewrite !pydiv_ok by auto; cbn [bind].
  assert (E3 : 1 - 2 * a + a * (1 + nCC / nBB) / (pB + nCC / nBB * pC) =
               (nAA + nBB + nCC - (2 * nBB * pB + 2 * nCC * pC)) / nAA).
  { rewrite Ea, E1, E2. field. repeat split; lra. }
  rewrite pydiv_ok.
  - f_equal. rewrite E3. rewrite Ea, E2. field. repeat split; try lra; try nz.
  - rewrite E3. unfold Rdiv; nz.
Qed.

Lemma Case_9_Mn nAA nBB nCC nDD MAA MBB MCC MDD pB pC pD :
  0 < nAA -> 0 <= nBB -> 0 < nCC -> 0 <= nDD -> 0 < pC * nCC + pD * nDD ->
  nAA + nBB + nCC + nDD - (2 * nCC * pC + 2 * nDD * pD) <> 0 ->
  Case_9 pB pC pD ((2 * nCC + 2 * nDD) / (2 * nAA + 2 * nBB)) (nBB / nAA) (nDD / nCC)
         MAA MBB MCC MDD =
    Ok (Mn_of (nAA * MAA + nBB * MBB + nCC * MCC + nDD * MDD) (nAA + nBB + nCC + nDD)
              (2 * nCC * pC + 2 * nDD * pD)).
Proof.
  intros H1 H2 H3 H4 H5 H6. unfold Case_9, Mn_of.
  assert (E1 : 1 + nDD / nCC = (nCC + nDD) / nCC) by (field; lra).
  assert (E2 : pC + nDD / nCC * pD = (pC * nCC + pD * nDD) / nCC) by (field; lra).
  assert (D1 : 1 + nDD / nCC <> 0) by (rewrite E1; unfold Rdiv; nz).
  assert (D2 : pC + nDD / nCC * pD <> 0) by (rewrite E2; unfold Rdiv; nz).
  rewrite pydiv_ok by auto; cbn [bind].
  set (a := (2 * nCC + 2 * nDD) / (2 * nAA + 2 * nBB) * (1 + nBB / nAA) / (1 + nDD / nCC) *
            (pC + nDD / nCC * pD) - nBB / nAA * pB).
  assert (Ea : a + nBB / nAA * pB = (pC * nCC + pD * nDD) / nAA).
  { unfold a; rewrite E1, E2; field; repeat split; lra. }
  rewrite !pydiv_ok by auto; cbn [bind].
  assert (E3 : 1 - a + nBB / nAA * (1 - pB) +
     (a + nBB / nAA * pB) / (pC + nDD / nCC * pD) * (1 - pC + nDD / nCC * (1 - pD)) =
               (nAA + nBB + nCC + nDD - (2 * nCC * pC + 2 * nDD * pD)) / nAA).
  { replace (1 - a + nBB / nAA * (1 - pB)) with (1 + nBB / nAA - (a + nBB / nAA * pB)) by ring.
    rewrite Ea, E2. field. repeat split; lra. }
  rewrite pydiv_ok.
  - f_equal. rewrite E3. rewrite Ea, E2. field. repeat split; try lra; try nz.
  - rewrite E3. unfold Rdiv; nz.
Qed.

Lemma Case_10_Mn nAA nBC nDD MAA MBC MDD pB pC pD :
  0 < nAA -> 0 <= nBC -> 0 < nDD -> 0 < (pB + pC) * nBC + 2 * pD * nDD ->
  nAA + nBC + nDD - (pB * nBC + pC * nBC + 2 * nDD * pD) <> 0 ->
  Case_10 pB pC pD ((2 * nBC + 2 * nDD) / (2 * nAA)) (nBC / nDD) MAA MBC MDD =
    Ok (Mn_of (nAA * MAA + nBC * MBC + nDD * MDD) (nAA + nBC + nDD)
              (pB * nBC + pC * nBC + 2 * nDD * pD)).
Proof.
  intros H1 H2 H3 H4 H5. unfold Case_10, Mn_of.
  assert (E1 : 2 * (nBC / nDD / 2) + 1 = (nBC + nDD) / nDD) by (field; lra).
  assert (E2 : nBC / nDD / 2 * (pB + pC) + pD = ((pB + pC) * nBC + 2 * pD * nDD) / (2 * nDD))
    by (field; lra).
  assert (D1 : 2 * (nBC / nDD / 2) + 1 <> 0) by (rewrite E1; unfold Rdiv; nz).
  assert (D2 : nBC / nDD / 2 * (pB + pC) + pD <> 0) by (rewrite E2; unfold Rdiv; nz).
  rewrite pydiv_ok by auto; cbn [bind].
  set (a := (2 * nBC + 2 * nDD) / (2 * nAA) * (nBC / nDD / 2 * (pB + pC) + pD) /
            (2 * (nBC / nDD / 2) + 1)).
  assert (Ea : a = ((pB + pC) * nBC + 2 * pD * nDD) / (2 * nAA)).
  { unfold a; rewrite E1, E2; field; repeat split; lra. }
  rewrite !pydiv_ok by auto; cbn [bind].
  assert (E3 : 1 - a + a / (nBC / nDD / 2 * (pB + pC) + pD) *
     (1 - pD + nBC / nDD / 2 * (2 - pB - pC)) =
       (nAA + nBC + nDD - (pB * nBC + pC * nBC + 2 * nDD * pD)) / nAA).
  { rewrite Ea, E2. field. repeat split; lra. }
  rewrite pydiv_ok.
  - f_equal. rewrite E3. rewrite Ea, E2. field. repeat split; try lra; try nz.
  - rewrite E3. unfold Rdiv; nz.
Qed.

Lemma Case_11_Mn nAA nBC nDD MAA MBC MDD pB pC pD :
  0 < nAA -> pD <> 0 ->
  nAA + nBC + nDD - (pC * nBC + 2 * nDD * pD) <> 0 ->
  Case_11 pB pC pD (nBC / nAA) (nDD / nAA) MAA MBC MDD =
    Ok (Mn_of (nAA * MAA + nBC * MBC + nDD * MDD) (nAA + nBC + nDD)
              (pC * nBC + 2 * nDD * pD)).
Proof.
  intros H1 H2 H3. unfold Case_11, Mn_of.
  set (a := nBC / nAA / 2 * (pC - pB) + nDD / nAA * pD).
  rewrite pydiv_ok by auto; cbn [bind].
  assert (E1 : (a + nBC / nAA / 2 * (pB - pC)) / pD = nDD / nAA) by (unfold a; field; split; lra).
  rewrite E1.
  assert (E3 : 1 - 2 * a + 2 * (nBC / nAA / 2) * (1 - pB) + nDD / nAA =
     (nAA + nBC + nDD - (pC * nBC + 2 * nDD * pD)) / nAA) by (unfold a; field; lra).
  rewrite pydiv_ok.
  - f_equal. rewrite E3. field. repeat split; try lra; try nz.
  - rewrite E3. unfold Rdiv; nz.
Qed.

(** Case_5, with r_C_B the documented ratio of C to B groups: on the documented
    doctest amounts the result is not total mass over number of molecules. *)
Lemma Case_5_wrong :
  let nAA := 1.01 in let nBB := 1 in let nC := 0.01 in
  exists Mn, Case_5 0.99 0.95 ((2 * nBB + nC) / (2 * nAA)) (nC / (2 * nBB)) 100 90 40 = Ok Mn /\
    Mn_of (nAA * 100 + nBB * 90 + nC * 40) (nAA + nBB + nC) (2 * nBB * 0.99 + nC * 0.95) < 6276 /\
    6859 < Mn.
Proof.
  cbv zeta. unfold Case_5, Mn_of.
  rewrite pydiv_ok by lra; cbn [bind].
  rewrite !pydiv_ok by lra; cbn [bind].
  rewrite pydiv_ok by lra.
  eexists; split; [reflexivity|]. split; lra.
Qed.

(** Case_5 without C reduces to the correct value (v = 0). *)
Lemma Case_5_noC nAA nBB MAA MBB MC pB pC :
  0 < nAA -> 0 < nBB -> 0 < pB -> nAA + nBB - 2 * nBB * pB <> 0 ->
  Case_5 pB pC ((2 * nBB) / (2 * nAA)) 0 MAA MBB MC =
    Ok (Mn_of (nAA * MAA + nBB * MBB) (nAA + nBB) (2 * nBB * pB)).
Proof.
  intros H1 H2 H3 H4. unfold Case_5, Mn_of.
  rewrite pydiv_ok by lra; cbn [bind].
  set (a := 2 * nBB / (2 * nAA) * (pB + 0 * pC) / (1 + 0)).
  assert (Ea : a = nBB * pB / nAA) by (unfold a; field; lra).
  rewrite !pydiv_ok by lra; cbn [bind].
  assert (E3 : 1 - 2 * a + 2 * a * (1 + 0) / (2 * pB + 0 * pC) = (nAA + nBB - 2 * nBB * pB) / nAA)
    by (rewrite Ea; field; lra).
  rewrite pydiv_ok.
  - f_equal. rewrite E3, Ea. field. repeat split; try lra; nz.
  - rewrite E3. unfold Rdiv; nz.
Qed.

Lemma Case_1_zero r MAA MBB : Case_1 0 r MAA MBB = Err ZeroDivisionError.
Proof. unfold Case_1. rewrite pydiv_zero by ring. reflexivity. Qed.

Lemma Case_3_zero r MAA MBC : Case_3 0 0 r MAA MBC = Err ZeroDivisionError.
Proof. unfold Case_3. rewrite pydiv_zero by field. reflexivity. Qed.

(* ------------------------------------------------------------------ *)
(** * Mw by the recursive argument (Macosko-Miller)                     *)
(* ------------------------------------------------------------------ *)

(** Expected weights [EA], [EB] looking out of an A (B) group when A-groups
    (conversion pA) and B-groups (pB) react independently; a random B group
    belongs to monomer j with probability g_j n_j / sum. *)
Definition recursion_AB (N M : nat) (nA nB f g MA MB : nat -> R) (pA pB EA EB : R) : Prop :=
  EA = pA * sumn M (fun j => g j * nB j / sumn M (fun k => g k * nB k)
                             * (MB j + (g j - 1) * EB)) /\
  EB = pB * sumn N (fun i => f i * nA i / sumn N (fun k => f k * nA k)
                             * (MA i + (f i - 1) * EA)).

Definition mass_AB (N M : nat) (nA nB MA MB : nat -> R) : R :=
  sumn N (fun i => nA i * MA i) + sumn M (fun j => nB j * MB j).

(** Mass-weighted expected weight of the molecule containing a random unit. *)
Definition Mw_of_AB (N M : nat) (nA nB f g MA MB : nat -> R) (EA EB : R) : R :=
  (sumn N (fun i => nA i * MA i * (MA i + f i * EA)) +
   sumn M (fun j => nB j * MB j * (MB j + g j * EB)))
  / mass_AB N M nA nB MA MB.

Lemma rec_sum (N : nat) (n f M : nat -> R) (E a : R) :
  a = sumn N (fun k => f k * n k) -> a <> 0 ->
  sumn N (fun i => f i * n i / a * (M i + (f i - 1) * E)) =
  sumn N (fun i => M i * f i * n i) / a + (sumn N (fun i => f i ^ 2 * n i) / a - 1) * E.
Proof.
  intros Ha Hn.
  transitivity (sumn N (fun i => (/ a) * (M i * f i * n i)
      + ((/ a * E) * (f i ^ 2 * n i) - (/ a * E) * (f i * n i)))).
  - apply sumn_ext. intros i Hi. field. auto.
  - rewrite sumn_plus, sumn_minus, !sumn_scal, <- Ha. field. auto.
Qed.

Lemma wt_sum (N : nat) (n f M : nat -> R) (E : R) :
  sumn N (fun i => n i * M i * (M i + f i * E)) =
  sumn N (fun i => M i ^ 2 * n i) + sumn N (fun i => M i * f i * n i) * E.
Proof.
  transitivity (sumn N (fun i => M i ^ 2 * n i + M i * f i * n i * E)).
  - apply sumn_ext. intros; ring.
  - rewrite sumn_plus, sumn_scal_r. reflexivity.
Qed.

Section Stock.
Variables (N M : nat) (nA nB f g MA MB : nat -> R) (pB : R).
Let a := sumn N (fun i => f i * nA i).
Let b := sumn M (fun j => g j * nB j).
Let fe := sumn N (fun i => f i ^ 2 * nA i) / a.
Let ge := sumn M (fun j => g j ^ 2 * nB j) / b.
Let Ma := sumn N (fun i => MA i * f i * nA i) / a.
Let Mb := sumn M (fun j => MB j * g j * nB j) / b.
Let pA := pB * b / a.
Let D := pA * pB * (fe - 1) * (ge - 1).

Hypothesis Ha : 0 < a.
Hypothesis Hb : 0 < b.
Hypothesis HpB : 0 <= pB.

Lemma stock_gel_iff :
  (if Rleb (b * (fe - 1) * (ge - 1)) 0 then false
   else Rleb (sqrt (a / (b * (fe - 1) * (ge - 1)))) pB) = true <-> 1 <= D.
Proof.
  set (den := b * (fe - 1) * (ge - 1)).
  assert (HD : D = pB * pB * den / a) by (unfold D, pA, den; field; lra).
  destruct (Rleb den 0) eqn:E.
  - apply Rleb_true in E. split; [discriminate|]. intros H. exfalso.
    rewrite HD in H.
    assert (pB * pB * den / a <= 0); [|lra].
    unfold Rdiv. assert (0 < / a) by (apply Rinv_0_lt_compat; auto).
    assert (0 <= pB * pB) by (apply Rmult_le_pos; auto). 
    assert (0 <= pB * pB * / a) by (apply Rmult_le_pos; lra). nra.
  - apply Rleb_false in E. rewrite Rleb_true.
    assert (E2 : a / den >= 0) by (apply Rle_ge, Rlt_le, Rdiv_lt_0_compat; lra).
    split; intros H.
    + rewrite HD. apply (Rmult_le_reg_r a); auto. 
      replace (pB * pB * den / a * a) with (pB * pB * den) by (field; lra).
      assert (a / den <= pB * pB).
      { rewrite <- (sqrt_sqrt (a / den)) by lra.
        apply Rmult_le_compat; auto; apply sqrt_pos. }
      apply (Rmult_le_compat_r den) in H0; [|lra].
      replace (a / den * den) with a in H0 by (field; lra). lra.
    + rewrite HD in H. rewrite <- (sqrt_square pB) by auto. apply sqrt_le_1_alt.
      apply (Rmult_le_reg_r den); [lra|]. 
      replace (a / den * den) with a by (field; lra).
      apply (Rmult_le_compat_r a) in H; [|lra].
      replace (pB * pB * den / a * a) with (pB * pB * den) in H by (field; lra). lra.
Qed.

Lemma stock_rec EA EB :
  recursion_AB N M nA nB f g MA MB pA pB EA EB ->
  EA = pA * (Mb + (ge - 1) * EB) /\ EB = pB * (Ma + (fe - 1) * EA).
Proof.
  intros [H1 H2]. rewrite rec_sum with (a := b) in H1 by (auto; lra).
  rewrite rec_sum with (a := a) in H2 by (auto; lra). auto.
Qed.

(** Beyond gelation NaN; below, Mn and Mw as specified. *)
Lemma Stockmayer_gel : 1 <= D -> Stockmayer N M nA nB f g MA MB pB = (NaN, NaN).
Proof.
  intros H. apply stock_gel_iff in H. unfold Stockmayer, dot.
  fold a b fe ge. rewrite H. reflexivity.
Qed.

Lemma Stockmayer_ok :
  D < 1 -> 0 < pB -> mass_AB N M nA nB MA MB <> 0 ->
  forall EA EB, recursion_AB N M nA nB f g MA MB pA pB EA EB ->
  Stockmayer N M nA nB f g MA MB pB =
    (Fin (Mn_of (mass_AB N M nA nB MA MB) (sumn N nA + sumn M nB) (pB * b)),
     Fin (Mw_of_AB N M nA nB f g MA MB EA EB)).
Proof.
  intros HD Hp Hm EA EB Hr. apply stock_rec in Hr. destruct Hr as [H1 H2].
  unfold Stockmayer, dot.
  fold a b fe ge Ma Mb pA.
  destruct (if Rleb (b * (fe - 1) * (ge - 1)) 0 then false
   else Rleb (sqrt (a / (b * (fe - 1) * (ge - 1)))) pB) eqn:E.
  { apply stock_gel_iff in E. lra. }
  assert (EmA : sumn N (fun i => nA i * MA i) = sumn N (fun i => MA i * nA i))
    by (apply sumn_ext; intros; ring).
  assert (EmB : sumn M (fun i => nB i * MB i) = sumn M (fun i => MB i * nB i))
    by (apply sumn_ext; intros; ring).
  assert (Hab : pA * a = pB * b) by (unfold pA; field; lra).
  assert (HpA : 0 < pA).
  { unfold pA. apply Rdiv_lt_0_compat; auto. apply Rmult_lt_0_compat; auto. }
  unfold Mn_of, Mw_of_AB, mass_AB in *. rewrite EmA, EmB in *.
  f_equal; f_equal.
  - rewrite Hab. reflexivity.
  - rewrite !wt_sum.
    replace (sumn N (fun i => MA i * f i * nA i)) with (Ma * a) by (unfold Ma; field; lra).
    replace (sumn M (fun i => MB i * g i * nB i)) with (Mb * b) by (unfold Mb; field; lra).
    set (sA := sumn N (fun i => MA i * nA i)) in *.
    set (sB := sumn M (fun i => MB i * nB i)) in *.
    set (s2A := sumn N (fun i => MA i ^ 2 * nA i)) in *.
    set (s2B := sumn M (fun i => MB i ^ 2 * nB i)) in *.
    assert (HEA : EA = pA * (Mb + pB * (ge - 1) * Ma) / (1 - D)).
    { apply (Rmult_eq_reg_r (1 - D)); [|lra]. 
      replace (pA * (Mb + pB * (ge - 1) * Ma) / (1 - D) * (1 - D))
        with (pA * (Mb + pB * (ge - 1) * Ma)) by (field; lra).
      rewrite H2 in H1. unfold D. rewrite Rmult_minus_distr_l.
      replace (EA * 1) with (pA * (Mb + (ge - 1) * (pB * (Ma + (fe - 1) * EA)))) by lra. ring. }
    assert (HEB : EB = pB * (Ma + pA * (fe - 1) * Mb) / (1 - D)).
    { rewrite H2, HEA. unfold D. field. unfold D in HD; lra. }
    rewrite HEA, HEB. fold D. clearbody D.
    assert (Hb' : b = pA * a / pB) by (rewrite Hab; field; lra).
    rewrite Hb'. field. repeat split; try lra.
    intros Z. apply Hm. apply Rmult_eq_reg_l with pB; lra.
Qed.
End Stock.

(* ------------------------------------------------------------------ *)
(** * Ordering Mn <= Mw                                                 *)
(* ------------------------------------------------------------------ *)

(** The quadratic form "second moment of the molecule masses" is positive
    semidefinite below the gel point. *)
Lemma second_moment_psd a b pA pB phi gam ua vb u2 v2 :
  0 < a -> 0 < b -> 0 <= pA <= 1 -> 0 <= pB <= 1 -> pA * a = pB * b ->
  0 <= phi -> 0 <= gam -> pA * pB * phi * gam < 1 ->
  a * ua ^ 2 <= (1 + phi) * u2 -> b * vb ^ 2 <= (1 + gam) * v2 ->
  0 <= (1 - pA * pB * phi * gam) * (u2 + v2)
       + pB * b * (pA * phi * vb ^ 2 + pB * gam * ua ^ 2 + 2 * ua * vb).
Proof.
  intros Ha Hb HA HB Hab Hphi Hgam HD Hu Hv.
  set (D := pA * pB * phi * gam) in *.
  assert (HP : 0 <= pA * pB <= 1) by nra.
  set (P := pA * pB) in *.
  (* multiply by (1+phi)(1+gam) *)
  assert (K : 0 <= a * (1 + gam) * (1 + P * gam) * ua ^ 2 + b * (1 + phi) * (1 + P * phi) * vb ^ 2
              + 2 * (pB * b) * (1 + phi) * (1 + gam) * ua * vb).
  { (* discriminant: A x^2 + B y^2 + 2 C x y with C^2 <= A B *)
    set (A := a * (1 + gam) * (1 + P * gam)).
    set (B := b * (1 + phi) * (1 + P * phi)).
    set (C := pB * b * (1 + phi) * (1 + gam)).
    assert (HA' : 0 < A).
    { unfold A. repeat apply Rmult_lt_0_compat; try lra.
      assert (0 <= P * gam) by (apply Rmult_le_pos; lra). lra. }
    assert (HC : C ^ 2 <= A * B).
    { assert (E : A * B - C ^ 2 = a * b * (1 + phi) * (1 + gam) * ((1 - P) * (1 - D))).
      { assert (Hb2 : (pB * b) ^ 2 = a * b * P).
        { unfold P. replace ((pB * b) ^ 2) with ((pB * b) * (pB * b)) by ring.
          rewrite <- Hab at 1. ring. }
        unfold A, B, C.
        replace ((pB * b * (1 + phi) * (1 + gam)) ^ 2) with
          ((pB * b) ^ 2 * ((1 + phi) * (1 + gam)) ^ 2) by ring.
        rewrite Hb2. unfold D. fold P.
        replace (pA * pB * phi * gam) with (P * phi * gam) by (unfold P; ring). ring. }
      assert (0 <= a * b * (1 + phi) * (1 + gam) * ((1 - P) * (1 - D))).
      { repeat apply Rmult_le_pos; lra. }
      lra. }
    assert (0 <= A * (A * ua ^ 2 + B * vb ^ 2 + 2 * C * ua * vb)).
    { replace (A * (A * ua ^ 2 + B * vb ^ 2 + 2 * C * ua * vb)) with
        ((A * ua + C * vb) ^ 2 + (A * B - C ^ 2) * vb ^ 2) by ring.
      apply Rplus_le_le_0_compat; [apply pow2_ge_0|].
      apply Rmult_le_pos; [lra|apply pow2_ge_0]. }
    replace (A * ua ^ 2 + B * vb ^ 2 + 2 * (pB * b) * (1 + phi) * (1 + gam) * ua * vb)
      with (A * ua ^ 2 + B * vb ^ 2 + 2 * C * ua * vb) by (unfold C; ring).
    apply (Rmult_le_reg_l A); lra. }
  apply (Rmult_le_reg_l ((1 + phi) * (1 + gam))).
  { apply Rmult_lt_0_compat; lra. }
  rewrite Rmult_0_r. eapply Rle_trans; [exact K|].
  assert (U : (1 - D) * (1 + gam) * (a * ua ^ 2) <= (1 - D) * (1 + gam) * ((1 + phi) * u2)).
  { apply Rmult_le_compat_l; auto. apply Rmult_le_pos; lra. }
  assert (V : (1 - D) * (1 + phi) * (b * vb ^ 2) <= (1 - D) * (1 + phi) * ((1 + gam) * v2)).
  { apply Rmult_le_compat_l; auto. apply Rmult_le_pos; lra. }
  assert (EU : a * (1 + gam) * (1 + P * gam) * ua ^ 2 =
    (1 - D) * (1 + gam) * (a * ua ^ 2) + (1 + phi) * (1 + gam) * (pB * b * (pB * gam * ua ^ 2))).
  { rewrite <- Hab. unfold D, P. ring. }
  assert (EV : b * (1 + phi) * (1 + P * phi) * vb ^ 2 =
    (1 - D) * (1 + phi) * (b * vb ^ 2) + (1 + phi) * (1 + gam) * (pB * b * (pA * phi * vb ^ 2))).
  { unfold D, P. ring. }
  rewrite EU, EV. lra.
Qed.

Section StockOrder.
Variables (N M : nat) (nA nB f g MA MB : nat -> R) (pB : R).
Let a := sumn N (fun i => f i * nA i).
Let b := sumn M (fun j => g j * nB j).
Let fe := sumn N (fun i => f i ^ 2 * nA i) / a.
Let ge := sumn M (fun j => g j ^ 2 * nB j) / b.
Let Ma := sumn N (fun i => MA i * f i * nA i) / a.
Let Mb := sumn M (fun j => MB j * g j * nB j) / b.
Let pA := pB * b / a.
Let D := pA * pB * (fe - 1) * (ge - 1).

Hypothesis HnA : forall i, (i < N)%nat -> 0 <= nA i.
Hypothesis HnB : forall i, (i < M)%nat -> 0 <= nB i.
Hypothesis Hf : forall i, (i < N)%nat -> 1 <= f i.
Hypothesis Hg : forall i, (i < M)%nat -> 1 <= g i.
Hypothesis Ha : 0 < a.
Hypothesis Hb : 0 < b.
Hypothesis HpB : 0 < pB <= 1.
Hypothesis HpA : pA <= 1.
Hypothesis HD : D < 1.
Hypothesis Hm : 0 < mass_AB N M nA nB MA MB.

Lemma stock_rec_solvable : exists EA EB, recursion_AB N M nA nB f g MA MB pA pB EA EB.
Proof.
  exists (pA * (Mb + pB * (ge - 1) * Ma) / (1 - D)), (pB * (Ma + pA * (fe - 1) * Mb) / (1 - D)).
  unfold recursion_AB. rewrite !rec_sum with (a := b) by (auto; lra).
  rewrite !rec_sum with (a := a) by (auto; lra). fold fe ge Ma Mb.
  split; unfold D in *; field; lra.
Qed.

Lemma fe_ge_1 (K : nat) (n h : nat -> R) : 
  (forall i, (i < K)%nat -> 0 <= n i) -> (forall i, (i < K)%nat -> 1 <= h i) ->
  0 < sumn K (fun i => h i * n i) ->
  0 <= sumn K (fun i => h i ^ 2 * n i) / sumn K (fun i => h i * n i) - 1.
Proof.
  intros Hn Hh Hs. set (s := sumn K (fun i => h i * n i)) in *.
  assert (s <= sumn K (fun i => h i ^ 2 * n i)).
  { apply sumn_le. intros i Hi. specialize (Hn i Hi). specialize (Hh i Hi).
    assert (h i * n i <= h i * h i * n i); [|simpl; lra].
    apply Rmult_le_compat_r; nra. }
  apply (Rmult_le_reg_r s); auto. 
  replace ((sumn K (fun i => h i ^ 2 * n i) / s - 1) * s) with (sumn K (fun i => h i ^ 2 * n i) - s)
    by (field; lra). lra.
Qed.

Lemma tilt_sum (K : nat) (n h m : nat -> R) t c :
  sumn K (fun i => n i * (m i - t * (1 - c * h i)) ^ 2) =
  sumn K (fun i => m i ^ 2 * n i) - 2 * t * (sumn K (fun i => n i * m i)
     - c * sumn K (fun i => m i * h i * n i))
  + t ^ 2 * (sumn K n - 2 * c * sumn K (fun i => h i * n i)
             + c ^ 2 * sumn K (fun i => h i ^ 2 * n i)).
Proof.
  transitivity (sumn K (fun i => (m i ^ 2 * n i
     + ((2 * t * c) * (m i * h i * n i) - (2 * t) * (n i * m i)))
     + ((t ^ 2 * n i - (2 * c * t ^ 2) * (h i * n i)) + (c ^ 2 * t ^ 2) * (h i ^ 2 * n i)))).
  - apply sumn_ext; intros; ring.
  - rewrite !sumn_plus, !sumn_minus, !sumn_scal. ring.
Qed.

Lemma tilt_cross (K : nat) (n h m : nat -> R) t c :
  sumn K (fun i => n i * h i * (m i - t * (1 - c * h i))) =
  sumn K (fun i => m i * h i * n i) - t * (sumn K (fun i => h i * n i)
     - c * sumn K (fun i => h i ^ 2 * n i)).
Proof.
  transitivity (sumn K (fun i => m i * h i * n i
     - (t * (h i * n i) - (t * c) * (h i ^ 2 * n i)))).
  - apply sumn_ext; intros; ring.
  - rewrite !sumn_minus, !sumn_scal. ring.
Qed.

(** Second moment (weight-weighted sum), below the gel point. *)
Let W2 := sumn N (fun i => MA i ^ 2 * nA i) + sumn M (fun j => MB j ^ 2 * nB j)
        + pB * b * (pA * (fe - 1) * Mb ^ 2 + pB * (ge - 1) * Ma ^ 2 + 2 * Ma * Mb) / (1 - D).

Lemma tilt_nonneg t :
  0 <= W2 - 2 * t * mass_AB N M nA nB MA MB
       + t ^ 2 * (sumn N nA + sumn M nB - pB * b).
Proof.
  assert (Hphi : 0 <= fe - 1) by (apply fe_ge_1; auto).
  assert (Hgam : 0 <= ge - 1) by (apply fe_ge_1; auto).
  assert (HpA0 : 0 < pA).
  { unfold pA. apply Rdiv_lt_0_compat; auto. apply Rmult_lt_0_compat; lra. }
  assert (Hab : pA * a = pB * b) by (unfold pA; field; lra).
  assert (Hcd : exists c d, c = pA * (1 - d) /\ d = pB * (1 - c) /\ pB * b <= c * a + d * b).
  { destruct (Req_dec (pA * pB) 1) as [E1|NE].
    - assert (pA = 1) by nra. assert (pB = 1) by nra. exists (/2), (/2). rewrite H, H0.
      rewrite H, H0 in Hab. repeat split; lra.
    - assert (pA * pB < 1) by nra.
      exists (pA * (1 - pB) / (1 - pA * pB)), (pB * (1 - pA) / (1 - pA * pB)).
      split; [field; lra|]. split; [field; lra|].
      assert (E : pA * (1 - pB) / (1 - pA * pB) * a + pB * (1 - pA) / (1 - pA * pB) * b - pB * b
                = pB * b * (1 - pA) * (1 - pB) / (1 - pA * pB)).
      { replace (pA * (1 - pB) / (1 - pA * pB) * a) with (pA * a * (1 - pB) / (1 - pA * pB))
          by (field; lra). rewrite Hab. field; lra. }
      assert (0 <= pB * b * (1 - pA) * (1 - pB) / (1 - pA * pB)); [|lra].
      unfold Rdiv. repeat apply Rmult_le_pos; try lra.
      apply Rlt_le, Rinv_0_lt_compat; lra. }
  destruct Hcd as (c & d & Hc & Hd & Hcd).
  (* PSD instance *)
  set (u := fun i => MA i - t * (1 - c * f i)).
  set (v := fun i => MB i - t * (1 - d * g i)).
  set (phi := fe - 1) in *. set (gam := ge - 1) in *.
  assert (Hfe : sumn N (fun i => f i ^ 2 * nA i) = a * (1 + phi))
    by (unfold phi, fe; field; lra).
  assert (Hge : sumn M (fun i => g i ^ 2 * nB i) = b * (1 + gam))
    by (unfold gam, ge; field; lra).
  assert (HMa : sumn N (fun i => MA i * f i * nA i) = a * Ma) by (unfold Ma; field; lra).
  assert (HMb : sumn M (fun i => MB i * g i * nB i) = b * Mb) by (unfold Mb; field; lra).
  set (ua := Ma - t * (1 - c * (1 + phi))).
  set (vb := Mb - t * (1 - d * (1 + gam))).
  assert (Hu : a * ua ^ 2 <= (1 + phi) * sumn N (fun i => nA i * u i ^ 2)).
  { pose proof (sumn_cauchy N nA f u HnA) as C.
    unfold u at 1 in C. rewrite tilt_cross in C. fold a in C.
    rewrite Hfe, HMa in C.
    replace (sumn N (fun i => nA i * f i ^ 2)) with (a * (1 + phi)) in C
      by (rewrite <- Hfe; apply sumn_ext; intros; ring).
    replace ((a * Ma - t * (a - c * (a * (1 + phi)))) ^ 2) with (a * (a * ua ^ 2)) in C
      by (unfold ua; ring).
    apply (Rmult_le_reg_l a); lra. }
  assert (Hv : b * vb ^ 2 <= (1 + gam) * sumn M (fun i => nB i * v i ^ 2)).
  { pose proof (sumn_cauchy M nB g v HnB) as C.
    unfold v at 1 in C. rewrite tilt_cross in C. fold b in C.
    rewrite Hge, HMb in C.
    replace (sumn M (fun i => nB i * g i ^ 2)) with (b * (1 + gam)) in C
      by (rewrite <- Hge; apply sumn_ext; intros; ring).
    replace ((b * Mb - t * (b - d * (b * (1 + gam)))) ^ 2) with (b * (b * vb ^ 2)) in C
      by (unfold vb; ring).
    apply (Rmult_le_reg_l b); lra. }
  assert (HD' : pA * pB * phi * gam < 1) by exact HD.
  pose proof (second_moment_psd a b pA pB phi gam ua vb _ _ Ha Hb (conj (Rlt_le _ _ HpA0) HpA)
     (conj (Rlt_le _ _ (proj1 HpB)) (proj2 HpB)) Hab Hphi Hgam HD' Hu Hv) as Q.
  unfold u, v in Q. rewrite !tilt_sum in Q. fold a b in Q.
  rewrite Hfe, Hge, HMa, HMb in Q.
  unfold W2, mass_AB in *.
  set (s2A := sumn N (fun i => MA i ^ 2 * nA i)) in *.
  set (s2B := sumn M (fun i => MB i ^ 2 * nB i)) in *.
  set (SA := sumn N (fun i => nA i * MA i)) in *.
  set (SB := sumn M (fun i => nB i * MB i)) in *.
  set (n := sumn N nA + sumn M nB) in *.
  assert (HD2 : 0 < 1 - D) by lra.
  apply (Rmult_le_reg_l (1 - D)); auto. rewrite Rmult_0_r.
  assert (Q2 : 0 <= (1 - D) * (s2A + s2B) 
     + pB * b * (pA * phi * Mb ^ 2 + pB * gam * Ma ^ 2 + 2 * Ma * Mb)
     - 2 * t * ((1 - D) * (SA + SB)) + t ^ 2 * ((1 - D) * (n - c * a - d * b))).
  { eapply Rle_trans; [exact Q|]. apply Req_le.
    assert (EDf : D = pA * pB * phi * gam) by reflexivity.
    unfold ua, vb, n. rewrite <- EDf.
    assert (I1 : c = pA * (1 - d)) by exact Hc.
    assert (I2 : pB * (1 - c) = d) by (symmetry; exact Hd).
    assert (I1' : pA * (1 - d) = c) by (symmetry; exact Hc).
    (* Ma coefficient: (1-D) c a = pB b [pB gam (1 - c(1+phi)) + 1 - d(1+gam)] *)
    assert (J1 : pB * b * (pB * gam * (1 - c * (1 + phi)) + (1 - d * (1 + gam))) = (1 - D) * c * a).
    { rewrite <- Hab, EDf.
      replace (pA * a * (pB * gam * (1 - c * (1 + phi)) + (1 - d * (1 + gam))))
        with (a * (pA * gam * (pB * (1 - c)) - pA * pB * gam * phi * c + pA * (1 - d) - pA * d * gam))
        by ring.
      rewrite I2, I1'. ring. }
    assert (J2 : pB * b * (pA * phi * (1 - d * (1 + gam)) + (1 - c * (1 + phi))) = (1 - D) * d * b).
    { rewrite EDf.
      replace (pB * b * (pA * phi * (1 - d * (1 + gam)) + (1 - c * (1 + phi))))
        with (b * (pB * phi * (pA * (1 - d)) - pA * pB * gam * phi * d + pB * (1 - c) - pB * c * phi))
        by ring.
      rewrite I2, I1'. ring. }
    (* quadratic in t *)
    set (za := 1 - c * (1 + phi)) in *. set (zb := 1 - d * (1 + gam)) in *.
    replace (pB * b * (pA * phi * (Mb - t * zb) ^ 2 + pB * gam * (Ma - t * za) ^ 2
              + 2 * (Ma - t * za) * (Mb - t * zb)))
      with (pB * b * (pA * phi * Mb ^ 2 + pB * gam * Ma ^ 2 + 2 * Ma * Mb)
            - 2 * t * (Ma * (pB * b * (pB * gam * za + zb)) + Mb * (pB * b * (pA * phi * zb + za)))
            + t ^ 2 * (za * (pB * b * (pB * gam * za + zb)) + zb * (pB * b * (pA * phi * zb + za))))
      by ring.
    rewrite J1, J2. unfold za, zb. ring. }
  replace ((1 - D) * (s2A + s2B + pB * b * (pA * phi * Mb ^ 2 + pB * gam * Ma ^ 2 + 2 * Ma * Mb)
     / (1 - D) - 2 * t * (SA + SB) + t ^ 2 * (n - pB * b)))
   with ((1 - D) * (s2A + s2B) 
     + pB * b * (pA * phi * Mb ^ 2 + pB * gam * Ma ^ 2 + 2 * Ma * Mb)
     - 2 * t * ((1 - D) * (SA + SB)) + t ^ 2 * ((1 - D) * (n - pB * b)))
   by (field; lra).
  assert (t ^ 2 * ((1 - D) * (n - c * a - d * b)) <= t ^ 2 * ((1 - D) * (n - pB * b))).
  { apply Rmult_le_compat_l; [apply pow2_ge_0|]. apply Rmult_le_compat_l; lra. }
  lra.
Qed.

Lemma stock_nb_pos : 0 < sumn N nA + sumn M nB - pB * b.
Proof.
  destruct (Rlt_le_dec 0 (sumn N nA + sumn M nB - pB * b)) as [H|H]; auto. exfalso.
  set (S := mass_AB N M nA nB MA MB) in *.
  pose proof (tilt_nonneg ((Rabs W2 + 1) / S)) as T. fold S in T.
  replace (2 * ((Rabs W2 + 1) / S) * S) with (2 * (Rabs W2 + 1)) in T by (field; lra).
  assert (((Rabs W2 + 1) / S) ^ 2 * (sumn N nA + sumn M nB - pB * b) <= 0).
  { assert (0 <= ((Rabs W2 + 1) / S) ^ 2) by apply pow2_ge_0. nra. }
  pose proof (Rle_abs W2). pose proof (Rabs_pos W2). lra.
Qed.

Lemma Stockmayer_order :
  exists Mn Mw, Stockmayer N M nA nB f g MA MB pB = (Fin Mn, Fin Mw) /\ 0 < Mn <= Mw.
Proof.
  destruct stock_rec_solvable as (EA & EB & HR).
  assert (HB : 0 <= pB) by lra.
  assert (Hm' : mass_AB N M nA nB MA MB <> 0) by lra.
  do 2 eexists. split.
  { apply (Stockmayer_ok N M nA nB f g MA MB pB Ha Hb HB HD (proj1 HpB) Hm' EA EB HR). }
  pose proof stock_nb_pos as Hn. unfold Mn_of. fold b.
  set (S := mass_AB N M nA nB MA MB) in *.
  set (nb := sumn N nA + sumn M nB - pB * b) in *.
  split; [apply Rdiv_lt_0_compat; auto|].
  assert (E : Mw_of_AB N M nA nB f g MA MB EA EB = W2 / S).
  { destruct (stock_rec N M nA nB f g MA MB pB Ha Hb EA EB HR) as [H1 H2].
    unfold Mw_of_AB. fold S. f_equal.
    rewrite !wt_sum. fold a b fe ge Ma Mb pA in H1, H2 |- *.
    replace (sumn N (fun i => MA i * f i * nA i)) with (Ma * a) by (unfold Ma; field; lra).
    replace (sumn M (fun i => MB i * g i * nB i)) with (Mb * b) by (unfold Mb; field; lra).
    assert (Hab : pA * a = pB * b) by (unfold pA; field; lra).
    assert (HEA : EA = pA * (Mb + pB * (ge - 1) * Ma) / (1 - D)).
    { apply (Rmult_eq_reg_r (1 - D)); [|lra]. 
      replace (pA * (Mb + pB * (ge - 1) * Ma) / (1 - D) * (1 - D))
        with (pA * (Mb + pB * (ge - 1) * Ma)) by (field; lra).
      rewrite H2 in H1. unfold D. rewrite Rmult_minus_distr_l.
      replace (EA * 1) with (pA * (Mb + (ge - 1) * (pB * (Ma + (fe - 1) * EA)))) by lra. ring. }
    assert (HEB : EB = pB * (Ma + pA * (fe - 1) * Mb) / (1 - D)).
    { rewrite H2, HEA. unfold D. field. unfold D in HD; lra. }
    rewrite HEA, HEB. unfold W2.
    replace (Ma * a * (pA * (Mb + pB * (ge - 1) * Ma) / (1 - D)))
      with (Ma * (pA * a) * (Mb + pB * (ge - 1) * Ma) / (1 - D)) by (field; lra).
    rewrite Hab. field. lra. }
  rewrite E.
  pose proof (tilt_nonneg (S / nb)) as T. fold S nb in T.
  replace (W2 - 2 * (S / nb) * S + (S / nb) ^ 2 * nb) with (W2 - S * S / nb) in T by (field; lra).
  apply (Rmult_le_reg_r S); auto.
  replace (W2 / S * S) with W2 by (field; lra).
  replace (S / nb * S) with (S * S / nb) by (field; lra). lra.
Qed.
End StockOrder.

(* ------------------------------------------------------------------ *)
(** * Case_1 is Stockmayer with f = g = 2                               *)
(* ------------------------------------------------------------------ *)
Lemma sumn1 (h : nat -> R) : sumn 1 h = h 0%nat.
Proof. simpl. ring. Qed.

Lemma Case_1_Stockmayer nAA nBB MAA MBB pB :
  0 < nAA -> 0 < nBB -> 0 < MAA -> 0 < MBB -> 0 < pB ->
  pB * (nBB / nAA) * pB < 1 -> nAA + nBB - pB * (2 * nBB) <> 0 ->
  exists Mn Mw, Case_1 pB (nBB / nAA) MAA MBB = Ok (Mn, Mw) /\
    Stockmayer 1 1 (fun _ => nAA) (fun _ => nBB) (fun _ => 2) (fun _ => 2)
      (fun _ => MAA) (fun _ => MBB) pB = (Fin Mn, Fin Mw).
Proof.
  intros H1 H2 H3 H4 H5 H6 H7.
  set (r := nBB / nAA) in *. assert (Hr : 0 < r) by (apply Rdiv_lt_0_compat; auto).
  assert (HrB : nBB = r * nAA) by (unfold r; field; lra).
  assert (D1 : pB * r + pB - 2 * (pB * r) * pB <> 0).
  { intros Z. apply H7. rewrite HrB.
    replace (nAA + r * nAA - pB * (2 * (r * nAA)))
      with (nAA / pB * (pB * r + pB - 2 * (pB * r) * pB)) by (field; lra).
    rewrite Z; ring. }
  assert (D3 : 0 < pB * MAA + pB * r * MBB).
  { assert (0 < pB * MAA) by (apply Rmult_lt_0_compat; auto).
    assert (0 < pB * r) by (apply Rmult_lt_0_compat; auto).
    assert (0 < pB * r * MBB) by (apply Rmult_lt_0_compat; auto). lra. }
  unfold Case_1.
  rewrite pydiv_ok by auto. cbn [bind].
  rewrite pydiv_ok by lra. cbn [bind].
  rewrite pydiv_ok by lra. cbn [bind].
  rewrite pydiv_ok by (apply Rmult_integral_contrapositive_currified; lra). cbn [bind].
  do 2 eexists. split; [reflexivity|].
  unfold Stockmayer, dot. rewrite !sumn1.
  assert (E1 : 2 ^ 2 * nAA / (2 * nAA) = 2) by (field; lra).
  assert (E2 : 2 ^ 2 * nBB / (2 * nBB) = 2) by (field; lra).
  rewrite E1, E2.
  assert (E3 : 2 * nBB * (2 - 1) * (2 - 1) = 2 * nBB) by ring. rewrite E3.
  assert (Rleb (2 * nBB) 0 = false) by (apply Rleb_false; lra). rewrite H.
  assert (Hg : Rleb (sqrt (2 * nAA / (2 * nBB))) pB = false).
  { apply Rleb_false. rewrite <- (sqrt_square pB) by lra. apply sqrt_lt_1_alt.
    split; [apply Rmult_le_pos; lra|].
    replace (2 * nAA / (2 * nBB)) with (/ r) by (unfold r; field; lra).
    apply (Rmult_lt_reg_r r); auto. rewrite Rinv_l by lra. lra. }
  rewrite Hg. f_equal; f_equal.
  - rewrite HrB. field. repeat split; try lra.
    intros Z. apply H7. rewrite HrB. lra.
  - rewrite HrB. field. repeat split; try lra.
Qed.

(* ------------------------------------------------------------------ *)
(** * A-monomers + B1B2 with different conversions (Case_3, Miller_1)    *)
(* ------------------------------------------------------------------ *)
(** The B2 unit carries two sites of conversions p1 and p2 that react
    independently; a reacted A group is bonded to site 1 with probability
    p1/(p1+p2).  [EA], [E1], [E2]: expected weights looking out of an A group,
    a site-1 group and a site-2 group. *)
Definition recursion_AB1B2 (N : nat) (nA f MA : nat -> R) (MB pA p1 p2 EA E1 E2 : R) : Prop :=
  EA = pA * (p1 / (p1 + p2) * (MB + E2) + p2 / (p1 + p2) * (MB + E1)) /\
  E1 = p1 * sumn N (fun i => f i * nA i / sumn N (fun k => f k * nA k)
                             * (MA i + (f i - 1) * EA)) /\
  E2 = p2 * sumn N (fun i => f i * nA i / sumn N (fun k => f k * nA k)
                             * (MA i + (f i - 1) * EA)).

Definition mass_AB2 (N : nat) (nA MA : nat -> R) (nB MB : R) : R :=
  sumn N (fun i => nA i * MA i) + nB * MB.

Definition Mw_of_AB1B2 (N : nat) (nA f MA : nat -> R) (nB MB EA E1 E2 : R) : R :=
  (sumn N (fun i => nA i * MA i * (MA i + f i * EA)) + nB * MB * (MB + E1 + E2))
  / mass_AB2 N nA MA nB MB.

Lemma quad_psd A B C x y : 0 < A -> C ^ 2 <= A * B -> 0 <= A * x ^ 2 + B * y ^ 2 + 2 * C * x * y.
Proof.
  intros HA HC.
  assert (0 <= A * (A * x ^ 2 + B * y ^ 2 + 2 * C * x * y)).
  { replace (A * (A * x ^ 2 + B * y ^ 2 + 2 * C * x * y)) with
      ((A * x + C * y) ^ 2 + (A * B - C ^ 2) * y ^ 2) by ring.
    apply Rplus_le_le_0_compat; [apply pow2_ge_0|].
    apply Rmult_le_pos; [lra|apply pow2_ge_0]. }
  apply (Rmult_le_reg_l A); lra.
Qed.

(** From non-negativity of the tilted form to Mn <= Mw. *)
Lemma tilt_order W S nb :
  0 < S -> (forall t, 0 <= W - 2 * t * S + t ^ 2 * nb) -> 0 < nb /\ 0 < S / nb <= W / S.
Proof.
  intros HS HT.
  assert (Hnb : 0 < nb).
  { destruct (Rlt_le_dec 0 nb) as [H|H]; auto. exfalso.
    pose proof (HT ((Rabs W + 1) / S)) as T.
    replace (2 * ((Rabs W + 1) / S) * S) with (2 * (Rabs W + 1)) in T by (field; lra).
    assert (((Rabs W + 1) / S) ^ 2 * nb <= 0).
    { assert (0 <= ((Rabs W + 1) / S) ^ 2) by apply pow2_ge_0. nra. }
    pose proof (Rle_abs W). pose proof (Rabs_pos W). lra. }
  split; auto. split; [apply Rdiv_lt_0_compat; auto|].
  pose proof (HT (S / nb)) as T.
  replace (W - 2 * (S / nb) * S + (S / nb) ^ 2 * nb) with (W - S * S / nb) in T by (field; lra).
  apply (Rmult_le_reg_r S); auto.
  replace (W / S * S) with W by (field; lra).
  replace (S / nb * S) with (S * S / nb) by (field; lra). lra.
Qed.

Section AB1B2.
Variables (N : nat) (nA f MA : nat -> R) (nB MB p1 p2 : R).
Let a := sumn N (fun i => f i * nA i).
Let fe := sumn N (fun i => f i ^ 2 * nA i) / a.
Let Ma := sumn N (fun i => MA i * f i * nA i) / a.
Let pA := nB * (p1 + p2) / a.
Let kap := 2 * pA * p1 * p2 / (p1 + p2).
Let D := kap * (fe - 1).

Hypothesis Ha : 0 < a.
Hypothesis HnB : 0 < nB.
Hypothesis Hp1 : 0 <= p1.
Hypothesis Hp2 : 0 <= p2.
Hypothesis Hp : 0 < p1 + p2.

Lemma ab1b2_solution EA E1 E2 :
  D < 1 -> recursion_AB1B2 N nA f MA MB pA p1 p2 EA E1 E2 ->
  EA = (pA * MB + kap * Ma) / (1 - D) /\
  E1 = p1 * (Ma + (fe - 1) * EA) /\ E2 = p2 * (Ma + (fe - 1) * EA).
Proof.
  intros HD (H1 & H2 & H3).
  rewrite rec_sum with (a := a) in H2, H3 by (auto; lra). fold Ma fe in H2, H3.
  split; auto.
  apply (Rmult_eq_reg_r (1 - D)); [|lra].
  replace ((pA * MB + kap * Ma) / (1 - D) * (1 - D)) with (pA * MB + kap * Ma) by (field; lra).
  rewrite H2, H3 in H1. unfold D.
  replace (EA * (1 - kap * (fe - 1))) with (EA - kap * (fe - 1) * EA) by ring.
  rewrite H1 at 1. unfold kap. field. lra.
Qed.

Lemma ab1b2_solvable : D < 1 -> exists EA E1 E2, recursion_AB1B2 N nA f MA MB pA p1 p2 EA E1 E2.
Proof.
  intros HD. set (EA := (pA * MB + kap * Ma) / (1 - D)).
  exists EA, (p1 * (Ma + (fe - 1) * EA)), (p2 * (Ma + (fe - 1) * EA)).
  unfold recursion_AB1B2. rewrite !rec_sum with (a := a) by (auto; lra). fold Ma fe.
  split; [|split; reflexivity].
  replace (p1 / (p1 + p2) * (MB + p2 * (Ma + (fe - 1) * EA)) +
           p2 / (p1 + p2) * (MB + p1 * (Ma + (fe - 1) * EA)))
    with (MB + (2 * p1 * p2 / (p1 + p2)) * (Ma + (fe - 1) * EA)) by (field; lra).
  assert (E : EA * (1 - D) = pA * MB + kap * Ma) by (unfold EA; field; lra).
  assert (Ek : pA * (2 * p1 * p2 / (p1 + p2)) = kap) by (unfold kap; field; lra).
  replace (pA * (MB + 2 * p1 * p2 / (p1 + p2) * (Ma + (fe - 1) * EA)))
    with (pA * MB + pA * (2 * p1 * p2 / (p1 + p2)) * (Ma + (fe - 1) * EA)) by ring.
  rewrite Ek. unfold D in E. lra.
Qed.

Hypothesis HnA : forall i, (i < N)%nat -> 0 <= nA i.
Hypothesis Hf : forall i, (i < N)%nat -> 1 <= f i.
Hypothesis Hp1' : p1 <= 1.
Hypothesis Hp2' : p2 <= 1.
Hypothesis HpA : pA <= 1.
Hypothesis HD : D < 1.
Hypothesis Hm : 0 < mass_AB2 N nA MA nB MB.

Let W2 := sumn N (fun i => MA i ^ 2 * nA i) + nB * MB ^ 2 +
  (a * kap * Ma ^ 2 + 2 * (nB * (p1 + p2)) * Ma * MB + nB * (p1 + p2) * (fe - 1) * pA * MB ^ 2)
  / (1 - D).

Lemma ab1b2_tilt t :
  0 <= W2 - 2 * t * mass_AB2 N nA MA nB MB + t ^ 2 * (sumn N nA + nB - nB * (p1 + p2)).
Proof.
  assert (Hphi : 0 <= fe - 1) by (apply fe_ge_1; auto).
  set (phi := fe - 1) in *. set (sg := p1 + p2) in *.
  assert (HpA0 : 0 < pA).
  { unfold pA. apply Rdiv_lt_0_compat; auto. apply Rmult_lt_0_compat; lra. }
  assert (Hab : pA * a = nB * sg) by (unfold pA, sg; field; lra).
  assert (Hkap : 0 <= kap).
  { unfold kap, Rdiv. apply Rmult_le_pos; [|apply Rlt_le, Rinv_0_lt_compat; exact Hp].
    apply Rmult_le_pos; [|exact Hp2]. apply Rmult_le_pos; [lra|exact Hp1]. }
  set (tau := pA * sg - kap).
  assert (Htau : tau <= pA).
  { unfold tau, kap. fold sg.
    replace (pA * sg - 2 * pA * p1 * p2 / sg) with (pA * ((p1 ^ 2 + p2 ^ 2) / sg))
      by (unfold sg; field; fold sg; lra).
    assert ((p1 ^ 2 + p2 ^ 2) / sg <= 1).
    { apply (Rmult_le_reg_r sg); auto.
      replace ((p1 ^ 2 + p2 ^ 2) / sg * sg) with (p1 ^ 2 + p2 ^ 2) by (field; lra).
      unfold sg. nra. }
    nra. }
  assert (Hfe : sumn N (fun i => f i ^ 2 * nA i) = a * (1 + phi))
    by (unfold phi, fe; field; lra).
  assert (HMa : sumn N (fun i => MA i * f i * nA i) = a * Ma) by (unfold Ma; field; lra).
  (* tilt coefficients *)
  assert (Hc : exists c, (1 - c) * (1 - tau) = 1 - pA /\ 0 <= c).
  { destruct (Req_dec tau 1) as [E1|NE].
    - exists 0. split; [|lra]. assert (pA = 1) by lra. rewrite E1, H. ring.
    - exists (1 - (1 - pA) / (1 - tau)). split; [field; lra|].
      assert ((1 - pA) / (1 - tau) <= 1); [|lra].
      apply (Rmult_le_reg_r (1 - tau)); [lra|].
      replace ((1 - pA) / (1 - tau) * (1 - tau)) with (1 - pA) by (field; lra). lra. }
  destruct Hc as (c & Hc & Hc0).
  set (del := sg * (1 - c)).
  set (u := fun i => MA i - t * (1 - c * f i)).
  set (v := MB - t * (1 - del)).
  set (ua := Ma - t * (1 - c * (1 + phi))).
  assert (Hu : a * ua ^ 2 <= (1 + phi) * sumn N (fun i => nA i * u i ^ 2)).
  { pose proof (sumn_cauchy N nA f u HnA) as C.
    unfold u at 1 in C. rewrite tilt_cross in C. fold a in C.
    rewrite Hfe, HMa in C.
    replace (sumn N (fun i => nA i * f i ^ 2)) with (a * (1 + phi)) in C
      by (rewrite <- Hfe; apply sumn_ext; intros; ring).
    replace ((a * Ma - t * (a - c * (a * (1 + phi)))) ^ 2) with (a * (a * ua ^ 2)) in C
      by (unfold ua; ring).
    apply (Rmult_le_reg_l a); lra. }
  assert (ED : D = kap * phi) by reflexivity.
  (* PSD *)
  assert (Q : 0 <= (1 - D) * (sumn N (fun i => nA i * u i ^ 2) + nB * v ^ 2)
     + (a * kap * ua ^ 2 + 2 * (nB * sg) * ua * v + nB * sg * phi * pA * v ^ 2)).
  { pose proof (quad_psd (a * (1 + kap)) (nB * (1 + phi * tau) * (1 + phi)) (nB * sg * (1 + phi)) ua v) as QP.
    assert (C1 : 0 < a * (1 + kap)) by (apply Rmult_lt_0_compat; lra).
    assert (C2 : (nB * sg * (1 + phi)) ^ 2 <= a * (1 + kap) * (nB * (1 + phi * tau) * (1 + phi))).
    { assert (E : a * (1 + kap) * (nB * (1 + phi * tau) * (1 + phi)) - (nB * sg * (1 + phi)) ^ 2 =
                  a * nB * (1 + phi) * ((1 - tau) * (1 - D))).
      { replace ((nB * sg * (1 + phi)) ^ 2) with ((nB * sg) * (nB * sg) * (1 + phi) ^ 2) by ring.
        rewrite <- Hab at 1.
        replace (pA * a * (nB * sg) * (1 + phi) ^ 2) with (a * nB * (1 + phi) * ((pA * sg) * (1 + phi)))
          by ring.
        replace (pA * sg) with (tau + kap) by (unfold tau; ring).
        rewrite ED. ring. }
      assert (0 <= a * nB * (1 + phi) * ((1 - tau) * (1 - D))).
      { repeat apply Rmult_le_pos; lra. }
      lra. }
    specialize (QP C1 C2).
    apply (Rmult_le_reg_l (1 + phi)); [lra|]. rewrite Rmult_0_r.
    eapply Rle_trans; [exact QP|].
    assert (U : (1 - D) * (a * ua ^ 2) <= (1 - D) * ((1 + phi) * sumn N (fun i => nA i * u i ^ 2))).
    { apply Rmult_le_compat_l; lra. }
    replace (a * (1 + kap) * ua ^ 2) with ((1 - D) * (a * ua ^ 2) + (1 + phi) * (a * kap * ua ^ 2))
      by (rewrite ED; ring).
    replace (nB * (1 + phi * tau) * (1 + phi) * v ^ 2) with
      ((1 + phi) * ((1 - D) * (nB * v ^ 2) + nB * sg * phi * pA * v ^ 2))
      by (rewrite ED; unfold tau; ring).
    lra. }
  unfold u in Q. rewrite tilt_sum in Q. fold a in Q. rewrite Hfe, HMa in Q.
  unfold W2, mass_AB2 in *.
  fold phi sg.
  set (s2A := sumn N (fun i => MA i ^ 2 * nA i)) in *.
  set (SA := sumn N (fun i => nA i * MA i)) in *.
  set (n := sumn N nA) in *.
  assert (Q2 : 0 <= (1 - D) * (s2A + nB * MB ^ 2)
     + (a * kap * Ma ^ 2 + 2 * (nB * sg) * Ma * MB + nB * sg * phi * pA * MB ^ 2)
     - 2 * t * ((1 - D) * (SA + nB * MB)) + t ^ 2 * ((1 - D) * (n + nB - c * a - del * nB))).
  { eapply Rle_trans; [exact Q|]. apply Req_le.
    set (za := 1 - c * (1 + phi)) in *. set (zb := 1 - del) in *.
    (* E_A of the tilt weights is c *)
    assert (Hcc : pA * zb + kap * za = c * (1 - D)).
    { unfold zb, za, del. rewrite ED.
      assert (pA * (1 - sg * (1 - c)) + kap * (1 - c) = c).
      { replace (pA * (1 - sg * (1 - c)) + kap * (1 - c)) with (pA - tau * (1 - c))
          by (unfold tau; ring). lra. }
      lra. }
    assert (J1 : a * kap * za + nB * sg * zb = (1 - D) * c * a).
    { rewrite <- Hab. replace (a * kap * za + pA * a * zb) with (a * (pA * zb + kap * za)) by ring.
      rewrite Hcc. ring. }
    assert (J2 : nB * sg * za + nB * sg * phi * pA * zb = (1 - D) * del * nB).
    { assert (Hz : pA * zb = c * (1 - D) - kap * za) by lra.
      replace (nB * sg * za + nB * sg * phi * pA * zb) with (nB * sg * (za + phi * (pA * zb))) by ring.
      rewrite Hz. unfold del, za. rewrite ED. ring. }
    unfold ua, v. fold za zb.
    replace (a * kap * (Ma - t * za) ^ 2 + 2 * (nB * sg) * (Ma - t * za) * (MB - t * zb)
             + nB * sg * phi * pA * (MB - t * zb) ^ 2)
     with ((a * kap * Ma ^ 2 + 2 * (nB * sg) * Ma * MB + nB * sg * phi * pA * MB ^ 2)
       - 2 * t * (Ma * (a * kap * za + nB * sg * zb) + MB * (nB * sg * za + nB * sg * phi * pA * zb))
       + t ^ 2 * (za * (a * kap * za + nB * sg * zb) + zb * (nB * sg * za + nB * sg * phi * pA * zb)))
     by ring.
    rewrite J1, J2. unfold za, zb. ring. }
  apply (Rmult_le_reg_l (1 - D)); [lra|]. rewrite Rmult_0_r.
  replace ((1 - D) * (s2A + nB * MB ^ 2 + (a * kap * Ma ^ 2 + 2 * (nB * sg) * Ma * MB
      + nB * sg * phi * pA * MB ^ 2) / (1 - D) - 2 * t * (SA + nB * MB)
      + t ^ 2 * (n + nB - nB * sg)))
   with ((1 - D) * (s2A + nB * MB ^ 2)
     + (a * kap * Ma ^ 2 + 2 * (nB * sg) * Ma * MB + nB * sg * phi * pA * MB ^ 2)
     - 2 * t * ((1 - D) * (SA + nB * MB)) + t ^ 2 * ((1 - D) * (n + nB - nB * sg)))
   by (field; lra).
  assert (t ^ 2 * ((1 - D) * (n + nB - c * a - del * nB)) <= t ^ 2 * ((1 - D) * (n + nB - nB * sg))).
  { apply Rmult_le_compat_l; [apply pow2_ge_0|]. apply Rmult_le_compat_l; [lra|].
    assert (0 <= c * (a - pA * a)) by (apply Rmult_le_pos; nra).
    rewrite Hab in H. unfold del. lra. }
  lra.
Qed.

Lemma ab1b2_order EA E1 E2 :
  recursion_AB1B2 N nA f MA MB pA p1 p2 EA E1 E2 ->
  0 < sumn N nA + nB - nB * (p1 + p2) /\
  0 < Mn_of (mass_AB2 N nA MA nB MB) (sumn N nA + nB) (nB * (p1 + p2))
    <= Mw_of_AB1B2 N nA f MA nB MB EA E1 E2.
Proof.
  intros HR. destruct (tilt_order _ _ _ Hm ab1b2_tilt) as [Hn Ho]. split; auto.
  replace (Mw_of_AB1B2 N nA f MA nB MB EA E1 E2) with (W2 / mass_AB2 N nA MA nB MB); [exact Ho|].
  destruct (ab1b2_solution EA E1 E2 HD HR) as (H1 & H2 & H3).
  unfold Mw_of_AB1B2. f_equal. rewrite wt_sum.
  replace (sumn N (fun i => MA i * f i * nA i)) with (a * Ma) by (unfold Ma; field; lra).
  rewrite H2, H3, H1. unfold W2.
  assert (Hab : pA * a = nB * (p1 + p2)) by (unfold pA; field; lra).
  replace (nB * (p1 + p2) * (fe - 1) * pA * MB ^ 2) with (pA * a * (fe - 1) * pA * MB ^ 2)
    by (rewrite Hab; ring).
  replace (2 * (nB * (p1 + p2)) * Ma * MB) with (2 * (pA * a) * Ma * MB) by (rewrite Hab; ring).
  replace (nB * MB * (MB + p1 * (Ma + (fe - 1) * ((pA * MB + kap * Ma) / (1 - D))) +
                      p2 * (Ma + (fe - 1) * ((pA * MB + kap * Ma) / (1 - D)))))
    with (nB * MB ^ 2 + nB * (p1 + p2) * MB * (Ma + (fe - 1) * ((pA * MB + kap * Ma) / (1 - D))))
    by ring.
  rewrite <- Hab. unfold D. field. unfold D in HD. lra.
Qed.
End AB1B2.

Definition pair2 (x y : R) : nat -> R := fun i => match i with O => x | _ => y end.
Lemma sumn2 (h : nat -> R) : sumn 2 h = h 0%nat + h 1%nat.
Proof. simpl. ring. Qed.

Lemma Miller_1_spec nAf nA2 nB2 (f : nat) MAf MA2 MB2 p1 p2 EA E1 E2 :
  0 <= nAf -> 0 <= nA2 -> 0 < INR f * nAf + 2 * nA2 -> 0 < nB2 ->
  0 <= p1 -> 0 <= p2 -> 0 < p1 + p2 ->
  let nA := pair2 nAf nA2 in let fn := pair2 (INR f) 2 in let MA := pair2 MAf MA2 in
  let a := INR f * nAf + 2 * nA2 in
  let pA := nB2 * (p1 + p2) / a in
  2 * pA * p1 * p2 / (p1 + p2) * ((INR f ^ 2 * nAf + 2 ^ 2 * nA2) / a - 1) < 1 ->
  nAf + nA2 + nB2 - nB2 * (p1 + p2) <> 0 ->
  mass_AB2 2 nA MA nB2 MB2 <> 0 ->
  recursion_AB1B2 2 nA fn MA MB2 pA p1 p2 EA E1 E2 ->
  Miller_1 nAf nA2 nB2 f MAf MA2 MB2 p1 p2 =
    Ok (Mn_of (mass_AB2 2 nA MA nB2 MB2) (nAf + nA2 + nB2) (nB2 * (p1 + p2)),
        Mw_of_AB1B2 2 nA fn MA nB2 MB2 EA E1 E2).
Proof.
  intros HnAf HnA2 Ha HnB H1 H2 Hp nA fn MA a pA HD Hnb Hm HR.
  assert (Ea : sumn 2 (fun i => fn i * nA i) = a) by (rewrite sumn2; reflexivity).
  pose proof (ab1b2_solution 2 nA fn MA nB2 MB2 p1 p2) as HS. cbv zeta in HS.
  rewrite Ea in HS. rewrite !sumn2 in HS.
  change (fn 0%nat) with (INR f) in HS. change (fn 1%nat) with 2 in HS.
  change (nA 0%nat) with nAf in HS. change (nA 1%nat) with nA2 in HS.
  change (MA 0%nat) with MAf in HS. change (MA 1%nat) with MA2 in HS.
  fold pA in HS. specialize (HS Ha Hp EA E1 E2 HD HR).
  destruct HS as (EEA & EE1 & EE2).
  assert (Emass : mass_AB2 2 nA MA nB2 MB2 = nAf * MAf + nA2 * MA2 + nB2 * MB2)
    by (unfold mass_AB2; rewrite sumn2; reflexivity).
  unfold Mw_of_AB1B2. rewrite sumn2.
  change (fn 0%nat) with (INR f). change (fn 1%nat) with 2.
  change (nA 0%nat) with nAf. change (nA 1%nat) with nA2.
  change (MA 0%nat) with MAf. change (MA 1%nat) with MA2.
  rewrite Emass in *. clear Emass.
  unfold Miller_1. fold a.
  assert (Ha' : a <> 0) by (unfold a; lra).
  set (F := INR f) in *.
  rewrite pydiv_ok by lra. cbn [bind].
  set (r := a / (2 * nB2)).
  assert (Hr : 0 < r) by (apply Rdiv_lt_0_compat; [exact Ha|lra]).
  rewrite pydiv_ok by lra. cbn [bind].
  replace (/ 2 * (p1 + p2) / r) with pA by (unfold pA, r; field; split; [lra|exact Ha']).
  rewrite pydiv_ok by exact Ha'. cbn [bind].
  set (af := F * nAf / a).
  rewrite pydiv_ok by lra. cbn [bind].
  set (q := p1 * p2 / r).
  assert (Hkap : 2 * pA * p1 * p2 / (p1 + p2) = q).
  { unfold pA, q, r. field. repeat split; try lra; exact Ha'. }
  rewrite Hkap in *.
  assert (Hfe : (F ^ 2 * nAf + 2 ^ 2 * nA2) / a - 1 = 1 + (F - 2) * af).
  { unfold af.
    replace (1 + (F - 2) * (F * nAf / a)) with ((a + (F - 2) * (F * nAf)) / a) by (field; exact Ha').
    replace ((F ^ 2 * nAf + 2 ^ 2 * nA2) / a - 1) with ((F ^ 2 * nAf + 2 ^ 2 * nA2 - a) / a)
      by (field; exact Ha').
    f_equal. unfold a. ring. }
  rewrite Hfe in *.
  assert (HMa : (MAf * F * nAf + MA2 * 2 * nA2) / a = (1 - af) * MA2 + af * MAf).
  { unfold af. 
    replace ((1 - F * nAf / a) * MA2 + F * nAf / a * MAf) 
      with (((a - F * nAf) * MA2 + F * nAf * MAf) / a) by (field; exact Ha').
    f_equal. unfold a. ring. }
  rewrite HMa in *.
  assert (HEA : (pA * MB2 + q * ((1 - af) * MA2 + af * MAf)) / (1 - q * (1 + (F - 2) * af)) = EA).
  { rewrite EEA. reflexivity. }
  rewrite pydiv_ok by lra. cbn [bind]. rewrite HEA.
  rewrite pydiv_ok by lra. cbn [bind].
  rewrite pydiv_ok by lra. cbn [bind].
  f_equal. f_equal.
  - unfold Mn_of. f_equal; ring.
  - rewrite EE1, EE2. f_equal; ring.
Qed.

Lemma Case_3_spec nAA nBC MAA MBC p1 p2 EA E1 E2 :
  0 < nAA -> 0 < nBC -> 0 < MAA -> 0 < MBC -> 0 <= p1 -> 0 <= p2 -> 0 < p1 + p2 ->
  let pA := nBC * (p1 + p2) / (2 * nAA) in
  p1 * p2 * nBC < nAA -> nAA + nBC - (p1 + p2) * nBC <> 0 ->
  recursion_AB1B2 1 (fun _ => nAA) (fun _ => 2) (fun _ => MAA) MBC pA p1 p2 EA E1 E2 ->
  Case_3 p1 p2 (nBC / nAA) MAA MBC =
    Ok (Mn_of (nAA * MAA + nBC * MBC) (nAA + nBC) (p1 * nBC + p2 * nBC),
        Mw_of_AB1B2 1 (fun _ => nAA) (fun _ => 2) (fun _ => MAA) nBC MBC EA E1 E2).
Proof.
  intros H1 H2 H3 H4 H5 H6 H7 pA HD Hnb HR.
  pose proof (ab1b2_solution 1 (fun _ => nAA) (fun _ => 2) (fun _ => MAA) nBC MBC p1 p2) as HS.
  cbv zeta in HS. rewrite !sumn1 in HS. fold pA in HS.
  assert (Ek : 2 * pA * p1 * p2 / (p1 + p2) = p1 * p2 * nBC / nAA)
    by (unfold pA; field; lra).
  assert (Ef : 2 ^ 2 * nAA / (2 * nAA) - 1 = 1) by (field; lra).
  rewrite Ek, Ef in HS.
  assert (HD' : p1 * p2 * nBC / nAA * 1 < 1).
  { apply (Rmult_lt_reg_r nAA); auto.
    replace (p1 * p2 * nBC / nAA * 1 * nAA) with (p1 * p2 * nBC) by (field; lra). lra. }
  assert (Ha2 : 0 < 2 * nAA) by lra.
  specialize (HS Ha2 H7 EA E1 E2 HD' HR). destruct HS as (EEA & EE1 & EE2).
  assert (EM : MAA * 2 * nAA / (2 * nAA) = MAA) by (field; lra). rewrite EM in *.
  destruct (Case_3_Mn nAA nBC MAA MBC p1 p2) as [Mw HMw]; auto; try lra.
  rewrite HMw. f_equal. f_equal.
  unfold Case_3 in HMw.
  set (s := p1 + p2) in *. set (r := nBC / nAA) in *.
  assert (Hr : 0 < r) by (apply Rdiv_lt_0_compat; auto).
  assert (HrB : nBC = r * nAA) by (unfold r; field; lra).
  rewrite pydiv_ok in HMw.
  2:{ intros Z. rewrite pydiv_zero in HMw by exact Z. discriminate. }
  cbn [bind] in HMw.
  rewrite pydiv_ok in HMw by lra. cbn [bind] in HMw.
  rewrite pydiv_ok in HMw by (apply pow_nonzero; lra). cbn [bind] in HMw.
  rewrite pydiv_ok in HMw by lra. cbn [bind] in HMw.
  assert (E2a : 2 * (r * s / 2) / s = r) by (field; lra).
  assert (Eab : 2 * (r * s / 2) * p1 * p2 / s = r * p1 * p2) by (field; lra).
  rewrite Eab, E2a in HMw.
  assert (Hpr : r * p1 * p2 < 1).
  { replace (p1 * p2 * nBC / nAA * 1) with (r * p1 * p2) in HD' by (unfold r; field; lra). auto. }
  assert (Hrm : 0 < MAA + r * MBC) by (assert (0 < r * MBC) by (apply Rmult_lt_0_compat; auto); lra).
  rewrite pydiv_ok in HMw by (apply Rmult_integral_contrapositive_currified; lra).
  cbn [bind] in HMw. injection HMw as _ HMw. rewrite <- HMw.
  unfold Mw_of_AB1B2, mass_AB2. rewrite !sumn1.
  assert (EpA : pA = r * s / 2) by (unfold pA, r, s; field; lra).
  rewrite EE1, EE2, EEA, EpA. 
  replace (p1 * p2 * nBC / nAA) with (r * p1 * p2) by (unfold r; field; lra).
  rewrite HrB. clearbody r. unfold s. field. unfold s in *. repeat split; try lra.
  replace (nAA * MAA + r * nAA * MBC) with (nAA * (MAA + r * MBC)) by ring.
  apply Rmult_integral_contrapositive_currified; lra.
Qed.

(** With equal conversions, the B1B2 recursion is the A + B recursion with g = 2. *)
Lemma ab1b2_equal N nA f MA nB MB pA p EA E1 E2 :
  0 < p -> nB <> 0 ->
  recursion_AB1B2 N nA f MA MB pA p p EA E1 E2 ->
  recursion_AB N 1 nA (fun _ => nB) f (fun _ => 2) MA (fun _ => MB) pA p EA E1 /\
  Mw_of_AB N 1 nA (fun _ => nB) f (fun _ => 2) MA (fun _ => MB) EA E1 =
  Mw_of_AB1B2 N nA f MA nB MB EA E1 E2.
Proof.
  intros Hp Hn (H1 & H2 & H3).
  assert (E12 : E1 = E2) by (rewrite H2, H3; reflexivity).
  split.
  - split; [|exact H2]. rewrite !sumn1. rewrite H1, <- E12. field. lra.
  - unfold Mw_of_AB, Mw_of_AB1B2, mass_AB, mass_AB2. rewrite !sumn1. rewrite <- E12.
    f_equal. ring.
Qed.

(* ------------------------------------------------------------------ *)
(** * Flory_Af                                                          *)
(* ------------------------------------------------------------------ *)
(** e1, e2: first and second moments of the weight attached to a site: with
    probability p there is a unit, whose f-1 other sites carry independent
    copies (variance of the sum = (f-1)(e2 - e1^2)). *)
Definition recursion_Af (f : nat) (M p e1 e2 : R) : Prop :=
  e1 = p * (M + (INR f - 1) * e1) /\
  e2 = p * ((M + (INR f - 1) * e1) ^ 2 + (INR f - 1) * (e2 - e1 ^ 2)).

Lemma Flory_gel f MAf p : (2 <= f)%nat -> 1 <= (INR f - 1) * p -> 
  Flory_Af f MAf p = Ok (NaN, NaN, NaN).
Proof.
  intros Hf Hg. apply le_INR in Hf. simpl in Hf.
  unfold Flory_Af. rewrite pydiv_ok by lra. cbn [bind].
  assert (H : Rleb (1 / (INR f - 1)) p = true).
  { apply Rleb_true. apply (Rmult_le_reg_l (INR f - 1)); [lra|].
    replace ((INR f - 1) * (1 / (INR f - 1))) with 1 by (field; lra). lra. }
  rewrite H. reflexivity.
Qed.

Lemma Flory_spec f MAf p e1 e2 :
  (2 <= f)%nat -> 0 < MAf -> 0 <= p -> (INR f - 1) * p < 1 -> recursion_Af f MAf p e1 e2 ->
  Flory_Af f MAf p = Ok (Fin (Mn_of MAf 1 (INR f * p / 2)), Fin (MAf + INR f * e1),
     Fin (((MAf + INR f * e1) ^ 2 + INR f * (e2 - e1 ^ 2)) / (MAf + INR f * e1))).
Proof.
  intros Hf HM Hp Hg (H1 & H2). pose proof (le_INR _ _ Hf) as Hf'. simpl in Hf'.
  set (F := INR f) in *.
  assert (He1 : e1 = p * MAf / (1 - (F - 1) * p)).
  { apply (Rmult_eq_reg_r (1 - (F - 1) * p)); [|lra].
    replace (p * MAf / (1 - (F - 1) * p) * (1 - (F - 1) * p)) with (p * MAf) by (field; lra).
    replace (e1 * (1 - (F - 1) * p)) with (e1 - (F - 1) * p * e1) by ring. rewrite H1 at 1. ring. }
  assert (He2 : e2 = p * ((MAf + (F - 1) * e1) ^ 2 - (F - 1) * e1 ^ 2) / (1 - (F - 1) * p)).
  { apply (Rmult_eq_reg_r (1 - (F - 1) * p)); [|lra].
    replace (p * ((MAf + (F - 1) * e1) ^ 2 - (F - 1) * e1 ^ 2) / (1 - (F - 1) * p) *
       (1 - (F - 1) * p)) with (p * ((MAf + (F - 1) * e1) ^ 2 - (F - 1) * e1 ^ 2)) by (field; lra).
    replace (e2 * (1 - (F - 1) * p)) with (e2 - (F - 1) * p * e2) by ring. rewrite H2 at 1. ring. }
  clear H1 H2.
  unfold Flory_Af. fold F. rewrite pydiv_ok by lra. cbn [bind].
  assert (H : Rleb (1 / (F - 1)) p = false).
  { apply Rleb_false. apply (Rmult_lt_reg_l (F - 1)); [lra|].
    replace ((F - 1) * (1 / (F - 1))) with 1 by (field; lra). lra. }
  rewrite H. 
  assert (Hp1 : p < 1) by nra.
  assert (HFp : 0 < 1 - F / 2 * p) by nra.
  rewrite pydiv_ok by lra. cbn [bind].
  rewrite pydiv_ok by lra. cbn [bind].
  rewrite pydiv_ok.
  2:{ apply Rmult_integral_contrapositive_currified; [lra|]. apply pow_nonzero; lra. }
  cbn [bind].
  assert (Hw : MAf + F * e1 = MAf * (1 + p) / (1 - p * (F - 1))) by (rewrite He1; field; lra).
  assert (G1 : MAf / (1 - F / 2 * p) = Mn_of MAf 1 (F * p / 2))
    by (unfold Mn_of; f_equal; field).
  rewrite Hw, G1, He2, He1. do 2 f_equal.
  f_equal. field. repeat split; lra.
Qed.

Lemma Flory_rec_solvable f M p : (INR f - 1) * p < 1 -> exists e1 e2, recursion_Af f M p e1 e2.
Proof.
  intros H. set (F := INR f) in *. set (e1 := p * M / (1 - (F - 1) * p)).
  exists e1, (p * ((M + (F - 1) * e1) ^ 2 - (F - 1) * e1 ^ 2) / (1 - (F - 1) * p)).
  split; fold F; [unfold e1|]; field; lra.
Qed.

Lemma Flory_order f MAf p :
  (2 <= f)%nat -> 0 < MAf -> 0 <= p -> (INR f - 1) * p < 1 ->
  exists Mn Mw Mz, Flory_Af f MAf p = Ok (Fin Mn, Fin Mw, Fin Mz) /\ MAf <= Mn <= Mw /\ Mw <= Mz.
Proof.
  intros Hf HM Hp Hg. pose proof (le_INR _ _ Hf) as Hf'. simpl in Hf'.
  destruct (Flory_rec_solvable f MAf p Hg) as (e1 & e2 & HR).
  do 3 eexists. split; [apply (Flory_spec f MAf p e1 e2); auto|].
  destruct HR as [H1 H2]. set (F := INR f) in *.
  assert (He1 : e1 = p * MAf / (1 - (F - 1) * p)).
  { apply (Rmult_eq_reg_r (1 - (F - 1) * p)); [|lra].
    replace (p * MAf / (1 - (F - 1) * p) * (1 - (F - 1) * p)) with (p * MAf) by (field; lra).
    replace (e1 * (1 - (F - 1) * p)) with (e1 - (F - 1) * p * e1) by ring. rewrite H1 at 1. ring. }
  assert (He1p : 0 <= e1).
  { rewrite He1. apply Rmult_le_pos; [nra|]. apply Rlt_le, Rinv_0_lt_compat; lra. }
  assert (Hp1 : p < 1) by nra.
  assert (HFp : 0 < 1 - F * p / 2) by nra.
  split; [split|].
  - unfold Mn_of. apply (Rmult_le_reg_r (1 - F * p / 2)); auto.
    replace (MAf / (1 - F * p / 2) * (1 - F * p / 2)) with MAf by (field; lra).
    assert (0 <= MAf * (F * p / 2)) by (apply Rmult_le_pos; [lra|]; nra). lra.
  - unfold Mn_of. apply (Rmult_le_reg_r (1 - F * p / 2)); auto.
    replace (MAf / (1 - F * p / 2) * (1 - F * p / 2)) with MAf by (field; lra).
    rewrite He1. apply (Rmult_le_reg_r (1 - (F - 1) * p)); [lra|].
    replace ((MAf + F * (p * MAf / (1 - (F - 1) * p))) * (1 - F * p / 2) * (1 - (F - 1) * p))
      with (MAf * (1 + p) * (1 - F * p / 2)) by (field; lra).
    assert (0 <= MAf * (F * p * (1 - p))).
    { apply Rmult_le_pos; [lra|]. apply Rmult_le_pos; [|lra]. apply Rmult_le_pos; lra. }
    lra.
  - set (w := MAf + F * e1). assert (0 < w) by (unfold w; nra).
    assert (Hv : 0 <= e2 - e1 ^ 2).
    { assert (Hi : e2 - e1 ^ 2 = p * (1 - p) * (MAf + (F - 1) * e1) ^ 2 + p * (F - 1) * (e2 - e1 ^ 2)).
      { assert (G : forall X, e1 = p * X -> e1 ^ 2 = p ^ 2 * X ^ 2) by (intros X HX; rewrite HX; ring).
        specialize (G _ H1). rewrite G at 1. rewrite H2 at 1. ring. }
      assert (0 <= (1 - p * (F - 1)) * (e2 - e1 ^ 2)).
      { replace ((1 - p * (F - 1)) * (e2 - e1 ^ 2)) with (p * (1 - p) * (MAf + (F - 1) * e1) ^ 2) by lra.
        apply Rmult_le_pos; [nra|apply pow2_ge_0]. }
      apply (Rmult_le_reg_l (1 - p * (F - 1))); lra. }
    apply (Rmult_le_reg_r w); auto. 
    replace ((w ^ 2 + F * (e2 - e1 ^ 2)) / w * w) with (w ^ 2 + F * (e2 - e1 ^ 2)) by (field; lra).
    assert (0 <= F * (e2 - e1 ^ 2)) by (apply Rmult_le_pos; lra). lra.
Qed.

(* ------------------------------------------------------------------ *)
(** * Miller_2: Af with given extents of reaction + B2                   *)
(* ------------------------------------------------------------------ *)
(** p i = fraction of Af units with i+1 reacted sites.  [EAin]: expected weight
    looking into an Af unit through a reacted site (such a unit has i+1 reacted
    sites with probability (i+1)p_i/sum, i of which lead further); [EBin]: the same
    for a B2 unit, whose other group has reacted with probability pB. *)
Definition recursion_M2 (f : nat) (p : nat -> R) (MAf MB2 pB EAin EBin : R) : Prop :=
  EAin = sumn f (fun i => INR (S i) * p i / sumn f (fun k => INR (S k) * p k)
                          * (MAf + INR i * EBin)) /\
  EBin = MB2 + pB * EAin.

Definition Mw_of_M2 (nAf nB2 : R) (f : nat) (MAf MB2 : R) (p : nat -> R) (pB EAin EBin : R) : R :=
  (nAf * MAf * (MAf + sumn f (fun i => INR (S i) * p i) * EBin)
   + nB2 * MB2 * (MB2 + 2 * pB * EAin)) / (nAf * MAf + nB2 * MB2).

Section M2.
Variables (nAf nB2 : R) (f : nat) (MAf MB2 : R) (p : nat -> R).
Let s := sumn f (fun i => INR (S i) * p i).
Let q2 := sumn f (fun i => INR (S i) ^ 2 * p i).
Let m := q2 / s.
Let pB := nAf * s / (2 * nB2).
Let D := pB * (m - 1).
Hypothesis HnA : 0 < nAf.
Hypothesis HnB : 0 < nB2.
Hypothesis Hs : 0 < s.

Lemma m2_f : 0 < INR f.
Proof.
  destruct f as [|k]; [unfold s in Hs; simpl in Hs; lra|]. apply lt_0_INR; lia.
Qed.

Lemma Miller_2_gel : 1 <= D -> Miller_2 nAf nB2 f MAf MB2 p = (NaN, NaN).
Proof.
  intros H. unfold Miller_2. fold s q2 m. pose proof m2_f as Hf.
  assert (E : INR f * nAf / (2 * nB2) * (s / INR f) * (m - 1) = D).
  { unfold D, pB. field. lra. }
  rewrite E. assert (Rltb D 1 = false) by (apply Rltb_false; lra). rewrite H0. reflexivity.
Qed.

Lemma m2_rec EAin EBin :
  recursion_M2 f p MAf MB2 pB EAin EBin ->
  EAin = MAf + (m - 1) * EBin /\ EBin = MB2 + pB * EAin.
Proof.
  intros [H1 H2]. split; auto. rewrite H1. fold s.
  transitivity (sumn f (fun i => (MAf / s) * (INR (S i) * p i)
     + ((EBin / s) * (INR (S i) ^ 2 * p i) - (EBin / s) * (INR (S i) * p i)))).
  - apply sumn_ext. intros i Hi. rewrite S_INR. field. lra.
  - rewrite sumn_plus, sumn_minus, !sumn_scal. fold s q2. unfold m. field. lra.
Qed.

Lemma m2_solvable : D < 1 -> exists EAin EBin, recursion_M2 f p MAf MB2 pB EAin EBin.
Proof.
  intros HD. exists ((MAf + (m - 1) * MB2) / (1 - D)), ((MB2 + pB * MAf) / (1 - D)).
  split; [|unfold D in *; field; lra]. fold s.
  set (EBin := (MB2 + pB * MAf) / (1 - D)).
  transitivity (sumn f (fun i => (MAf / s) * (INR (S i) * p i)
     + ((EBin / s) * (INR (S i) ^ 2 * p i) - (EBin / s) * (INR (S i) * p i)))).
  - rewrite sumn_plus, sumn_minus, !sumn_scal. fold s q2.
    replace (MAf / s * s + (EBin / s * q2 - EBin / s * s)) with (MAf + (m - 1) * EBin)
      by (unfold m; field; lra).
    unfold EBin, D in *. field. lra.
  - apply sumn_ext. intros i Hi. rewrite S_INR. field. lra.
Qed.

Lemma m2_sol EAin EBin : D < 1 -> recursion_M2 f p MAf MB2 pB EAin EBin ->
  EAin = (MAf + (m - 1) * MB2) / (1 - D) /\ EBin = (MB2 + pB * MAf) / (1 - D).
Proof.
  intros HD HR. apply m2_rec in HR. destruct HR as [H1 H2].
  assert (HA : EAin = (MAf + (m - 1) * MB2) / (1 - D)).
  { apply (Rmult_eq_reg_r (1 - D)); [|lra].
    replace ((MAf + (m - 1) * MB2) / (1 - D) * (1 - D)) with (MAf + (m - 1) * MB2) by (field; lra).
    rewrite H2 in H1. unfold D.
    replace (EAin * (1 - pB * (m - 1))) with (EAin - pB * (m - 1) * EAin) by ring.
    rewrite H1 at 1. ring. }
  split; auto. rewrite H2, HA. unfold D in *. field. lra.
Qed.

Lemma Miller_2_spec EAin EBin :
  D < 1 -> nAf * MAf + nB2 * MB2 <> 0 ->
  recursion_M2 f p MAf MB2 pB EAin EBin ->
  Miller_2 nAf nB2 f MAf MB2 p =
    (Fin (Mn_of (nAf * MAf + nB2 * MB2) (nAf + nB2) (nAf * s)),
     Fin (Mw_of_M2 nAf nB2 f MAf MB2 p pB EAin EBin)).
Proof.
  intros HD Hm HR. apply (m2_sol _ _ HD) in HR. destruct HR as [HA HB].
  unfold Miller_2. fold s q2 m. pose proof m2_f as Hf. set (F := INR f) in *.
  assert (EpB : F * nAf / (2 * nB2) * (s / F) = pB) by (unfold pB; field; lra).
  rewrite EpB. fold D. assert (H0 : Rltb D 1 = true) by (apply Rltb_true; lra). rewrite H0.
  f_equal; f_equal.
  - unfold Mn_of. f_equal; [ring|]. field. lra.
  - unfold Mw_of_M2. fold s. rewrite HA, HB.
    replace (2 * (F * nAf / (2 * nB2)) / F) with (nAf / nB2) by (field; lra).
    replace (4 * (F * nAf / (2 * nB2)) * (s / F) * MAf * MB2) with (4 * pB * MAf * MB2)
      by (unfold pB; field; lra).
    replace (F * (s / F)) with s by (field; lra).
    assert (Hb : nAf * s = 2 * pB * nB2) by (unfold pB; field; lra).
    assert (Hs' : s = 2 * pB * nB2 / nAf) by (rewrite <- Hb; field; lra).
    rewrite Hs'. unfold D in *. clearbody pB m. field.
    repeat split; try lra.
Qed.

Hypothesis Hp0 : forall i, (i < f)%nat -> 0 <= p i.
Hypothesis Hp1 : sumn f p <= 1.
Hypothesis HpB : pB <= 1.
Hypothesis HD : D < 1.
Hypothesis HM : 0 < nAf * MAf + nB2 * MB2.

Let W2 := nAf * MAf ^ 2 + nB2 * MB2 ^ 2
  + nAf * s * (pB * MAf ^ 2 + 2 * MAf * MB2 + (m - 1) * MB2 ^ 2) / (1 - D).

Lemma m2_m_ge1 : 1 <= m.
Proof.
  unfold m. apply (Rmult_le_reg_r s); auto. replace (q2 / s * s) with q2 by (field; lra).
  rewrite Rmult_1_l. apply sumn_le. intros i Hi. specialize (Hp0 i Hi).
  apply Rmult_le_compat_r; auto. rewrite S_INR. pose proof (pos_INR i). nra.
Qed.

Lemma m2_tilt t :
  0 <= W2 - 2 * t * (nAf * MAf + nB2 * MB2) + t ^ 2 * (nAf + nB2 - nAf * s).
Proof.
  pose proof m2_m_ge1 as Hm1.
  set (u := fun i => MAf - t * (1 - INR (S i))).
  set (ub := MAf - t + t * m).
  set (v := MB2 - t).
  set (U2 := (1 - sumn f p) * (MAf - t) ^ 2 + sumn f (fun i => p i * u i ^ 2)).
  assert (Hq2 : q2 = s * m) by (unfold m; field; lra).
  assert (HU : s * ub ^ 2 <= m * U2).
  { pose proof (sumn_cauchy f p (fun i => INR (S i)) u Hp0) as C. cbv beta in C.
    replace (sumn f (fun i => p i * INR (S i) * u i)) with (s * ub) in C.
    2:{ unfold u. symmetry.
        transitivity (sumn f (fun i => (MAf - t) * (INR (S i) * p i) + t * (INR (S i) ^ 2 * p i))).
        - apply sumn_ext; intros; ring.
        - rewrite sumn_plus, !sumn_scal. fold s q2. rewrite Hq2. unfold ub. ring. }
    replace (sumn f (fun i => p i * INR (S i) ^ 2)) with (s * m) in C
      by (rewrite <- Hq2; apply sumn_ext; intros; ring).
    assert (0 <= (1 - sumn f p) * (MAf - t) ^ 2) by (apply Rmult_le_pos; [lra|apply pow2_ge_0]).
    assert (Hx : s * ub ^ 2 <= m * sumn f (fun i => p i * u i ^ 2)).
    { apply (Rmult_le_reg_l s); auto. lra. }
    unfold U2. nra. }
  assert (HUe : U2 = MAf ^ 2 - 2 * t * MAf * (1 - s) + t ^ 2 * (1 - 2 * s + s * m)).
  { unfold U2, u.
    replace (sumn f (fun i => p i * (MAf - t * (1 - INR (S i))) ^ 2)) with
      ((MAf - t) ^ 2 * sumn f p + 2 * t * (MAf - t) * s + t ^ 2 * q2).
    - rewrite Hq2. ring.
    - symmetry. transitivity (sumn f (fun i => ((MAf - t) ^ 2 * p i
         + (2 * t * (MAf - t)) * (INR (S i) * p i)) + t ^ 2 * (INR (S i) ^ 2 * p i))).
      + apply sumn_ext; intros; ring.
      + rewrite !sumn_plus, !sumn_scal. reflexivity. }
  assert (HpB0 : 0 < pB).
  { unfold pB. apply Rdiv_lt_0_compat; [apply Rmult_lt_0_compat|]; lra. }
  assert (Hb : nAf * s = 2 * pB * nB2) by (unfold pB; field; lra).
  set (be := nAf * s) in *.
  assert (Hbe : 0 < be) by (apply Rmult_lt_0_compat; auto).
  assert (Q : 0 <= (1 - D) * (nAf * U2 + nB2 * v ^ 2)
                   + be * (pB * ub ^ 2 + 2 * ub * v + (m - 1) * v ^ 2)).
  { pose proof (quad_psd (be * (1 + pB)) (m * nB2 * (1 + D)) (m * be) ub v) as QP.
    assert (C1 : 0 < be * (1 + pB)) by (apply Rmult_lt_0_compat; lra).
    assert (C2 : (m * be) ^ 2 <= be * (1 + pB) * (m * nB2 * (1 + D))).
    { assert (E : be * (1 + pB) * (m * nB2 * (1 + D)) - (m * be) ^ 2 =
                  m * be * nB2 * ((1 - pB) * (1 - D))).
      { replace ((m * be) ^ 2) with (m * be * (m * be)) by ring.
        rewrite Hb at 3. unfold D. ring. }
      assert (0 <= m * be * nB2 * ((1 - pB) * (1 - D))).
      { apply Rmult_le_pos; [|apply Rmult_le_pos; lra].
        apply Rmult_le_pos; [|lra]. apply Rmult_le_pos; lra. }
      lra. }
    specialize (QP C1 C2).
    apply (Rmult_le_reg_l m); [lra|]. rewrite Rmult_0_r.
    eapply Rle_trans; [exact QP|].
    assert (U : (1 - D) * nAf * (s * ub ^ 2) <= (1 - D) * nAf * (m * U2)).
    { apply Rmult_le_compat_l; auto. apply Rmult_le_pos; lra. }
    replace (be * (1 + pB) * ub ^ 2) with ((1 - D) * nAf * (s * ub ^ 2) + m * (be * (pB * ub ^ 2))) 
      by (unfold D, be; ring).
    replace (m * nB2 * (1 + D) * v ^ 2) with
      (m * ((1 - D) * (nB2 * v ^ 2) + (2 * pB * nB2) * ((m - 1) * v ^ 2))) by (unfold D; ring).
    rewrite <- Hb. lra. }
  apply (Rmult_le_reg_l (1 - D)); [lra|]. rewrite Rmult_0_r.
  unfold W2. fold be.
  replace ((1 - D) * (nAf * MAf ^ 2 + nB2 * MB2 ^ 2
       + be * (pB * MAf ^ 2 + 2 * MAf * MB2 + (m - 1) * MB2 ^ 2) / (1 - D)
       - 2 * t * (nAf * MAf + nB2 * MB2) + t ^ 2 * (nAf + nB2 - be)))
   with ((1 - D) * (nAf * MAf ^ 2 + nB2 * MB2 ^ 2)
       + be * (pB * MAf ^ 2 + 2 * MAf * MB2 + (m - 1) * MB2 ^ 2)
       + (1 - D) * (- 2 * t * (nAf * MAf + nB2 * MB2) + t ^ 2 * (nAf + nB2 - be)))
   by (field; lra).
  eapply Rle_trans; [exact Q|]. apply Req_le. rewrite HUe. unfold ub, v, be, D. ring.
Qed.

Lemma Miller_2_order :
  exists Mn Mw, Miller_2 nAf nB2 f MAf MB2 p = (Fin Mn, Fin Mw) /\ 0 < Mn <= Mw.
Proof.
  destruct (m2_solvable HD) as (EAin & EBin & HR).
  do 2 eexists. split; [apply (Miller_2_spec EAin EBin); auto; lra|].
  destruct (tilt_order _ _ _ HM m2_tilt) as [_ H].
  replace (Mw_of_M2 nAf nB2 f MAf MB2 p pB EAin EBin) with (W2 / (nAf * MAf + nB2 * MB2)); [exact H|].
  unfold Mw_of_M2. f_equal. fold s.
  destruct (m2_sol _ _ HD HR) as [HA HB]. rewrite HA, HB.
  assert (Hb : nAf * s = 2 * pB * nB2) by (unfold pB; field; lra).
  unfold W2.
  replace (nAf * MAf * (MAf + s * ((MB2 + pB * MAf) / (1 - D))))
    with (nAf * MAf ^ 2 + (nAf * s) * MAf * ((MB2 + pB * MAf) / (1 - D))) by ring.
  rewrite Hb. field. lra.
Qed.
End M2.

(* ------------------------------------------------------------------ *)
(** * Miller_1 beyond gelation                                          *)
(* ------------------------------------------------------------------ *)
Lemma Miller_1_beyond_gel :
  exists Mn Mw, Miller_1 1 0 (3/2) 3 100 100 100 (9/10) (9/10) = Ok (Mn, Mw) /\ Mn < 0 /\ Mw < 0.
Proof.
  unfold Miller_1. simpl INR.
  rewrite pydiv_ok by lra; cbn [bind].
  rewrite pydiv_ok by lra; cbn [bind].
  rewrite pydiv_ok by lra; cbn [bind].
  rewrite pydiv_ok by lra; cbn [bind].
  rewrite pydiv_ok by lra; cbn [bind].
  rewrite pydiv_ok by lra; cbn [bind].
  rewrite pydiv_ok by lra; cbn [bind].
  do 2 eexists; split; [reflexivity|]. split; lra.
Qed.

(* ------------------------------------------------------------------ *)
(** * Miller_2 with binomial extents is Stockmayer                       *)
(* ------------------------------------------------------------------ *)
Lemma sumn_sum_f_R0 n h : sumn (S n) h = sum_f_R0 h n.
Proof. induction n as [|n IH]; [simpl; lra|]. simpl in *. rewrite IH. reflexivity. Qed.

Lemma sumn_binom n x y : sumn (S n) (fun i => C n i * x ^ i * y ^ (n - i)) = (x + y) ^ n.
Proof. rewrite sumn_sum_f_R0, binomial. reflexivity. Qed.

Lemma C_absorb n i : (i <= n)%nat -> INR (S i) * C (S n) (S i) = INR (S n) * C n i.
Proof.
  intros H. unfold C. replace (S n - S i)%nat with (n - i)%nat by lia.
  change (fact (S n)) with (S n * fact n)%nat. change (fact (S i)) with (S i * fact i)%nat.
  rewrite !mult_INR. field.
  repeat split; try apply INR_fact_neq_0. apply not_0_INR; lia.
Qed.

Definition binom_extent (f : nat) (x : R) (i : nat) : R := C f (S i) * x ^ (S i) * (1 - x) ^ (f - S i).

Lemma binom_mean f x : sumn f (fun i => INR (S i) * binom_extent f x i) = INR f * x.
Proof.
  destruct f as [|n]; [simpl; ring|].
  transitivity (sumn (S n) (fun i => (INR (S n) * x) * (C n i * x ^ i * (1 - x) ^ (n - i)))).
  - apply sumn_ext. intros i Hi. unfold binom_extent.
    replace (S n - S i)%nat with (n - i)%nat by lia.
    replace (INR (S i) * (C (S n) (S i) * x ^ S i * (1 - x) ^ (n - i)))
      with (INR (S i) * C (S n) (S i) * x ^ S i * (1 - x) ^ (n - i)) by ring.
    rewrite C_absorb by lia. simpl (x ^ S i). ring.
  - rewrite sumn_scal, sumn_binom. replace (x + (1 - x)) with 1 by ring. rewrite pow1. ring.
Qed.

Lemma binom_second f x :
  sumn f (fun i => INR (S i) ^ 2 * binom_extent f x i) = INR f * x * (1 + (INR f - 1) * x).
Proof.
  destruct f as [|n]; [simpl; ring|].
  transitivity (sumn (S n) (fun i => INR (S n) * x * (INR i * (C n i * x ^ i * (1 - x) ^ (n - i))
     + C n i * x ^ i * (1 - x) ^ (n - i)))).
  - apply sumn_ext. intros i Hi. unfold binom_extent.
    replace (S n - S i)%nat with (n - i)%nat by lia.
    replace (INR (S i) ^ 2 * (C (S n) (S i) * x ^ S i * (1 - x) ^ (n - i)))
      with (INR (S i) * (INR (S i) * C (S n) (S i)) * x ^ S i * (1 - x) ^ (n - i)) by ring.
    rewrite C_absorb by lia. rewrite (S_INR i). simpl (x ^ S i). ring.
  - rewrite sumn_scal, sumn_plus, sumn_binom. replace (x + (1 - x)) with 1 by ring. rewrite pow1.
    rewrite sumn_S_first.
    replace (sumn n (fun i => INR (S i) * (C n (S i) * x ^ S i * (1 - x) ^ (n - S i))))
      with (INR n * x) by (symmetry; apply binom_mean).
    rewrite (S_INR n). simpl (INR 0). ring.
Qed.

Lemma Miller_2_binomial nAf nB2 (f : nat) MAf MB2 pA :
  0 < nAf -> 0 < nB2 -> (1 <= f)%nat -> 0 < pA -> 
  let pB := INR f * nAf * pA / (2 * nB2) in
  nAf * MAf + nB2 * MB2 <> 0 -> nAf + nB2 - INR f * nAf * pA <> 0 ->
  Miller_2 nAf nB2 f MAf MB2 (binom_extent f pA) =
  Stockmayer 1 1 (fun _ => nAf) (fun _ => nB2) (fun _ => INR f) (fun _ => 2)
     (fun _ => MAf) (fun _ => MB2) pB.
Proof.
  intros H1 H2 Hf H4 pB Hm Hn.
  assert (HF : 0 < INR f) by (apply lt_0_INR; lia).
  set (s := sumn f (fun i => INR (S i) * binom_extent f pA i)).
  assert (Es : s = INR f * pA) by apply binom_mean.
  assert (Hs : 0 < s) by (rewrite Es; apply Rmult_lt_0_compat; auto).
  assert (Em : sumn f (fun i => INR (S i) ^ 2 * binom_extent f pA i) / s = 1 + (INR f - 1) * pA).
  { rewrite binom_second, Es. field. lra. }
  assert (EpB : nAf * s / (2 * nB2) = pB) by (rewrite Es; unfold pB; field; lra).
  assert (HpB : 0 < pB).
  { unfold pB. apply Rdiv_lt_0_compat; [|lra]. repeat apply Rmult_lt_0_compat; auto. }
  assert (Ha : 0 < sumn 1 (fun _ => INR f * nAf)) by (rewrite sumn1; apply Rmult_lt_0_compat; auto).
  assert (Hb : 0 < sumn 1 (fun _ => 2 * nB2)) by (rewrite sumn1; lra).
  assert (EpA : pB * (2 * nB2) / (INR f * nAf) = pA) by (unfold pB; field; lra).
  assert (Efe : INR f ^ 2 * nAf / (INR f * nAf) = INR f) by (field; lra).
  assert (Ege : 2 ^ 2 * nB2 / (2 * nB2) = 2) by (field; lra).
  destruct (Rle_lt_dec 1 (pB * (1 + (INR f - 1) * pA - 1))) as [G|G].
  - rewrite Miller_2_gel; auto.
    2:{ fold s. rewrite Em, EpB. exact G. }
    symmetry. apply Stockmayer_gel; auto; try lra.
    rewrite !sumn1. rewrite EpA, Efe, Ege. lra.
  - destruct (m2_solvable nAf nB2 f MAf MB2 (binom_extent f pA)) as (EAin & EBin & HR); auto.
    { fold s. rewrite Em, EpB. exact G. }
    assert (HRc := HR).
    rewrite Miller_2_spec with (EAin := EAin) (EBin := EBin); auto.
    2:{ fold s. rewrite Em, EpB. exact G. }
    fold s in HR. rewrite EpB in HR.
    apply m2_rec in HRc; auto. fold s in HRc. rewrite Em, EpB in HRc. destruct HRc as [R1 R2].
    rewrite Stockmayer_ok with (EA := pA * EBin) (EB := pB * EAin); auto; try lra.
    + rewrite !sumn1. fold s. f_equal; f_equal.
      * unfold Mn_of, mass_AB. rewrite !sumn1. f_equal. f_equal.
        rewrite Es. unfold pB. field. lra.
      * unfold Mw_of_M2, Mw_of_AB, mass_AB. rewrite !sumn1. fold s. rewrite EpB, Es. f_equal. ring.
    + rewrite !sumn1. rewrite EpA, Efe, Ege. lra.
    + unfold mass_AB. rewrite !sumn1. auto.
    + unfold recursion_AB. rewrite !sumn1.
      replace (INR f * nAf / (INR f * nAf)) with 1 by (field; lra).
      replace (2 * nB2 / (2 * nB2)) with 1 by (field; lra).
      replace (pB * (2 * nB2) / (INR f * nAf)) with pA by auto.
      split; [rewrite R2|rewrite R1]; ring.
Qed.
