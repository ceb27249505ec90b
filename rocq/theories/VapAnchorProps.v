(** C114 (vapour-pressure correlations and the definition of the acentric factor) and
    C115 (vaporisation enthalpy at the normal boiling point). *)
From Coq Require Import Reals Lra Lia List Bool Arith Psatz.
From Verif Require Import Prelude KinModel RootsModel AcmModel AcmProps EosModel EosProps Deriv NumBounds LnBounds PropModel PropVapProps.
Import ListNotations.
Open Scope R_scope.

(* ------------------------------------------------------------------ *)
(** * C114: log10 (P(0.7 Tc) / Pc) = - (1 + w)                        *)
(* ------------------------------------------------------------------ *)

Lemma ln_scaled Pc x : 0 < Pc -> ln (Pc * exp x / Pc) = x.
Proof. intros H. replace (Pc * exp x / Pc) with (exp x) by (field; lra). apply ln_exp. Qed.
Theorem C114_Wilson Tc Pc w : 0 < Tc -> 0 < Pc ->
  Rabs (ln (PL_Wilson (7 / 10 * Tc) Tc Pc w / Pc) + (1 + w) * ln 10) <= 14 / 100000 * Rabs (1 + w).
Proof.
  intros HT HP. unfold PL_Wilson. rewrite ln_scaled by auto.
  replace (1 - Tc / (7 / 10 * Tc)) with (- (3 / 7)) by (field; lra).
  replace (5373 / 1000 * (1 + w) * - (3 / 7) + (1 + w) * ln 10) with ((ln 10 - 16119 / 7000) * (1 + w)) by field.
  rewrite Rabs_mult. apply Rmult_le_compat_r; [apply Rabs_pos|]. apply Rabs_le. pose proof ln_10_bounds. lra.
Qed.

Lemma sqrt03 : 54772255 / 100000000 <= sqrt (3 / 10) <= 54772256 / 100000000.
Proof.
  assert (S : sqrt (3 / 10) * sqrt (3 / 10) = 3 / 10) by (apply sqrt_sqrt; lra). pose proof (sqrt_pos (3 / 10)).
  split; nra.
Qed.
Lemma rp_half x : 0 < x -> Rpower x (3 / 2) = x * sqrt x /\ Rpower x (5 / 2) = x * x * sqrt x.
Proof.
  intros H. rewrite <- (Rpower_sqrt x H). split.
  - replace (3 / 2) with (1 + / 2) by field. rewrite Rpower_plus, Rpower_1 by auto. reflexivity.
  - replace (5 / 2) with (1 + (1 + / 2)) by field. rewrite !Rpower_plus, !Rpower_1 by auto. ring.
Qed.
Theorem C114_Ambrose_Walton Tc Pc w : 0 < Tc -> 0 < Pc ->
  exists P, PL_Ambrose_Walton (7 / 10 * Tc) Tc Pc w = Flt P /\ 0 < P /\
    Rabs (ln (P / Pc) + (1 + w) * ln 10) <= 4 / 1000000 * (1 + Rabs w + w ^ 2).
Proof.
  intros HT HP. unfold PL_Ambrose_Walton, aw_f. cbv zeta. replace (7 / 10 * Tc / Tc) with (7 / 10) by (field; lra).
  replace (1 - 7 / 10) with (3 / 10) by field. rewrite !fpow_pos by lra. cbn [pmap pmap2].
  destruct (rp_half (3 / 10)) as (-> & ->); [lra|]. pose proof sqrt03 as S. set (q := sqrt (3 / 10)) in *.
  eexists. split; [reflexivity|]. split; [apply Rmult_lt_0_compat; auto; apply exp_pos|]. rewrite ln_scaled by auto.
  pose proof ln_10_bounds as L. set (l := ln 10) in *.
  match goal with |- Rabs (?a + w * ?b + w ^ 2 * ?c + (1 + w) * l) <= _ =>
    assert (Ha : Rabs (a + l) <= 4 / 1000000) by (apply Rabs_le; lra);
    assert (Hb : Rabs (b + l) <= 4 / 1000000) by (apply Rabs_le; lra);
    assert (Hc : Rabs c <= 4 / 1000000) by (apply Rabs_le; lra);
    replace (a + w * b + w ^ 2 * c + (1 + w) * l) with ((a + l) + w * (b + l) + w ^ 2 * c) by ring;
    generalize dependent (a + l); generalize dependent (b + l); generalize dependent c
  end.
  intros c Hc b Hb a Ha.
  eapply Rle_trans; [apply Rabs_triang|]. eapply Rle_trans; [apply Rplus_le_compat_r, Rabs_triang|].
  rewrite !Rabs_mult. replace (Rabs (w ^ 2)) with (w ^ 2) by (symmetry; apply Rabs_pos_eq, pow2_ge_0).
  pose proof (Rabs_pos w). pose proof (pow2_ge_0 w). pose proof (Rabs_pos b). pose proof (Rabs_pos c). nra.
Qed.

(** Lee-Kesler: w is not an argument, so the acentric factor is read off the predicted curve itself *)
Lemma LK1_neg t : 0 < t <= 99 / 100 -> fLK1 t < 0.
Proof.
  intros H.
  assert (M : fLK1 t <= fLK1 (99 / 100)).
  { apply (mono_incr fLK1 (fun t => 156875 / 10000 / t ^ 2 - 134721 / 10000 / t + 43577 / 100000 * (6 * t ^ 5))); [lra| |].
    - intros s Hs. unfold fLK1. eapply D_eq.
      + apply (D_plus (fun t => 152518 / 10000 - 156875 / 10000 / t - 134721 / 10000 * ln t) (fun t => 43577 / 100000 * t ^ 6)).
        * apply (D_minus (fun t => 152518 / 10000 - 156875 / 10000 / t) (fun t => 134721 / 10000 * ln t)).
          -- apply (D_minus (fun _ => 152518 / 10000) (fun t => 156875 / 10000 / t)); [apply D_const|].
             apply (D_div (fun _ => 156875 / 10000) (fun t => t)); [apply D_const|apply D_id|lra].
          -- apply (D_scal (134721 / 10000) ln). apply (D_ln (fun t => t)); [apply D_id|lra].
        * apply (D_scal (43577 / 100000) (fun t => t ^ 6)). apply (D_ext (fun t => t * t * t * (t * t * t))); [intros; ring|].
          pose proof (D_id s) as I. pose proof (D_mult _ _ _ _ _ I I) as I2. pose proof (D_mult _ _ _ _ _ I2 I) as I3. exact (D_mult _ _ _ _ _ I3 I3).
      + cbv beta. field. lra.
    - intros s Hs. assert (0 < s ^ 5) by (apply pow_lt; lra).
      replace (156875 / 10000 / s ^ 2 - 134721 / 10000 / s) with ((156875 / 10000 - 134721 / 10000 * s) / s ^ 2) by (field; lra).
      assert (0 < (156875 / 10000 - 134721 / 10000 * s) / s ^ 2) by (apply Rdiv_lt_0_compat; nra). nra. }
  assert (B : 1005 / 100000 <= ln (100 / 99) <= 1006 / 100000) by ln_num.
  assert (E : ln (99 / 100) = - ln (100 / 99)) by (rewrite <- ln_Rinv by lra; f_equal; field).
  unfold fLK1 in M at 2. rewrite E in M. lra.
Qed.
Lemma LK0_07 : Rabs (fLK0 (7 / 10) + ln 10) <= 12 / 1000000.
Proof. unfold fLK0. pose proof ln_10_bounds. pose proof ln_07_bounds. apply Rabs_le. lra. Qed.
Lemma LK1_07 : Rabs (fLK1 (7 / 10) + ln 10) <= 102 / 1000000.
Proof. unfold fLK1. pose proof ln_10_bounds. pose proof ln_07_bounds. apply Rabs_le. lra. Qed.
Theorem C114_Lee_Kesler Tb Tc Pc : 0 < Tb -> Tb <= 99 / 100 * Tc -> 0 < Pc ->
  let w := - 1 - ln (PL_Lee_Kesler (7 / 10 * Tc) Tb Tc Pc / Pc) / ln 10 in
  PL_Lee_Kesler Tb Tb Tc Pc = 101325 /\
  Rabs (ln (PL_Lee_Kesler Tc Tb Tc Pc / Pc)) <= 8 / 100000 * (1 + Rabs w) /\
  forall T, 0 < T -> Rabs (ln (PL_Lee_Kesler T Tb Tc Pc / Pc) - (fLK0 (T / Tc) + w * fLK1 (T / Tc))) <= 5 / 100000 * (1 + Rabs w) * Rabs (fLK1 (T / Tc)).
Proof.
  intros HTb HTc HP w. assert (PT : 0 < Tc) by lra.
  assert (N : fLK1 (Tb / Tc) < 0).
  { apply LK1_neg. split; [now apply Rdiv_lt_0_compat|]. apply (Rmult_le_reg_r Tc); auto. unfold Rdiv. rewrite Rmult_assoc, Rinv_l; lra. }
  set (v := (- ln (Pc / 101325) - fLK0 (Tb / Tc)) / fLK1 (Tb / Tc)).
  assert (EL : forall T, ln (PL_Lee_Kesler T Tb Tc Pc / Pc) = fLK0 (T / Tc) + v * fLK1 (T / Tc)).
  { intros T. unfold PL_Lee_Kesler. cbv zeta. fold v. now apply ln_scaled. }
  split.
  { unfold PL_Lee_Kesler. cbv zeta. fold v. replace (fLK0 (Tb / Tc) + v * fLK1 (Tb / Tc)) with (- ln (Pc / 101325)) by (unfold v; field; lra).
    rewrite exp_Ropp, exp_ln by (apply Rdiv_lt_0_compat; lra). field. lra. }
  pose proof LK0_07 as H0. pose proof LK1_07 as H1. pose proof ln_10_bounds as L.
  assert (W : Rabs (w - v) <= 48 / 1000000 * (1 + Rabs w)).
  { unfold w. rewrite EL. replace (7 / 10 * Tc / Tc) with (7 / 10) by (field; lra).
    set (a := fLK0 (7 / 10) + ln 10) in *. set (b := fLK1 (7 / 10) + ln 10) in *.
    replace (fLK0 (7 / 10)) with (a - ln 10) by (unfold a; ring). replace (fLK1 (7 / 10)) with (b - ln 10) by (unfold b; ring).
    set (l := ln 10) in *.
    replace (-1 - (a - l + v * (b - l)) / l) with (v - (a + v * b) / l) by (field; lra).
    set (e := (a + v * b) / l). replace (v - e - v) with (- e) by ring. rewrite Rabs_Ropp.
    assert (B1 : Rabs e * l <= 12 / 1000000 + Rabs v * (102 / 1000000)).
    { replace (Rabs e * l) with (Rabs (a + v * b)).
      - eapply Rle_trans; [apply Rabs_triang|]. rewrite Rabs_mult. pose proof (Rabs_pos v). nra.
      - unfold e, Rdiv. rewrite Rabs_mult, (Rabs_pos_eq (/ l)) by (left; apply Rinv_0_lt_compat; lra). field. lra. }
    assert (B2 : Rabs v <= Rabs (v - e) + Rabs e). { replace v with ((v - e) + e) at 1 by ring. apply Rabs_triang. }
    pose proof (Rabs_pos e). pose proof (Rabs_pos (v - e)). pose proof (Rabs_pos v). nra. }
  split.
  - rewrite EL. replace (Tc / Tc) with 1 by (field; lra).
    assert (E0 : fLK0 1 = 7 / 1000000) by (unfold fLK0; rewrite ln_1; field). assert (E1 : fLK1 1 = 7 / 100000) by (unfold fLK1; rewrite ln_1; field).
    rewrite E0, E1. eapply Rle_trans; [apply Rabs_triang|]. rewrite Rabs_mult, !(Rabs_pos_eq (_ / _)) by lra.
    assert (B2 : Rabs v <= Rabs w + Rabs (w - v)). { replace v with (w + - (w - v)) at 1 by ring. eapply Rle_trans; [apply Rabs_triang|]. rewrite Rabs_Ropp. lra. }
    pose proof (Rabs_pos w). lra.
  - intros T HT. rewrite EL. replace (fLK0 (T / Tc) + v * fLK1 (T / Tc) - (fLK0 (T / Tc) + w * fLK1 (T / Tc))) with (- ((w - v) * fLK1 (T / Tc))) by ring.
    rewrite Rabs_Ropp, Rabs_mult. apply Rmult_le_compat_r; [apply Rabs_pos|]. pose proof (Rabs_pos w). lra.
Qed.
(** all three correlations for a fluid with w = 0.122 at Tr = 0.7: within 0.02 % of Pc 10^(-1.122) *)
Example C114_case : Rabs (ln (PL_Wilson (7 / 10 * 425) 425 5150000 (122 / 1000) / 5150000) + (1 + 122 / 1000) * ln 10) <= 2 / 10000.
Proof. eapply Rle_trans; [apply C114_Wilson; lra|]. rewrite Rabs_pos_eq; lra. Qed.

(* ------------------------------------------------------------------ *)
(** * C115: vaporisation enthalpy at the normal boiling point         *)
(* ------------------------------------------------------------------ *)

(** Vetere: degree one in the temperatures; positive below Tc from 5 bar up, and increasing with Pc *)
Theorem C115_Vetere_scale s Tb Tc Pc : s <> 0 -> 0 < Tc -> 0 < Tb -> DHVL_Vetere (s * Tb) (s * Tc) Pc = s * DHVL_Vetere Tb Tc Pc.
Proof.
  intros Hs H1 H2. unfold DHVL_Vetere. cbv zeta. replace (s * Tb / (s * Tc)) with (Tb / Tc) by (field; lra). unfold Rdiv. ring.
Qed.
Lemma ln5_lo : 16094 / 10000 <= ln 5.
Proof. replace 5 with (2 * (2 * (5 / 4))) by field. rewrite !ln_mult by lra. pose proof ln_2_bounds. pose proof ln_54_bounds. lra. Qed.
Lemma vetere_parts Tb Tc Pc : 0 < Tb < Tc -> 500000 <= Pc ->
  0 < 4343 / 10000 * ln (Pc / 100000) - 69431 / 100000 + 89584 / 100000 * (Tb / Tc) /\
  0 < 37691 / 100000 - 37306 / 100000 * (Tb / Tc) + 15075 / 100000 / (Pc / 100000) / (Tb / Tc) ^ 2.
Proof.
  intros H HP. set (x := Tb / Tc). assert (X : 0 < x < 1).
  { unfold x. split; [apply Rdiv_lt_0_compat; lra|]. apply (Rmult_lt_reg_r Tc); [lra|]. unfold Rdiv. rewrite Rmult_assoc, Rinv_l; lra. }
  assert (L : ln 5 <= ln (Pc / 100000)). { destruct (Rle_lt_or_eq_dec 5 (Pc / 100000)) as [A|A]; [lra|left; apply ln_increasing; lra|rewrite <- A; lra]. }
  pose proof ln5_lo. split; [lra|].
  assert (0 < 15075 / 100000 / (Pc / 100000) / x ^ 2) by (apply Rdiv_lt_0_compat; [apply Rdiv_lt_0_compat; lra|apply pow_lt; lra]). lra.
Qed.
Theorem C115_Vetere_pos Tb Tc Pc : 0 < Tb < Tc -> 500000 <= Pc -> 0 < DHVL_Vetere Tb Tc Pc.
Proof.
  intros H HP. destruct (vetere_parts Tb Tc Pc H HP) as (A & B). unfold DHVL_Vetere. cbv zeta. pose proof Rgas_pos.
  apply Rdiv_lt_0_compat; auto. apply Rmult_lt_0_compat; auto. apply Rmult_lt_0_compat; [|apply Rdiv_lt_0_compat; lra]. apply Rmult_lt_0_compat; lra.
Qed.
Theorem C115_Vetere_Pc Tb Tc P1 P2 : 0 < Tb < Tc -> 500000 <= P1 < P2 -> DHVL_Vetere Tb Tc P1 < DHVL_Vetere Tb Tc P2.
Proof.
  intros H HP. destruct (vetere_parts Tb Tc P1 H) as (A1 & B1); [lra|]. destruct (vetere_parts Tb Tc P2 H) as (A2 & B2); [lra|].
  unfold DHVL_Vetere. cbv zeta. pose proof Rgas_pos.
  assert (L : ln (P1 / 100000) < ln (P2 / 100000)) by (apply ln_increasing; lra).
  assert (X : 0 < Tb / Tc) by (apply Rdiv_lt_0_compat; lra).
  assert (Q : 15075 / 100000 / (P2 / 100000) / (Tb / Tc) ^ 2 < 15075 / 100000 / (P1 / 100000) / (Tb / Tc) ^ 2).
  { unfold Rdiv at 1 4. apply Rmult_lt_compat_r; [apply Rinv_0_lt_compat, pow_lt; auto|]. unfold Rdiv at 1 5. apply Rmult_lt_compat_l; [lra|].
    apply Rinv_lt_contravar; [|lra]. apply Rmult_lt_0_compat; lra. }
  set (n1 := 4343 / 10000 * ln (P1 / 100000) - _ + _) in *. set (n2 := 4343 / 10000 * ln (P2 / 100000) - _ + _) in *.
  set (d1 := _ + 15075 / 100000 / (P1 / 100000) / (Tb / Tc) ^ 2) in *. set (d2 := _ + 15075 / 100000 / (P2 / 100000) / (Tb / Tc) ^ 2) in *.
  assert (N : n1 < n2) by (unfold n1, n2; lra). assert (E : d2 < d1) by (unfold d1, d2; lra).
  set (k := Rgas * Tc * (Tb / Tc)). assert (K : 0 < k) by (unfold k; apply Rmult_lt_0_compat; [apply Rmult_lt_0_compat; lra|auto]).
  unfold Rdiv. apply (Rlt_trans _ (k * n1 * / d2)).
  - apply Rmult_lt_compat_l; [now apply Rmult_lt_0_compat|]. apply Rinv_lt_contravar; [now apply Rmult_lt_0_compat|auto].
  - apply Rmult_lt_compat_r; [now apply Rinv_0_lt_compat|]. now apply Rmult_lt_compat_l.
Qed.

(** which argument combinations are accepted *)
Theorem C115_arguments Tb M kind : DHVL_Kistiakowsky_Vetere Tb M kind = Err ValueError <-> kind <> KvAny /\ (M = None \/ kind = KvOther).
Proof.
  unfold DHVL_Kistiakowsky_Vetere. cbv zeta. split.
  - intros H. destruct kind, M; try discriminate; split; auto; discriminate.
  - intros (A & [-> | ->]); [destruct kind; auto; congruence|destruct M; auto].
Qed.

(** original Kistiakowsky rule: one entropy for all compounds, R ln 2 more per doubling of Tb, within the
    Trouton window between 200 K and 700 K *)
Theorem C115_any_doubling Tb M M' h1 h2 : 0 < Tb -> DHVL_Kistiakowsky_Vetere Tb M KvAny = Ok (Flt h1) -> DHVL_Kistiakowsky_Vetere (2 * Tb) M' KvAny = Ok (Flt h2) ->
  h2 / (2 * Tb) - h1 / Tb = Rgas * ln 2.
Proof.
  intros H E1 E2. cbn in E1, E2. injection E1 as <-. injection E2 as <-. rewrite ln_mult by lra. field. lra.
Qed.
Lemma Rgas_bounds : 831446 / 100000 < Rgas < 831447 / 100000. Proof. unfold Rgas. lra. Qed.
Lemma ln_200 : 529 / 100 <= ln 200. Proof. replace 200 with (2 * (10 * 10)) by field. rewrite !ln_mult by lra. pose proof ln_2_bounds. pose proof ln_10_bounds. lra. Qed.
Lemma ln_700 : ln 700 <= 656 / 100.
Proof. replace 700 with (10 * (10 * (10 * (7 / 10)))) by field. rewrite !ln_mult by lra. pose proof ln_07_bounds. pose proof ln_10_bounds. lra. Qed.
Theorem C115_any_window Tb M : 200 <= Tb <= 700 -> exists h, DHVL_Kistiakowsky_Vetere Tb M KvAny = Ok (Flt h) /\ 745 / 10 * Tb < h < 852 / 10 * Tb.
Proof.
  intros H. eexists. split; [reflexivity|]. pose proof Rgas_bounds as R.
  assert (A : ln 200 <= ln Tb). { destruct (Rle_lt_or_eq_dec 200 Tb) as [A|A]; [lra|left; apply ln_increasing; lra|rewrite <- A; lra]. }
  assert (B : ln Tb <= ln 700). { destruct (Rle_lt_or_eq_dec Tb 700) as [B|B]; [lra|left; apply ln_increasing; lra|rewrite <- B; lra]. }
  pose proof ln_200. pose proof ln_700. split; (apply Rmult_lt_compat_r; [lra|nra]).
Qed.

(** polar compounds and esters *)
Theorem C115_ester Tb M h : DHVL_Kistiakowsky_Vetere Tb M KvPolar = Ok (Flt h) -> DHVL_Kistiakowsky_Vetere Tb M KvEster = Ok (Flt (103 / 100 * h)).
Proof. unfold DHVL_Kistiakowsky_Vetere. destruct M; [|discriminate]. cbv zeta. intros E. injection E as <-. do 2 f_equal. ring. Qed.
Lemma inv_lt a b : 0 < a < b -> / (b * 1000) < / (a * 1000).
Proof. intros H. apply Rinv_lt_contravar; [|lra]. apply Rmult_lt_0_compat; lra. Qed.
(** at fixed Tb the entropy falls with the molar mass up to 851 K and rises with it from 852 K on *)
Theorem C115_polar_mass Tb M1 M2 h1 h2 : 0 < Tb -> 0 < M1 < M2 -> DHVL_Kistiakowsky_Vetere Tb (Some M1) KvPolar = Ok (Flt h1) -> DHVL_Kistiakowsky_Vetere Tb (Some M2) KvPolar = Ok (Flt h2) ->
  (Tb <= 851 -> h2 < h1) /\ (852 <= Tb -> h1 < h2).
Proof.
  intros HT HM E1 E2. cbn -[log10 pow] in E1, E2. injection E1 as <-. injection E2 as <-.
  pose proof (inv_lt M1 M2 HM) as I. unfold Rdiv in *. set (i1 := / (M1 * 1000)) in *. set (i2 := / (M2 * 1000)) in *.
  set (g := 39137 * / 100000 + 4330 * / 1000000 * Tb - 5627 * / 1000000000 * (Tb * Tb)).
  match goal with |- (_ -> ?y < ?x) /\ _ => assert (E : x - y = Tb * Tb * g * (i1 - i2)) by (unfold g; ring); set (hx := x) in *; set (hy := y) in * end.
  split; intros H.
  - assert (0 < g) by (unfold g; nra). assert (0 < Tb * Tb * g * (i1 - i2)) by (apply Rmult_lt_0_compat; [|lra]; apply Rmult_lt_0_compat; nra). lra.
  - assert (g < 0) by (unfold g; nra). assert (0 < Tb * Tb * (- g) * (i1 - i2)) by (apply Rmult_lt_0_compat; [|lra]; apply Rmult_lt_0_compat; nra). nra.
Qed.
(** acids and alcohols: it rises with the molar mass at every boiling temperature *)
Theorem C115_acid_mass Tb M1 M2 h1 h2 : 0 < Tb -> 0 < M1 < M2 -> DHVL_Kistiakowsky_Vetere Tb (Some M1) KvAcidAlcohol = Ok (Flt h1) -> DHVL_Kistiakowsky_Vetere Tb (Some M2) KvAcidAlcohol = Ok (Flt h2) ->
  h1 < h2 /\ h2 < (81119 / 1000 + 13083 / 1000 * (ln Tb / ln 10)) * Tb.
Proof.
  intros HT HM E1 E2. cbn -[log10 pow] in E1, E2. injection E1 as <-. injection E2 as <-. fold (log10 Tb).
  pose proof (inv_lt M1 M2 HM) as I. assert (I2 : 0 < / (M2 * 1000)) by (apply Rinv_0_lt_compat; lra).
  unfold Rdiv in *. set (i1 := / (M1 * 1000)) in *. set (i2 := / (M2 * 1000)) in *.
  set (g := 25769 * / 1000 - 146528 * / 1000000 * Tb + 21362 * / 100000000 * (Tb * Tb)).
  assert (G : 0 < g). { unfold g. pose proof (Rle_0_sqr (Tb - 343)) as S. unfold Rsqr in S. nra. }
  set (l := log10 Tb). split.
  - match goal with |- ?x < ?y => assert (E : y - x = Tb * Tb * g * (i1 - i2)) by (unfold g; ring) end.
    assert (0 < Tb * Tb * g * (i1 - i2)) by (apply Rmult_lt_0_compat; [|lra]; apply Rmult_lt_0_compat; nra). lra.
  - match goal with |- ?x < ?y => assert (E : y - x = Tb * Tb * g * i2) by (unfold g; ring) end.
    assert (0 < Tb * Tb * g * i2) by (apply Rmult_lt_0_compat; [|lra]; apply Rmult_lt_0_compat; nra). lra.
Qed.
(** hence no positive lower bound: methanol's molar mass with a boiling point of 600 K gives a negative enthalpy, without a warning *)
Theorem C115_acid_refuted : exists Tb M h, 0 < Tb /\ 0 < M /\ DHVL_Kistiakowsky_Vetere Tb (Some M) KvAcidAlcohol = Ok (Flt h) /\ h < 0.
Proof.
  exists 600, (32 / 1000). eexists. split; [lra|]. split; [lra|]. split; [reflexivity|].
  assert (L : log10 600 < 3).
  { unfold log10. pose proof ln_10_bounds. apply (Rmult_lt_reg_r (ln 10)); [lra|]. unfold Rdiv. rewrite Rmult_assoc, Rinv_l by lra.
    replace (3 * ln 10) with (ln (10 * (10 * 10))) by (rewrite !ln_mult by lra; ring). rewrite Rmult_1_r. apply ln_increasing; lra. }
  set (l := log10 600) in *. lra.
Qed.
(** hydrocarbons: increasing in Tb, and 13.7 J/(mol K) per decade of molar mass along the lower limit *)
Theorem C115_hydrocarbon Tb1 Tb2 M h1 h2 : 1 / 1000 <= M -> Tb1 < Tb2 -> DHVL_Kistiakowsky_Vetere Tb1 (Some M) KvHydrocarbon = Ok (Flt h1) -> DHVL_Kistiakowsky_Vetere Tb2 (Some M) KvHydrocarbon = Ok (Flt h2) -> h1 < h2.
Proof.
  intros HM HT E1 E2. cbn -[log10 fpow Rpower] in E1, E2. set (r := Rpower (263 * (M * 1000)) (581 / 1000)) in *.
  assert (Hr : 0 < r) by apply rp_pos.
  assert (L : 0 <= log10 (M * 1000)).
  { unfold log10. apply Rmult_le_pos; [|left; apply Rinv_0_lt_compat; pose proof ln_10_bounds; lra]. rewrite <- ln_1. destruct (Rle_lt_or_eq_dec 1 (M * 1000)) as [A|A]; [lra|left; apply ln_increasing; lra|rewrite <- A; lra]. }
  assert (I : 0 < 649 / 100 / (M * 1000)) by (apply Rdiv_lt_0_compat; lra).
  destruct (proj1 (fpow_real (Tb1 - r) (1037 / 1000))) as [A|A]; [destruct (fpow (Tb1 - r) (1037 / 1000)); [eauto|discriminate]| |].
  - rewrite fpow_pos in E1 by auto. rewrite fpow_pos in E2 by lra. cbn -[Rpower log10] in *. injection E1 as <-. injection E2 as <-.
    assert (rp_pos_1 : 0 < Rpower (Tb1 - r) (1037 / 1000)) by apply rp_pos.
    assert (B : Rpower (Tb1 - r) (1037 / 1000) < Rpower (Tb2 - r) (1037 / 1000)) by (apply rp_base; lra).
    set (p1 := Rpower (Tb1 - r) _) in *. set (p2 := Rpower (Tb2 - r) _) in *. set (c := 649 / 100 / (M * 1000)) in *.
    apply Rmult_le_0_lt_compat; try lra; nra.
  - rewrite <- A, fpow0 in E1. rewrite fpow_pos in E2 by lra. cbn -[Rpower log10] in *. injection E1 as <-. injection E2 as <-.
    assert (B : 0 < Rpower (Tb2 - r) (1037 / 1000)) by apply rp_pos.
    set (p2 := Rpower (Tb2 - r) _) in *. set (c := 649 / 100 / (M * 1000)) in *. apply Rmult_le_0_lt_compat; try lra; nra.
Qed.
Theorem C115_hydrocarbon_decade M h1 h2 T1 T2 : 0 < M -> T1 = Rpower (263000 * M) (581 / 1000) -> T2 = Rpower (2630000 * M) (581 / 1000) ->
  DHVL_Kistiakowsky_Vetere T1 (Some M) KvHydrocarbon = Ok (Flt h1) -> DHVL_Kistiakowsky_Vetere T2 (Some (10 * M)) KvHydrocarbon = Ok (Flt h2) -> h2 / T2 - h1 / T1 = 137 / 10.
Proof.
  intros HM -> -> E1 E2. cbn -[log10 fpow Rpower] in E1, E2.
  replace (263 * (M * 1000)) with (263000 * M) in E1 by ring. replace (263 * (10 * M * 1000)) with (2630000 * M) in E2 by ring.
  rewrite Rminus_diag_eq, fpow0 in E1, E2 by reflexivity. cbn -[log10 Rpower] in E1, E2. injection E1 as <-. injection E2 as <-.
  pose proof (rp_pos (263000 * M) (581 / 1000)). pose proof (rp_pos (2630000 * M) (581 / 1000)).
  replace (10 * M * 1000) with (10 * (M * 1000)) by ring. unfold log10. rewrite (ln_mult 10) by lra. pose proof ln_10_bounds. field. repeat split; lra.
Qed.
(** the documented case: vinyl chloride, 21.6 kJ/mol; and round numbers for the polar correlation *)
Example C115_case : 21550 < DHVL_Vetere (2598 / 10) 425 (51.5 * 10 ^ 5) < 21650.
Proof.
  assert (B : 39415 / 10000 <= ln (515 / 10) <= 39417 / 10000).
  { replace (515 / 10) with (2 * (2 * (2 * (2 * (2 * (515 / 320)))))) by field. rewrite !ln_mult by lra. pose proof ln_2_bounds.
    assert (475840 / 1000000 <= ln (515 / 320) <= 475850 / 1000000) by ln_num. lra. }
  unfold DHVL_Vetere. cbv zeta. replace (51.5 * 10 ^ 5 / 100000) with (515 / 10) by lra. pose proof Rgas_bounds as R.
  set (n := 4343 / 10000 * ln (515 / 10) - 69431 / 100000 + 89584 / 100000 * (2598 / 10 / 425)).
  assert (N : 15651 / 10000 < n < 15653 / 10000) by (unfold n; lra).
  set (d := 37691 / 100000 - 37306 / 100000 * (2598 / 10 / 425) + 15075 / 100000 / (515 / 10) / (2598 / 10 / 425) ^ 2).
  assert (D1 : 156 / 1000 < d < 157 / 1000) by (unfold d; lra). assert (D2 : 15669 / 100000 < d < 15671 / 100000) by (unfold d; lra).
  set (g := Rgas) in *. replace (g * 425 * (2598 / 10 / 425) * n / d) with (g * n * (2598 / 10) / d) by (field; lra).
  assert (G : 13012 / 1000 < g * n < 13016 / 1000) by nra.
  clearbody g n d. set (m := g * n) in *. clearbody m.
  assert (X : 21550 * d < m * (2598 / 10) < 21650 * d) by lra.
  split; (apply (Rmult_lt_reg_r d); [lra|]); replace (m * (2598 / 10) / d * d) with (m * (2598 / 10)) by (field; lra); lra.
Qed.
Example C115_polar_case : DHVL_Kistiakowsky_Vetere 100 (Some (1 / 10)) KvPolar = Ok (Flt (757951 / 100)).
Proof.
  cbn -[log10 pow]. assert (L : log10 100 = 2). { unfold log10. replace 100 with (10 * 10) by ring. rewrite ln_mult by lra. pose proof ln_10_bounds. field. lra. }
  rewrite L. do 2 f_equal. field.
Qed.
Print Assumptions C114_Wilson.
Print Assumptions C114_Ambrose_Walton.
Print Assumptions C114_Lee_Kesler.
Print Assumptions C115_Vetere_Pc.
Print Assumptions C115_acid_refuted.
Print Assumptions C115_hydrocarbon.

(* ------------------------------------------------------------------ *)
(** * Numerical values of the physical constants (C71, C88)           *)
(* ------------------------------------------------------------------ *)

(** barrierless transition-state rate: 2.08366e10 per second and kelvin at every temperature *)
Theorem C71_prefactor T kappa k : 0 < T -> 0 < kappa -> eyr_equation T 0 0 kappa = Ok k ->
  20836619 * 10 ^ 3 * (kappa * T) < k < 20836620 * 10 ^ 3 * (kappa * T).
Proof.
  intros HT Hk E. unfold eyr_equation in E. rewrite pydiv_ok in E by lra. cbn [bind] in E. injection E as <-.
  replace ((0 - 0 / T) / Rgas) with 0 by (unfold Rdiv; ring). rewrite exp_0, Rmult_1_r.
  replace (kappa * kB * T / hP) with (kB / hP * (kappa * T)) by (unfold hP; field).
  assert (P : 0 < kappa * T) by now apply Rmult_lt_0_compat. split; (apply Rmult_lt_compat_r; [auto|unfold kB, hP; lra]).
Qed.
(** an activation free energy of 10 kJ/mol at 500 K costs a factor of 11.08, whatever the split between enthalpy and entropy *)
Theorem C71_factor DS DH kappa k0 k : 0 < kappa -> DH - 500 * DS = 10000 -> eyr_equation 500 0 0 kappa = Ok k0 -> eyr_equation 500 DS DH kappa = Ok k ->
  11 * k < k0 < 112 / 10 * k.
Proof.
  intros Hk E0 E1 E2. unfold eyr_equation in E1, E2. rewrite pydiv_ok in E1, E2 by lra. cbn [bind] in E1, E2. injection E1 as <-. injection E2 as <-.
  replace ((0 - 0 / 500) / Rgas) with 0 by (unfold Rdiv; ring). rewrite exp_0, Rmult_1_r.
  replace ((DS - DH / 500) / Rgas) with (- (20 / Rgas)) by (replace DH with (10000 + 500 * DS) by lra; pose proof Rgas_pos; field; lra).
  set (q := kappa * kB * 500 / hP). assert (Q : 0 < q) by (unfold q, kB, hP; lra).
  pose proof Rgas_bounds as RB. assert (I : 2405 / 1000 < 20 / Rgas < 2406 / 1000).
  { split; apply (Rmult_lt_reg_r Rgas); try lra; replace (20 / Rgas * Rgas) with 20 by (field; lra); lra. }
  assert (U : exp (2406 / 4000) <= 1826 / 1000) by (apply exp_upper; unfold q5; lra).
  assert (L : 1824 / 1000 <= exp (2405 / 4000)) by (apply exp_lower; unfold q6; lra).
  set (x := 20 / Rgas) in *. clearbody x.
  assert (E : exp x = exp (x / 4) ^ 4). { rewrite <- exp_mult_pow. f_equal. replace (INR 4) with 4 by (rewrite INR_IZR_INZ; reflexivity). field. }
  assert (A1 : exp (2405 / 4000) < exp (x / 4)) by (apply exp_increasing; lra). assert (A2 : exp (x / 4) < exp (2406 / 4000)) by (apply exp_increasing; lra).
  set (y := exp (x / 4)) in *. clearbody y.
  assert (Y2 : 33269 / 10000 < y * y < 33343 / 10000) by nra. assert (Y4 : 11 < y ^ 4 < 112 / 10) by (replace (y ^ 4) with ((y * y) * (y * y)) by ring; nra).
  rewrite exp_Ropp, E. set (z := y ^ 4) in *. clearbody z q. assert (N : q * / z * z = q) by (field; lra). set (k := q * / z) in *. clearbody k.
  assert (0 < k) by (apply (Rmult_lt_reg_r z); lra). split; nra.
Qed.
(** molar Einstein relation: D times the Stokes friction of one mole of spheres is R T *)
Theorem C88_Stokes_Einstein T Rs mu : 0 < Rs -> 0 < mu -> DL_Stokes_Einstein T Rs mu * (6 * PI * mu * Rs) * (602214076 * 10 ^ 15) = Rgas * T.
Proof. intros H1 H2. unfold DL_Stokes_Einstein, kB, Rgas. pose proof PI_RGT_0. field. lra. Qed.
