(** C108 — the Tait database: every entry is usable, and gives physical volumes in its whole range. *)
From Coq Require Import Reals Lra Lia List Bool String.
From Verif Require Import Prelude Deriv NumBounds RootsModel UtilsModel UtilsProps PropModel PropVapProps HmtProps TaitModel.
Import ListNotations.
Open Scope R_scope.

Lemma exp_up4 x y c E : 0 <= y -> x <= 4 * y -> 0 < c -> 1 <= c * q5 y -> c ^ 4 <= E -> exp x <= E.
Proof.
  intros H0 H1 HC Q HE. apply (Rle_trans _ (exp y ^ 4)).
  - rewrite <- (exp_mult_pow y 4). replace (INR 4 * y) with (4 * y) by (cbn; ring). now apply exp_le.
  - apply (Rle_trans _ (c ^ 4)); [|auto]. apply pow_incr. split; [left; apply exp_pos|]. now apply exp_upper.
Qed.
Lemma exp_lo4 x y c E : 0 <= y -> 4 * y <= x -> 0 < c -> c * q6 y <= 1 -> E <= c ^ 4 -> E <= exp x.
Proof.
  intros H0 H1 HC Q HE. apply (Rle_trans _ (exp y ^ 4)).
  - apply (Rle_trans _ (c ^ 4)); [auto|]. apply pow_incr. split; [lra|]. now apply exp_lower.
  - rewrite <- (exp_mult_pow y 4). replace (INR 4 * y) with (4 * y) by (cbn; ring). now apply exp_le.
Qed.
(** volume between 0.4 and 1.5 litre per kilogram, expansion and compression of the right sign *)
Definition physical (p : tait) (T P : R) : Prop := 4 / 10 ^ 4 <= tait_eval p T P <= 15 / 10 ^ 4 /\ 0 < tait_alpha p T P /\ 0 < tait_beta p T P.
Lemma core p a b Pm E S L n m : tait_ok p ->
  let v := fun t => tA0 p + tA1 p * (t - 27315 / 100) + tA2 p * (t - 27315 / 100) ^ 2 in
  0 < n -> n <= tA1 p + 2 * tA2 p * (a - 27315 / 100) -> n <= tA1 p + 2 * tA2 p * (b - 27315 / 100) -> v b <= m -> m <= 15 / 10 ^ 4 ->
  exp (tB1 p * (b - 27315 / 100)) <= E -> Pm * E <= S * tB0 p -> 1 + S <= exp L -> tait_C * L < 1 -> 4 / 10 ^ 4 <= v a * (1 - tait_C * L) ->
  m * tB1 p * tait_C * S < n * (1 - tait_C * L) * (1 + S) ->
  forall T P, a <= T <= b -> 0 <= P <= Pm -> physical p T P.
Proof.
  intros OK v N0 N1 N2 M1 M2 HE HS HL HC HV HM T P HT HP. pose proof (tait_B_pos p T OK) as B0. pose proof OK as (_ & _ & _ & (OB & _) & OB1).
  unfold physical, tait_eval, tait_alpha, tait_beta. cbv zeta. set (B := tait_B p T) in *. change (tA0 p + tA1 p * (T - 27315 / 100) + tA2 p * (T - 27315 / 100) ^ 2) with (v T).
  assert (P7 : 0 < 10 ^ 7) by (apply pow_lt; lra). assert (PB : 0 < tB0 p) by lra.
  assert (SL : n <= tA1 p + 2 * tA2 p * (T - 27315 / 100)) by (destruct (Rle_dec 0 (tA2 p)); nra).
  assert (VA : v a <= v T). { assert (0 <= v T - v a); [|lra]. unfold v. replace (_ - _) with ((T - a) * ((tA1 p + 2 * tA2 p * (a - 27315 / 100)) / 2 + (tA1 p + 2 * tA2 p * (T - 27315 / 100)) / 2)) by field. apply Rmult_le_pos; lra. }
  assert (VB : v T <= v b). { assert (0 <= v b - v T); [|lra]. unfold v. replace (_ - _) with ((b - T) * ((tA1 p + 2 * tA2 p * (b - 27315 / 100)) / 2 + (tA1 p + 2 * tA2 p * (T - 27315 / 100)) / 2)) by field. apply Rmult_le_pos; lra. }
  assert (D0 : 0 < 1 - tait_C * L) by lra. assert (V0 : 0 < v T) by nra.
  assert (C0 : 0 < tait_C) by (unfold tait_C; lra).
  assert (BE : tB0 p <= B * E).
  { unfold B, tait_B. rewrite Rmult_assoc. rewrite <- (Rmult_1_r (tB0 p)) at 1. apply Rmult_le_compat_l; [lra|]. apply (Rle_trans _ (exp (- tB1 p * (T - 27315 / 100)) * exp (tB1 p * (b - 27315 / 100)))).
    - rewrite <- exp_plus. apply (Rle_trans _ (exp 0)); [rewrite exp_0; lra|]. apply exp_le. assert (0 <= tB1 p * (b - T)) by (apply Rmult_le_pos; lra). lra.
    - apply Rmult_le_compat_l; [left; apply exp_pos|auto]. }
  assert (E0 : 0 < E) by (pose proof (exp_pos (tB1 p * (b - 27315 / 100))); lra).
  set (s := P / B). assert (EP : P = s * B) by (unfold s; field; lra). assert (S0 : 0 <= s) by (unfold s; apply Rmult_le_pos; [lra|left; now apply Rinv_0_lt_compat]).
  assert (SS : s <= S). { apply (Rmult_le_reg_r (tB0 p)); [auto|]. apply (Rle_trans _ (Pm * E)); [|auto]. apply (Rle_trans _ (s * (B * E))); [now apply Rmult_le_compat_l|]. rewrite <- Rmult_assoc, <- EP. apply Rmult_le_compat_r; lra. }
  assert (LN : ln (1 + s) <= L). { rewrite <- (ln_exp L). destruct (Rle_lt_or_eq_dec (1 + s) (exp L) ltac:(lra)) as [LT| ->]; [left; apply ln_increasing; lra|right; reflexivity]. }
  assert (LP : 0 <= ln (1 + s)). { rewrite <- ln_1. destruct (Rle_lt_or_eq_dec 0 s S0) as [LT|<-]; [left; apply ln_increasing; lra|right; f_equal; ring]. }
  set (d := 1 - tait_C * ln (1 + s)). assert (DD : 1 - tait_C * L <= d) by (unfold d; assert (tait_C * ln (1 + s) <= tait_C * L) by (apply Rmult_le_compat_l; lra); lra). assert (D1 : d <= 1) by (unfold d; assert (0 <= tait_C * ln (1 + s)) by (apply Rmult_le_pos; lra); lra).
  assert (PBp : 0 < P + B) by lra. split; [split|split].
  - apply (Rle_trans _ (v a * (1 - tait_C * L))); [auto|]. apply Rmult_le_compat; try lra. destruct (Rle_dec 0 (v a)); [auto|]. nra.
  - apply (Rle_trans _ (v T * 1)); [apply Rmult_le_compat_l; lra|]. lra.
  - assert (X : P * tB1 p * (tait_C / (P + B) / d) <= tB1 p * tait_C * (S / (1 + S)) / (1 - tait_C * L)).
    { replace (P * tB1 p * (tait_C / (P + B) / d)) with (tB1 p * tait_C * (s / (1 + s)) * / d) by (rewrite EP; field; repeat split; nra).
      assert (F : s / (1 + s) <= S / (1 + S)). { apply (Rmult_le_reg_r ((1 + s) * (1 + S))); [apply Rmult_lt_0_compat; lra|]. replace (s / (1 + s) * ((1 + s) * (1 + S))) with (s * (1 + S)) by (field; lra). replace (S / (1 + S) * ((1 + s) * (1 + S))) with (S * (1 + s)) by (field; lra). lra. }
      assert (F0 : 0 <= s / (1 + s)) by (apply Rmult_le_pos; [auto|left; apply Rinv_0_lt_compat; lra]). assert (B1p : 0 < tB1 p) by lra.
      unfold Rdiv at 3. apply Rmult_le_compat; [| |apply Rmult_le_compat_l; [|auto]|apply Rinv_le_contravar; lra].
      - apply Rmult_le_pos; [|auto]. apply Rmult_le_pos; lra. - left; apply Rinv_0_lt_compat; lra. - apply Rmult_le_pos; lra. }
    assert (Y : n / m <= (tA1 p + 2 * tA2 p * (T - 27315 / 100)) / v T).
    { assert (0 < m) by lra. apply (Rmult_le_reg_r (m * v T)); [apply Rmult_lt_0_compat; lra|]. replace (n / m * (m * v T)) with (n * v T) by (field; lra). replace (_ / v T * (m * v T)) with ((tA1 p + 2 * tA2 p * (T - 27315 / 100)) * m) by (field; lra). apply Rmult_le_compat; lra. }
    assert (Z : tB1 p * tait_C * (S / (1 + S)) / (1 - tait_C * L) < n / m).
    { assert (0 < m) by lra. assert (0 < 1 + S) by lra. apply (Rmult_lt_reg_r (m * ((1 + S) * (1 - tait_C * L)))); [apply Rmult_lt_0_compat; [lra|apply Rmult_lt_0_compat; lra]|].
      replace (_ / (1 - tait_C * L) * (m * ((1 + S) * (1 - tait_C * L)))) with (m * tB1 p * tait_C * S) by (field; lra). replace (n / m * (m * ((1 + S) * (1 - tait_C * L)))) with (n * (1 - tait_C * L) * (1 + S)) by (field; lra). exact HM. }
    fold s. fold d. lra.
  - fold s. fold d. unfold Rdiv. apply Rmult_lt_0_compat; [apply Rmult_lt_0_compat; [auto|now apply Rinv_0_lt_compat]|apply Rinv_0_lt_compat; lra].
Qed.
Ltac rowt p a b Pm E S L n m y c y' c' :=
  apply (core p a b Pm E S L n m);
  [unfold tait_ok; cbn [tA0 tA1 tA2 tB0 tB1]; lra | lra | cbn [tA1 tA2]; lra | cbn [tA1 tA2]; lra | cbn [tA0 tA1 tA2]; lra | lra
  | cbn [tB1]; apply (exp_up4 _ y c); [lra | lra | lra | unfold q5; lra | lra] | cbn [tB0]; lra | apply (exp_lo4 _ y' c'); [lra | lra | lra | unfold q6, q5; lra | lra]
  | unfold tait_C; lra | cbn [tA0 tA1 tA2]; unfold tait_C; lra | cbn [tB1]; unfold tait_C; lra | lra | lra].
Definition row_ok (r : trow) : Prop := forall T P, tr_Tmin r <= T <= tr_Tmax r -> tr_Pmin r <= P <= tr_Pmax r -> physical (tr_p r) T P.
Lemma row0 : row_ok (nth 0 tait_table (mkRow "" (mkTait 0 0 0 0 0) 0 0 0 0)).
Proof.
  intros T P HT HP. cbn [nth tait_table tr_p tr_Tmin tr_Tmax tr_Pmin tr_Pmax] in *. match goal with |- physical ?p _ _ => set (p0 := p) end.
  unfold p0; rowt (mkTait (10969 / 10 ^ 7) (76789 / 10 ^ 11) (- (22216 / 10 ^ 14)) (17596 * 10 ^ 4) (43355 / 10 ^ 7)) 277 328 283000000 (1273 / 1000) (256 / 125) (28 / 25) (1487 / 2000000000) (1423 / 1250000) (2973 / 50000) (531 / 500) (7 / 25) (13231 / 10000).
Qed.
Lemma row1 : row_ok (nth 1 tait_table (mkRow "" (mkTait 0 0 0 0 0) 0 0 0 0)).
Proof.
  intros T P HT HP. cbn [nth tait_table tr_p tr_Tmin tr_Tmax tr_Pmin tr_Pmax] in *. match goal with |- physical ?p _ _ => set (p0 := p) end.
  unfold p0; rowt (mkTait (11567 / 10 ^ 7) (62888 / 10 ^ 11) (11268 / 10 ^ 13) (17867 * 10 ^ 4) (47254 / 10 ^ 7)) 415 472 200000000 (2561 / 1000) (2867 / 1000) (34 / 25) (1897 / 2000000000) (829 / 625000) (47 / 200) (253 / 200) (17 / 50) (14049 / 10000).
Qed.
Lemma row2 : row_ok (nth 2 tait_table (mkRow "" (mkTait 0 0 0 0 0) 0 0 0 0)).
Proof.
  intros T P HT HP. cbn [nth tait_table tr_p tr_Tmin tr_Tmax tr_Pmin tr_Pmax] in *. match goal with |- physical ?p _ _ => set (p0 := p) end.
  destruct (Rle_dec T 320) as [Q|Q]; [unfold p0; rowt (mkTait (12727 / 10 ^ 7) (16849 / 10 ^ 10) (43376 / 10 ^ 13) (58910 * 10 ^ 3) (11203 / 10 ^ 6)) 298 320 900000000 (339 / 200) (259 / 10) (33 / 10) (19 / 10000000) (3403 / 2500000) (1313 / 10000) (1141 / 1000) (33 / 40) (1426 / 625) | unfold p0; rowt (mkTait (12727 / 10 ^ 7) (16849 / 10 ^ 10) (43376 / 10 ^ 13) (58910 * 10 ^ 3) (11203 / 10 ^ 6)) 320 343 900000000 (1097 / 500) (838 / 25) (71 / 20) (2091 / 1000000000) (3529 / 2500000) (1957 / 10000) (1217 / 1000) (71 / 80) (4857 / 2000)].
Qed.
Lemma row3 : row_ok (nth 3 tait_table (mkRow "" (mkTait 0 0 0 0 0) 0 0 0 0)).
Proof.
  intros T P HT HP. cbn [nth tait_table tr_p tr_Tmin tr_Tmax tr_Pmin tr_Pmax] in *. match goal with |- physical ?p _ _ => set (p0 := p) end.
  unfold p0; rowt (mkTait (11561 / 10 ^ 7) (61015 / 10 ^ 11) (83234 / 10 ^ 14) (18382 * 10 ^ 4) (47833 / 10 ^ 7)) 407 514 196000000 (3167 / 1000) (3377 / 1000) (37 / 25) (8329 / 10000000000) (6757 / 5000000) (2881 / 10000) (667 / 500) (37 / 100) (14477 / 10000).
Qed.
Lemma row4 : row_ok (nth 4 tait_table (mkRow "" (mkTait 0 0 0 0 0) 0 0 0 0)).
Proof.
  intros T P HT HP. cbn [nth tait_table tr_p tr_Tmin tr_Tmax tr_Pmin tr_Pmax] in *. match goal with |- physical ?p _ _ => set (p0 := p) end.
  unfold p0; rowt (mkTait (7977 / 10 ^ 7) (55274 / 10 ^ 11) (- (14503 / 10 ^ 14)) (29210 * 10 ^ 4) (4196 / 10 ^ 6)) 328 463 200000000 (2223 / 1000) (1523 / 1000) (463 / 500) (311 / 625000000) (44871 / 50000000) (249 / 1250) (1221 / 1000) (463 / 2000) (3151 / 2500).
Qed.
Lemma row5 : row_ok (nth 5 tait_table (mkRow "" (mkTait 0 0 0 0 0) 0 0 0 0)).
Proof.
  intros T P HT HP. cbn [nth tait_table tr_p tr_Tmin tr_Tmax tr_Pmin tr_Pmax] in *. match goal with |- physical ?p _ _ => set (p0 := p) end.
  unfold p0; rowt (mkTait (12033 / 10 ^ 7) (48182 / 10 ^ 11) (77589 / 10 ^ 14) (14236 * 10 ^ 4) (40184 / 10 ^ 7)) 447 571 196000000 (414 / 125) (114 / 25) (43 / 25) (1503 / 2000000000) (14157 / 10000000) (2993 / 10000) (1349 / 1000) (43 / 100) (3843 / 2500).
Qed.
Lemma row6 : row_ok (nth 6 tait_table (mkRow "" (mkTait 0 0 0 0 0) 0 0 0 0)).
Proof.
  intros T P HT HP. cbn [nth tait_table tr_p tr_Tmin tr_Tmax tr_Pmin tr_Pmax] in *. match goal with |- physical ?p _ _ => set (p0 := p) end.
  unfold p0; rowt (mkTait (11004 / 10 ^ 7) (14557 / 10 ^ 10) (- (15749 / 10 ^ 13)) (17598 * 10 ^ 4) (46677 / 10 ^ 7)) 398 471 200000000 (2521 / 1000) (1433 / 500) (34 / 25) (333 / 400000000) (3317 / 2500000) (2309 / 10000) (63 / 50) (17 / 50) (14049 / 10000).
Qed.
Lemma row7 : row_ok (nth 7 tait_table (mkRow "" (mkTait 0 0 0 0 0) 0 0 0 0)).
Proof.
  intros T P HT HP. cbn [nth tait_table tr_p tr_Tmin tr_Tmax tr_Pmin tr_Pmax] in *. match goal with |- physical ?p _ _ => set (p0 := p) end.
  unfold p0; rowt (mkTait (11105 / 10 ^ 7) (12489 / 10 ^ 10) (- (40642 / 10 ^ 14)) (17255 * 10 ^ 4) (44256 / 10 ^ 7)) 420 473 200000000 (1213 / 500) (703 / 250) (67 / 50) (543 / 500000000) (13439 / 10000000) (553 / 2500) (156 / 125) (67 / 200) (13979 / 10000).
Qed.
Lemma row8 : row_ok (nth 8 tait_table (mkRow "" (mkTait 0 0 0 0 0) 0 0 0 0)).
Proof.
  intros T P HT HP. cbn [nth tait_table tr_p tr_Tmin tr_Tmax tr_Pmin tr_Pmax] in *. match goal with |- physical ?p _ _ => set (p0 := p) end.
  unfold p0; rowt (mkTait (78153 / 10 ^ 8) (36134 / 10 ^ 11) (27519 / 10 ^ 14) (34019 * 10 ^ 4) (38021 / 10 ^ 7)) 455 588 177000000 (414 / 125) (431 / 250) (101 / 100) (2307 / 5000000000) (46129 / 50000000) (2993 / 10000) (1349 / 1000) (101 / 400) (1609 / 1250).
Qed.
Lemma row9 : row_ok (nth 9 tait_table (mkRow "" (mkTait 0 0 0 0 0) 0 0 0 0)).
Proof.
  intros T P HT HP. cbn [nth tait_table tr_p tr_Tmin tr_Tmax tr_Pmin tr_Pmax] in *. match goal with |- physical ?p _ _ => set (p0 := p) end.
  unfold p0; rowt (mkTait (93282 / 10 ^ 8) (57856 / 10 ^ 11) (57343 / 10 ^ 14) (22569 * 10 ^ 4) (53116 / 10 ^ 7)) 295 473 200000000 (723 / 250) (2563 / 1000) (32 / 25) (1509 / 2500000000) (5357 / 5000000) (1327 / 5000) (163 / 125) (8 / 25) (13771 / 10000).
Qed.
Lemma row10 : row_ok (nth 10 tait_table (mkRow "" (mkTait 0 0 0 0 0) 0 0 0 0)).
Proof.
  intros T P HT HP. cbn [nth tait_table tr_p tr_Tmin tr_Tmax tr_Pmin tr_Pmax] in *. match goal with |- physical ?p _ _ => set (p0 := p) end.
  unfold p0; rowt (mkTait (79165 / 10 ^ 8) (44201 / 10 ^ 11) (28583 / 10 ^ 14) (31268 * 10 ^ 4) (39728 / 10 ^ 7)) 430 610 177000000 (191 / 50) (2163 / 1000) (29 / 25) (1329 / 2500000000) (48649 / 50000000) (1673 / 5000) (699 / 500) (29 / 100) (3341 / 2500).
Qed.
Lemma row11 : row_ok (nth 11 tait_table (mkRow "" (mkTait 0 0 0 0 0) 0 0 0 0)).
Proof.
  intros T P HT HP. cbn [nth tait_table tr_p tr_Tmin tr_Tmax tr_Pmin tr_Pmax] in *. match goal with |- physical ?p _ _ => set (p0 := p) end.
  unfold p0; rowt (mkTait (8741 / 10 ^ 7) (49035 / 10 ^ 11) (32707 / 10 ^ 14) (30545 * 10 ^ 4) (5503 / 10 ^ 6)) 383 472 200000000 (2991 / 1000) (1959 / 1000) (109 / 100) (2811 / 5000000000) (49227 / 50000000) (171 / 625) (263 / 200) (109 / 400) (3283 / 2500).
Qed.
Lemma row12 : row_ok (nth 12 tait_table (mkRow "" (mkTait 0 0 0 0 0) 0 0 0 0)).
Proof.
  intros T P HT HP. cbn [nth tait_table tr_p tr_Tmin tr_Tmax tr_Pmin tr_Pmax] in *. match goal with |- physical ?p _ _ => set (p0 := p) end.
  unfold p0; rowt (mkTait (10122 / 10 ^ 7) (77266 / 10 ^ 11) (19944 / 10 ^ 13) (87746 * 10 ^ 3) (6256 / 10 ^ 6)) 298 343 100000000 (194 / 125) (1769 / 1000) (51 / 50) (8717 / 10000000000) (269 / 250000) (1093 / 10000) (279 / 250) (51 / 200) (1613 / 1250).
Qed.
Lemma row13 : row_ok (nth 13 tait_table (mkRow "" (mkTait 0 0 0 0 0) 0 0 0 0)).
Proof.
  intros T P HT HP. cbn [nth tait_table tr_p tr_Tmin tr_Tmax tr_Pmin tr_Pmax] in *. match goal with |- physical ?p _ _ => set (p0 := p) end.
  unfold p0; rowt (mkTait (10736 / 10 ^ 7) (12837 / 10 ^ 10) (14565 / 10 ^ 14) (73947 * 10 ^ 3) (80773 / 10 ^ 7)) 298 343 900000000 (881 / 500) (429 / 20) (78 / 25) (129 / 100000000) (291 / 250000) (1411 / 10000) (144 / 125) (39 / 50) (21813 / 10000).
Qed.
Lemma row14 : row_ok (nth 14 tait_table (mkRow "" (mkTait 0 0 0 0 0) 0 0 0 0)).
Proof.
  intros T P HT HP. cbn [nth tait_table tr_p tr_Tmin tr_Tmax tr_Pmin tr_Pmax] in *. match goal with |- physical ?p _ _ => set (p0 := p) end.
  unfold p0; rowt (mkTait (10536 / 10 ^ 7) (11041 / 10 ^ 10) (46289 / 10 ^ 14) (81208 * 10 ^ 3) (71257 / 10 ^ 7)) 298 343 900000000 (206 / 125) (1827 / 100) (74 / 25) (1127 / 1000000000) (1133 / 1000000) (249 / 2000) (1133 / 1000) (37 / 50) (10479 / 5000).
Qed.
Lemma row15 : row_ok (nth 15 tait_table (mkRow "" (mkTait 0 0 0 0 0) 0 0 0 0)).
Proof.
  intros T P HT HP. cbn [nth tait_table tr_p tr_Tmin tr_Tmax tr_Pmin tr_Pmax] in *. match goal with |- physical ?p _ _ => set (p0 := p) end.
  unfold p0; rowt (mkTait (10271 / 10 ^ 7) (11054 / 10 ^ 10) (- (27259 / 10 ^ 14)) (85511 * 10 ^ 3) (67944 / 10 ^ 7)) 298 343 900000000 (807 / 500) (1699 / 100) (29 / 10) (1067 / 1000000000) (1103 / 1000000) (1187 / 10000) (1127 / 1000) (29 / 40) (10323 / 5000).
Qed.
Lemma row16 : row_ok (nth 16 tait_table (mkRow "" (mkTait 0 0 0 0 0) 0 0 0 0)).
Proof.
  intros T P HT HP. cbn [nth tait_table tr_p tr_Tmin tr_Tmax tr_Pmin tr_Pmax] in *. match goal with |- physical ?p _ _ => set (p0 := p) end.
  unfold p0; rowt (mkTait (10095 / 10 ^ 7) (10662 / 10 ^ 10) (- (36476 / 10 ^ 14)) (88352 * 10 ^ 3) (63228 / 10 ^ 7)) 298 343 900000000 (1557 / 1000) (1587 / 100) (283 / 100) (203 / 200000000) (5411 / 5000000) (221 / 2000) (1117 / 1000) (283 / 400) (1268 / 625).
Qed.
Lemma row17 : row_ok (nth 17 tait_table (mkRow "" (mkTait 0 0 0 0 0) 0 0 0 0)).
Proof.
  intros T P HT HP. cbn [nth tait_table tr_p tr_Tmin tr_Tmax tr_Pmin tr_Pmax] in *. match goal with |- physical ?p _ _ => set (p0 := p) end.
  unfold p0; rowt (mkTait (10056 / 10 ^ 7) (10003 / 10 ^ 10) (12039 / 10 ^ 15) (90488 * 10 ^ 3) (64221 / 10 ^ 7)) 298 343 900000000 (196 / 125) (78 / 5) (281 / 100) (1 / 1000000) (2689 / 2500000) (561 / 5000) (1119 / 1000) (281 / 400) (20187 / 10000).
Qed.
Lemma row18 : row_ok (nth 18 tait_table (mkRow "" (mkTait 0 0 0 0 0) 0 0 0 0)).
Proof.
  intros T P HT HP. cbn [nth tait_table tr_p tr_Tmin tr_Tmax tr_Pmin tr_Pmax] in *. match goal with |- physical ?p _ _ => set (p0 := p) end.
  unfold p0; rowt (mkTait (10076 / 10 ^ 7) (91603 / 10 ^ 11) (82159 / 10 ^ 14) (89137 * 10 ^ 3) (63938 / 10 ^ 7)) 298 343 900000000 (196 / 125) (396 / 25) (283 / 100) (299 / 312500000) (2689 / 2500000) (1117 / 10000) (1119 / 1000) (283 / 400) (1268 / 625).
Qed.
Lemma row19 : row_ok (nth 19 tait_table (mkRow "" (mkTait 0 0 0 0 0) 0 0 0 0)).
Proof.
  intros T P HT HP. cbn [nth tait_table tr_p tr_Tmin tr_Tmax tr_Pmin tr_Pmax] in *. match goal with |- physical ?p _ _ => set (p0 := p) end.
  unfold p0; rowt (mkTait (83796 / 10 ^ 8) (36449 / 10 ^ 11) (52933 / 10 ^ 14) (35434 * 10 ^ 4) (43649 / 10 ^ 7)) 349 574 177000000 (3723 / 1000) (93 / 50) (53 / 50) (4447 / 10000000000) (99553 / 100000000) (3283 / 10000) (1389 / 1000) (53 / 200) (6517 / 5000).
Qed.
Lemma row20 : row_ok (nth 20 tait_table (mkRow "" (mkTait 0 0 0 0 0) 0 0 0 0)).
Proof.
  intros T P HT HP. cbn [nth tait_table tr_p tr_Tmin tr_Tmax tr_Pmin tr_Pmax] in *. match goal with |- physical ?p _ _ => set (p0 := p) end.
  unfold p0; rowt (mkTait (1089 / 10 ^ 6) (25554 / 10 ^ 11) (22682 / 10 ^ 13) (19410 * 10 ^ 4) (39995 / 10 ^ 7)) 326 383 100000000 (1557 / 1000) (4011 / 5000) (59 / 100) (619 / 1250000000) (2289 / 2000000) (1099 / 10000) (1117 / 1000) (59 / 400) (11589 / 10000).
Qed.
Lemma row21 : row_ok (nth 21 tait_table (mkRow "" (mkTait 0 0 0 0 0) 0 0 0 0)).
Proof.
  intros T P HT HP. cbn [nth tait_table tr_p tr_Tmin tr_Tmax tr_Pmin tr_Pmax] in *. match goal with |- physical ?p _ _ => set (p0 := p) end.
  unfold p0; rowt (mkTait (82396 / 10 ^ 8) (3049 / 10 ^ 10) (70201 / 10 ^ 14) (29803 * 10 ^ 4) (43789 / 10 ^ 7)) 387 432 200000000 (1003 / 500) (1347 / 1000) (427 / 500) (4647 / 10000000000) (89011 / 100000000) (1739 / 10000) (119 / 100) (427 / 2000) (619 / 500).
Qed.
Lemma row22 : row_ok (nth 22 tait_table (mkRow "" (mkTait 0 0 0 0 0) 0 0 0 0)).
Proof.
  intros T P HT HP. cbn [nth tait_table tr_p tr_Tmin tr_Tmax tr_Pmin tr_Pmax] in *. match goal with |- physical ?p _ _ => set (p0 := p) end.
  unfold p0; rowt (mkTait (12078 / 10 ^ 7) (51461 / 10 ^ 11) (97366 / 10 ^ 14) (14978 * 10 ^ 4) (46302 / 10 ^ 7)) 514 592 196000000 (877 / 200) (5739 / 1000) (191 / 100) (2459 / 2500000000) (14709 / 10000000) (3691 / 10000) (1447 / 1000) (191 / 400) (403 / 250).
Qed.
Lemma row23 : row_ok (nth 23 tait_table (mkRow "" (mkTait 0 0 0 0 0) 0 0 0 0)).
Proof.
  intros T P HT HP. cbn [nth tait_table tr_p tr_Tmin tr_Tmax tr_Pmin tr_Pmax] in *. match goal with |- physical ?p _ _ => set (p0 := p) end.
  unfold p0; rowt (mkTait (83198 / 10 ^ 8) (2755 / 10 ^ 10) (22 / 10 ^ 10) (31030 * 10 ^ 4) (44652 / 10 ^ 7)) 462 492 196000000 (133 / 50) (1681 / 1000) (987 / 1000) (553 / 500000000) (19953 / 20000000) (611 / 2500) (1277 / 1000) (987 / 4000) (6399 / 5000).
Qed.
Lemma row24 : row_ok (nth 24 tait_table (mkRow "" (mkTait 0 0 0 0 0) 0 0 0 0)).
Proof.
  intros T P HT HP. cbn [nth tait_table tr_p tr_Tmin tr_Tmax tr_Pmin tr_Pmax] in *. match goal with |- physical ?p _ _ => set (p0 := p) end.
  unfold p0; rowt (mkTait (93905 / 10 ^ 8) (51288 / 10 ^ 11) (59157 / 10 ^ 15) (24690 * 10 ^ 4) (36633 / 10 ^ 7)) 413 471 180000000 (2067 / 1000) (1507 / 1000) (23 / 25) (2647 / 5000000000) (10429 / 10000000) (453 / 2500) (1199 / 1000) (23 / 100) (2517 / 2000).
Qed.
Lemma row25 : row_ok (nth 25 tait_table (mkRow "" (mkTait 0 0 0 0 0) 0 0 0 0)).
Proof.
  intros T P HT HP. cbn [nth tait_table tr_p tr_Tmin tr_Tmax tr_Pmin tr_Pmax] in *. match goal with |- physical ?p _ _ => set (p0 := p) end.
  unfold p0; rowt (mkTait (93805 / 10 ^ 8) (33086 / 10 ^ 11) (6691 / 10 ^ 13) (25001 * 10 ^ 4) (41815 / 10 ^ 7)) 389 469 200000000 (91 / 40) (91 / 50) (26 / 25) (2429 / 5000000000) (5143 / 5000000) (128 / 625) (307 / 250) (13 / 50) (12969 / 10000).
Qed.
Lemma row26 : row_ok (nth 26 tait_table (mkRow "" (mkTait 0 0 0 0 0) 0 0 0 0)).
Proof.
  intros T P HT HP. cbn [nth tait_table tr_p tr_Tmin tr_Tmax tr_Pmin tr_Pmax] in *. match goal with |- physical ?p _ _ => set (p0 := p) end.
  unfold p0; rowt (mkTait (46867 / 10 ^ 8) (11542 / 10 ^ 11) (11931 / 10 ^ 13) (40910 * 10 ^ 4) (92556 / 10 ^ 7)) 604 646 392000000 (3171 / 100) (3039 / 100) (69 / 20) (1131 / 1250000000) (67757 / 100000000) (2157 / 2500) (2373 / 1000) (69 / 80) (23687 / 10000).
Qed.
Lemma row27 : row_ok (nth 27 tait_table (mkRow "" (mkTait 0 0 0 0 0) 0 0 0 0)).
Proof.
  intros T P HT HP. cbn [nth tait_table tr_p tr_Tmin tr_Tmax tr_Pmin tr_Pmax] in *. match goal with |- physical ?p _ _ => set (p0 := p) end.
  unfold p0; rowt (mkTait (82832 / 10 ^ 8) (47205 / 10 ^ 11) (11364 / 10 ^ 13) (18825 * 10 ^ 4) (38774 / 10 ^ 7)) 337 393 100000000 (1597 / 1000) (2121 / 2500) (123 / 200) (6171 / 10000000000) (45061 / 50000000) (581 / 5000) (281 / 250) (123 / 800) (11661 / 10000).
Qed.
Lemma rows_ok : forall r, In r tait_table -> row_ok r.
Proof.
  intros r H. destruct (In_nth _ _ (mkRow "" (mkTait 0 0 0 0 0) 0 0 0 0) H) as (n & Hn & <-). cbn [tait_table Datatypes.length] in Hn.
  do 28 (destruct n as [|n]; [first [exact row0 | exact row1 | exact row2 | exact row3 | exact row4 | exact row5 | exact row6 | exact row7 | exact row8 | exact row9 | exact row10 | exact row11 | exact row12 | exact row13 | exact row14 | exact row15 | exact row16 | exact row17 | exact row18 | exact row19 | exact row20 | exact row21 | exact row22 | exact row23 | exact row24 | exact row25 | exact row26 | exact row27]|]). lia.
Qed.
Definition row_valid (r : trow) : Prop := tait_ok (tr_p r) /\ 0 < tr_Tmin r < tr_Tmax r /\ 0 <= tr_Pmin r < tr_Pmax r /\ 1 <= tr_Tmax r - tr_Tmin r /\ 1 <= tr_Pmax r - tr_Pmin r.
Lemma rows_valid : List.Forall row_valid tait_table.
Proof. unfold tait_table, row_valid, tait_ok. repeat (apply List.Forall_cons; [cbn [tr_p tr_Tmin tr_Tmax tr_Pmin tr_Pmax tA0 tA1 tA2 tB0 tB1]; lra|]). apply List.Forall_nil. Qed.
Lemma names_nodup : NoDup (map tr_name tait_table).
Proof. cbn [map tait_table tr_name]. repeat (constructor; [cbn [In]; intuition discriminate|]). constructor. Qed.

(** the constructor accepts exactly the documented parameter box, and ranges of some width (or half-infinite ones) *)
Definition range_ok (lo hi : fl) : Prop := exists a, lo = Fin a /\ 0 <= a /\ (hi = PInf \/ exists b, hi = Fin b /\ a + eps <= b).
Lemma cb_num v lo hi : fl_le lo v /\ fl_le v hi -> check_bounds (VNum v) lo hi = Ok (VNum v).
Proof. intros H. unfold check_bounds. now rewrite (proj2 (between_iff lo hi v) H). Qed.
Lemma cb_num' v lo hi w : check_bounds (VNum v) lo hi = Ok w -> fl_le lo v /\ fl_le v hi.
Proof. unfold check_bounds. destruct (between lo hi v) eqn:B; [|discriminate]. intros _. now apply between_iff. Qed.
Lemma cb_err v lo hi e : check_bounds (VNum v) lo hi = Err e -> e = RangeError.
Proof. unfold check_bounds. destruct (between lo hi v); congruence. Qed.
Lemma eps_pos : 0 < eps. Proof. unfold eps. apply Rinv_0_lt_compat, pow_lt; lra. Qed.
Lemma fin_le a b : fl_le (Fin a) (Fin b) <-> a <= b.
Proof. split; [intros H; now inversion H|now constructor]. Qed.
Lemma range_cb lo hi : fl_le (Fin 0) lo /\ fl_le lo PInf -> fl_le (Fin 0) hi /\ fl_le hi PInf -> fl_le (Fin eps) (fl_minus hi lo) /\ fl_le (fl_minus hi lo) PInf <-> range_ok lo hi /\ True.
Proof.
  intros (A & _) (B & _). unfold range_ok. destruct lo as [a| | |]; try (inversion A; fail).
  - apply fin_le in A. destruct hi as [b| | |]; try (inversion B; fail); cbn [fl_minus].
    + rewrite fin_le. split; [intros (H & _); split; [|auto]; exists a; split; [auto|split; [auto|right; exists b; split; [auto|lra]]]|].
      intros ((a' & E & _ & [X|(b' & E' & H)]) & _); [discriminate|]. injection E as <-. injection E' as <-. split; [lra|constructor; discriminate].
    + split; [intros _; split; [|auto]; exists a; auto|]. intros _. split; constructor; discriminate.
  - destruct hi as [b| | |]; try (inversion B; fail); cbn [fl_minus]; (split; [intros (H & _); inversion H|intros ((a' & E & _) & _); discriminate]).
Qed.
Lemma range_cbs lo hi : range_ok lo hi -> (fl_le (Fin 0) lo /\ fl_le lo PInf) /\ (fl_le (Fin 0) hi /\ fl_le hi PInf) /\ (fl_le (Fin eps) (fl_minus hi lo) /\ fl_le (fl_minus hi lo) PInf).
Proof.
  pose proof eps_pos. intros (t & -> & T0 & [->|(t' & -> & T1)]); cbn [fl_minus]; split; [|split| |split]; split; try (apply fin_le; lra); constructor; discriminate.
Qed.
Theorem C108_init : forall p Tmin Tmax Pmin Pmax name,
  (forall o, tait_init p Tmin Tmax Pmin Pmax name = Ok o <->
     (1 / 10 ^ 4 <= tA0 p <= 2 / 10 ^ 3 /\ 1 / 10 ^ 7 <= tA1 p <= 2 / 10 ^ 6 /\ - (2 / 10 ^ 9) <= tA2 p <= 1 / 10 ^ 8 /\ 10 ^ 7 <= tB0 p <= 10 ^ 9 /\ 1 / 10 ^ 3 <= tB1 p <= 2 / 10 ^ 2) /\
     range_ok Tmin Tmax /\ range_ok Pmin Pmax /\ o = mkTobj p Tmin Tmax Pmin Pmax name) /\
  (forall e, tait_init p Tmin Tmax Pmin Pmax name = Err e -> e = RangeError).
Proof.
  intros p Tmin Tmax Pmin Pmax name. unfold tait_init. split.
  - intros o. split.
    + intros H. repeat match type of H with bind ?c _ = Ok _ => let E := fresh "E" in destruct c eqn:E; cbn [bind] in H; [apply cb_num' in E|discriminate] end.
      rewrite !fin_le in *. pose proof (proj1 (range_cb Tmin Tmax ltac:(assumption) ltac:(assumption)) ltac:(assumption)). pose proof (proj1 (range_cb Pmin Pmax ltac:(assumption) ltac:(assumption)) ltac:(assumption)).
      split; [lra|]. split; [tauto|]. split; [tauto|congruence].
    + intros ((A0 & A1 & A2 & B0 & B1) & RT & RP & ->).
      rewrite (cb_num (Fin (tA0 p))), (cb_num (Fin (tA1 p))), (cb_num (Fin (tA2 p))), (cb_num (Fin (tB0 p))), (cb_num (Fin (tB1 p))) by (rewrite ?fin_le; lra). cbn [bind].
      destruct (range_cbs _ _ RT) as (X1 & X2 & X3). destruct (range_cbs _ _ RP) as (Y1 & Y2 & Y3). rewrite (cb_num Tmin), (cb_num Tmax), (cb_num (fl_minus Tmax Tmin)), (cb_num Pmin), (cb_num Pmax), (cb_num (fl_minus Pmax Pmin)) by assumption. reflexivity.
  - intros e H. repeat match type of H with bind ?c _ = Err _ => let E := fresh "E" in destruct c eqn:E; cbn [bind] in H; [clear E|injection H as <-; now apply cb_err in E] end. discriminate.
Qed.
Lemma row_init r n : row_valid r -> tait_init (tr_p r) (Fin (tr_Tmin r)) (Fin (tr_Tmax r)) (Fin (tr_Pmin r)) (Fin (tr_Pmax r)) n = Ok (mkTobj (tr_p r) (Fin (tr_Tmin r)) (Fin (tr_Tmax r)) (Fin (tr_Pmin r)) (Fin (tr_Pmax r)) n).
Proof.
  intros (OK & T & P & T1 & P1). assert (E1 : eps <= 1) by (unfold eps; rewrite <- Rinv_1; apply Rinv_le_contravar; lra).
  apply (proj1 (C108_init _ _ _ _ _ _)). unfold tait_ok in OK. split; [lra|]. split; [|split; [|reflexivity]].
  - exists (tr_Tmin r). split; [auto|]. split; [lra|]. right. exists (tr_Tmax r). split; [auto|lra].
  - exists (tr_Pmin r). split; [auto|]. split; [lra|]. right. exists (tr_Pmax r). split; [auto|lra].
Qed.
(** every polymer of the table can be used: its own parameters and ranges, accepted by the constructor *)
Theorem C108_complete : forall r, In r tait_table ->
  from_table tait_table (tr_name r) = Ok (Some (mkTobj (tr_p r) (Fin (tr_Tmin r)) (Fin (tr_Tmax r)) (Fin (tr_Pmin r)) (Fin (tr_Pmax r)) (tr_name r))).
Proof.
  intros r H. unfold from_table. assert (F : find (fun r0 => String.eqb (tr_name r0) (tr_name r)) tait_table = Some r).
  { pose proof names_nodup as ND. revert H ND. generalize tait_table as t. induction t as [|q t IH]; [intros []|]. intros [->|H] ND; cbn [find].
    - now rewrite String.eqb_refl.
    - cbn [map] in ND. inversion ND as [|? ? N1 N2]; subst. destruct (String.eqb_spec (tr_name q) (tr_name r)) as [E|_]; [|now apply IH]. exfalso. apply N1. rewrite E. now apply in_map. }
  rewrite F, row_init; [reflexivity|]. pose proof rows_valid as V. rewrite List.Forall_forall in V. now apply V.
Qed.
(** any other name: no object, no exception *)
Theorem C108_unknown : forall n, from_table tait_table n = Ok None <-> ~ In n (map tr_name tait_table).
Proof.
  intros n. split.
  - intros H N. apply in_map_iff in N. destruct N as (r & <- & I). rewrite (C108_complete r I) in H. discriminate.
  - intros N. unfold from_table. destruct (find _ tait_table) as [r|] eqn:F; [|reflexivity]. exfalso. apply find_some in F. destruct F as (I & E). apply String.eqb_eq in E. apply N. rewrite <- E. now apply in_map.
Qed.
Lemma row_rng r : In r tait_table -> row_valid r. Proof. pose proof rows_valid as V. rewrite List.Forall_forall in V. apply V. Qed.
(** inside its validity range every polymer has between 0.4 and 1.5 litres per kilogram, expands when heated and yields when
    compressed *)
Theorem C108_physical : forall r T P, In r tait_table -> tr_Tmin r <= T <= tr_Tmax r -> tr_Pmin r <= P <= tr_Pmax r ->
  4 / 10 ^ 4 <= tait_eval (tr_p r) T P <= 15 / 10 ^ 4 /\ 0 < tait_alpha (tr_p r) T P /\ 0 < tait_beta (tr_p r) T P.
Proof. intros r T P H HT HP. exact (rows_ok r H T P HT HP). Qed.
Theorem C108_monotone : forall r, In r tait_table ->
  (forall T T' P, tr_Tmin r <= T -> T < T' -> T' <= tr_Tmax r -> tr_Pmin r <= P <= tr_Pmax r -> tait_eval (tr_p r) T P < tait_eval (tr_p r) T' P) /\
  (forall T P P', tr_Tmin r <= T <= tr_Tmax r -> tr_Pmin r <= P -> P < P' -> P' <= tr_Pmax r -> tait_eval (tr_p r) T P' < tait_eval (tr_p r) T P).
Proof.
  intros r H. destruct (row_rng r H) as (OK & HT & HP & _). split.
  - intros T T' P A B C HP'. apply (mono_strict (fun t => tait_eval (tr_p r) t P) (fun t => tait_eval (tr_p r) t P * tait_alpha (tr_p r) t P)); [auto| |].
    + intros t Ht. destruct (C108_physical r t P H ltac:(lra) HP') as (V & _). apply C54_alpha; [auto|lra|lra].
    + intros t Ht. destruct (C108_physical r t P H ltac:(lra) HP') as (V & A1 & _). apply Rmult_lt_0_compat; lra.
  - intros T P P' HT' A B C. assert (X : - tait_eval (tr_p r) T P < - tait_eval (tr_p r) T P'); [|lra].
    apply (mono_strict (fun q => - tait_eval (tr_p r) T q) (fun q => - (- tait_eval (tr_p r) T q * tait_beta (tr_p r) T q))); [auto| |].
    + intros q Hq. destruct (C108_physical r T q H HT' ltac:(lra)) as (V & _). apply D_opp. apply C54_beta; [auto|lra|lra].
    + intros q Hq. destruct (C108_physical r T q H HT' ltac:(lra)) as (V & _ & B1). assert (0 < tait_eval (tr_p r) T q * tait_beta (tr_p r) T q) by (apply Rmult_lt_0_compat; lra). lra.
Qed.
(** evaluation with units: the equation is applied to the value in kelvin and pascal, and a message is printed exactly outside
    the ranges; below absolute zero or at negative pressure the call is refused *)
Definition tunit (u : string) (off : R) : Prop := (u = "K"%string /\ off = 0) \/ (u = "C"%string /\ off = 27315 / 100).
Definition punit (u : string) (f : R) : Prop := (u = "Pa"%string /\ f = 1) \/ (u = "bar"%string /\ f = 100000) \/ (u = "MPa"%string /\ f = 1000000).
Lemma fltb_fin a b : fltb (Fin a) (Fin b) = true <-> a < b.
Proof. rewrite fltb_iff. split; [intros H; now inversion H|now constructor]. Qed.
Lemma fltb_fin_f a b : fltb (Fin a) (Fin b) = false <-> b <= a.
Proof. split; intros H; [|apply Bool.not_true_is_false; rewrite fltb_fin; lra]. apply Rnot_lt_le. rewrite <- fltb_fin. congruence. Qed.
Lemma conv_T T u off a b : tunit u off ->
  convert_check_temperature [Fin T] u (Fin a) (Fin b) = if fltb (Fin (T + off)) (Fin 0) then Err RangeError else Ok ([Fin (T + off)], fltb (Fin (T + off)) (Fin a) || fltb (Fin b) (Fin (T + off))).
Proof. intros [(-> & ->)|(-> & ->)]; unfold convert_check_temperature; cbn [String.eqb Ascii.eqb Bool.eqb bind map fl_map]; rewrite ?Rplus_0_r; cbn [existsb]; rewrite !orb_false_r; reflexivity. Qed.
Lemma conv_P P u f a b : punit u f ->
  convert_check_pressure [Fin P] u (Fin a) (Fin b) = if fltb (Fin (P * f)) (Fin 0) then Err RangeError else Ok ([Fin (P * f)], fltb (Fin (P * f)) (Fin a) || fltb (Fin b) (Fin (P * f))).
Proof.
  intros [(-> & ->)|[(-> & ->)|(-> & ->)]]; unfold convert_check_pressure; cbn [String.eqb Ascii.eqb Bool.eqb bind map fl_map].
  - cbn [existsb]. rewrite !orb_false_r. reflexivity.
  - replace (10 ^ 5) with 100000 by lra. cbn [existsb]. rewrite !orb_false_r. reflexivity.
  - replace (10 ^ 6) with 1000000 by lra. cbn [existsb]. rewrite !orb_false_r. reflexivity.
Qed.
Theorem C108_vs : forall p a b c d n T P tu pu off f, tunit tu off -> punit pu f ->
  let o := mkTobj p (Fin a) (Fin b) (Fin c) (Fin d) n in
  (0 <= T + off -> 0 <= P * f -> exists wT wP, tait_vs o T P tu pu = Ok (tait_eval p (T + off) (P * f), wT, wP) /\
     (wT = false <-> a <= T + off <= b) /\ (wP = false <-> c <= P * f <= d)) /\
  (T + off < 0 \/ P * f < 0 -> tait_vs o T P tu pu = Err RangeError).
Proof.
  intros p a b c d n T P tu pu off f HT HP o. unfold tait_vs. cbn [to_p to_Tmin to_Tmax to_Pmin to_Pmax o]. rewrite (conv_T _ _ _ _ _ HT), (conv_P _ _ _ _ _ HP). split.
  - intros T0 P0. rewrite (proj2 (fltb_fin_f _ _) T0), (proj2 (fltb_fin_f _ _) P0). cbn [bind fst snd]. eexists _, _. split; [reflexivity|]. rewrite !orb_false_iff, !fltb_fin_f. lra.
  - intros H. destruct (fltb (Fin (T + off)) (Fin 0)) eqn:E1; cbn [bind]; [reflexivity|]. apply fltb_fin_f in E1. rewrite (proj2 (fltb_fin (P * f) 0)); [reflexivity|lra].
Qed.
Theorem C108_units : forall o T P tu pu, (forall off, ~ tunit tu off) \/ ((forall f, ~ punit pu f) /\ 0 <= T) -> tait_vs o T P tu pu = Err ValueError.
Proof.
  intros o T P tu pu H. unfold tait_vs, convert_check_temperature.
  destruct (String.eqb_spec tu "K") as [->|N1].
  - cbn [bind existsb]. destruct H as [H|(H & T0)]; [exfalso; now apply (H 0); left|]. rewrite (proj2 (fltb_fin_f T 0) T0). cbn [orb bind fst snd]. unfold convert_check_pressure.
    destruct (String.eqb_spec pu "Pa") as [->|M1]; [exfalso; now apply (H 1); left|]. destruct (String.eqb_spec pu "bar") as [->|M2]; [exfalso; now apply (H 100000); right; left|]. destruct (String.eqb_spec pu "MPa") as [->|M3]; [exfalso; now apply (H 1000000); right; right|]. reflexivity.
  - destruct (String.eqb_spec tu "C") as [->|N2].
    + cbn [bind map fl_map existsb]. destruct H as [H|(H & T0)]; [exfalso; now apply (H (27315 / 100)); right|]. rewrite (proj2 (fltb_fin_f (T + 27315 / 100) 0) ltac:(lra)). cbn [orb bind fst snd]. unfold convert_check_pressure.
      destruct (String.eqb_spec pu "Pa") as [->|M1]; [exfalso; now apply (H 1); left|]. destruct (String.eqb_spec pu "bar") as [->|M2]; [exfalso; now apply (H 100000); right; left|]. destruct (String.eqb_spec pu "MPa") as [->|M3]; [exfalso; now apply (H 1000000); right; right|]. reflexivity.
    + reflexivity.
Qed.
(** the table is read once and kept: as long as nobody changes it, every request is answered from the file *)
Theorem C108_history : forall h, (forall f, ~ In (DChange f) h) ->
  drun h None = map (fun o => match o with DGet => OTable tait_table | DFrom n => OTait (from_table tait_table n) | DChange _ => ODone end) h.
Proof.
  assert (G : forall h s, s = None \/ s = Some tait_table -> (forall f, ~ In (DChange f) h) ->
    drun h s = map (fun o => match o with DGet => OTable tait_table | DFrom n => OTait (from_table tait_table n) | DChange _ => ODone end) h).
  { induction h as [|o h IH]; intros s Hs Hc; [reflexivity|]. assert (L : load_pvt s = tait_table) by (destruct Hs as [->| ->]; reflexivity).
    assert (Hc' : forall f, ~ In (DChange f) h) by (intros f I; apply (Hc f); now right).
    destruct o as [|f|n]; cbn [drun map]; rewrite ?L.
    - f_equal. apply IH; auto. - exfalso. apply (Hc f). now left. - f_equal. apply IH; auto. }
  intros h H. apply G; [now left|exact H].
Qed.
(** finding: get_database hands out the table itself, so a change made by its receiver silently alters later polymers *)
Theorem C108_shared_refuted : exists f n o o',
  drun [DFrom n; DGet; DChange f; DFrom n] None = [OTait (Ok (Some o)); OTable tait_table; ODone; OTait (Ok (Some o'))] /\
  tait_eval (to_p o) (27315 / 100) 0 <> tait_eval (to_p o') (27315 / 100) 0.
Proof.
  exists (map (fun r => mkRow (tr_name r) (mkTait (2 / 10 ^ 3) (tA1 (tr_p r)) (tA2 (tr_p r)) (tB0 (tr_p r)) (tB1 (tr_p r))) (tr_Tmin r) (tr_Tmax r) (tr_Pmin r) (tr_Pmax r))), "BR"%string.
  set (r := hd (mkRow "" (mkTait 0 0 0 0 0) 0 0 0 0) tait_table). set (q := mkTait (2 / 10 ^ 3) (tA1 (tr_p r)) (tA2 (tr_p r)) (tB0 (tr_p r)) (tB1 (tr_p r))).
  exists (mkTobj (tr_p r) (Fin (tr_Tmin r)) (Fin (tr_Tmax r)) (Fin (tr_Pmin r)) (Fin (tr_Pmax r)) "BR"), (mkTobj q (Fin (tr_Tmin r)) (Fin (tr_Tmax r)) (Fin (tr_Pmin r)) (Fin (tr_Pmax r)) "BR").
  split.
  - cbn [drun load_pvt]. change (from_table tait_table "BR") with (from_table tait_table (tr_name r)). rewrite (C108_complete r) by (left; reflexivity). f_equal. f_equal. f_equal. f_equal. f_equal. unfold from_table. cbn [map tait_table find tr_name String.eqb Ascii.eqb Bool.eqb].
    pose proof (row_init (mkRow "BR" q (tr_Tmin r) (tr_Tmax r) (tr_Pmin r) (tr_Pmax r)) "BR") as X. cbn [tr_p tr_Tmin tr_Tmax tr_Pmin tr_Pmax] in X |- *. unfold q, r in X |- *. cbn [hd tait_table tr_p tr_Tmin tr_Tmax tr_Pmin tr_Pmax tA1 tA2 tB0 tB1] in X |- *.
    rewrite X; [reflexivity|]. unfold row_valid, tait_ok. cbn [tr_p tr_Tmin tr_Tmax tr_Pmin tr_Pmax tA0 tA1 tA2 tB0 tB1]. lra.
  - cbn [to_p]. unfold tait_eval. cbv zeta. assert (Z : forall B, 1 + 0 / B = 1) by (intros B; unfold Rdiv; ring). rewrite !Z, ln_1. unfold q, r. cbn [hd tait_table tr_p tA0 tA1 tA2]. lra.
Qed.
(** butadiene rubber at 27 degC and 1 bar; a name that is not in the table *)
Example C108_case : exists o, from_table tait_table "BR" = Ok (Some o) /\ tait_vs o 27 1 "C" "bar" = Ok (tait_eval (to_p o) (30015 / 100) 100000, false, false) /\
  109 / 10 ^ 5 <= tait_eval (to_p o) (30015 / 100) 100000 <= 112 / 10 ^ 5 /\ from_table tait_table "polybutadiene" = Ok None.
Proof.
  set (r := hd (mkRow "" (mkTait 0 0 0 0 0) 0 0 0 0) tait_table). eexists. split; [exact (C108_complete r ltac:(left; reflexivity))|]. cbn [to_p]. split; [|split].
  - destruct (C108_vs (tr_p r) (tr_Tmin r) (tr_Tmax r) (tr_Pmin r) (tr_Pmax r) (tr_name r) 27 1 "C" "bar" (27315 / 100) 100000 ltac:(now right) ltac:(now right; left)) as (H & _).
    destruct H as (wT & wP & E & W1 & W2); [lra|lra|]. rewrite E. replace (27 + 27315 / 100) with (30015 / 100) by lra. replace (1 * 100000) with 100000 by ring. f_equal. f_equal; [f_equal|].
    + apply W1. unfold r. cbn [hd tait_table tr_Tmin tr_Tmax]. lra. + apply W2. unfold r. cbn [hd tait_table tr_Pmin tr_Pmax]. lra.
  - unfold tait_eval. cbv zeta. set (B := tait_B (tr_p r) (30015 / 100)).
    assert (HB : 10 ^ 8 <= B). { unfold B, tait_B, r. cbn [hd tait_table tr_p tB0 tB1]. assert (X : / (6 / 5) <= exp (- (43355 / 10 ^ 7) * (30015 / 100 - 27315 / 100))); [|lra].
      replace (- (43355 / 10 ^ 7) * (30015 / 100 - 27315 / 100)) with (- (43355 * 27 / 10 ^ 7)) by lra. rewrite exp_Ropp. apply Rinv_le_contravar; [apply exp_pos|]. apply exp_upper; [lra|lra|]. unfold q5. lra. }
    assert (S0 : 0 < 100000 / B <= / 1000). { split; [apply Rdiv_lt_0_compat; lra|]. apply (Rmult_le_reg_r B); [lra|]. unfold Rdiv. rewrite Rmult_assoc, Rinv_l by lra. lra. }
    assert (L : 0 <= ln (1 + 100000 / B) <= / 1000). { split; [rewrite <- ln_1; left; apply ln_increasing; lra|]. apply (Rle_trans _ (100000 / B)); [|lra]. rewrite <- (ln_exp (100000 / B)) at 2. left. apply ln_increasing; [lra|]. apply exp_ineq1. lra. }
    set (l := ln _) in *. unfold r, tait_C. cbn [hd tait_table tr_p tA0 tA1 tA2]. lra.
  - apply C108_unknown. cbn [map tait_table tr_name In]. intuition discriminate.
Qed.
Print Assumptions C108_init. Print Assumptions C108_complete. Print Assumptions C108_unknown. Print Assumptions C108_physical. Print Assumptions C108_monotone.
Print Assumptions C108_vs. Print Assumptions C108_units. Print Assumptions C108_history. Print Assumptions C108_shared_refuted.
