(** C109: critical point, temperature functions, second virial coefficients and fugacities of the equations of state. *)
From Coq Require Import Reals Lra Lia List Bool Arith.
From Verif Require Import Prelude Deriv NumBounds KinModel RootsModel AcmModel AcmProps EosModel EosProps CubicProps.
Import ListNotations.
Open Scope R_scope.

(** * The constants of the equations and the critical point *)
(** the cubic in Z has a triple root *)
Definition triple (e : cubic) (A B z : R) : Prop := forall Z, pZ e A B Z = (Z - z) ^ 3.
Lemma triple_coef e A B z : triple e A B z ->
  1 + B - cu_u e * B = 3 * z /\ A + cu_w e * B ^ 2 - cu_u e * B - cu_u e * B ^ 2 = 3 * z ^ 2 /\ A * B + cu_w e * B ^ 2 + cu_w e * B ^ 3 = z ^ 3.
Proof.
  intros H. pose proof (H 0) as H0. pose proof (H 1) as H1. pose proof (H (-1)) as H2. unfold pZ in *.
  set (c2 := 1 + B - cu_u e * B) in *. set (c1 := A + cu_w e * B ^ 2 - cu_u e * B - cu_u e * B ^ 2) in *. set (c0 := A * B + cu_w e * B ^ 2 + cu_w e * B ^ 3) in *. lra.
Qed.
Lemma coef_triple e A B z : 1 + B - cu_u e * B = 3 * z -> A + cu_w e * B ^ 2 - cu_u e * B - cu_u e * B ^ 2 = 3 * z ^ 2 -> A * B + cu_w e * B ^ 2 + cu_w e * B ^ 3 = z ^ 3 -> triple e A B z.
Proof. intros H1 H2 H3 Z. unfold pZ. rewrite H1, H2, H3. ring. Qed.
Lemma cubic_root (f : R -> R) a b : continuity f -> a < b -> f a < 0 -> 0 < f b -> exists x, a < x < b /\ f x = 0.
Proof.
  intros C L Fa Fb. destruct (IVT f a b C L Fa Fb) as (x & Hx & E). exists x. split; [|auto]. split; destruct (Req_dec x a), (Req_dec x b); subst; lra.
Qed.
(** for each pair (u, w) there is exactly one critical point, and the constants of the code are its A and B rounded to five
    decimals *)
Theorem C109_critical e : known e -> exists A B z, triple e A B z /\ 0 < B < z /\
  Rabs (A - cu_Oa e) <= 5 / 10 ^ 6 /\ Rabs (B - cu_Ob e) <= 5 / 10 ^ 6 /\
  (forall A' B' z', 0 < B' -> triple e A' B' z' -> A' = A /\ B' = B /\ z' = z).
Proof.
  intros [->| ->].
  - destruct (cubic_root (fun x => 27 * x ^ 3 + 27 * x ^ 2 + 9 * x - 1) (86636 / 10 ^ 6) (86644 / 10 ^ 6)) as (B & HB & E); [reg|lra|lra|lra|].
    exists (1 / 3 + B + B ^ 2), B, (1 / 3). assert (B2 : (86636 / 10 ^ 6) ^ 2 <= B ^ 2 <= (86644 / 10 ^ 6) ^ 2) by (split; apply pow_incr; lra).
    split; [apply coef_triple; cbn [cu_u cu_w RK_consts]; lra|]. split; [lra|]. split; [apply Rabs_le; cbn [cu_Oa RK_consts]; lra|]. split; [apply Rabs_le; cbn [cu_Ob RK_consts]; lra|].
    intros A' B' z' P H. apply triple_coef in H. cbn [cu_u cu_w RK_consts] in H. destruct H as (H1 & H2 & H3). assert (Z' : z' = 1 / 3) by lra. subst z'. assert (EA : A' = 1 / 3 + B' + B' ^ 2) by lra. subst A'.
    assert (EB : (B' - B) * (27 * (B' ^ 2 + B' * B + B ^ 2) + 27 * (B' + B) + 9) = 0) by lra. apply Rmult_integral in EB. destruct EB as [EB|EB]; [|nra]. assert (B' = B) by lra. subst B'. auto.
  - destruct (cubic_root (fun x => 64 * x ^ 3 + 6 * x ^ 2 + 12 * x - 1) (777959 / 10 ^ 7) (777963 / 10 ^ 7)) as (B & HB & E); [reg|lra|lra|lra|].
    exists ((1 - B) ^ 2 / 3 + 3 * B ^ 2 + 2 * B), B, ((1 - B) / 3). assert (B2 : (777959 / 10 ^ 7) ^ 2 <= B ^ 2 <= (777963 / 10 ^ 7) ^ 2) by (split; apply pow_incr; lra).
    split; [apply coef_triple; cbn [cu_u cu_w PR_consts]; lra|]. split; [lra|]. split; [apply Rabs_le; cbn [cu_Oa PR_consts]; lra|]. split; [apply Rabs_le; cbn [cu_Ob PR_consts]; lra|].
    intros A' B' z' P H. apply triple_coef in H. cbn [cu_u cu_w PR_consts] in H. destruct H as (H1 & H2 & H3). assert (Z' : z' = (1 - B') / 3) by lra. subst z'. assert (EA : A' = (1 - B') ^ 2 / 3 + 3 * B' ^ 2 + 2 * B') by lra. subst A'.
    assert (EB : (B' - B) * (64 * (B' ^ 2 + B' * B + B ^ 2) + 6 * (B' + B) + 12) = 0) by lra. apply Rmult_integral in EB. destruct EB as [EB|EB]; [|nra]. assert (B' = B) by lra. subst B'. auto.
Qed.
(** the parameters a and b of a component put it at A = Omega_a, B = Omega_b in its critical point, and with the exact
    constants the critical isotherm passes through Pc only at the critical volume *)
Theorem C109_AB e alpha Tc Pc w i : 0 < Tc i -> 0 < Pc i -> alpha (Tc i) (Tc i) (w i) = 1 ->
  cu_A (cu_a e alpha Tc Pc w (Tc i) i) (Tc i) (Pc i) = cu_Oa e /\ cu_B (cu_b e Tc Pc i) (Tc i) (Pc i) = cu_Ob e.
Proof. intros HT HP E. pose proof Rgas_pos as HR. unfold cu_A, cu_B, cu_a, cu_b. rewrite E. split; field; lra. Qed.
Theorem C109_isotherm e A B z Tc Pc v : known e -> triple e A B z -> 0 < B < z -> 0 < Tc -> 0 < Pc ->
  let a := A * (Rgas * Tc) ^ 2 / Pc in let b := B * Rgas * Tc / Pc in let vc := z * Rgas * Tc / Pc in
  b < v -> (v < vc -> Pc < cu_P e a b Tc v) /\ (v = vc -> cu_P e a b Tc v = Pc) /\ (vc < v -> cu_P e a b Tc v < Pc).
Proof.
  intros K TR HB HT HP a b vc Hv. pose proof Rgas_pos as HR. assert (RT : 0 < Rgas * Tc) by now apply Rmult_lt_0_compat.
  assert (Hb : 0 < b) by (unfold b; apply Rdiv_lt_0_compat; [rewrite Rmult_assoc; apply Rmult_lt_0_compat; lra|lra]).
  set (Z := Pc * v / (Rgas * Tc)). assert (EB : cu_B b Tc Pc = B) by (unfold cu_B, b; field; lra). assert (EA : cu_A a Tc Pc = A) by (unfold cu_A, a; field; lra).
  assert (ZV : forall q, q < v -> Pc * q / (Rgas * Tc) < Z) by (intros q Hq; unfold Z, Rdiv; apply Rmult_lt_compat_r; [now apply Rinv_0_lt_compat|now apply Rmult_lt_compat_l]).
  assert (VZ : forall q, v < q -> Z < Pc * q / (Rgas * Tc)) by (intros q Hq; unfold Z, Rdiv; apply Rmult_lt_compat_r; [now apply Rinv_0_lt_compat|now apply Rmult_lt_compat_l]).
  assert (BZ : B < Z) by (pose proof (ZV b Hv) as X; replace (Pc * b / (Rgas * Tc)) with B in X by (unfold b; field; lra); exact X).
  pose proof (C46_pressure e a b Tc Pc Z K HT HP Hb) as Q. cbv zeta in Q. rewrite EB, EA in Q. specialize (Q BZ). replace (eos_v Z Tc Pc) with v in Q by (unfold eos_v, Z; field; lra). rewrite TR in Q. rewrite Q.
  destruct (known_facts e K) as (_ & _ & _ & _ & _ & KQ). pose proof (KQ Z B (proj1 HB) BZ) as Q0. set (q := (Z - B) * _). assert (Pq : 0 < q) by (apply Rmult_lt_0_compat; lra).
  assert (VC : Pc * vc / (Rgas * Tc) = z) by (unfold vc; field; lra). split; [|split].
  - intros H. apply VZ in H. rewrite VC in H. assert (X : (Z - z) ^ 3 / q < 0). { unfold Rdiv. pose proof (Rinv_0_lt_compat q Pq). assert ((Z - z) ^ 3 < 0); [|nra]. replace ((Z - z) ^ 3) with (- ((z - Z) ^ 3)) by ring. pose proof (pow_lt (z - Z) 3 ltac:(lra)). lra. } nra.
  - intros ->. unfold Z. rewrite VC. replace (z - z) with 0 by ring. unfold Rdiv. ring.
  - intros H. apply ZV in H. rewrite VC in H. assert (X : 0 < (Z - z) ^ 3 / q) by (apply Rdiv_lt_0_compat; [apply pow_lt; lra|auto]). nra.
Qed.

(** * The temperature functions *)
(** alpha of the three equations; the flag of Soave-Redlich-Kwong selects the coefficients of Graboski and Daubert *)
Inductive alphaf : (R -> R -> R -> R) -> Prop := al_RK : alphaf RK_alpha | al_SRK g : alphaf (SRK_alpha g) | al_PR : alphaf PR_alpha.
Theorem C109_alpha_critical al Tc w : alphaf al -> 0 < Tc -> al Tc Tc w = 1.
Proof.
  intros [|g|] HT; unfold RK_alpha, SRK_alpha, PR_alpha; replace (Tc / Tc) with 1 by (field; lra); rewrite sqrt_1; ring.
Qed.
(** corresponding states *)
Theorem C109_alpha_reduced al c T Tc w : alphaf al -> 0 < c -> 0 < T -> 0 < Tc -> al (c * T) (c * Tc) w = al T Tc w.
Proof.
  intros [|g|] Hc HT HTc; unfold RK_alpha, SRK_alpha, PR_alpha; [replace (c * Tc / (c * T)) with (Tc / T) by (field; lra)|replace (c * T / (c * Tc)) with (T / Tc) by (field; lra)|replace (c * T / (c * Tc)) with (T / Tc) by (field; lra)]; reflexivity.
Qed.
(** the slope f of the acentric equations: positive for all acentric factors from -0.2 to 5, between 0.37 and 1.9 from 0 to 1,
    and the two sets of coefficients agree to 0.006 *)
Lemma fw_facts g w : (- (1 / 5) <= w <= 5 -> 0 < SRK_fw g w) /\ (0 <= w <= 1 -> 48 / 100 <= SRK_fw g w <= 19 / 10).
Proof. unfold SRK_fw. destruct g; split; intros H; try split; nra. Qed.
Theorem C109_graboski w : 0 <= w <= 1 -> Rabs (SRK_fw true w - SRK_fw false w) <= 6 / 1000.
Proof. intros H. unfold SRK_fw. apply Rabs_le. nra. Qed.
Theorem C109_alpha_form al w : alphaf al -> al = RK_alpha \/ exists f, (forall T Tc, al T Tc w = (1 + f * (1 - sqrt (T / Tc))) ^ 2) /\
  (- (1 / 5) <= w <= 5 -> 0 < f) /\ (0 <= w <= 1 -> 37 / 100 <= f <= 19 / 10) /\ (al = PR_alpha -> 0 <= w <= 1 -> f <= 165 / 100).
Proof.
  intros [|g|]; [now left|right|right].
  - exists (SRK_fw g w). split; [reflexivity|]. destruct (fw_facts g w) as (A & B). split; [exact A|]. split; [intros H; specialize (B H); lra|].
    intros E H. exfalso. assert (X : SRK_alpha g 4 1 0 = PR_alpha 4 1 0) by now rewrite E. unfold SRK_alpha, PR_alpha, SRK_fw in X. replace (4 / 1) with (2 * 2) in X by field. rewrite sqrt_square in X by lra. destruct g; lra.
  - exists (37464 / 100000 + 154226 / 100000 * w - 26992 / 100000 * w ^ 2). split; [reflexivity|]. split; [|split]; intros; try split; nra.
Qed.
Lemma sqrt_ratio T T' Tc : 0 < T -> T < T' -> 0 < Tc -> sqrt (T / Tc) < sqrt (T' / Tc).
Proof. intros. apply sqrt_lt_1. - left. now apply Rdiv_lt_0_compat. - left. apply Rdiv_lt_0_compat; lra. - unfold Rdiv. apply Rmult_lt_compat_r; [now apply Rinv_0_lt_compat|auto]. Qed.
(** the attraction falls with temperature, for the acentric equations up to T = Tc (1 + 1/f)^2 where it vanishes *)
Theorem C109_alpha_decreasing al w T T' Tc : alphaf al -> 0 < T -> T < T' -> 0 < Tc ->
  (al = RK_alpha -> al T' Tc w < al T Tc w) /\
  (forall f, (forall t, al t Tc w = (1 + f * (1 - sqrt (t / Tc))) ^ 2) -> 0 < f -> T' <= Tc * (1 + / f) ^ 2 -> al T' Tc w < al T Tc w) /\
  (forall f, (forall t, al t Tc w = (1 + f * (1 - sqrt (t / Tc))) ^ 2) -> 0 < f -> Tc * (1 + / f) ^ 2 <= T -> al T Tc w < al T' Tc w).
Proof.
  intros _ HT HL HC. pose proof (sqrt_ratio T T' Tc HT HL HC) as S. split; [|split].
  - intros ->. unfold RK_alpha. apply sqrt_lt_1; try (left; apply Rdiv_lt_0_compat; lra). unfold Rdiv. apply Rmult_lt_compat_l; [auto|]. apply Rinv_lt_contravar; [apply Rmult_lt_0_compat; lra|auto].
  - intros f E Hf HB. rewrite !E. assert (B : sqrt (T' / Tc) <= 1 + / f).
    { pose proof (Rinv_0_lt_compat f Hf). rewrite <- (sqrt_pow2 (1 + / f)) by lra. apply sqrt_le_1_alt. apply (Rmult_le_reg_l Tc); [auto|]. unfold Rdiv. rewrite (Rmult_comm T'), <- Rmult_assoc, Rinv_r by lra. lra. }
    assert (F : f * sqrt (T' / Tc) <= f + 1). { apply (Rmult_le_compat_l f) in B; [|lra]. rewrite Rmult_plus_distr_l, Rinv_r in B by lra. lra. }
    assert (f * sqrt (T / Tc) < f * sqrt (T' / Tc)) by now apply Rmult_lt_compat_l.
    assert (0 <= 1 + f * (1 - sqrt (T' / Tc))) by lra. assert (1 + f * (1 - sqrt (T' / Tc)) < 1 + f * (1 - sqrt (T / Tc))) by lra. nra.
  - intros f E Hf HB. rewrite !E. assert (B : 1 + / f <= sqrt (T / Tc)).
    { pose proof (Rinv_0_lt_compat f Hf). rewrite <- (sqrt_pow2 (1 + / f)) by lra. apply sqrt_le_1_alt. apply (Rmult_le_reg_l Tc); [auto|]. unfold Rdiv. rewrite (Rmult_comm T), <- Rmult_assoc, Rinv_r by lra. lra. }
    assert (F : f + 1 <= f * sqrt (T / Tc)). { apply (Rmult_le_compat_l f) in B; [|lra]. rewrite Rmult_plus_distr_l, Rinv_r in B by lra. lra. }
    assert (f * sqrt (T / Tc) < f * sqrt (T' / Tc)) by now apply Rmult_lt_compat_l. nra.
Qed.
(** finding: far above the critical temperature the acentric attraction rises again — for an acentric factor of 1 already
    between 4 and 9 times Tc *)
Theorem C109_alpha_refuted : exists al w T T' Tc, alphaf al /\ 0 <= w <= 1 /\ 0 < Tc /\ Tc < T < T' /\ al T Tc w < al T' Tc w.
Proof.
  exists PR_alpha, 1, 4, 9, 1. split; [constructor|]. split; [lra|]. split; [lra|]. split; [lra|]. unfold PR_alpha. replace (4 / 1) with (2 * 2) by field. replace (9 / 1) with (3 * 3) by field. rewrite !sqrt_square by lra. lra.
Qed.

(** * Second virial coefficients *)
(** of a cubic equation: P v / RT = 1 + B / v + O(1/v^2), with an explicit bound of the remainder *)
Theorem C109_cubic_virial e am bm T v : known e -> 0 < T -> 0 < bm -> 2 * bm <= v ->
  Rabs (v * (cu_P e am bm T v * v / (Rgas * T) - 1) - cu_Bm am bm T) <= (2 * bm ^ 2 + cu_u e * bm * Rabs am / (Rgas * T)) / v.
Proof.
  intros K HT Hb Hv. pose proof Rgas_pos as HR. assert (RT : 0 < Rgas * T) by now apply Rmult_lt_0_compat. destruct (known_facts e K) as (_ & _ & _ & U0 & UW & KQ).
  pose proof (KQ v bm Hb ltac:(lra)) as Q. replace (cu_u e * bm * v) with (cu_u e * v * bm) in Q by ring. set (q := v ^ 2 + cu_u e * v * bm + cu_w e * bm ^ 2) in *.
  assert (W : cu_w e <= 0 /\ - cu_w e * bm <= cu_u e * v). { destruct K as [->| ->]; cbn [cu_u cu_w RK_consts PR_consts]; lra. }
  assert (N0 : 0 <= cu_u e * v * bm + cu_w e * bm ^ 2) by (replace (_ + _) with (bm * (cu_u e * v - - cu_w e * bm)) by ring; apply Rmult_le_pos; lra). assert (Q2 : v ^ 2 <= q) by (unfold q; lra). assert (V0 : 0 < v) by lra.
  assert (N1 : (cu_u e * v * bm + cu_w e * bm ^ 2) * v <= cu_u e * bm * v ^ 2). { assert (0 <= - cu_w e * (bm ^ 2 * v)); [|lra]. apply Rmult_le_pos; [lra|]. apply Rmult_le_pos; [apply pow2_ge_0|lra]. }
  assert (E : v * (cu_P e am bm T v * v / (Rgas * T) - 1) - cu_Bm am bm T = bm ^ 2 / (v - bm) + am / (Rgas * T) * ((cu_u e * v * bm + cu_w e * bm ^ 2) / q)).
  { unfold cu_P, cu_Bm. fold q. replace (cu_u e * v * bm + cu_w e * bm ^ 2) with (q - v ^ 2) by (unfold q; ring). field. repeat split; lra. }
  rewrite E. eapply Rle_trans; [apply Rabs_triang|]. unfold Rdiv at 4. rewrite Rmult_plus_distr_r. apply Rplus_le_compat.
  - rewrite Rabs_right. + replace (2 * bm ^ 2 * / v) with (bm ^ 2 * / (v / 2)) by (field; lra). unfold Rdiv at 1. apply Rmult_le_compat_l; [apply pow2_ge_0|]. apply Rinv_le_contravar; lra.
    + apply Rle_ge. apply Rmult_le_pos; [apply pow2_ge_0|left; apply Rinv_0_lt_compat; lra].
  - rewrite Rabs_mult. unfold Rdiv at 1. rewrite Rabs_mult, (Rabs_right (/ (Rgas * T))) by (apply Rle_ge; left; now apply Rinv_0_lt_compat).
    assert (X : Rabs ((cu_u e * v * bm + cu_w e * bm ^ 2) / q) <= cu_u e * bm * / v).
    { rewrite Rabs_right. 2:{ apply Rle_ge. apply Rmult_le_pos; [auto|left; now apply Rinv_0_lt_compat]. }
      apply (Rmult_le_reg_r (v * q)); [now apply Rmult_lt_0_compat|]. replace (_ / q * (v * q)) with ((cu_u e * v * bm + cu_w e * bm ^ 2) * v) by (field; lra). replace (cu_u e * bm * / v * (v * q)) with (cu_u e * bm * q) by (field; lra).
      assert (cu_u e * bm * v ^ 2 <= cu_u e * bm * q) by (apply Rmult_le_compat_l; [apply Rmult_le_pos; lra|auto]). lra. }
    replace (cu_u e * bm * Rabs am / (Rgas * T) * / v) with (Rabs am * / (Rgas * T) * (cu_u e * bm * / v)) by (field; lra). apply Rmult_le_compat_l; [|exact X]. apply Rmult_le_pos; [apply Rabs_pos|left; now apply Rinv_0_lt_compat].
Qed.
(** of a pure gas (Pitzer and Abbott) *)
Lemma B_diff T T' Tc Pc w : 0 < Tc -> 0 < Pc -> B_pure T' Tc Pc w - B_pure T Tc Pc w =
  Rgas * Tc / Pc * (422 / 1000 * (/ Rpower (T / Tc) (16 / 10) - / Rpower (T' / Tc) (16 / 10)) + w * (172 / 1000 * (/ Rpower (T / Tc) (42 / 10) - / Rpower (T' / Tc) (42 / 10)))).
Proof. intros. unfold B_pure. cbv zeta. unfold Rdiv. ring. Qed.
Lemma inv_pow_lt a b p : 0 < a -> a < b -> 0 < p -> / Rpower b p < / Rpower a p.
Proof.
  intros. apply Rinv_lt_contravar; [apply Rmult_lt_0_compat; apply exp_pos|]. unfold Rpower. apply exp_increasing. apply Rmult_lt_compat_l; [auto|]. now apply ln_increasing.
Qed.
Lemma ratio_lt T T' Tc : T < T' -> 0 < Tc -> T / Tc < T' / Tc.
Proof. intros. unfold Rdiv. apply Rmult_lt_compat_r; [now apply Rinv_0_lt_compat|auto]. Qed.
Theorem C109_B_increasing T T' Tc Pc w : 0 < T -> T < T' -> 0 < Tc -> 0 < Pc -> 0 <= w -> B_pure T Tc Pc w < B_pure T' Tc Pc w.
Proof.
  intros HT HL HC HP Hw. pose proof Rgas_pos as HR. pose proof (B_diff T T' Tc Pc w HC HP) as E. assert (K : 0 < Rgas * Tc / Pc) by (apply Rdiv_lt_0_compat; [now apply Rmult_lt_0_compat|auto]).
  assert (T0 : 0 < T / Tc) by now apply Rdiv_lt_0_compat. pose proof (ratio_lt T T' Tc HL HC) as L. pose proof (inv_pow_lt _ _ (16 / 10) T0 L ltac:(lra)) as P1. pose proof (inv_pow_lt _ _ (42 / 10) T0 L ltac:(lra)) as P2.
  set (d1 := / Rpower (T / Tc) (16 / 10) - / Rpower (T' / Tc) (16 / 10)) in *. set (d2 := / Rpower (T / Tc) (42 / 10) - / Rpower (T' / Tc) (42 / 10)) in *. assert (0 < d1) by (unfold d1; lra). assert (0 < d2) by (unfold d2; lra).
  assert (0 <= w * (172 / 1000 * d2)) by (apply Rmult_le_pos; [auto|lra]). assert (0 < Rgas * Tc / Pc * (422 / 1000 * d1 + w * (172 / 1000 * d2))) by (apply Rmult_lt_0_compat; lra). lra.
Qed.
Lemma Rpower_one p : Rpower 1 p = 1. Proof. unfold Rpower. rewrite ln_1, Rmult_0_r. apply exp_0. Qed.
Theorem C109_B_critical Tc Pc w : 0 < Tc -> 0 < Pc -> B_pure Tc Tc Pc w = - (339 + 33 * w) / 1000 * (Rgas * Tc / Pc).
Proof. intros. unfold B_pure. cbv zeta. replace (Tc / Tc) with 1 by (field; lra). rewrite !Rpower_one. field. lra. Qed.
(** the Boyle temperature: exactly one, between Tc and 4 Tc *)
Theorem C109_Boyle Tc Pc w : 0 < Tc -> 0 < Pc -> 0 <= w -> exists TB, Tc < TB < 4 * Tc /\ forall T, 0 < T -> (B_pure T Tc Pc w < 0 <-> T < TB) /\ (B_pure T Tc Pc w = 0 <-> T = TB).
Proof.
  intros HC HP Hw. pose proof Rgas_pos as HR. assert (K : 0 < Rgas * Tc / Pc) by (apply Rdiv_lt_0_compat; [now apply Rmult_lt_0_compat|auto]).
  set (f := fun s => B_pure (exp s * Tc) Tc Pc w).
  assert (EF : forall s, f s = Rgas * Tc / Pc * (83 / 1000 - 422 / 1000 * exp (- (16 / 10) * s) + w * (139 / 1000 - 172 / 1000 * exp (- (42 / 10) * s)))).
  { intros s. unfold f, B_pure. cbv zeta. replace (exp s * Tc / Tc) with (exp s) by (field; lra). unfold Rpower. rewrite ln_exp. rewrite <- !exp_Ropp || idtac. unfold Rdiv at 3 7. rewrite <- !exp_Ropp. replace (- (16 / 10 * s)) with (- (16 / 10) * s) by ring. replace (- (42 / 10 * s)) with (- (42 / 10) * s) by ring. reflexivity. }
  assert (L4 : exp (ln 4) = 4) by (apply exp_ln; lra). assert (L4p : 0 < ln 4) by (rewrite <- ln_1; apply ln_increasing; lra).
  assert (P1 : exp (- (16 / 10) * ln 4) < / 8). { replace (/ 8) with (exp (- (ln 8))) by (rewrite exp_Ropp, exp_ln; lra). apply exp_increasing. replace 8 with (2 * (2 * 2)) by ring. replace 4 with (2 * 2) by ring. rewrite !ln_mult by lra. pose proof (ln_increasing 1 2 ltac:(lra) ltac:(lra)) as X. rewrite ln_1 in X. lra. }
  assert (P2 : exp (- (42 / 10) * ln 4) < / 8). { eapply Rlt_trans; [|exact P1]. apply exp_increasing. lra. }
  destruct (cubic_root (fun s => Rgas * Tc / Pc * (83 / 1000 - 422 / 1000 * exp (- (16 / 10) * s) + w * (139 / 1000 - 172 / 1000 * exp (- (42 / 10) * s)))) 0 (ln 4)) as (s & Hs & Es).
  - reg.
  - exact L4p.
  - rewrite !Rmult_0_r, exp_0. assert (0 <= w * (33 / 1000)) by (apply Rmult_le_pos; lra). nra.
  - assert (0 <= w * (139 / 1000 - 172 / 1000 * exp (- (42 / 10) * ln 4))) by (apply Rmult_le_pos; lra). apply Rmult_lt_0_compat; lra.
  - exists (exp s * Tc). assert (E0 : B_pure (exp s * Tc) Tc Pc w = 0) by (rewrite <- EF in Es; exact Es). split.
    + assert (1 < exp s) by (rewrite <- exp_0; apply exp_increasing; lra). assert (exp s < 4) by (rewrite <- L4; apply exp_increasing; lra). nra.
    + intros T HT. pose proof (exp_pos s) as Ps. assert (HS : 0 < exp s * Tc) by now apply Rmult_lt_0_compat. destruct (Rtotal_order T (exp s * Tc)) as [L|[->|G]].
      * pose proof (C109_B_increasing T _ Tc Pc w HT L HC HP Hw). split; split; intros; lra.
      * split; split; intros; lra.
      * pose proof (C109_B_increasing _ T Tc Pc w HS G HC HP Hw). split; split; intros; lra.
Qed.

(** * Fugacities *)
Theorem C109_ideal_fugacity N y P : sumn N y = 1 -> sumn N (fun i => eos_f IG_phi y P i) = P.
Proof. intros H. rewrite (sumn_ext N _ (fun i => y i * P)) by (intros; unfold eos_f, IG_phi; ring). rewrite sumn_scal_r, H. ring. Qed.
(** the K-values of a cubic equation are the ratios y/x at which the fugacities of liquid and vapour agree *)
Theorem C109_K_fugacity orc e N a b k T P x y K pl pv i : 0 < P -> cu_K orc e N a b k T P x y = Ok K ->
  cu_phi orc e N a b k T P x PhL = Ok pl -> cu_phi orc e N a b k T P y PhV = Ok pv ->
  (eos_f pl x P i = eos_f pv y P i <-> y i = K i * x i).
Proof.
  intros HP HK HL HV. unfold cu_K in HK. rewrite HL, HV in HK. cbn [bind] in HK. injection HK as <-. unfold eos_f.
  assert (PV : 0 < pv i). { unfold cu_phi in HV. destruct (cu_Z orc e (cu_am N a k y) (cu_bm N b y) T P); cbn [bind] in HV; [|discriminate]. destruct (pick PhV _); cbn [bind] in HV; [|discriminate]. injection HV as <-. apply exp_pos. }
  split; intros H.
  - apply (Rmult_eq_reg_l (pv i)); [|lra]. apply (Rmult_eq_reg_r P); [|lra]. rewrite <- H. field. lra.
  - rewrite H. field. lra.
Qed.
(** a gas with Tc = 300 K, Pc = 5 MPa, w = 0.1: attraction at 75 K, second virial coefficient at Tc *)
Example C109_case : SRK_alpha false 75 300 (1 / 10) = (1 + (48 / 100 + 1574 / 10000 - 176 / 100000) / 2) ^ 2 /\ B_pure 300 300 (5 * 10 ^ 6) (1 / 10) = - (3423 / 10000) * (Rgas * 300 / (5 * 10 ^ 6)) /\
  cu_P PR_consts 0 1 1 3 = Rgas / 2.
Proof.
  split; [|split].
  - unfold SRK_alpha, SRK_fw. replace (75 / 300) with (1 / 2 * (1 / 2)) by field. rewrite sqrt_square by lra. field.
  - rewrite C109_B_critical by lra. field.
  - unfold cu_P. cbn [cu_u cu_w PR_consts]. field.
Qed.
Print Assumptions C109_critical. Print Assumptions C109_AB. Print Assumptions C109_isotherm. Print Assumptions C109_alpha_critical. Print Assumptions C109_alpha_reduced.
Print Assumptions C109_graboski. Print Assumptions C109_alpha_form. Print Assumptions C109_alpha_decreasing. Print Assumptions C109_alpha_refuted. Print Assumptions C109_cubic_virial.
Print Assumptions C109_B_increasing. Print Assumptions C109_B_critical. Print Assumptions C109_Boyle. Print Assumptions C109_ideal_fugacity. Print Assumptions C109_K_fugacity.
