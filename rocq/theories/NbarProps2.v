(** C122, continued: the Li-Brooks formula is within 4 % of the Stockmayer-O'Toole value. *)
From Coq Require Import Reals Lra Lia List Bool Arith Psatz.
From Coquelicot Require Import Coquelicot.
From Verif Require Import Prelude RootsModel KinModel Deriv KinCldProps NbarProps.
Open Scope R_scope.

(** * A polynomial inequality
    The coefficients below are those of the polynomial [bigp] at v = 1 + p and at v = s^2 + p *)
Definition bigp (v s : R) : R :=
  ((25/24 - 1) * (v - 1) * (v - s ^ 2) + s * (1 + s) * ((25/24) ^ 2 * v - v + 1)) * (v + 2 * s + s ^ 2) * v
  - 25/24 * s * (1 + s) * (v ^ 2 * (1 + s) + s * (v + s)).
Definition e1 (s : R) : R := (1/24) * s ^ 0 + (49/192) * s ^ 1 + (-353/576) * s ^ 2 + (29/96) * s ^ 3 + (325/288) * s ^ 4.
Definition e2 (s : R) : R := (1/8) * s ^ 0 + (73/192) * s ^ 1 + (-379/576) * s ^ 2 + (-167/192) * s ^ 3 + (25/576) * s ^ 4.
Definition e3 (s : R) : R := (1/8) * s ^ 0 + (97/576) * s ^ 1 + (49/576) * s ^ 2.
Definition k0 (s : R) : R := (-25/24) * s ^ 3 + (-1/12) * s ^ 4 + (23/12) * s ^ 5 + (25/288) * s ^ 6 + (-101/144) * s ^ 7 + (49/288) * s ^ 8.
Definition k1 (s : R) : R := (23/24) * s ^ 2 + (43/24) * s ^ 3 + (-131/144) * s ^ 4 + (-79/64) * s ^ 5 + (293/576) * s ^ 6.
Definition k2 (s : R) : R := (-1/8) * s ^ 1 + (-299/288) * s ^ 2 + (-35/96) * s ^ 3 + (79/144) * s ^ 4.
Definition k3 (s : R) : R := (-1/24) * s ^ 0 + (97/576) * s ^ 1 + (145/576) * s ^ 2.
Ltac bpos := repeat apply Rplus_le_le_0_compat; (apply Rmult_le_pos; [lra|apply Rmult_le_pos; apply pow_le; lra]).
Lemma e1_a s : (0) <= s <= (1/2) -> 0 <= e1 s.
Proof. intros Hs. replace (e1 s) with ((2/3) * ((s - (0)) ^ 0 * ((1/2) - s) ^ 4) + (113/24) * ((s - (0)) ^ 1 * ((1/2) - s) ^ 3) + (1105/144) * ((s - (0)) ^ 2 * ((1/2) - s) ^ 2) + (647/144) * ((s - (0)) ^ 3 * ((1/2) - s) ^ 1) + (191/96) * ((s - (0)) ^ 4 * ((1/2) - s) ^ 0)) by (unfold e1; field). bpos. Qed.
Lemma e1_b s : (1/2) <= s <= (1) -> 0 <= e1 s.
Proof. intros Hs. replace (e1 s) with ((191/96) * ((s - (1/2)) ^ 0 * ((1) - s) ^ 4) + (1645/144) * ((s - (1/2)) ^ 1 * ((1) - s) ^ 3) + (4099/144) * ((s - (1/2)) ^ 2 * ((1) - s) ^ 2) + (2573/72) * ((s - (1/2)) ^ 3 * ((1) - s) ^ 1) + (107/6) * ((s - (1/2)) ^ 4 * ((1) - s) ^ 0)) by (unfold e1; field). bpos. Qed.
Lemma e2_a s : (0) <= s <= (1/2) -> 0 <= e2 s.
Proof. intros Hs. replace (e2 s) with ((2) * ((s - (0)) ^ 0 * ((1/2) - s) ^ 4) + (265/24) * ((s - (0)) ^ 1 * ((1/2) - s) ^ 3) + (2663/144) * ((s - (0)) ^ 2 * ((1/2) - s) ^ 2) + (2915/288) * ((s - (0)) ^ 3 * ((1/2) - s) ^ 1) + (137/192) * ((s - (0)) ^ 4 * ((1/2) - s) ^ 0)) by (unfold e2; field). bpos. Qed.
Lemma e_disc s : (1/2) <= s <= (1) -> 0 <= 4 * e1 s * e3 s - e2 s ^ 2.
Proof. intros Hs. replace (4 * e1 s * e3 s - e2 s ^ 2) with ((1063055/36864) * ((s - (1/2)) ^ 0 * ((1) - s) ^ 8) + (8524415/27648) * ((s - (1/2)) ^ 1 * ((1) - s) ^ 7) + (13179551/9216) * ((s - (1/2)) ^ 2 * ((1) - s) ^ 6) + (12933977/3456) * ((s - (1/2)) ^ 3 * ((1) - s) ^ 5) + (15603587/2592) * ((s - (1/2)) ^ 4 * ((1) - s) ^ 4) + (655889/108) * ((s - (1/2)) ^ 5 * ((1) - s) ^ 3) + (403957/108) * ((s - (1/2)) ^ 6 * ((1) - s) ^ 2) + (103829/81) * ((s - (1/2)) ^ 7 * ((1) - s) ^ 1) + (5036/27) * ((s - (1/2)) ^ 8 * ((1) - s) ^ 0)) by (unfold e1, e2, e3; field). bpos. Qed.
Lemma k0_a s : (1) <= s <= (5/2) -> 0 <= k0 s.
Proof. intros Hs. replace (k0 s) with ((800/59049) * ((s - (1)) ^ 0 * ((5/2) - s) ^ 8) + (17104/59049) * ((s - (1)) ^ 1 * ((5/2) - s) ^ 7) + (132986/59049) * ((s - (1)) ^ 2 * ((5/2) - s) ^ 6) + (518578/59049) * ((s - (1)) ^ 3 * ((5/2) - s) ^ 5) + (2238631/118098) * ((s - (1)) ^ 4 * ((5/2) - s) ^ 4) + (1349005/59049) * ((s - (1)) ^ 5 * ((5/2) - s) ^ 3) + (6858775/472392) * ((s - (1)) ^ 6 * ((5/2) - s) ^ 2) + (2100875/472392) * ((s - (1)) ^ 7 * ((5/2) - s) ^ 1) + (1500625/1889568) * ((s - (1)) ^ 8 * ((5/2) - s) ^ 0)) by (unfold k0; field). bpos. Qed.
Lemma k1_a s : (1) <= s <= (7/5) -> 0 <= k1 s.
Proof. intros Hs. replace (k1 s) with ((1671875/6144) * ((s - (1)) ^ 0 * ((7/5) - s) ^ 6) + (31053125/18432) * ((s - (1)) ^ 1 * ((7/5) - s) ^ 5) + (19316875/4608) * ((s - (1)) ^ 2 * ((7/5) - s) ^ 4) + (16282375/3072) * ((s - (1)) ^ 3 * ((7/5) - s) ^ 3) + (64837825/18432) * ((s - (1)) ^ 4 * ((7/5) - s) ^ 2) + (20574785/18432) * ((s - (1)) ^ 5 * ((7/5) - s) ^ 1) + (368431/3072) * ((s - (1)) ^ 6 * ((7/5) - s) ^ 0)) by (unfold k1; field). bpos. Qed.
Lemma k_disc s : (1) <= s <= (7/5) -> 0 <= 4 * k1 s * k3 s - k2 s ^ 2.
Proof. intros Hs. replace (4 * k1 s * k3 s - k2 s ^ 2) with ((491796875/442368) * ((s - (1)) ^ 0 * ((7/5) - s) ^ 8) + (6568515625/663552) * ((s - (1)) ^ 1 * ((7/5) - s) ^ 7) + (49936515625/1327104) * ((s - (1)) ^ 2 * ((7/5) - s) ^ 6) + (3892703125/49152) * ((s - (1)) ^ 3 * ((7/5) - s) ^ 5) + (132463718125/1327104) * ((s - (1)) ^ 4 * ((7/5) - s) ^ 4) + (25080477125/331776) * ((s - (1)) ^ 5 * ((7/5) - s) ^ 3) + (14248468625/442368) * ((s - (1)) ^ 6 * ((7/5) - s) ^ 2) + (2777327945/442368) * ((s - (1)) ^ 7 * ((7/5) - s) ^ 1) + (15175447/73728) * ((s - (1)) ^ 8 * ((7/5) - s) ^ 0)) by (unfold k1, k2, k3; field). bpos. Qed.
Lemma k_f s : (7/5) <= s <= (5/2) -> 0 <= k2 s + 2 * k3 s.
Proof. intros Hs. replace (k2 s + 2 * k3 s) with ((8168/43923) * ((s - (7/5)) ^ 0 * ((5/2) - s) ^ 4) + (709325/263538) * ((s - (7/5)) ^ 1 * ((5/2) - s) ^ 3) + (11156525/1054152) * ((s - (7/5)) ^ 2 * ((5/2) - s) ^ 2) + (11453375/702768) * ((s - (7/5)) ^ 3 * ((5/2) - s) ^ 1) + (9243125/1054152) * ((s - (7/5)) ^ 4 * ((5/2) - s) ^ 0)) by (unfold k2, k3; field). bpos. Qed.
Lemma k_disc2 s : (7/5) <= s <= (5/2) -> 0 <= 4 * k0 s * (k2 s + 2 * k3 s) - (k1 s - k3 s) ^ 2.
Proof. intros Hs. replace (4 * k0 s * (k2 s + 2 * k3 s) - (k1 s - k3 s) ^ 2) with ((28085209345472/28245855390489) * ((s - (7/5)) ^ 0 * ((5/2) - s) ^ 12) + (722983197803200/28245855390489) * ((s - (7/5)) ^ 1 * ((5/2) - s) ^ 11) + (2069437873996400/7703415106497) * ((s - (7/5)) ^ 2 * ((5/2) - s) ^ 10) + (36825975320932000/23110245319491) * ((s - (7/5)) ^ 3 * ((5/2) - s) ^ 9) + (140418759272669375/23110245319491) * ((s - (7/5)) ^ 4 * ((5/2) - s) ^ 8) + (366553390064284375/23110245319491) * ((s - (7/5)) ^ 5 * ((5/2) - s) ^ 7) + (10814011253796765625/369763925111856) * ((s - (7/5)) ^ 6 * ((5/2) - s) ^ 6) + (14247282532563203125/369763925111856) * ((s - (7/5)) ^ 7 * ((5/2) - s) ^ 5) + (26709108343745703125/739527850223712) * ((s - (7/5)) ^ 8 * ((5/2) - s) ^ 4) + (1453460003869140625/61627320851976) * ((s - (7/5)) ^ 9 * ((5/2) - s) ^ 3) + (242695090837744140625/23664891207158784) * ((s - (7/5)) ^ 10 * ((5/2) - s) ^ 2) + (703011022177392578125/260313803278746624) * ((s - (7/5)) ^ 11 * ((5/2) - s) ^ 1) + (346755032597412109375/1041255213114986496) * ((s - (7/5)) ^ 12 * ((5/2) - s) ^ 0)) by (unfold k0, k1, k2, k3; field). bpos. Qed.
Lemma k0_c s : (5/2) <= s -> 0 <= k0 s.
Proof. intros Hs. replace (k0 s) with ((1500625/73728) * ((s - (5/2)) ^ 0 * 1 ^ 0) + (300125/9216) * ((s - (5/2)) ^ 1 * 1 ^ 0) + (295225/4608) * ((s - (5/2)) ^ 2 * 1 ^ 0) + (268555/2304) * ((s - (5/2)) ^ 3 * 1 ^ 0) + (261883/2304) * ((s - (5/2)) ^ 4 * 1 ^ 0) + (34579/576) * ((s - (5/2)) ^ 5 * 1 ^ 0) + (5065/288) * ((s - (5/2)) ^ 6 * 1 ^ 0) + (389/144) * ((s - (5/2)) ^ 7 * 1 ^ 0) + (49/288) * ((s - (5/2)) ^ 8 * 1 ^ 0)) by (unfold k0; field). bpos. Qed.
Lemma k1_c s : (5/2) <= s -> 0 <= k1 s.
Proof. intros Hs. replace (k1 s) with ((8575/4096) * ((s - (5/2)) ^ 0 * 1 ^ 0) + (44345/1152) * ((s - (5/2)) ^ 1 * 1 ^ 0) + (262549/3072) * ((s - (5/2)) ^ 2 * 1 ^ 0) + (42917/576) * ((s - (5/2)) ^ 3 * 1 ^ 0) + (72229/2304) * ((s - (5/2)) ^ 4 * 1 ^ 0) + (307/48) * ((s - (5/2)) ^ 5 * 1 ^ 0) + (293/576) * ((s - (5/2)) ^ 6 * 1 ^ 0)) by (unfold k1; field). bpos. Qed.
Lemma k2_c s : (5/2) <= s -> 0 <= k2 s.
Proof. intros Hs. replace (k2 s) with ((1715/192) * ((s - (5/2)) ^ 0 * 1 ^ 0) + (25501/1152) * ((s - (5/2)) ^ 1 * 1 ^ 0) + (9677/576) * ((s - (5/2)) ^ 2 * 1 ^ 0) + (1475/288) * ((s - (5/2)) ^ 3 * 1 ^ 0) + (79/144) * ((s - (5/2)) ^ 4 * 1 ^ 0)) by (unfold k2; field). bpos. Qed.
Lemma k3_c s : (5/2) <= s -> 0 <= k3 s.
Proof. intros Hs. replace (k3 s) with ((4499/2304) * ((s - (5/2)) ^ 0 * 1 ^ 0) + (137/96) * ((s - (5/2)) ^ 1 * 1 ^ 0) + (145/576) * ((s - (5/2)) ^ 2 * 1 ^ 0)) by (unfold k3; field). bpos. Qed.
Lemma quad_pos a b c p : 0 <= a -> 0 <= c -> b ^ 2 <= 4 * a * c -> 0 <= p -> 0 <= a + b * p + c * p ^ 2.
Proof.
  intros Ha Hc Hd Hp. destruct (Req_dec c 0) as [Ec|Nc]; [subst c|].
  - assert (B : b ^ 2 <= 0) by lra. assert (b = 0) by (apply Rsqr_0_uniq; unfold Rsqr; pose proof (pow2_ge_0 b); simpl pow in *; lra). subst. lra.
  - assert (0 <= 4 * c * (a + b * p + c * p ^ 2)) by (pose proof (pow2_ge_0 (2 * c * p + b)); nra).
    apply (Rmult_le_reg_l (4 * c)); lra.
Qed.
Lemma bigp_pos v s : 1 < v -> 0 < s -> s ^ 2 <= v -> 0 <= bigp v s.
Proof.
  intros Hv Hs Hsv. destruct (Rle_or_lt s 1) as [S1|S1].
  - set (p := v - 1). assert (Hp : 0 <= p) by (unfold p; lra).
    replace (bigp v s) with (25 / 576 * s * (1 + s) ^ 3 + p * (e1 s + e2 s * p + e3 s * p ^ 2) + 1 / 24 * p ^ 4) by (unfold p, bigp, e1, e2, e3; field).
    assert (0 <= 25 / 576 * s * (1 + s) ^ 3) by (apply Rmult_le_pos; [lra|apply pow_le; lra]). assert (0 <= p ^ 4) by now apply pow_le.
    assert (E3 : 0 <= e3 s) by (unfold e3; assert (0 <= s ^ 2) by apply pow2_ge_0; simpl pow at 1 2; lra).
    assert (0 <= e1 s + e2 s * p + e3 s * p ^ 2); [|assert (0 <= p * (e1 s + e2 s * p + e3 s * p ^ 2)) by (apply Rmult_le_pos; auto); lra].
    destruct (Rle_or_lt s (1 / 2)).
    + pose proof (e1_a s ltac:(lra)). pose proof (e2_a s ltac:(lra)). assert (0 <= e2 s * p) by now apply Rmult_le_pos. assert (0 <= e3 s * p ^ 2) by (apply Rmult_le_pos; [auto|now apply pow_le]). lra.
    + apply quad_pos; auto; [apply e1_b; lra|]. pose proof (e_disc s ltac:(lra)). lra.
  - set (p := v - s ^ 2). assert (Hp : 0 <= p) by (unfold p; lra).
    replace (bigp v s) with (k0 s + p * (k1 s + k2 s * p + k3 s * p ^ 2) + 1 / 24 * p ^ 4) by (unfold p, bigp, k0, k1, k2, k3; field).
    assert (0 <= p ^ 4) by now apply pow_le.
    assert (E3 : 0 <= k3 s) by (unfold k3; nra).
    destruct (Rle_or_lt s (7 / 5)); [|destruct (Rle_or_lt s (5 / 2))].
    + pose proof (k0_a s ltac:(lra)). assert (0 <= k1 s + k2 s * p + k3 s * p ^ 2); [|assert (0 <= p * (k1 s + k2 s * p + k3 s * p ^ 2)) by (apply Rmult_le_pos; auto); lra].
      apply quad_pos; auto; [apply k1_a; lra|]. pose proof (k_disc s ltac:(lra)). lra.
    + pose proof (k0_a s ltac:(lra)). pose proof (k_f s ltac:(lra)). pose proof (k_disc2 s ltac:(lra)).
      assert (0 <= k0 s + (k1 s - k3 s) * p + (k2 s + 2 * k3 s) * p ^ 2) by (apply quad_pos; auto; lra).
      assert (0 <= k3 s * (p * (p - 1) ^ 2)) by (apply Rmult_le_pos; [auto|]; apply Rmult_le_pos; [auto|apply pow2_ge_0]).
      replace (k0 s + p * (k1 s + k2 s * p + k3 s * p ^ 2) + 1 / 24 * p ^ 4) with (k0 s + (k1 s - k3 s) * p + (k2 s + 2 * k3 s) * p ^ 2 + k3 s * (p * (p - 1) ^ 2) + 1 / 24 * p ^ 4) by ring. lra.
    + pose proof (k0_c s ltac:(lra)). pose proof (k1_c s ltac:(lra)). pose proof (k2_c s ltac:(lra)).
      assert (0 <= k2 s * p) by now apply Rmult_le_pos. assert (0 <= k3 s * p ^ 2) by (apply Rmult_le_pos; [auto|now apply pow_le]). assert (0 <= p * (k1 s + k2 s * p + k3 s * p ^ 2)) by (apply Rmult_le_pos; [auto|lra]). lra.
Qed.

(** * Comparison: a function that cannot fall while negative stays nonnegative *)
Lemma barrier (f f' : R -> R) Z : 0 < Z -> (forall x, 0 <= x <= Z -> D f x (f' x)) -> 0 <= f 0 ->
  (forall x, 0 < x <= Z -> f x < 0 -> 0 <= f' x) -> 0 <= f Z.
Proof.
  intros HZ HD H0 Hb. destruct (Rle_or_lt 0 (f Z)) as [|Neg]; auto. exfalso.
  set (E := fun x => 0 <= x <= Z /\ 0 <= f x).
  destruct (completeness E) as (x0 & Ub & Lub); [exists Z; intros x (Hx & _); lra|exists 0; split; [lra|auto]|].
  assert (X0 : 0 <= x0 <= Z) by (split; [apply Ub; split; [lra|auto]|apply Lub; intros x (Hx & _); lra]).
  assert (C : forall x, 0 <= x <= Z -> continuity_pt f x) by (intros x Hx; apply derivable_continuous_pt; exists (f' x); apply is_derive_Reals; now apply HD).
  assert (F0 : 0 <= f x0).
  { destruct (Rle_or_lt 0 (f x0)) as [|N0]; auto. exfalso. destruct (C x0 X0 (- f x0) ltac:(lra)) as (d & Hd & Hc).
    assert (UB : is_upper_bound E (x0 - d)).
    { intros x (Hx & Fx). destruct (Rle_or_lt x (x0 - d)) as [|L]; auto. exfalso. pose proof (Ub x (conj Hx Fx)). destruct (Req_dec x x0) as [->|Nx]; [lra|].
      specialize (Hc x). assert (Rabs (f x - f x0) < - f x0). { apply Hc. split; [split; [exact Logic.I|intros Eq; now apply Nx]|]. unfold dist; cbn; unfold R_dist. apply Rabs_def1; lra. } apply Rabs_def2 in H1. lra. }
    pose proof (Lub _ UB). lra. }
  assert (XZ : x0 < Z) by (destruct X0 as (_ & [X|X]); [auto|subst; lra]).
  destruct (MVT_cor2 f f' x0 Z XZ) as (c & Ec & Hc).
  - intros x Hx. apply is_derive_Reals. apply HD. lra.
  - assert (f c < 0). { destruct (Rle_or_lt 0 (f c)) as [G|]; auto. assert (E c) by (split; [lra|auto]). pose proof (Ub c H). lra. }
    pose proof (Hb c ltac:(lra) H). assert (0 <= f' c * (Z - x0)) by (apply Rmult_le_pos; lra). lra.
Qed.

(** * The two curves, divided by z/2 where z = 2 alpha *)
Definition rS (m z : R) : R := h (m + 1) z / (m * h m z).
Definition rL (m z : R) : R := 2 / (m + sqrt (m ^ 2 + 4 * z * (z + m) / (z + m + 1))).

Lemma rS_pos m z : 0 < m -> 0 <= z -> 0 < rS m z.
Proof. intros Hm Hz. apply Rdiv_lt_0_compat; [apply h_pos; lra|apply Rmult_lt_0_compat; [auto|now apply h_pos]]. Qed.
Lemma rS_D m z : 0 < m -> 0 <= z -> D (rS m) z ((h (m + 2) z / (m + 1) - h (m + 1) z * h (m + 1) z / (m * h m z)) / (m * h m z)).
Proof.
  intros Hm Hz. pose proof (h_pos m z Hm Hz) as P. eapply D_eq; [unfold D, rS; apply is_derive_div; [apply h_D; lra|apply (is_derive_scal (h m) z m); now apply h_D|apply Rmult_integral_contrapositive_currified; lra]|].
  replace (m + 1 + 1) with (m + 2) by ring. field. repeat split; lra.
Qed.
Lemma rS_ode m z : 0 < m -> 0 < z -> z * ((h (m + 2) z / (m + 1) - h (m + 1) z * h (m + 1) z / (m * h m z)) / (m * h m z)) = 1 - m * rS m z - z * rS m z ^ 2.
Proof.
  intros Hm Hz. pose proof (h_pos m z Hm ltac:(lra)) as P. pose proof (h_contig m z Hm) as E. unfold rS.
  replace (h (m + 2) z) with ((h m z - h (m + 1) z) * (m * (m + 1)) / z) by (rewrite E; field; repeat split; lra). field. repeat split; lra.
Qed.
Definition rL' (m z : R) : R := let u := z + m in let q := sqrt (m ^ 2 + 4 * z * u / (u + 1)) in - (rL m z) ^ 2 * (u * (u + 1) + z) / ((u + 1) ^ 2 * q).
Lemma rad_pos m z : 0 < m -> 0 <= z -> 0 < m ^ 2 + 4 * z * (z + m) / (z + m + 1).
Proof. intros Hm Hz. assert (0 < m ^ 2) by (apply pow_lt; auto). assert (0 <= 4 * z * (z + m) / (z + m + 1)) by (apply Rmult_le_pos; [apply Rmult_le_pos; lra|left; apply Rinv_0_lt_compat; lra]). lra. Qed.
Lemma rL_D m z : 0 < m -> 0 <= z -> D (rL m) z (rL' m z).
Proof.
  intros Hm Hz. pose proof (rad_pos m z Hm Hz) as RP. assert (S : 0 < sqrt (m ^ 2 + 4 * z * (z + m) / (z + m + 1))) by now apply sqrt_lt_R0.
  assert (DQ : D (fun z => m ^ 2 + 4 * z * (z + m) / (z + m + 1)) z (4 * ((z + m) * (z + m + 1) + z) / (z + m + 1) ^ 2)).
  { unfold D. generalize (m ^ 2) as c. intros c. auto_derive; [lra|]. field. lra. }
  assert (DS : D (fun z => sqrt (m ^ 2 + 4 * z * (z + m) / (z + m + 1))) z (4 * ((z + m) * (z + m + 1) + z) / (z + m + 1) ^ 2 / (2 * sqrt (m ^ 2 + 4 * z * (z + m) / (z + m + 1))))) by (apply (is_derive_sqrt _ z _ DQ RP)).
  eapply D_eq; [unfold D, rL; apply is_derive_div; [apply is_derive_const|apply (is_derive_plus (fun _ => m)); [apply is_derive_const|exact DS]|cbv beta; apply Rgt_not_eq; change (m + sqrt (m ^ 2 + 4 * z * (z + m) / (z + m + 1)) > 0); lra]|].
  unfold rL', rL. set (q := sqrt _) in *. unfold plus, zero; cbn. field. repeat split; lra.
Qed.
Lemma rL_pos m z : 0 < m -> 0 <= z -> 0 < rL m z.
Proof. intros Hm Hz. assert (S : 0 < sqrt (m ^ 2 + 4 * z * (z + m) / (z + m + 1))) by (apply sqrt_lt_R0; now apply rad_pos). apply Rdiv_lt_0_compat; lra. Qed.
(** the quadratic equation, and the root in it *)
Lemma rL_eq m z : 0 < m -> 0 <= z -> let u := z + m in u / (u + 1) * z * rL m z ^ 2 + m * rL m z = 1 /\
  sqrt (m ^ 2 + 4 * z * u / (u + 1)) = 2 * u * z * rL m z / (u + 1) + m.
Proof.
  intros Hm Hz u. pose proof (rad_pos m z Hm Hz) as RP. fold u in RP. unfold rL. fold u. set (q := sqrt _) in *. assert (S : 0 < q) by now apply sqrt_lt_R0.
  assert (SS : 4 * z * u / (u + 1) = q * q - m ^ 2) by (unfold q; rewrite sqrt_sqrt; lra). assert (U : 0 < u + 1) by (unfold u; lra).
  assert (ZU : z * u = (q * q - m ^ 2) * (u + 1) / 4) by (rewrite <- SS; field; lra). split.
  - replace (u / (u + 1) * z * (2 / (m + q)) ^ 2 + m * (2 / (m + q))) with ((z * u) * / (u + 1) * (2 / (m + q)) ^ 2 + m * (2 / (m + q))) by (field; split; lra). rewrite ZU. field. split; lra.
  - replace (2 * u * z * (2 / (m + q)) / (u + 1) + m) with (2 * (z * u) * (2 / (m + q)) / (u + 1) + m) by (field; split; lra). rewrite ZU. field. split; lra.
Qed.
Lemma rL_0 m : 0 < m -> rL m 0 = 1 / m /\ rS m 0 = 1 / m.
Proof.
  intros Hm. split.
  - unfold rL. replace (m ^ 2 + 4 * 0 * (0 + m) / (0 + m + 1)) with (m ^ 2) by (field; lra). rewrite <- Rsqr_pow2, sqrt_Rsqr by lra. field. lra.
  - unfold rS. rewrite !h_0 by lra. field. lra.
Qed.
Lemma lower m z : 0 < m -> 0 < z -> rL m z <= rS m z.
Proof.
  intros Hm Hz. cut (0 <= rS m z - rL m z); [lra|].
  apply (barrier (fun z => rS m z - rL m z) (fun z => (h (m + 2) z / (m + 1) - h (m + 1) z * h (m + 1) z / (m * h m z)) / (m * h m z) - rL' m z) z Hz).
  - intros x Hx. apply D_minus; [apply rS_D; lra|apply rL_D; lra].
  - destruct (rL_0 m Hm) as (-> & ->). lra.
  - intros x Hx Neg. apply (Rmult_le_reg_l x); [lra|]. rewrite Rmult_0_r, Rmult_minus_distr_l, rS_ode by lra.
    pose proof (rS_pos m x Hm ltac:(lra)) as SP. pose proof (rL_pos m x Hm ltac:(lra)) as LP. destruct (rL_eq m x Hm ltac:(lra)) as (E1 & E2). set (u := x + m) in *. assert (U : 0 < u) by (unfold u; lra).
    unfold rL'. cbv zeta. fold u. rewrite E2. set (G := rL m x) in *. set (r := rS m x) in *.
    assert (A : 1 - m * G - x * G ^ 2 <= 1 - m * r - x * r ^ 2) by (assert (r ^ 2 <= G ^ 2) by (apply pow_incr; lra); assert (x * r ^ 2 <= x * G ^ 2) by (apply Rmult_le_compat_l; lra); assert (m * r <= m * G) by (apply Rmult_le_compat_l; lra); lra).
    assert (GB : 2 * u * G <= u + 2).
    { destruct (Rle_or_lt (2 * u * G) (u + 2)) as [|L]; auto. exfalso.
      assert (E3 : u * x * G ^ 2 + m * (u + 1) * G = u + 1) by (replace (u * x * G ^ 2 + m * (u + 1) * G) with ((u + 1) * (u / (u + 1) * x * G ^ 2 + m * G)) by (field; lra); rewrite E1; ring).
      assert (Q : (u + 2) ^ 2 < (2 * u * G) ^ 2) by (simpl pow; nra).
      assert (4 * u * (u * x * G ^ 2 + m * (u + 1) * G) = 4 * u * (u + 1)) by (rewrite E3; ring).
      assert (x * (u + 2) ^ 2 < x * (2 * u * G) ^ 2) by (apply Rmult_lt_compat_l; lra).
      assert (m * (u + 1) * 2 * (u + 2) < m * (u + 1) * 2 * (2 * u * G)) by (apply Rmult_lt_compat_l; [|auto]; apply Rmult_lt_0_compat; [apply Rmult_lt_0_compat|]; lra).
      assert (0 <= u ^ 3 + m * (u ^ 2 + 2 * u)) by (assert (0 < u ^ 3) by (apply pow_lt; auto); assert (0 <= m * (u ^ 2 + 2 * u)) by (apply Rmult_le_pos; [lra|]; pose proof (pow2_ge_0 u); lra); lra).
      assert (x * (u + 2) ^ 2 + m * (u + 1) * 2 * (u + 2) = 4 * u * (u + 1) + (u ^ 3 + m * (u ^ 2 + 2 * u))) by (unfold u; ring). nra. }
    assert (W : 0 < 2 * u * x * G + m * (u + 1)) by (assert (0 < 2 * u * x * G) by (apply Rmult_lt_0_compat; [apply Rmult_lt_0_compat; lra|auto]); assert (0 < m * (u + 1)) by (apply Rmult_lt_0_compat; lra); lra).
    assert (B : x * (- G ^ 2 * (u * (u + 1) + x) / ((u + 1) ^ 2 * (2 * u * x * G / (u + 1) + m))) <= 1 - m * G - x * G ^ 2); [|lra].
    replace (1 - m * G - x * G ^ 2) with (- (x * G ^ 2 / (u + 1))) by (replace (1 - m * G - x * G ^ 2) with (u / (u + 1) * x * G ^ 2 - x * G ^ 2) by lra; field; lra).
    replace (x * (- G ^ 2 * (u * (u + 1) + x) / ((u + 1) ^ 2 * (2 * u * x * G / (u + 1) + m)))) with (- (x * G ^ 2 / (u + 1)) * ((u * (u + 1) + x) / (2 * u * x * G + m * (u + 1)))) by (field; repeat split; lra).
    assert (1 <= (u * (u + 1) + x) / (2 * u * x * G + m * (u + 1))).
    { apply (Rmult_le_reg_r (2 * u * x * G + m * (u + 1))); [auto|]. replace ((u * (u + 1) + x) / (2 * u * x * G + m * (u + 1)) * (2 * u * x * G + m * (u + 1))) with (u * (u + 1) + x) by (field; lra).
      replace (u * (u + 1) + x) with (x * (u + 2) + m * (u + 1)) by (unfold u; ring). assert (x * (2 * u * G) <= x * (u + 2)) by (apply Rmult_le_compat_l; lra). lra. }
    assert (0 <= x * G ^ 2 / (u + 1)) by (apply Rmult_le_pos; [apply Rmult_le_pos; [lra|apply pow2_ge_0]|left; apply Rinv_0_lt_compat; lra]). nra.
Qed.
Lemma upper m z : 0 < m -> 0 < z -> rS m z <= 25 / 24 * rL m z.
Proof.
  intros Hm Hz. cut (0 <= 25 / 24 * rL m z - rS m z); [lra|].
  apply (barrier (fun z => 25 / 24 * rL m z - rS m z) (fun z => 25 / 24 * rL' m z - (h (m + 2) z / (m + 1) - h (m + 1) z * h (m + 1) z / (m * h m z)) / (m * h m z)) z Hz).
  - intros x Hx. apply D_minus; [apply (is_derive_scal (rL m) x (25 / 24)); apply rL_D; lra|apply rS_D; lra].
  - destruct (rL_0 m Hm) as (-> & ->). assert (0 < 1 / m) by (apply Rdiv_lt_0_compat; lra). lra.
  - intros x Hx Neg. apply (Rmult_le_reg_l x); [lra|]. rewrite Rmult_0_r, Rmult_minus_distr_l, rS_ode by lra.
    pose proof (rS_pos m x Hm ltac:(lra)) as SP. pose proof (rL_pos m x Hm ltac:(lra)) as LP. destruct (rL_eq m x Hm ltac:(lra)) as (E1 & E2). set (u := x + m) in *. assert (U : 0 < u) by (unfold u; lra).
    unfold rL'. cbv zeta. fold u. rewrite E2. set (G := rL m x) in *. set (r := rS m x) in *.
    set (k := 25 / 24) in *. assert (K : k = 25 / 24) by reflexivity.
    assert (KG : 0 < k * G) by (apply Rmult_lt_0_compat; lra).
    assert (A : 1 - m * r - x * r ^ 2 <= 1 - m * (k * G) - x * (k * G) ^ 2) by (assert ((k * G) ^ 2 <= r ^ 2) by (apply pow_incr; lra); assert (x * (k * G) ^ 2 <= x * r ^ 2) by (apply Rmult_le_compat_l; lra); assert (m * (k * G) <= m * r) by (apply Rmult_le_compat_l; lra); lra).
    set (s := x * G). assert (S0 : 0 < s) by (apply Rmult_lt_0_compat; lra).
    set (v := u + 1). assert (V : 1 < v) by (unfold v; lra).
    assert (E3 : u * s ^ 2 + m * v * s = x * v) by (unfold s; replace (u * (x * G) ^ 2 + m * v * (x * G)) with (x * v * (u / (u + 1) * x * G ^ 2 + m * G)) by (unfold v; field; lra); rewrite E1; ring).
    assert (M : m = (v - 1) * (v - s ^ 2) / (v * (1 + s))).
    { apply (Rmult_eq_reg_r (v * (1 + s))); [|apply Rmult_integral_contrapositive_currified; lra]. replace ((v - 1) * (v - s ^ 2) / (v * (1 + s)) * (v * (1 + s))) with ((v - 1) * (v - s ^ 2)) by (field; lra).
      assert (x = v - 1 - m) by (unfold v, u; ring). assert (UV : u = v - 1) by (unfold v; ring). rewrite H, UV in E3. lra. }
    assert (SV : s ^ 2 <= v).
    { destruct (Rle_or_lt (s ^ 2) v) as [|L]; auto. exfalso. assert (0 < (v - 1) * (s ^ 2 - v)) by (apply Rmult_lt_0_compat; lra). assert (0 < / (v * (1 + s))) by (apply Rinv_0_lt_compat; apply Rmult_lt_0_compat; lra).
      assert (0 < - ((v - 1) * (v - s ^ 2)) * / (v * (1 + s))) by (apply Rmult_lt_0_compat; lra). unfold Rdiv in M. lra. }
    pose proof (bigp_pos v s V S0 SV) as BP.
    assert (W : 0 < 2 * u * s + m * v) by (assert (0 < u * s) by (apply Rmult_lt_0_compat; auto); assert (0 < m * v) by (apply Rmult_lt_0_compat; lra); lra).
    cut (0 <= x * (k * (- G ^ 2 * (u * (u + 1) + x) / ((u + 1) ^ 2 * (2 * u * x * G / (u + 1) + m)))) - (1 - m * (k * G) - x * (k * G) ^ 2)); [unfold v; lra|].
    apply (Rmult_le_reg_l x); [lra|]. rewrite Rmult_0_r.
    replace (x * (x * (k * (- G ^ 2 * (u * (u + 1) + x) / ((u + 1) ^ 2 * (2 * u * x * G / (u + 1) + m)))) - (1 - m * (k * G) - x * (k * G) ^ 2)))
      with (- k * s ^ 2 * (u * v + x) / (v * (2 * u * s + m * v)) + - x + m * k * s + k ^ 2 * s ^ 2) by (unfold s, v; field; repeat split; try lra; unfold s, v in W; lra).
    replace (- k * s ^ 2 * (u * v + x) / (v * (2 * u * s + m * v)) + - x + m * k * s + k ^ 2 * s ^ 2)
      with (s / (v * (2 * u * s + m * v)) * (((k - 1) * m * v + s * (k ^ 2 * v - u)) * (2 * u * s + m * v) - k * s * (u * v + x)));
      [|generalize (u * v + x); intros X; replace (- x) with (- ((u * s ^ 2 + m * v * s) / v)) by (rewrite E3; field; lra); field; split; lra].
    apply Rmult_le_pos; [left; apply Rdiv_lt_0_compat; [auto|apply Rmult_lt_0_compat; lra]|].
    assert (UV : u = v - 1) by (unfold v; ring). assert (XV : x = v - 1 - m) by (unfold v, u; ring).
    replace (((k - 1) * m * v + s * (k ^ 2 * v - u)) * (2 * u * s + m * v) - k * s * (u * v + x)) with ((v - 1) / ((1 + s) ^ 2 * v) * bigp v s).
    + apply Rmult_le_pos; auto. left. apply Rdiv_lt_0_compat; [lra|]. apply Rmult_lt_0_compat; [apply pow_lt|]; lra.
    + rewrite XV, UV, M, K. unfold bigp. field. split; lra.
Qed.
(** without desorption *)
Definition r0 (z : R) : R := h 1 z / h 2 z.
Lemma r0_D z : 0 <= z -> D r0 z ((h 2 z * h 2 z - h 1 z * (h 3 z / 2)) / (h 2 z) ^ 2).
Proof.
  intros Hz. pose proof (h_pos 2 z ltac:(lra) Hz) as P. eapply D_eq; [unfold D, r0; apply is_derive_div; [apply h_D; lra|apply h_D; lra|lra]|].
  replace (1 + 1) with 2 by ring. replace (2 + 1) with 3 by ring. field. lra.
Qed.
Lemma r0_ode z : 0 < z -> z * ((h 2 z * h 2 z - h 1 z * (h 3 z / 2)) / (h 2 z) ^ 2) = z + r0 z - r0 z ^ 2.
Proof.
  intros Hz. pose proof (h_pos 2 z ltac:(lra) ltac:(lra)) as P. pose proof (h_contig 1 z ltac:(lra)) as E. replace (1 + 1) with 2 in E by ring. replace (1 + 2) with 3 in E by ring. unfold r0.
  replace (h 3 z) with ((h 1 z - h 2 z) * 2 / z) by (rewrite E; field; lra). field. split; lra.
Qed.
Lemma r0_pos z : 0 <= z -> 0 < r0 z.
Proof. intros Hz. apply Rdiv_lt_0_compat; apply h_pos; lra. Qed.
Lemma g0_D z : 0 <= z -> D (fun z => sqrt (z + 1)) z (1 / (2 * sqrt (z + 1))).
Proof. intros Hz. unfold D. assert (0 < sqrt (z + 1)) by (apply sqrt_lt_R0; lra). auto_derive; [lra|]. field. lra. Qed.
Lemma g0_facts z : 0 < z -> 1 < sqrt (z + 1) /\ z = sqrt (z + 1) ^ 2 - 1.
Proof. intros Hz. split; [rewrite <- sqrt_1 at 1; apply sqrt_lt_1; lra|]. rewrite pow2_sqrt; lra. Qed.
Lemma lower0 z : 0 < z -> sqrt (z + 1) <= r0 z.
Proof.
  intros Hz. cut (0 <= r0 z - sqrt (z + 1)); [lra|].
  apply (barrier (fun z => r0 z - sqrt (z + 1)) (fun z => (h 2 z * h 2 z - h 1 z * (h 3 z / 2)) / (h 2 z) ^ 2 - 1 / (2 * sqrt (z + 1))) z Hz).
  - intros x Hx. apply D_minus; [apply r0_D; lra|apply g0_D; lra].
  - unfold r0. rewrite !h_0 by lra. rewrite Rplus_0_l, sqrt_1. lra.
  - intros x Hx Neg. apply (Rmult_le_reg_l x); [lra|]. rewrite Rmult_0_r, Rmult_minus_distr_l, r0_ode by lra. pose proof (r0_pos x ltac:(lra)) as P. destruct (g0_facts x ltac:(lra)) as (G1 & GZ). set (g := sqrt (x + 1)) in *. set (y := r0 x) in *. clearbody g y.
    assert (B : x * (1 / (2 * g)) <= g - 1) by (rewrite GZ; apply (Rmult_le_reg_r (2 * g)); [lra|]; replace ((g ^ 2 - 1) * (1 / (2 * g)) * (2 * g)) with (g ^ 2 - 1) by (field; lra); nra).
    destruct (Rle_or_lt y 1); nra.
Qed.
Lemma upper0 z : 0 < z -> r0 z <= 25 / 24 * sqrt (z + 1).
Proof.
  intros Hz. cut (0 <= 25 / 24 * sqrt (z + 1) - r0 z); [lra|].
  apply (barrier (fun z => 25 / 24 * sqrt (z + 1) - r0 z) (fun z => 25 / 24 * (1 / (2 * sqrt (z + 1))) - (h 2 z * h 2 z - h 1 z * (h 3 z / 2)) / (h 2 z) ^ 2) z Hz).
  - intros x Hx. apply D_minus; [apply (is_derive_scal (fun z => sqrt (z + 1)) x (25 / 24)); apply g0_D; lra|apply r0_D; lra].
  - unfold r0. rewrite !h_0 by lra. rewrite Rplus_0_l, sqrt_1. lra.
  - intros x Hx Neg. apply (Rmult_le_reg_l x); [lra|]. rewrite Rmult_0_r, Rmult_minus_distr_l, r0_ode by lra. pose proof (r0_pos x ltac:(lra)) as P. destruct (g0_facts x ltac:(lra)) as (G1 & GZ). set (g := sqrt (x + 1)) in *. set (y := r0 x) in *. clearbody g y.
    assert (Y : (25 / 24 * g) ^ 2 - 25 / 24 * g <= y ^ 2 - y) by nra.
    cut (0 <= x * (25 / 24 * (1 / (2 * g))) - x + ((25 / 24 * g) ^ 2 - 25 / 24 * g)); [lra|].
    rewrite GZ. apply (Rmult_le_reg_r (2 * g)); [lra|]. rewrite Rmult_0_l.
    replace (((g ^ 2 - 1) * (25 / 24 * (1 / (2 * g))) - (g ^ 2 - 1) + ((25 / 24 * g) ^ 2 - 25 / 24 * g)) * (2 * g)) with (49 / 288 * g ^ 3 - 25 / 24 * g ^ 2 + 2 * g - 25 / 24) by (field; lra).
    replace (49 / 288 * g ^ 3 - 25 / 24 * g ^ 2 + 2 * g - 25 / 24) with (49 / 288 * (g - 1) * (g - 13 / 5) ^ 2 + (49 / 288 * (31 / 5) - 25 / 24) * g ^ 2 + (2 - 49 / 288 * (299 / 25)) * g + (49 / 288 * (169 / 25) - 25 / 24)) by field.
    assert (0 <= 49 / 288 * (g - 1) * (g - 13 / 5) ^ 2) by (apply Rmult_le_pos; [lra|apply pow2_ge_0]). assert (0 <= g ^ 2) by apply pow2_ge_0. nra.
Qed.

(** The Li-Brooks value is never above the exact one and never more than 4 % below it *)
Theorem C122_Li_Brooks_deviation iv alpha m : bessel iv -> 0 < alpha -> 0 <= m ->
  0 <= nbar_SO iv alpha m - nbar_LB alpha m <= 4 / 100 * nbar_SO iv alpha m.
Proof.
  intros Hb Ha Hm. destruct (Rle_lt_or_eq_dec 0 m Hm) as [Hp|<-].
  - pose proof (lower m (2 * alpha) Hp ltac:(lra)) as L. pose proof (upper m (2 * alpha) Hp ltac:(lra)) as U.
    assert (ES : nbar_SO iv alpha m = alpha * rS m (2 * alpha)) by (rewrite (nbar_h iv) by auto; unfold rS; pose proof (h_pos m (2 * alpha) Hp ltac:(lra)); field; lra).
    assert (EL : nbar_LB alpha m = alpha * rL m (2 * alpha)).
    { unfold nbar_LB, rL. replace (8 * alpha * (2 * alpha + m)) with (4 * (2 * alpha) * (2 * alpha + m)) by ring. unfold Rdiv. ring. }
    rewrite ES, EL. split; [assert (alpha * rL m (2 * alpha) <= alpha * rS m (2 * alpha)) by (apply Rmult_le_compat_l; lra); lra|].
    assert (alpha * rS m (2 * alpha) <= alpha * (25 / 24 * rL m (2 * alpha))) by (apply Rmult_le_compat_l; lra). lra.
  - pose proof (lower0 (2 * alpha) ltac:(lra)) as L. pose proof (upper0 (2 * alpha) ltac:(lra)) as U.
    assert (ES : nbar_SO iv alpha 0 = / 2 * r0 (2 * alpha)) by (rewrite (nbar_h0 iv) by auto; unfold r0; pose proof (h_pos 2 (2 * alpha) ltac:(lra) ltac:(lra)); field; lra).
    assert (EL : nbar_LB alpha 0 = / 2 * sqrt (2 * alpha + 1)).
    { unfold nbar_LB. assert (P : 0 < sqrt (2 * alpha + 1)) by (apply sqrt_lt_R0; lra). assert (SS : sqrt (2 * alpha + 1) * sqrt (2 * alpha + 1) = 2 * alpha + 1) by (apply sqrt_sqrt; lra).
      replace (0 ^ 2 + 8 * alpha * (2 * alpha + 0) / (2 * alpha + 0 + 1)) with ((4 * alpha / sqrt (2 * alpha + 1)) ^ 2); [|replace ((4 * alpha / sqrt (2 * alpha + 1)) ^ 2) with (16 * alpha ^ 2 / (sqrt (2 * alpha + 1) * sqrt (2 * alpha + 1))) by (field; lra); rewrite SS; field; lra].
      rewrite <- Rsqr_pow2, sqrt_Rsqr by (left; apply Rdiv_lt_0_compat; lra). field. split; lra. }
    rewrite ES, EL. split; lra.
Qed.

(** * Monotone in entry and desorption *)
Lemma mlr (a b : nat -> R) K : (forall j k, (j < k)%nat -> a k * b j <= b k * a j) -> (2 <= K)%nat ->
  b 1%nat * a 0%nat - a 1%nat * b 0%nat <= sumn K (fun k => INR k * b k) * sumn K a - sumn K (fun k => INR k * a k) * sumn K b.
Proof.
  intros H HK. induction HK as [|K HK IH].
  - cbn. lra.
  - cbn [sumn]. set (sb := sumn K b) in *. set (sa := sumn K a) in *. set (tb := sumn K (fun k => INR k * b k)) in *. set (ta := sumn K (fun k => INR k * a k)) in *.
    assert (0 <= INR K * b K * sa + a K * tb - INR K * a K * sb - b K * ta); [|lra].
    unfold sa, sb, ta, tb. clear -H HK. rewrite <- !sumn_scal, <- sumn_plus, <- !sumn_minus. apply sumn_nonneg. intros j Hj.
    replace (INR K * b K * a j + a K * (INR j * b j) - INR K * a K * b j - b K * (INR j * a j)) with ((INR K - INR j) * (b K * a j - a K * b j)) by ring.
    apply Rmult_le_pos; [apply lt_INR in Hj; lra|pose proof (H j K Hj); lra].
Qed.
Definition om (m : R) (k : nat) : R := match k with O => m | S j => / (INR (fact k) * rf (m + 1) j) end.
Definition Den (m z : R) : R := m * h (m + 1) z + z / (m + 1) * h (m + 2) z.
Lemma om_den m z : 0 <= m -> is_lim_seq (fun K => sumn K (fun k => om m k * z ^ k)) (Den m z).
Proof.
  intros Hm. apply is_lim_seq_incr_1. apply (is_lim_seq_ext (fun K => m * sumn (S K) (fun k => hc (m + 1) k * z ^ k) + z / (m + 1) * sumn K (fun k => hc (m + 2) k * z ^ k))).
  - intros K. rewrite !sumn_S_first. replace (hc (m + 1) 0) with 1 by (unfold hc; cbn; field). cbn [om pow]. rewrite Rmult_plus_distr_l, <- !sumn_scal, Rplus_assoc, <- sumn_plus. f_equal; [ring|]. apply sumn_ext. intros k _.
    unfold hc. rewrite rf_shift, fact_simpl, mult_INR, S_INR. replace (m + 1 + 1) with (m + 2) by ring.
    assert (E : rf (m + 1) k = (m + 1) * rf (m + 2) k / (m + 1 + INR k)). { pose proof (rf_shift (m + 1) k) as E. cbn [rf] in E. replace (m + 1 + 1) with (m + 2) in E by ring. rewrite <- E. pose proof (pos_INR k). field. lra. }
    rewrite E. pose proof (rf_pos (m + 2) k ltac:(lra)). pose proof (INR_fact_lt_0 k). pose proof (pos_INR k). cbn [pow]. field. repeat split; lra.
  - unfold Den. apply is_lim_seq_plus'; [apply (is_lim_seq_scal_l _ m (h (m + 1) z)); apply (is_lim_seq_incr_1 (fun K => sumn K (fun k => hc (m + 1) k * z ^ k))); apply h_cv; lra|].
    apply (is_lim_seq_scal_l _ (z / (m + 1)) (h (m + 2) z)). apply h_cv; lra.
Qed.
Lemma om_num m z : 0 <= m -> is_lim_seq (fun K => sumn K (fun k => INR k * (om m k * z ^ k))) (z * h (m + 1) z).
Proof.
  intros Hm. apply is_lim_seq_incr_1. apply (is_lim_seq_ext (fun K => z * sumn K (fun k => hc (m + 1) k * z ^ k))).
  - intros K. rewrite sumn_S_first. change (INR 0) with 0. rewrite Rmult_0_l, Rplus_0_l, <- sumn_scal. apply sumn_ext. intros k _. unfold om, hc. rewrite fact_simpl, mult_INR, S_INR. pose proof (rf_pos (m + 1) k ltac:(lra)). pose proof (INR_fact_lt_0 k). pose proof (pos_INR k). cbn [pow]. field. repeat split; lra.
  - apply (is_lim_seq_scal_l _ z (h (m + 1) z)). apply h_cv; lra.
Qed.
Lemma Den_pos m z : 0 <= m -> 0 < z -> 0 < Den m z.
Proof. intros Hm Hz. unfold Den. pose proof (h_pos (m + 1) z ltac:(lra) ltac:(lra)). pose proof (h_pos (m + 2) z ltac:(lra) ltac:(lra)). assert (0 <= m * h (m + 1) z) by (apply Rmult_le_pos; lra). assert (0 < z / (m + 1) * h (m + 2) z) by (apply Rmult_lt_0_compat; [apply Rdiv_lt_0_compat; lra|auto]). lra. Qed.
Lemma nbar_den iv alpha m : bessel iv -> 0 < alpha -> 0 <= m -> nbar_SO iv alpha m = / 2 * (2 * alpha * h (m + 1) (2 * alpha) / Den m (2 * alpha)).
Proof.
  intros Hb Ha Hm. destruct (Rle_lt_or_eq_dec 0 m Hm) as [Hp|<-].
  - rewrite (nbar_h iv) by auto. pose proof (h_contig m (2 * alpha) Hp) as E. pose proof (h_pos m (2 * alpha) Hp ltac:(lra)). replace (Den m (2 * alpha)) with (m * h m (2 * alpha)); [field; lra|].
    unfold Den. replace (h m (2 * alpha)) with (h (m + 1) (2 * alpha) + 2 * alpha / (m * (m + 1)) * h (m + 2) (2 * alpha)) by lra. field. lra.
  - rewrite (nbar_h0 iv) by auto. unfold Den. pose proof (h_pos 2 (2 * alpha) ltac:(lra) ltac:(lra)). rewrite !Rplus_0_l, Rmult_0_l, Rplus_0_l. field. lra.
Qed.
Lemma mlr_lim (a b : nat -> R) (na nb da db : R) : (forall j k, (j < k)%nat -> a k * b j <= b k * a j) -> a 1%nat * b 0%nat < b 1%nat * a 0%nat -> 0 < da -> 0 < db ->
  is_lim_seq (fun K => sumn K a) da -> is_lim_seq (fun K => sumn K b) db -> is_lim_seq (fun K => sumn K (fun k => INR k * a k)) na -> is_lim_seq (fun K => sumn K (fun k => INR k * b k)) nb -> na / da < nb / db.
Proof.
  intros H H1 Ha Hb La Lb Ka Kb.
  assert (L : is_lim_seq (fun K => sumn K (fun k => INR k * b k) * sumn K a - sumn K (fun k => INR k * a k) * sumn K b) (nb * da - na * db)) by (apply is_lim_seq_minus'; now apply is_lim_seq_mult').
  assert (b 1%nat * a 0%nat - a 1%nat * b 0%nat <= nb * da - na * db) by (apply (lim_ge _ _ _ 2 L); intros; now apply mlr).
  apply (Rmult_lt_reg_r (da * db)); [now apply Rmult_lt_0_compat|]. replace (na / da * (da * db)) with (na * db) by (field; lra). replace (nb / db * (da * db)) with (nb * da) by (field; lra). lra.
Qed.
Lemma om_pos m k : 0 <= m -> 0 <= om m k /\ ((0 < k)%nat -> 0 < om m k).
Proof.
  intros Hm. destruct k as [|k]; [split; [auto|lia]|]. assert (0 < om m (S k)) by (apply Rinv_0_lt_compat; apply Rmult_lt_0_compat; [apply INR_fact_lt_0|apply rf_pos; lra]). split; [lra|auto].
Qed.
Lemma rf_ratio c d j n : 0 < c -> c <= d -> rf c (j + n) * rf d j <= rf d (j + n) * rf c j.
Proof.
  intros Hc Hd. rewrite !rf_add. pose proof (rf_pos c j Hc). pose proof (rf_pos d j ltac:(lra)). pose proof (pos_INR j).
  assert (rf (c + INR j) n <= rf (d + INR j) n). { clear -Hc Hd. assert (HI := pos_INR j). induction n as [|n IH]; cbn [rf]; [lra|]. pose proof (pos_INR n). pose proof (rf_pos (c + INR j) n ltac:(lra)). apply Rmult_le_compat; lra. }
  replace (rf c j * rf (c + INR j) n * rf d j) with (rf c j * rf d j * rf (c + INR j) n) by ring. replace (rf d j * rf (d + INR j) n * rf c j) with (rf c j * rf d j * rf (d + INR j) n) by ring. apply Rmult_le_compat_l; [apply Rmult_le_pos; lra|auto].
Qed.
(** More entry means more radicals per particle; more desorption means fewer; without desorption there is more than
    half a radical per particle *)
Theorem C122_monotone iv alpha m : bessel iv -> 0 < alpha -> 0 <= m ->
  (forall alpha', alpha < alpha' -> nbar_SO iv alpha m < nbar_SO iv alpha' m) /\
  (forall m', m < m' -> nbar_SO iv alpha m' < nbar_SO iv alpha m) /\
  1 / 2 < nbar_SO iv alpha 0 /\ 0 < nbar_SO iv alpha m /\ (0 < m -> nbar_SO iv alpha m < alpha / m).
Proof.
  intros Hb Ha Hm. split; [|split; [|split; [|split]]].
  - intros a' Ha'. rewrite !(nbar_den iv) by (auto; lra). apply Rmult_lt_compat_l; [lra|]. set (z := 2 * alpha). set (z' := 2 * a'). assert (Z : 0 < z < z') by (unfold z, z'; lra).
    destruct (Rle_lt_or_eq_dec 0 m Hm) as [Hp|E0].
    + apply (mlr_lim (fun k => om m k * z ^ k) (fun k => om m k * z' ^ k)); try (apply Den_pos; lra); try (now apply om_den); try (now apply om_num).
      * intros j k Hjk. replace (om m k * z ^ k * (om m j * z' ^ j)) with (om m k * om m j * (z ^ k * z' ^ j)) by ring. replace (om m k * z' ^ k * (om m j * z ^ j)) with (om m k * om m j * (z' ^ k * z ^ j)) by ring.
        apply Rmult_le_compat_l; [apply Rmult_le_pos; now apply om_pos|]. replace k with (j + (k - j))%nat by lia. rewrite !pow_add. assert (z ^ (k - j) <= z' ^ (k - j)) by (apply pow_incr; lra).
        replace (z ^ j * z ^ (k - j) * z' ^ j) with (z ^ j * z' ^ j * z ^ (k - j)) by ring. replace (z' ^ j * z' ^ (k - j) * z ^ j) with (z ^ j * z' ^ j * z' ^ (k - j)) by ring. apply Rmult_le_compat_l; [|auto]. apply Rmult_le_pos; apply pow_le; lra.
      * cbn [pow]. destruct (om_pos m 1 Hm) as (_ & P1). specialize (P1 ltac:(lia)). change (om m 0) with m. assert (0 < om m 1 * m) by now apply Rmult_lt_0_compat. nra.
    + subst m. unfold Den. rewrite !Rmult_0_l, !Rplus_0_l.
      pose proof (h_pos 2 z ltac:(lra) ltac:(lra)) as P1. pose proof (h_pos 2 z' ltac:(lra) ltac:(lra)) as P2.
      replace (z * h 1 z / (z / 1 * h 2 z)) with (r0 z) by (unfold r0; field; lra). replace (z' * h 1 z' / (z' / 1 * h 2 z')) with (r0 z') by (unfold r0; field; lra).
      assert (Y : forall x, 0 < x -> r0 x = 1 + (h 1 x - h 2 x) / h 2 x) by (intros x Hx; pose proof (h_pos 2 x ltac:(lra) ltac:(lra)); unfold r0; field; lra).
      rewrite !Y by lra. apply Rplus_lt_compat_l.
      assert (NN : forall x, is_lim_seq (fun K => sumn K (fun k => INR k * (hc 2 k * x ^ k))) (h 1 x - h 2 x)).
      { intros x. assert (HC := h_contig 1 x ltac:(lra)). replace (1 + 1) with 2 in HC by ring. replace (1 + 2) with 3 in HC by ring. rewrite HC. apply is_lim_seq_incr_1. apply (is_lim_seq_ext (fun K => x / (1 * 2) * sumn K (fun k => hc 3 k * x ^ k))); [|apply (is_lim_seq_scal_l _ (x / (1 * 2)) (h 3 x)); apply h_cv; lra].
        intros K. rewrite sumn_S_first. change (INR 0) with 0. rewrite Rmult_0_l, Rplus_0_l, <- sumn_scal. apply sumn_ext. intros k _. unfold hc. rewrite rf_shift, fact_simpl, mult_INR, S_INR. replace (2 + 1) with 3 by ring. pose proof (rf_pos 3 k ltac:(lra)). pose proof (INR_fact_lt_0 k). pose proof (pos_INR k). cbn [pow]. field. repeat split; lra. }
      apply (mlr_lim (fun k => hc 2 k * z ^ k) (fun k => hc 2 k * z' ^ k)); auto; try (apply h_cv; lra).
      * intros j k Hjk. replace (hc 2 k * z ^ k * (hc 2 j * z' ^ j)) with (hc 2 k * hc 2 j * (z ^ k * z' ^ j)) by ring. replace (hc 2 k * z' ^ k * (hc 2 j * z ^ j)) with (hc 2 k * hc 2 j * (z' ^ k * z ^ j)) by ring.
        apply Rmult_le_compat_l; [apply Rmult_le_pos; left; apply hc_pos; lra|]. replace k with (j + (k - j))%nat by lia. rewrite !pow_add. assert (z ^ (k - j) <= z' ^ (k - j)) by (apply pow_incr; lra).
        replace (z ^ j * z ^ (k - j) * z' ^ j) with (z ^ j * z' ^ j * z ^ (k - j)) by ring. replace (z' ^ j * z' ^ (k - j) * z ^ j) with (z ^ j * z' ^ j * z' ^ (k - j)) by ring. apply Rmult_le_compat_l; [|auto]. apply Rmult_le_pos; apply pow_le; lra.
      * unfold hc. cbn. lra.
  - intros m' Hm'. rewrite !(nbar_den iv) by (auto; lra). apply Rmult_lt_compat_l; [lra|]. set (z := 2 * alpha). assert (Z : 0 < z) by (unfold z; lra).
    assert (MLR : forall j k, (j < k)%nat -> om m' k * om m j <= om m k * om m' j).
    { intros j k Hjk. destruct k as [|k]; [lia|]. destruct j as [|j].
      - change (om m 0) with m. change (om m' 0) with m'. assert (om m' (S k) <= om m (S k)). { unfold om. apply Rinv_le_contravar; [apply Rmult_lt_0_compat; [apply INR_fact_lt_0|apply rf_pos; lra]|]. apply Rmult_le_compat_l; [left; apply INR_fact_lt_0|]. pose proof (rf_ratio (m + 1) (m' + 1) 0 k ltac:(lra) ltac:(lra)) as R. cbn [rf Nat.add] in R. lra. }
        destruct (om_pos m' (S k) ltac:(lra)). apply Rmult_le_compat; lra.
      - unfold om. rewrite <- !Rinv_mult. pose proof (rf_pos (m + 1) k ltac:(lra)). pose proof (rf_pos (m + 1) j ltac:(lra)). pose proof (rf_pos (m' + 1) k ltac:(lra)). pose proof (rf_pos (m' + 1) j ltac:(lra)). pose proof (INR_fact_lt_0 (S k)). pose proof (INR_fact_lt_0 (S j)).
        apply Rinv_le_contravar; [repeat apply Rmult_lt_0_compat; auto|]. set (p := INR (fact (S k))) in *. set (q := INR (fact (S j))) in *.
        replace (p * rf (m + 1) k * (q * rf (m' + 1) j)) with (p * q * (rf (m + 1) k * rf (m' + 1) j)) by ring. replace (p * rf (m' + 1) k * (q * rf (m + 1) j)) with (p * q * (rf (m' + 1) k * rf (m + 1) j)) by ring.
        apply Rmult_le_compat_l; [left; now apply Rmult_lt_0_compat|]. replace k with (j + (k - j))%nat by lia. apply rf_ratio; lra. }
    apply (mlr_lim (fun k => om m' k * z ^ k) (fun k => om m k * z ^ k)); try (apply Den_pos; lra); try (apply om_den; lra); try (apply om_num; lra).
    + intros j k Hjk. replace (om m' k * z ^ k * (om m j * z ^ j)) with (om m' k * om m j * (z ^ k * z ^ j)) by ring. replace (om m k * z ^ k * (om m' j * z ^ j)) with (om m k * om m' j * (z ^ k * z ^ j)) by ring. apply Rmult_le_compat_r; [apply Rmult_le_pos; apply pow_le; lra|now apply MLR].
    + unfold om. cbn. rewrite !Rmult_1_r. nra.
  - pose proof (C122_Li_Brooks_deviation iv alpha 0 Hb Ha ltac:(lra)) as (L & _). destruct (C69_Li_Brooks alpha 0 Ha ltac:(lra)) as (_ & _ & _ & _ & _ & G & _). lra.
  - pose proof (C122_Li_Brooks_deviation iv alpha m Hb Ha Hm) as (L & _). destruct (C69_Li_Brooks alpha m Ha Hm) as (G & _). lra.
  - intros Hp. rewrite (nbar_h iv) by auto. pose proof (h_pos m (2 * alpha) Hp ltac:(lra)). pose proof (h_contig m (2 * alpha) Hp) as E. pose proof (h_pos (m + 2) (2 * alpha) ltac:(lra) ltac:(lra)).
    assert (0 < 2 * alpha / (m * (m + 1)) * h (m + 2) (2 * alpha)) by (apply Rmult_lt_0_compat; [apply Rdiv_lt_0_compat; [lra|apply Rmult_lt_0_compat; lra]|auto]).
    assert (0 < alpha / m) by (apply Rdiv_lt_0_compat; auto). apply (Rmult_lt_reg_r (h m (2 * alpha))); [auto|]. replace (alpha / m * h (m + 1) (2 * alpha) / h m (2 * alpha) * h m (2 * alpha)) with (alpha / m * h (m + 1) (2 * alpha)) by (field; lra). apply Rmult_lt_compat_l; lra.
Qed.

(** The Bessel functions above exist up to the normalisation, which cancels *)
Definition Gn (v : R) : R := let n := Z.to_nat (1 - up (- v)) in / rf (v - INR n + 1) n.
Definition iv_ex (v x : R) : R := if Rle_dec v (-1) then Gn 1 * Rpower (x / 2) 1 * h 2 ((x / 2) ^ 2) else Gn v * Rpower (x / 2) v * h (v + 1) ((x / 2) ^ 2).
Example C122_bessel_exists : bessel iv_ex.
Proof.
  assert (N : forall v, -1 < v -> let n := Z.to_nat (1 - up (- v)) in INR n - 1 < v <= INR n).
  { intros v Hv n. destruct (archimed (- v)) as (A1 & A2). assert (U : (up (- v) <= 1)%Z). { assert (IZR (up (- v)) < 2) by lra. apply lt_IZR in H. lia. }
    unfold n. rewrite INR_IZR_INZ, Z2Nat.id by lia. rewrite minus_IZR. lra. }
  exists Gn. split; [|split; [|split]].
  - intros v Hv. pose proof (N v Hv) as (A & B). unfold Gn. cbv zeta. apply Rinv_0_lt_compat. apply rf_pos. lra.
  - intros v Hv. unfold Gn. cbv zeta. pose proof (N v ltac:(lra)) as (A & B). pose proof (N (v - 1) ltac:(lra)) as (A' & B'). set (n := Z.to_nat (1 - up (- v))) in *. set (n' := Z.to_nat (1 - up (- (v - 1)))) in *.
    assert (E : n = S n'). { assert (INR n < INR (S n') + 1) by (rewrite S_INR; lra). assert (INR (S n') < INR n + 1) by (rewrite S_INR; lra). rewrite <- S_INR in H, H0. apply INR_lt in H, H0. lia. }
    rewrite E, S_INR. cbn [rf]. replace (v - (INR n' + 1) + 1) with (v - INR n') by ring. replace (v - 1 - INR n' + 1) with (v - INR n') by ring. pose proof (rf_pos (v - INR n') n' ltac:(lra)). field. split; lra.
  - intros v x Hv Hx. unfold iv_ex. destruct (Rle_dec v (-1)); [lra|]. apply (is_lim_seq_scal_l _ (Gn v * Rpower (x / 2) v) (h (v + 1) ((x / 2) ^ 2))). apply (is_lim_seq_ext (fun K => sumn K (fun k => hc (v + 1) k * ((x / 2) ^ 2) ^ k))); [intros; apply sumn_ext; intros; unfold hc, Rdiv; ring|apply h_cv; lra].
  - intros x Hx. unfold iv_ex. destruct (Rle_dec (-1) (-1)); [|lra]. destruct (Rle_dec 1 (-1)); [lra|]. now replace (1 + 1) with 2 by ring.
Qed.
(** with alpha = 4 and no desorption the approximation is 3/2, and the exact value is between 3/2 and 25/16 *)
Example C122_case : 3 / 2 <= nbar_SO iv_ex 4 0 <= 25 / 16.
Proof.
  pose proof (C122_Li_Brooks_deviation iv_ex 4 0 C122_bessel_exists ltac:(lra) ltac:(lra)) as (L & U). destruct (C69_Li_Brooks 4 0 ltac:(lra) ltac:(lra)) as (_ & _ & _ & _ & _ & _ & E & _).
  replace ((2 * 4 + 1) / 4) with ((3 / 2) ^ 2) in E by field. rewrite <- Rsqr_pow2, sqrt_Rsqr in E by lra. rewrite E in L, U. lra.
Qed.
Print Assumptions C122_Smith_Ewart.
Print Assumptions C122_Li_Brooks_deviation.
Print Assumptions C122_monotone.
