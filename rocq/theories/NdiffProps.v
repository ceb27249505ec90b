(** Truncation errors of the numerical derivatives (src/polykin/math/derivatives/ndiff.py) for general smooth functions. *)
From Coq Require Import Reals Lra Lia List Bool Arith ZArith FunctionalExtensionality.
From Coquelicot Require Import Coquelicot.
From Verif Require Import Prelude RootsModel DiffModel DiffProofs DiffProps Deriv RkProps.
Open Scope R_scope.

Lemma D_neg g s l : D g (- s) l -> D (fun u => g (- u)) s (- l).
Proof. intros H. apply (D_eq _ _ (l * (- (1)))); [apply (D_comp g (fun u => - u)); [apply (D_opp (fun u => u)), D_id|exact H]|ring]. Qed.
Lemma eps_gt0 : 0 < eps.
Proof. unfold eps. apply Rinv_0_lt_compat, pow_lt. lra. Qed.
(** growth from zero, first order *)
Lemma grow0 g g1 h C : 0 <= h -> g 0 = 0 -> (forall s, 0 <= s <= h -> D g s (g1 s)) -> (forall s, 0 <= s <= h -> Rabs (g1 s) <= C) -> Rabs (g h) <= C * h.
Proof.
  intros Hh G0 HD HB. pose proof (grow g g1 h C 0 Hh G0 HD) as G. cbn [pow INR] in G. replace (C * h) with (C / 1 * (h * 1)) by field. apply G. intros s Hs. rewrite Rmult_1_r. now apply HB.
Qed.
(** first and second symmetric differences *)
Lemma sym1 g g1 g2 g3 k M : 0 < k -> (forall s, - k <= s <= k -> D g s (g1 s) /\ D g1 s (g2 s) /\ D g2 s (g3 s) /\ Rabs (g3 s) <= M) ->
  Rabs ((g k - g (- k)) / (2 * k) - g1 0) <= M / 6 * k ^ 2.
Proof.
  intros Hk H.
  assert (E2 : forall s, 0 <= s <= k -> Rabs (g2 s - g2 (- s)) <= 2 * M * s).
  { intros s Hs. apply (grow0 (fun s => g2 s - g2 (- s)) (fun s => g3 s - - g3 (- s))); [lra|rewrite Ropp_0; ring| |].
    - intros u Hu. apply D_minus; [apply H; lra|apply D_neg, H; lra].
    - intros u Hu. destruct (H u) as (_ & _ & _ & A); [lra|]. destruct (H (- u)) as (_ & _ & _ & B); [lra|]. apply Rabs_le_between in A. apply Rabs_le_between in B. apply Rabs_le_between. lra. }
  assert (E1 : forall s, 0 <= s <= k -> Rabs (g1 s + g1 (- s) - 2 * g1 0) <= M * s ^ 2).
  { intros s Hs. replace (M * s ^ 2) with (2 * M / INR 2 * s ^ 2) by (cbn [INR]; field). apply (grow (fun s => g1 s + g1 (- s) - 2 * g1 0) (fun s => g2 s - g2 (- s)) s (2 * M) 1); [lra|rewrite Ropp_0; ring| |].
    - intros u Hu. apply (D_eq _ _ (g2 u + - g2 (- u) - 0)); [|ring]. apply D_minus; [apply D_plus; [apply H; lra|apply D_neg, H; lra]|apply D_const].
    - intros u Hu. rewrite pow_1. apply E2. lra. }
  assert (E0 : Rabs (g k - g (- k) - k * (2 * g1 0)) <= M / INR 3 * k ^ 3).
  { apply (grow (fun s => g s - g (- s) - s * (2 * g1 0)) (fun s => g1 s + g1 (- s) - 2 * g1 0) k M 2); [lra|rewrite Ropp_0; ring| |].
    - intros u Hu. apply (D_eq _ _ (g1 u - - g1 (- u) - 2 * g1 0)); [|ring]. apply D_minus; [apply D_minus; [apply H; lra|apply D_neg, H; lra]|apply D_lin1].
    - intros u Hu. apply E1. lra. }
  replace ((g k - g (- k)) / (2 * k) - g1 0) with ((g k - g (- k) - k * (2 * g1 0)) * / (2 * k)) by (field; lra). rewrite Rabs_mult, (Rabs_pos_eq (/ (2 * k))) by (left; apply Rinv_0_lt_compat; lra).
  replace (M / 6 * k ^ 2) with (M / INR 3 * k ^ 3 * / (2 * k)) by (cbn [INR]; field; lra). apply Rmult_le_compat_r; [left; apply Rinv_0_lt_compat; lra|exact E0].
Qed.
Lemma sym2 g g1 g2 g3 g4 k M : 0 < k -> (forall s, - k <= s <= k -> D g s (g1 s) /\ D g1 s (g2 s) /\ D g2 s (g3 s) /\ D g3 s (g4 s) /\ Rabs (g4 s) <= M) ->
  Rabs ((g k - 2 * g 0 + g (- k)) / k ^ 2 - g2 0) <= M / 12 * k ^ 2.
Proof.
  intros Hk H.
  assert (E3 : forall s, 0 <= s <= k -> Rabs (g3 s - g3 (- s)) <= 2 * M * s).
  { intros s Hs. apply (grow0 (fun s => g3 s - g3 (- s)) (fun s => g4 s - - g4 (- s))); [lra|rewrite Ropp_0; ring| |].
    - intros u Hu. apply D_minus; [apply H; lra|apply D_neg, H; lra].
    - intros u Hu. destruct (H u) as (_ & _ & _ & _ & A); [lra|]. destruct (H (- u)) as (_ & _ & _ & _ & B); [lra|]. apply Rabs_le_between in A. apply Rabs_le_between in B. apply Rabs_le_between. lra. }
  assert (E2 : forall s, 0 <= s <= k -> Rabs (g2 s + g2 (- s) - 2 * g2 0) <= M * s ^ 2).
  { intros s Hs. replace (M * s ^ 2) with (2 * M / INR 2 * s ^ 2) by (cbn [INR]; field). apply (grow (fun s => g2 s + g2 (- s) - 2 * g2 0) (fun s => g3 s - g3 (- s)) s (2 * M) 1); [lra|rewrite Ropp_0; ring| |].
    - intros u Hu. apply (D_eq _ _ (g3 u + - g3 (- u) - 0)); [|ring]. apply D_minus; [apply D_plus; [apply H; lra|apply D_neg, H; lra]|apply D_const].
    - intros u Hu. rewrite pow_1. apply E3. lra. }
  assert (E1 : forall s, 0 <= s <= k -> Rabs (g1 s - g1 (- s) - s * (2 * g2 0)) <= M / INR 3 * s ^ 3).
  { intros s Hs. apply (grow (fun s => g1 s - g1 (- s) - s * (2 * g2 0)) (fun s => g2 s + g2 (- s) - 2 * g2 0) s M 2); [lra|rewrite Ropp_0; ring| |].
    - intros u Hu. apply (D_eq _ _ (g2 u - - g2 (- u) - 2 * g2 0)); [|ring]. apply D_minus; [apply D_minus; [apply H; lra|apply D_neg, H; lra]|apply D_lin1].
    - intros u Hu. apply E2. lra. }
  assert (E0 : Rabs (g k + g (- k) - 2 * g 0 - g2 0 * k ^ 2) <= M / INR 3 / INR 4 * k ^ 4).
  { apply (grow (fun s => g s + g (- s) - 2 * g 0 - g2 0 * s ^ 2) (fun s => g1 s - g1 (- s) - s * (2 * g2 0)) k (M / INR 3) 3); [lra|rewrite Ropp_0; ring| |].
    - intros u Hu. apply (D_eq _ _ (g1 u + - g1 (- u) - 0 - g2 0 * (INR 2 * u ^ 1))); [|cbn [INR]; ring]. apply D_minus; [apply D_minus; [apply D_plus; [apply H; lra|apply D_neg, H; lra]|apply D_const]|apply D_scal, (D_powS 1)].
    - intros u Hu. apply E1. lra. }
  assert (P : 0 < k ^ 2) by (apply pow_lt; lra).
  replace ((g k - 2 * g 0 + g (- k)) / k ^ 2 - g2 0) with ((g k + g (- k) - 2 * g 0 - g2 0 * k ^ 2) * / k ^ 2) by (field; lra). rewrite Rabs_mult, (Rabs_pos_eq (/ k ^ 2)) by (left; apply Rinv_0_lt_compat; lra).
  replace (M / 12 * k ^ 2) with (M / INR 3 / INR 4 * k ^ 4 * / k ^ 2) by (cbn [INR]; field; lra). apply Rmult_le_compat_r; [left; apply Rinv_0_lt_compat; lra|exact E0].
Qed.
Lemma D_at f x s l : D f (x + s) l -> D (fun u => f (x + u)) s l.
Proof. exact (D_shift f x s l). Qed.
(** the step used: h (1 + |x|), by default with the cube root of 3 eps *)
Lemma step_cases h x : exists k, 0 < k /\ (h <> 0 -> k = Rabs h * (1 + Rabs x)) /\ (h = 0 -> k ^ 3 = 3 * eps * (1 + Rabs x) ^ 3) /\
  exists sg, (sg = 1 \/ sg = -1) /\ (if Req_EM_T h 0 then cbrt (3 * eps) else h) * (1 + Rabs x) = sg * k.
Proof.
  pose proof (Rabs_pos x) as HX. pose proof eps_gt0 as HE. destruct (Req_EM_T h 0) as [E|E].
  - exists (cbrt (3 * eps) * (1 + Rabs x)). assert (C0 : 0 < cbrt (3 * eps)) by apply exp_pos. split; [apply Rmult_lt_0_compat; lra|]. split; [easy|]. split.
    + intros _. rewrite Rpow_mult_distr. f_equal. unfold cbrt. rewrite <- Rpower_pow by apply exp_pos. rewrite Rpower_mult. replace (/ 3 * INR 3) with 1 by (cbn [INR]; field). apply Rpower_1. lra.
    + exists 1. split; [auto|ring].
  - exists (Rabs h * (1 + Rabs x)). split; [apply Rmult_lt_0_compat; [now apply Rabs_pos_lt|lra]|]. split; [easy|]. split; [easy|].
    destruct (Rle_dec 0 h) as [H|H]; [exists 1|exists (-1)]; (split; [auto|]); [rewrite (Rabs_pos_eq h) by exact H|rewrite (Rabs_left h) by lra]; ring.
Qed.
(** centred difference: second order; the value returned with it is second order too *)
Theorem C10_centered_error f x h : exists k, 0 < k /\ (h <> 0 -> k = Rabs h * (1 + Rabs x)) /\ (h = 0 -> k ^ 3 = 3 * eps * (1 + Rabs x) ^ 3) /\
  forall f1 f2 f3 M2 M3, (forall t, Rabs (t - x) <= k -> D f t (f1 t) /\ D f1 t (f2 t) /\ D f2 t (f3 t) /\ Rabs (f2 t) <= M2 /\ Rabs (f3 t) <= M3) ->
  Rabs (fst (derivative_centered f x h) - f1 x) <= M3 / 6 * k ^ 2 /\ Rabs (snd (derivative_centered f x h) - f x) <= M2 / 2 * k ^ 2.
Proof.
  destruct (step_cases h x) as (k & K0 & K1 & K2 & sg & Hs & ES). exists k. split; [exact K0|]. split; [exact K1|]. split; [exact K2|]. intros f1 f2 f3 M2 M3 H.
  unfold derivative_centered. rewrite ES. cbn [fst snd].
  assert (HK : forall s, - k <= s <= k -> Rabs (x + s - x) <= k) by (intros s Hk; replace (x + s - x) with s by ring; apply Rabs_le_between; lra).
  assert (E : (f (x + sg * k) - f (x - sg * k)) / (2 * (sg * k)) = (f (x + k) - f (x + - k)) / (2 * k) /\ (f (x + sg * k) + f (x - sg * k)) / 2 = (f (x + k) + f (x + - k)) / 2).
  { destruct Hs as [-> | ->].
    - replace (x - 1 * k) with (x + - k) by ring. replace (x + 1 * k) with (x + k) by ring. split; field; lra.
    - replace (x - -1 * k) with (x + k) by ring. replace (x + -1 * k) with (x + - k) by ring. split; field; lra. }
  destruct E as (-> & ->). split.
  - pose proof (sym1 (fun s => f (x + s)) (fun s => f1 (x + s)) (fun s => f2 (x + s)) (fun s => f3 (x + s)) k M3 K0) as G. cbv beta in G. rewrite Rplus_0_r in G. apply G.
    intros s Hk. destruct (H (x + s) (HK s Hk)) as (a & b & c & _ & d). exact (conj (D_at _ _ _ _ a) (conj (D_at _ _ _ _ b) (conj (D_at _ _ _ _ c) d))).
  - assert (E1 : forall s, 0 <= s <= k -> Rabs (f1 (x + s) - f1 (x + - s)) <= 2 * M2 * s).
    { intros s Hk. apply (grow0 (fun s => f1 (x + s) - f1 (x + - s)) (fun s => f2 (x + s) - - f2 (x + - s))); [lra|rewrite Ropp_0; ring| |].
      - intros u Hu. apply D_minus; [apply D_at, H, HK; lra|apply (D_neg (fun v => f1 (x + v))), D_at, H, HK; lra].
      - intros u Hu. destruct (H (x + u) (HK u ltac:(lra))) as (_ & _ & _ & A & _). destruct (H (x + - u) (HK (- u) ltac:(lra))) as (_ & _ & _ & B & _). apply Rabs_le_between in A. apply Rabs_le_between in B. apply Rabs_le_between. lra. }
    assert (E0 : Rabs (f (x + k) + f (x + - k) - 2 * f x) <= 2 * M2 / INR 2 * k ^ 2).
    { apply (grow (fun s => f (x + s) + f (x + - s) - 2 * f x) (fun s => f1 (x + s) - f1 (x + - s)) k (2 * M2) 1); [lra|rewrite Ropp_0, Rplus_0_r; ring| |].
      - intros u Hu. apply (D_eq _ _ (f1 (x + u) + - f1 (x + - u) - 0)); [|ring]. apply D_minus; [apply D_plus; [apply D_at, H, HK; lra|apply (D_neg (fun v => f (x + v))), D_at, H, HK; lra]|apply D_const].
      - intros u Hu. rewrite pow_1. apply E1. lra. }
    cbn [INR] in E0. replace ((f (x + k) + f (x + - k)) / 2 - f x) with ((f (x + k) + f (x + - k) - 2 * f x) / 2) by field. apply Rabs_le_between in E0. apply Rabs_le_between. lra.
Qed.
(** complex step: V and U are the imaginary and the real part along the vertical line through x, which for a function that is real on
    the real axis are odd and even; V' at 0 is the derivative (Cauchy-Riemann) *)
Theorem C10_complex_error fre fim x (V1 V2 V3 U1 U2 : R -> R) M2 M3 : fim x 0 = 0 -> V2 0 = 0 -> U1 0 = 0 ->
  (forall s, 0 <= s <= eps -> D (fim x) s (V1 s) /\ D V1 s (V2 s) /\ D V2 s (V3 s) /\ Rabs (V3 s) <= M3 /\ D (fre x) s (U1 s) /\ D U1 s (U2 s) /\ Rabs (U2 s) <= M2) ->
  Rabs (fst (derivative_complex fre fim x) - V1 0) <= M3 / 6 * eps ^ 2 /\ Rabs (snd (derivative_complex fre fim x) - fre x 0) <= M2 / 2 * eps ^ 2.
Proof.
  intros V0 V20 U10 H. pose proof eps_gt0 as HE. unfold derivative_complex. cbn [fst snd]. split.
  - assert (A2 : forall s, 0 <= s <= eps -> Rabs (V2 s) <= M3 * s) by (intros s Hs; apply (grow0 V2 V3); [lra|exact V20|intros u Hu; apply H; lra|intros u Hu; apply H; lra]).
    assert (A1 : forall s, 0 <= s <= eps -> Rabs (V1 s - V1 0) <= M3 / INR 2 * s ^ 2).
    { intros s Hs. apply (grow (fun s => V1 s - V1 0) V2 s M3 1); [lra|ring|intros u Hu; apply (D_eq _ _ (V2 u - 0)); [apply D_minus; [apply H; lra|apply D_const]|ring]|intros u Hu; rewrite pow_1; apply A2; lra]. }
    assert (A0 : Rabs (fim x eps - eps * V1 0) <= M3 / INR 2 / INR 3 * eps ^ 3).
    { apply (grow (fun s => fim x s - s * V1 0) (fun s => V1 s - V1 0) eps (M3 / INR 2) 2); [lra|rewrite V0; ring|intros u Hu; apply D_minus; [apply H; lra|apply D_lin1]|intros u Hu; apply A1; lra]. }
    replace (fim x eps / eps - V1 0) with ((fim x eps - eps * V1 0) * / eps) by (field; lra). rewrite Rabs_mult, (Rabs_pos_eq (/ eps)) by (left; apply Rinv_0_lt_compat; lra).
    replace (M3 / 6 * eps ^ 2) with (M3 / INR 2 / INR 3 * eps ^ 3 * / eps) by (cbn [INR]; field; lra). apply Rmult_le_compat_r; [left; apply Rinv_0_lt_compat; lra|exact A0].
  - assert (A1 : forall s, 0 <= s <= eps -> Rabs (U1 s) <= M2 * s) by (intros s Hs; apply (grow0 U1 U2); [lra|exact U10|intros u Hu; apply H; lra|intros u Hu; apply H; lra]).
    apply (grow (fun s => fre x s - fre x 0) U1 eps M2 1); [lra|ring|intros u Hu; apply (D_eq _ _ (U1 u - 0)); [apply D_minus; [apply H; lra|apply D_const]|ring]|intros u Hu; rewrite pow_1; apply A1; lra].
Qed.
(** forward Jacobian: first order *)
Theorem C10_jacobian_error N f x sclx nd J0 r c : (c < N)%nat -> (forall i, (i < N)%nat -> sclx i <> 0) ->
  exists h, h = sqrt (noise nd) * Rmax (Rabs (x c)) (Rabs (1 / sclx c)) /\ 0 < h /\
  forall g1 g2 M, (forall s, 0 <= s <= h -> D (fun s => f (fun j => if Nat.eq_dec j c then x j + s else x j) r) s (g1 s) /\ D g1 s (g2 s) /\ Rabs (g2 s) <= M) ->
  (forall u v, (forall j, u j = v j) -> f u r = f v r) ->
  Rabs (jacobian_forward N f x None sclx nd J0 r c - g1 0) <= M / 2 * h.
Proof.
  intros Hc Hs. destruct (C10_jacobian_columns N f x sclx nd J0 r c Hc Hs) as (h & Eh & H0 & EJ). exists h. split; [exact Eh|]. split; [exact H0|]. intros g1 g2 M H HX. rewrite EJ.
  set (g := fun s => f (fun j => if Nat.eq_dec j c then x j + s else x j) r) in *. assert (G0 : f x r = g 0) by (unfold g; apply HX; intros j; destruct (Nat.eq_dec j c); ring). rewrite G0. fold (g h).
  assert (A1 : forall s, 0 <= s <= h -> Rabs (g1 s - g1 0) <= M * s).
  { intros s Hs'. apply (grow0 (fun s => g1 s - g1 0) g2); [lra|ring|intros u Hu; apply (D_eq _ _ (g2 u - 0)); [apply D_minus; [apply H; lra|apply D_const]|ring]|intros u Hu; apply H; lra]. }
  assert (A0 : Rabs (g h - g 0 - h * g1 0) <= M / INR 2 * h ^ 2).
  { apply (grow (fun s => g s - g 0 - s * g1 0) (fun s => g1 s - g1 0) h M 1); [lra|ring|intros u Hu; apply (D_eq _ _ (g1 u - 0 - g1 0)); [apply D_minus; [apply D_minus; [apply H; lra|apply D_const]|apply D_lin1]|ring]|intros u Hu; rewrite pow_1; apply A1; lra]. }
  replace ((g h - g 0) / h - g1 0) with ((g h - g 0 - h * g1 0) * / h) by (field; lra). rewrite Rabs_mult, (Rabs_pos_eq (/ h)) by (left; apply Rinv_0_lt_compat; lra).
  replace (M / 2 * h) with (M / INR 2 * h ^ 2 * / h) by (cbn [INR]; field; lra). apply Rmult_le_compat_r; [left; apply Rinv_0_lt_compat; lra|exact A0].
Qed.

(** centred Hessian: second order.  Fij is the derivative of f, i times with respect to the first and j times with respect to the second
    variable *)
Lemma sg_sq sg k : (sg = 1 \/ sg = -1) -> (sg * k) ^ 2 = k ^ 2.
Proof. intros [-> | ->]; ring. Qed.
Lemma mixed (F : nat -> nat -> R -> R -> R) k0 k1 M : 0 < k0 -> 0 < k1 ->
  (forall i t s, (i <= 2)%nat -> - k1 <= t <= k1 -> - k0 <= s <= k0 -> D (fun s => F i 0%nat s t) s (F (S i) 0%nat s t)) ->
  (forall i j s t, ((i = 1 /\ j <= 2) \/ (i = 3 /\ j = 0))%nat -> - k0 <= s <= k0 -> - k1 <= t <= k1 -> D (F i j s) t (F i (S j) s t)) ->
  (forall s t, - k0 <= s <= k0 -> - k1 <= t <= k1 -> Rabs (F 3%nat 1%nat s t) <= M /\ Rabs (F 1%nat 3%nat s t) <= M) ->
  Rabs ((F 0%nat 0%nat k0 k1 - F 0%nat 0%nat k0 (- k1) - F 0%nat 0%nat (- k0) k1 + F 0%nat 0%nat (- k0) (- k1)) / (4 * k0 * k1) - F 1%nat 1%nat 0 0) <= M / 6 * (k0 ^ 2 + k1 ^ 2).
Proof.
  intros H0 H1 HS HT HM. set (G := fun i s => (F i 0%nat s k1 - F i 0%nat s (- k1)) / (2 * k1)).
  assert (DG : forall i s, (i <= 2)%nat -> - k0 <= s <= k0 -> D (G i) s (G (S i) s)).
  { intros i s Hi Hs. unfold G. apply (D_ext (fun s => / (2 * k1) * (F i 0%nat s k1 - F i 0%nat s (- k1)))); [intros; unfold Rdiv; ring|]. apply (D_eq _ _ (/ (2 * k1) * (F (S i) 0%nat s k1 - F (S i) 0%nat s (- k1)))); [|unfold Rdiv; ring].
    apply D_scal, D_minus; apply HS; auto; lra. }
  assert (G3 : forall s, - k0 <= s <= k0 -> Rabs (G 3%nat s) <= M).
  { intros s Hs. assert (A : Rabs (F 3%nat 0%nat s (- k1 + 2 * k1) - F 3%nat 0%nat s (- k1)) <= M * (2 * k1)).
    { apply (grow0 (fun u => F 3%nat 0%nat s (- k1 + u) - F 3%nat 0%nat s (- k1)) (fun u => F 3%nat 1%nat s (- k1 + u))); [lra|rewrite Rplus_0_r; ring| |].
      - intros u Hu. apply (D_eq _ _ (F 3%nat 1%nat s (- k1 + u) - 0)); [|ring]. apply D_minus; [apply D_at, (HT 3%nat 0%nat); [lia|lra|lra]|apply D_const].
      - intros u Hu. apply HM; lra. }
    replace (- k1 + 2 * k1) with k1 in A by ring. unfold G. unfold Rdiv. rewrite Rabs_mult, (Rabs_pos_eq (/ (2 * k1))) by (left; apply Rinv_0_lt_compat; lra).
    replace M with (M * (2 * k1) * / (2 * k1)) by (field; lra). apply Rmult_le_compat_r; [left; apply Rinv_0_lt_compat; lra|exact A]. }
  assert (A := sym1 (G 0%nat) (G 1%nat) (G 2%nat) (G 3%nat) k0 M H0). assert (A' : Rabs ((G 0%nat k0 - G 0%nat (- k0)) / (2 * k0) - G 1%nat 0) <= M / 6 * k0 ^ 2) by (apply A; intros s Hs; split; [apply DG; [lia|lra]|split; [apply DG; [lia|lra]|split; [apply DG; [lia|lra]|now apply G3]]]).
  assert (B : Rabs (G 1%nat 0 - F 1%nat 1%nat 0 0) <= M / 6 * k1 ^ 2).
  { apply (sym1 (F 1%nat 0%nat 0) (F 1%nat 1%nat 0) (F 1%nat 2%nat 0) (F 1%nat 3%nat 0) k1 M H1). intros s Hs. split; [apply HT; [lia|lra|lra]|split; [apply HT; [lia|lra|lra]|split; [apply HT; [lia|lra|lra]|apply HM; lra]]]. }
  replace ((F 0%nat 0%nat k0 k1 - F 0%nat 0%nat k0 (- k1) - F 0%nat 0%nat (- k0) k1 + F 0%nat 0%nat (- k0) (- k1)) / (4 * k0 * k1) - F 1%nat 1%nat 0 0) with
    (((G 0%nat k0 - G 0%nat (- k0)) / (2 * k0) - G 1%nat 0) + (G 1%nat 0 - F 1%nat 1%nat 0 0)) by (unfold G; field; lra).
  eapply Rle_trans; [apply Rabs_triang|]. lra.
Qed.
Theorem C11_centered_error f x0 x1 h : exists k0 k1, 0 < k0 /\ 0 < k1 /\ (h <> 0 -> k0 = Rabs h * (1 + Rabs x0) /\ k1 = Rabs h * (1 + Rabs x1)) /\
  (h = 0 -> k0 ^ 3 = 3 * eps * (1 + Rabs x0) ^ 3 /\ k1 ^ 3 = 3 * eps * (1 + Rabs x1) ^ 3) /\
  forall (F : nat -> nat -> R -> R -> R) M, (forall u v, F 0%nat 0%nat u v = f (u, v)) ->
  (forall i j u v, Rabs (u - x0) <= 2 * k0 -> Rabs (v - x1) <= 2 * k1 ->
     ((i + j <= 3)%nat -> D (fun u => F i j u v) u (F (S i) j u v) /\ D (F i j u) v (F i (S j) u v)) /\ ((i + j = 4)%nat -> Rabs (F i j u v) <= M)) ->
  let '(H00, H01, H10, H11) := hessian2_centered f (x0, x1) h in
  Rabs (H00 - F 2%nat 0%nat x0 x1) <= M / 3 * k0 ^ 2 /\ Rabs (H11 - F 0%nat 2%nat x0 x1) <= M / 3 * k1 ^ 2 /\
  Rabs (H01 - F 1%nat 1%nat x0 x1) <= M / 6 * (k0 ^ 2 + k1 ^ 2) /\ H10 = H01.
Proof.
  destruct (step_cases h x0) as (k0 & K0 & A1 & A2 & sg & Hs & ES). destruct (step_cases h x1) as (k1 & K1 & B1 & B2 & sh & Hs' & ES'). exists k0, k1. split; [exact K0|]. split; [exact K1|]. split; [auto|]. split; [auto|]. intros F M HF H.
  assert (HK : forall a k s, - (2 * k) <= s <= 2 * k -> Rabs (a + s - a) <= 2 * k) by (intros a k s Hk; replace (a + s - a) with s by ring; apply Rabs_le_between; lra).
  assert (Z : forall a k, 0 < k -> Rabs (a - a) <= 2 * k) by (intros a k Hk; rewrite Rminus_eq_0, Rabs_R0; lra).
  unfold hessian2_centered. rewrite ES, ES'. split; [|split; [|split]]; [| | |easy].
  - pose proof (sym2 (fun s => F 0%nat 0%nat (x0 + s) x1) (fun s => F 1%nat 0%nat (x0 + s) x1) (fun s => F 2%nat 0%nat (x0 + s) x1) (fun s => F 3%nat 0%nat (x0 + s) x1) (fun s => F 4%nat 0%nat (x0 + s) x1) (2 * k0) M) as G. cbv beta in G. rewrite !Rplus_0_r, !HF in G.
    replace (M / 3 * k0 ^ 2) with (M / 12 * (2 * k0) ^ 2) by field.
    replace ((f (x0 + 2 * (sg * k0), x1) - 2 * f (x0, x1) + f (x0 - 2 * (sg * k0), x1)) / (4 * (sg * k0) ^ 2)) with ((f (x0 + 2 * k0, x1) - 2 * f (x0, x1) + f (x0 + - (2 * k0), x1)) / (2 * k0) ^ 2).
    + apply G; [lra|]. intros s Hs0. assert (Q := fun i => H i 0%nat (x0 + s) x1 (HK x0 k0 s Hs0) (Z x1 k1 K1)).
      split; [apply (D_at (fun u => F 0%nat 0%nat u x1)), (Q 0%nat); lia|]. split; [apply (D_at (fun u => F 1%nat 0%nat u x1)), (Q 1%nat); lia|]. split; [apply (D_at (fun u => F 2%nat 0%nat u x1)), (Q 2%nat); lia|]. split; [apply (D_at (fun u => F 3%nat 0%nat u x1)), (Q 3%nat); lia|apply (Q 4%nat); lia].
    + rewrite (sg_sq _ _ Hs). destruct Hs as [-> | ->].
      * replace (x0 + 2 * (1 * k0)) with (x0 + 2 * k0) by ring. replace (x0 - 2 * (1 * k0)) with (x0 + - (2 * k0)) by ring. field. lra.
      * replace (x0 + 2 * (-1 * k0)) with (x0 + - (2 * k0)) by ring. replace (x0 - 2 * (-1 * k0)) with (x0 + 2 * k0) by ring. field. lra.
  - pose proof (sym2 (fun s => F 0%nat 0%nat x0 (x1 + s)) (fun s => F 0%nat 1%nat x0 (x1 + s)) (fun s => F 0%nat 2%nat x0 (x1 + s)) (fun s => F 0%nat 3%nat x0 (x1 + s)) (fun s => F 0%nat 4%nat x0 (x1 + s)) (2 * k1) M) as G. cbv beta in G. rewrite !Rplus_0_r, !HF in G.
    replace (M / 3 * k1 ^ 2) with (M / 12 * (2 * k1) ^ 2) by field.
    replace ((f (x0, x1 + 2 * (sh * k1)) - 2 * f (x0, x1) + f (x0, x1 - 2 * (sh * k1))) / (4 * (sh * k1) ^ 2)) with ((f (x0, x1 + 2 * k1) - 2 * f (x0, x1) + f (x0, x1 + - (2 * k1))) / (2 * k1) ^ 2).
    + apply G; [lra|]. intros s Hs0. assert (Q := fun j => H 0%nat j x0 (x1 + s) (Z x0 k0 K0) (HK x1 k1 s Hs0)).
      split; [apply (D_at (F 0%nat 0%nat x0)), (Q 0%nat); lia|]. split; [apply (D_at (F 0%nat 1%nat x0)), (Q 1%nat); lia|]. split; [apply (D_at (F 0%nat 2%nat x0)), (Q 2%nat); lia|]. split; [apply (D_at (F 0%nat 3%nat x0)), (Q 3%nat); lia|apply (Q 4%nat); lia].
    + rewrite (sg_sq _ _ Hs'). destruct Hs' as [-> | ->].
      * replace (x1 + 2 * (1 * k1)) with (x1 + 2 * k1) by ring. replace (x1 - 2 * (1 * k1)) with (x1 + - (2 * k1)) by ring. field. lra.
      * replace (x1 + 2 * (-1 * k1)) with (x1 + - (2 * k1)) by ring. replace (x1 - 2 * (-1 * k1)) with (x1 + 2 * k1) by ring. field. lra.
  - pose proof (mixed (fun i j s t => F i j (x0 + s) (x1 + t)) k0 k1 M K0 K1) as G. cbv beta in G. rewrite !Rplus_0_r, !HF in G.
    replace ((f (x0 + sg * k0, x1 + sh * k1) - f (x0 + sg * k0, x1 - sh * k1) - f (x0 - sg * k0, x1 + sh * k1) + f (x0 - sg * k0, x1 - sh * k1)) / (4 * (sg * k0) * (sh * k1)))
      with ((f (x0 + k0, x1 + k1) - f (x0 + k0, x1 + - k1) - f (x0 + - k0, x1 + k1) + f (x0 + - k0, x1 + - k1)) / (4 * k0 * k1)).
    + apply G.
      * intros i t s Hi Ht Hs0. apply (D_at (fun u => F i 0%nat u (x1 + t))). apply H; [apply HK; lra|apply HK; lra|lia].
      * intros i j s t Hi Hs0 Ht. apply (D_at (F i j (x0 + s))). apply H; [apply HK; lra|apply HK; lra|lia].
      * intros s t Hs0 Ht. split; (apply H; [apply HK; lra|apply HK; lra|lia]).
    + destruct Hs as [-> | ->]; destruct Hs' as [-> | ->].
      * replace (x0 + 1 * k0) with (x0 + k0) by ring. replace (x0 - 1 * k0) with (x0 + - k0) by ring. replace (x1 + 1 * k1) with (x1 + k1) by ring. replace (x1 - 1 * k1) with (x1 + - k1) by ring. field. lra.
      * replace (x0 + 1 * k0) with (x0 + k0) by ring. replace (x0 - 1 * k0) with (x0 + - k0) by ring. replace (x1 + -1 * k1) with (x1 + - k1) by ring. replace (x1 - -1 * k1) with (x1 + k1) by ring. field. lra.
      * replace (x0 + -1 * k0) with (x0 + - k0) by ring. replace (x0 - -1 * k0) with (x0 + k0) by ring. replace (x1 + 1 * k1) with (x1 + k1) by ring. replace (x1 - 1 * k1) with (x1 + - k1) by ring. field. lra.
      * replace (x0 + -1 * k0) with (x0 + - k0) by ring. replace (x0 - -1 * k0) with (x0 + k0) by ring. replace (x1 + -1 * k1) with (x1 + - k1) by ring. replace (x1 - -1 * k1) with (x1 + k1) by ring. field. lra.
Qed.
(** forward Hessian: first order *)
Lemma growb g g1 b b1 h : 0 <= h -> g 0 = 0 -> b 0 = 0 -> (forall s, 0 <= s <= h -> D g s (g1 s) /\ D b s (b1 s) /\ Rabs (g1 s) <= b1 s) -> Rabs (g h) <= b h.
Proof.
  intros Hh G0 B0 H. assert (A : forall sg, (sg = 1 \/ sg = -1) -> 0 <= b h + sg * g h).
  { intros sg Hs. apply Rle_trans with (b 0 + sg * g 0); [rewrite G0, B0; lra|]. apply (D_mono (fun s => b s + sg * g s) (fun s => b1 s + sg * g1 s)); [exact Hh| |].
    - intros s Hs'. apply D_plus; [apply H, Hs'|apply D_scal, H, Hs'].
    - intros s Hs'. destruct (H s Hs') as (_ & _ & HB). apply Rabs_le_between in HB. destruct Hs as [-> | ->]; lra. }
  apply Rabs_le_between. pose proof (A 1 ltac:(auto)). pose proof (A (-1) ltac:(auto)). lra.
Qed.
Lemma fwd1 g g1 g2 h M : 0 < h -> (forall s, 0 <= s <= h -> D g s (g1 s) /\ D g1 s (g2 s) /\ Rabs (g2 s) <= M) -> Rabs ((g h - g 0) / h - g1 0) <= M / 2 * h.
Proof.
  intros Hh H. assert (A1 : forall s, 0 <= s <= h -> Rabs (g1 s - g1 0) <= M * s).
  { intros s Hs'. apply (grow0 (fun s => g1 s - g1 0) g2); [lra|ring|intros u Hu; apply (D_eq _ _ (g2 u - 0)); [apply D_minus; [apply H; lra|apply D_const]|ring]|intros u Hu; apply H; lra]. }
  assert (A0 : Rabs (g h - g 0 - h * g1 0) <= M / INR 2 * h ^ 2).
  { apply (grow (fun s => g s - g 0 - s * g1 0) (fun s => g1 s - g1 0) h M 1); [lra|ring|intros u Hu; apply (D_eq _ _ (g1 u - 0 - g1 0)); [apply D_minus; [apply D_minus; [apply H; lra|apply D_const]|apply D_lin1]|ring]|intros u Hu; rewrite pow_1; apply A1; lra]. }
  replace ((g h - g 0) / h - g1 0) with ((g h - g 0 - h * g1 0) * / h) by (field; lra). rewrite Rabs_mult, (Rabs_pos_eq (/ h)) by (left; apply Rinv_0_lt_compat; lra).
  replace (M / 2 * h) with (M / INR 2 * h ^ 2 * / h) by (cbn [INR]; field; lra). apply Rmult_le_compat_r; [left; apply Rinv_0_lt_compat; lra|exact A0].
Qed.
Lemma fwd2 g g1 g2 g3 h M : 0 < h -> (forall s, 0 <= s <= 2 * h -> D g s (g1 s) /\ D g1 s (g2 s) /\ D g2 s (g3 s) /\ Rabs (g3 s) <= M) ->
  Rabs ((g 0 - 2 * g h + g (2 * h)) / h ^ 2 - g2 0) <= M * h.
Proof.
  intros Hh H. assert (A2 : forall s, 0 <= s <= 2 * h -> Rabs (g2 s - g2 0) <= M * s).
  { intros s Hs'. apply (grow0 (fun s => g2 s - g2 0) g3); [lra|ring|intros u Hu; apply (D_eq _ _ (g3 u - 0)); [apply D_minus; [apply H; lra|apply D_const]|ring]|intros u Hu; apply H; lra]. }
  assert (A1 : forall s, 0 <= s <= h -> Rabs (g1 (s + s) - g1 (s + 0) - s * g2 0) <= M * s * s + M / 2 * s ^ 2).
  { intros s Hs. apply (growb (fun w => g1 (s + w) - g1 (s + 0) - w * g2 0) (fun w => g2 (s + w) - g2 0) (fun w => M * s * w + M / 2 * w ^ 2) (fun w => M * (s + w)) s); [lra|ring|ring|].
    intros w Hw. split; [|split].
    - apply (D_eq _ _ (g2 (s + w) - 0 - g2 0)); [apply D_minus; [apply D_minus; [apply D_at, H; lra|apply D_const]|apply D_lin1]|ring].
    - apply (D_eq _ _ (M * s * 1 + M / 2 * (INR 2 * w ^ 1))); [apply D_plus; [apply D_scal, D_id|apply D_scal, (D_powS 1)]|cbn [INR]; field].
    - apply A2. lra. }
  assert (DD : forall s, 0 <= s <= h -> D (fun s => g (2 * s)) s (2 * g1 (2 * s))).
  { intros s Hs. apply (D_eq _ _ (g1 (2 * s) * (2 * 1))); [apply (D_comp g (fun s => 2 * s)); [apply D_scal, D_id|apply H; lra]|ring]. }
  assert (A0 : Rabs (g (2 * h) - 2 * g h + g 0 - g2 0 * h ^ 2) <= 3 * M / INR 3 * h ^ 3).
  { apply (grow (fun s => g (2 * s) - 2 * g s + g 0 - g2 0 * s ^ 2) (fun s => 2 * (g1 (s + s) - g1 (s + 0) - s * g2 0)) h (3 * M) 2); [lra|rewrite Rmult_0_r; ring| |].
    - intros u Hu. apply (D_eq _ _ (2 * g1 (2 * u) - 2 * g1 u + 0 - g2 0 * (INR 2 * u ^ 1))); [|replace (u + u) with (2 * u) by ring; replace (u + 0) with u by ring; cbn [INR]; ring]. apply D_minus; [apply D_plus; [apply D_minus; [now apply DD|apply D_scal, H; lra]|apply D_const]|apply D_scal, (D_powS 1)].
    - intros u Hu. rewrite Rabs_mult, (Rabs_pos_eq 2) by lra. replace (3 * M * u ^ 2) with (2 * (M * u * u + M / 2 * u ^ 2)) by field. apply Rmult_le_compat_l; [lra|]. apply A1. lra. }
  assert (P : 0 < h ^ 2) by (apply pow_lt; lra).
  replace ((g 0 - 2 * g h + g (2 * h)) / h ^ 2 - g2 0) with ((g (2 * h) - 2 * g h + g 0 - g2 0 * h ^ 2) * / h ^ 2) by (field; lra). rewrite Rabs_mult, (Rabs_pos_eq (/ h ^ 2)) by (left; apply Rinv_0_lt_compat; lra).
  replace (M * h) with (3 * M / INR 3 * h ^ 3 * / h ^ 2) by (cbn [INR]; field; lra). apply Rmult_le_compat_r; [left; apply Rinv_0_lt_compat; lra|exact A0].
Qed.
Lemma fmixed (F : nat -> nat -> R -> R -> R) k0 k1 M : 0 < k0 -> 0 < k1 ->
  (forall i j s t, (i + j <= 2)%nat -> 0 <= s <= k0 -> 0 <= t <= k1 -> D (fun s => F i j s t) s (F (S i) j s t) /\ D (F i j s) t (F i (S j) s t)) ->
  (forall i j s t, (i + j = 3)%nat -> 0 <= s <= k0 -> 0 <= t <= k1 -> Rabs (F i j s t) <= M) ->
  Rabs ((F 0%nat 0%nat 0 0 - F 0%nat 0%nat k0 0 - F 0%nat 0%nat 0 k1 + F 0%nat 0%nat k0 k1) / (k0 * k1) - F 1%nat 1%nat 0 0) <= M / 2 * (k0 + k1).
Proof.
  intros H0 H1 HD HM. set (G := fun i s => (F i 0%nat s k1 - F i 0%nat s 0) / k1).
  assert (DG : forall i s, (i <= 1)%nat -> 0 <= s <= k0 -> D (G i) s (G (S i) s)).
  { intros i s Hi Hs. unfold G. apply (D_ext (fun s => / k1 * (F i 0%nat s k1 - F i 0%nat s 0))); [intros; unfold Rdiv; ring|]. apply (D_eq _ _ (/ k1 * (F (S i) 0%nat s k1 - F (S i) 0%nat s 0))); [|unfold Rdiv; ring].
    apply D_scal, D_minus; apply HD; try lia; lra. }
  assert (G2 : forall s, 0 <= s <= k0 -> Rabs (G 2%nat s) <= M).
  { intros s Hs. assert (A : Rabs (F 2%nat 0%nat s k1 - F 2%nat 0%nat s 0) <= M * k1).
    { apply (grow0 (fun u => F 2%nat 0%nat s u - F 2%nat 0%nat s 0) (fun u => F 2%nat 1%nat s u)); [lra|ring| |].
      - intros u Hu. apply (D_eq _ _ (F 2%nat 1%nat s u - 0)); [|ring]. apply D_minus; [apply (HD 2%nat 0%nat); [lia|lra|lra]|apply D_const].
      - intros u Hu. apply HM; [lia|lra|lra]. }
    unfold G. unfold Rdiv. rewrite Rabs_mult, (Rabs_pos_eq (/ k1)) by (left; apply Rinv_0_lt_compat; lra).
    replace M with (M * k1 * / k1) by (field; lra). apply Rmult_le_compat_r; [left; apply Rinv_0_lt_compat; lra|exact A]. }
  assert (A : Rabs ((G 0%nat k0 - G 0%nat 0) / k0 - G 1%nat 0) <= M / 2 * k0) by (apply (fwd1 _ _ (G 2%nat)); [lra|]; intros s Hs; split; [apply DG; [lia|lra]|split; [apply DG; [lia|lra]|now apply G2]]).
  assert (B : Rabs (G 1%nat 0 - F 1%nat 1%nat 0 0) <= M / 2 * k1).
  { apply (fwd1 (F 1%nat 0%nat 0) (F 1%nat 1%nat 0) (F 1%nat 2%nat 0)); [lra|]. intros s Hs. split; [apply HD; [lia|lra|lra]|split; [apply HD; [lia|lra|lra]|apply HM; [lia|lra|lra]]]. }
  replace ((F 0%nat 0%nat 0 0 - F 0%nat 0%nat k0 0 - F 0%nat 0%nat 0 k1 + F 0%nat 0%nat k0 k1) / (k0 * k1) - F 1%nat 1%nat 0 0) with
    (((G 0%nat k0 - G 0%nat 0) / k0 - G 1%nat 0) + (G 1%nat 0 - F 1%nat 1%nat 0 0)) by (unfold G; field; lra).
  eapply Rle_trans; [apply Rabs_triang|]. lra.
Qed.
Theorem C11_forward_error N f x fxo sclx nd h_ fh_ H0 : (fxo = None \/ fxo = Some (f x)) -> (forall i, (i < N)%nat -> sclx i <> 0) ->
  exists h, (forall i, (i < N)%nat -> 0 < h i /\ h i ^ 3 = (match nd with None => eps | Some d => / 10 ^ d end) * Rmax (Rabs (x i)) (Rabs (1 / sclx i)) ^ 3) /\
  (forall i g1 g2 g3 M, (i < N)%nat ->
     (forall s, 0 <= s <= 2 * h i -> D (fun s => f (fun k => if Nat.eq_dec k i then x k + s else x k)) s (g1 s) /\ D g1 s (g2 s) /\ D g2 s (g3 s) /\ Rabs (g3 s) <= M) ->
     Rabs (hessian_forward N f x fxo sclx nd h_ fh_ H0 i i - g2 0) <= M * h i) /\
  (forall i j (F : nat -> nat -> R -> R -> R) M, (i < N)%nat -> (j < N)%nat -> i <> j ->
     (forall s t, F 0%nat 0%nat s t = f (fun k => if Nat.eq_dec k i then x k + s else if Nat.eq_dec k j then x k + t else x k)) ->
     (forall a b s t, 0 <= s <= h i -> 0 <= t <= h j ->
        ((a + b <= 2)%nat -> D (fun s => F a b s t) s (F (S a) b s t) /\ D (F a b s) t (F a (S b) s t)) /\ ((a + b = 3)%nat -> Rabs (F a b s t) <= M)) ->
     Rabs (hessian_forward N f x fxo sclx nd h_ fh_ H0 i j - F 1%nat 1%nat 0 0) <= M / 2 * (h i + h j)).
Proof.
  intros HF HS. pose proof (hessian_spec N f x fxo sclx nd h_ fh_ H0) as SP. cbv zeta in SP. unfold hessian_forward. destruct (hessian_forward_st N f x fxo sclx nd h_ fh_ H0) as [xh H]. cbn [snd].
  assert (HF' : match fxo with Some v => v | None => f x end = f x) by (destruct HF as [-> | ->]; reflexivity). rewrite HF' in SP. set (h := jstep x sclx (cbrt (noise nd))) in *. destruct SP as (_ & SD & SO).
  assert (NP : 0 < noise nd) by (destruct nd as [d|]; cbn; [apply Rinv_0_lt_compat, pow_lt; lra|apply eps_gt0]).
  assert (HP : forall i, (i < N)%nat -> 0 < h i) by (intros i Hi; apply jstep_pos; [apply exp_pos|now apply HS]).
  exists h. split; [|split].
  - intros i Hi. split; [now apply HP|]. unfold h, jstep. rewrite Rpow_mult_distr. f_equal. fold (noise nd). unfold cbrt. rewrite <- Rpower_pow by apply exp_pos. rewrite Rpower_mult. replace (/ 3 * INR 3) with 1 by (cbn [INR]; field). now apply Rpower_1.
  - intros i g1 g2 g3 M Hi HD. rewrite (SD i Hi). pose proof (fwd2 _ g1 g2 g3 (h i) M (HP i Hi) HD) as G. cbv beta in G.
    replace (upd x i (x i + h i)) with (fun k => if Nat.eq_dec k i then x k + h i else x k) by (apply functional_extensionality; intros k; unfold upd; destruct (Nat.eq_dec k i) as [-> |]; reflexivity).
    replace (upd x i (x i + 2 * h i)) with (fun k => if Nat.eq_dec k i then x k + 2 * h i else x k) by (apply functional_extensionality; intros k; unfold upd; destruct (Nat.eq_dec k i) as [-> |]; reflexivity).
    replace (fun k => if Nat.eq_dec k i then x k + 0 else x k) with x in G by (apply functional_extensionality; intros k; destruct (Nat.eq_dec k i); ring). exact G.
  - assert (W : forall i j (F : nat -> nat -> R -> R -> R) M, (i < j)%nat -> (j < N)%nat -> 
     (forall s t, F 0%nat 0%nat s t = f (fun k => if Nat.eq_dec k i then x k + s else if Nat.eq_dec k j then x k + t else x k)) ->
     (forall a b s t, 0 <= s <= h i -> 0 <= t <= h j ->
        ((a + b <= 2)%nat -> D (fun s => F a b s t) s (F (S a) b s t) /\ D (F a b s) t (F a (S b) s t)) /\ ((a + b = 3)%nat -> Rabs (F a b s t) <= M)) ->
     Rabs (H i j - F 1%nat 1%nat 0 0) <= M / 2 * (h i + h j)).
    { intros i j F M Hij Hj E HD. destruct (SO i j Hij Hj) as (-> & _).
      pose proof (fmixed F (h i) (h j) M (HP i ltac:(lia)) (HP j Hj) ltac:(intros; now apply HD) ltac:(intros; now apply HD)) as G. rewrite !E in G.
      replace (fun k => if Nat.eq_dec k i then x k + 0 else if Nat.eq_dec k j then x k + 0 else x k) with x in G by (apply functional_extensionality; intros k; destruct (Nat.eq_dec k i), (Nat.eq_dec k j); ring).
      replace (fun k => if Nat.eq_dec k i then x k + h i else if Nat.eq_dec k j then x k + 0 else x k) with (upd x i (x i + h i)) in G by (apply functional_extensionality; intros k; unfold upd; destruct (Nat.eq_dec k i) as [Q1|Q1]; destruct (Nat.eq_dec k j) as [Q2|Q2]; try (exfalso; lia); try rewrite Q1; try rewrite Q2; ring).
      replace (fun k => if Nat.eq_dec k i then x k + 0 else if Nat.eq_dec k j then x k + h j else x k) with (upd x j (x j + h j)) in G by (apply functional_extensionality; intros k; unfold upd; destruct (Nat.eq_dec k i) as [Q1|Q1]; destruct (Nat.eq_dec k j) as [Q2|Q2]; try (exfalso; lia); try rewrite Q1; try rewrite Q2; ring).
      replace (fun k => if Nat.eq_dec k i then x k + h i else if Nat.eq_dec k j then x k + h j else x k) with (upd (upd x i (x i + h i)) j (x j + h j)) in G by (apply functional_extensionality; intros k; unfold upd; destruct (Nat.eq_dec k i) as [Q1|Q1]; destruct (Nat.eq_dec k j) as [Q2|Q2]; try (exfalso; lia); try rewrite Q1; try rewrite Q2; ring).
      exact G. }
    intros i j F M Hi Hj Hij E HD. destruct (Nat.lt_trichotomy i j) as [L|[L|L]]; [now apply W|now contradiction Hij|].
    destruct (SO j i L Hi) as (_ & ->). rewrite (Rplus_comm (h i)). apply (W j i (fun a b s t => F b a t s) M L Hi).
    + intros s t. rewrite E. f_equal. apply functional_extensionality. intros k. destruct (Nat.eq_dec k i) as [Q1|Q1]; destruct (Nat.eq_dec k j) as [Q2|Q2]; try (exfalso; lia); try rewrite Q1; try rewrite Q2; ring.
    + intros a b s t Hs Ht. destruct (HD b a t s Ht Hs) as (A & B). split; [intros Q; destruct A as (A1 & A2); [lia|]; split; [exact A2|exact A1]|intros Q; apply B; lia].
Qed.
Lemma Rlt_pow_l a b : 0 < a < b -> a ^ 3 < b ^ 3.
Proof. intros H. replace (b ^ 3) with (a ^ 3 + (b - a) * (a * a + a * b + b * b)) by ring. assert (0 < a * a + a * b + b * b) by (assert (0 < a * a) by (apply Rmult_lt_0_compat; lra); assert (0 < a * b) by (apply Rmult_lt_0_compat; lra); assert (0 < b * b) by (apply Rmult_lt_0_compat; lra); lra). assert (0 < (b - a) * (a * a + a * b + b * b)) by (apply Rmult_lt_0_compat; lra). lra. Qed.
(** the exponential *)
Lemma exp_small t : t <= 1 -> 0 <= exp t <= 3.
Proof. intros H. split; [left; apply exp_pos|]. apply Rle_trans with (exp 1); [destruct H as [H | ->]; [left; now apply exp_increasing|lra]|apply exp_le_3]. Qed.
Example C10_error_case : Rabs (fst (derivative_centered exp 0 (1 / 1000)) - 1) <= 5 / 10 ^ 7 /\
  Rabs (fst (derivative_complex (fun u v => exp u * cos v) (fun u v => exp u * sin v) 0) - 1) <= eps ^ 2 / 6 /\
  Rabs (jacobian_forward 1 (fun v r => exp (v 0%nat)) (fun _ => 0) None (fun _ => 1) None (fun _ _ => 0) 0%nat 0%nat - 1) <= 3 / 2 * sqrt eps.
Proof.
  assert (DE : forall t, D exp t (exp t)) by (intros t; apply (D_eq _ _ (exp t * 1)); [apply (D_exp (fun t => t)), D_id|ring]).
  split; [|split].
  - destruct (C10_centered_error exp 0 (1 / 1000)) as (k & K0 & K1 & _ & H). assert (EK : k = 1 / 1000) by (rewrite K1 by lra; rewrite Rabs_R0, Rabs_pos_eq by lra; field). subst k.
    destruct (H exp exp exp 3 3) as (A & _); [|rewrite exp_0 in A; eapply Rle_trans; [exact A|]; right; field].
    intros t Ht. rewrite Rminus_0_r in Ht. apply Rabs_le_between in Ht. pose proof (exp_small t ltac:(lra)). assert (Rabs (exp t) <= 3) by (apply Rabs_le_between; lra). split; [apply DE|]. split; [apply DE|]. split; [apply DE|]. split; assumption.
  - assert (DS : forall t, D (fun v => exp 0 * sin v) t (exp 0 * cos t)) by (intros t; apply D_scal, is_derive_sin).
    assert (DC : forall t, D (fun v => exp 0 * cos v) t (exp 0 * (- sin t))) by (intros t; apply D_scal; apply is_derive_cos).
    destruct (C10_complex_error (fun u v => exp u * cos v) (fun u v => exp u * sin v) 0 (fun v => exp 0 * cos v) (fun v => exp 0 * (- sin v)) (fun v => exp 0 * (- cos v)) (fun v => exp 0 * (- sin v)) (fun v => exp 0 * (- cos v)) 1 1) as (A & _).
    + rewrite sin_0; ring.
    + rewrite sin_0; ring.
    + rewrite sin_0; ring.
    + intros s _. rewrite exp_0 in *. assert (B : Rabs (1 * - cos s) <= 1) by (apply Rabs_le_between; pose proof (COS_bound s); lra).
      assert (DN : D (fun v => 1 * - sin v) s (1 * - cos s)) by (apply D_scal, D_opp, is_derive_sin).
      split; [apply DS|]. split; [apply DC|]. split; [exact DN|]. split; [exact B|]. split; [apply DC|]. split; [exact DN|exact B].
    + cbv beta in A. rewrite cos_0, exp_0, Rmult_1_r in A. eapply Rle_trans; [exact A|]. right. field.
  - destruct (C10_jacobian_error 1 (fun v r => exp (v 0%nat)) (fun _ => 0) (fun _ => 1) None (fun _ _ => 0) 0%nat 0%nat) as (h & Eh & Hh & H); [lia|intros; lra|].
    assert (EH : h = sqrt eps) by (rewrite Eh; cbn [noise]; rewrite Rabs_R0, Rabs_pos_eq, Rmax_right by lra; field).
    assert (L : sqrt eps <= 1) by (apply Rle_trans with (sqrt 1); [apply sqrt_le_1_alt|rewrite sqrt_1; lra]; unfold eps; rewrite <- Rinv_1; apply Rinv_le_contravar; [lra|apply pow_R1_Rle; lra]).
    rewrite <- EH in *. specialize (H exp exp 3). rewrite exp_0 in H. apply H.
    + intros s Hs. split; [|split; [apply DE|]].
      * cbn. apply (D_ext exp); [intros; f_equal; ring|apply DE].
      * pose proof (exp_small s ltac:(lra)). apply Rabs_le_between. lra.
    + intros u v E. now rewrite E.
Qed.
Example C11_error_case :
  (let '(H00, H01, H10, H11) := hessian2_centered (fun p => exp (fst p + snd p)) (0, 0) (1 / 1000) in Rabs (H00 - 1) <= 1 / 10 ^ 6 /\ Rabs (H01 - 1) <= 1 / 10 ^ 6 /\ Rabs (H11 - 1) <= 1 / 10 ^ 6) /\
  exists h, 0 < h /\ h ^ 3 = eps /\ forall i j, (i < 2)%nat -> (j < 2)%nat ->
    Rabs (hessian_forward 2 (fun v => exp (v 0%nat + v 1%nat)) (fun _ => 0) None (fun _ => 1) None (fun _ => 0) (fun _ => 0) (fun _ _ => 0) i j - 1) <= 8 * h.
Proof.
  assert (DE : forall c t, D (fun t => exp (c + t)) t (exp (c + t))) by (intros c t; apply (D_eq _ _ (exp (c + t) * (0 + 1))); [apply (D_exp (fun t => c + t)), D_plus; [apply D_const|apply D_id]|ring]).
  assert (DE' : forall c t, D (fun t => exp (t + c)) t (exp (t + c))) by (intros c t; apply (D_eq _ _ (exp (t + c) * (1 + 0))); [apply (D_exp (fun t => t + c)), D_plus; [apply D_id|apply D_const]|ring]).
  split.
  - destruct (C11_centered_error (fun p => exp (fst p + snd p)) 0 0 (1 / 1000)) as (k0 & k1 & _ & _ & E & _ & H). destruct E as (-> & ->); [lra|]. rewrite Rabs_R0, Rabs_pos_eq in H by lra.
    specialize (H (fun _ _ u v => exp (u + v)) 3 ltac:(reflexivity)). destruct (hessian2_centered (fun p => exp (fst p + snd p)) (0, 0) (1 / 1000)) as [[[H00 H01] H10] H11]. cbv beta in H. rewrite !Rplus_0_r, exp_0 in H.
    destruct H as (A & B & C & _).
    + intros i j u v Hu Hv. split; [intros _; split; [apply DE'|apply DE]|]. intros _. rewrite Rminus_0_r in Hu, Hv. apply Rabs_le_between in Hu. apply Rabs_le_between in Hv. pose proof (exp_small (u + v) ltac:(lra)). apply Rabs_le_between. lra.
    + split; [|split]; (eapply Rle_trans; [first [exact A|exact C|exact B]|]; right; field).
  - destruct (C11_forward_error 2 (fun v => exp (v 0%nat + v 1%nat)) (fun _ => 0) None (fun _ => 1) None (fun _ => 0) (fun _ => 0) (fun _ _ => 0)) as (h & EH & H1 & H2); [auto|intros; lra|].
    cbn in EH.
    assert (EQ : forall i, (i < 2)%nat -> 0 < h i /\ h i ^ 3 = eps) by (intros i Hi; destruct (EH i Hi) as (P & Q); split; [exact P|]; cbn [pow]; rewrite Q, Rabs_R0, Rabs_pos_eq, Rmax_right by lra; field).
    assert (E01 : h 1%nat = h 0%nat).
    { destruct (EQ 0%nat ltac:(lia)) as (P0 & Q0). destruct (EQ 1%nat ltac:(lia)) as (P1 & Q1). destruct (Rtotal_order (h 1%nat) (h 0%nat)) as [L|[L|L]]; [|exact L|]; exfalso.
      - assert (h 1%nat ^ 3 < h 0%nat ^ 3) by (apply Rlt_pow_l; lra). lra.
      - assert (h 0%nat ^ 3 < h 1%nat ^ 3) by (apply Rlt_pow_l; lra). lra. }
    destruct (EQ 0%nat ltac:(lia)) as (P0 & Q0). exists (h 0%nat). split; [exact P0|]. split; [exact Q0|].
    assert (L : h 0%nat <= 1 / 4).
    { apply Rnot_lt_le. intros L. assert ((1 / 4) ^ 3 <= h 0%nat ^ 3) by (apply pow_incr; lra). assert (eps <= / 2 ^ 7) by (unfold eps; apply Rinv_le_contravar; [apply pow_lt; lra|apply Rle_pow; [lra|lia]]). rewrite Q0 in H. lra. }
    assert (EX : forall s, s <= 1 -> Rabs (exp s) <= 3) by (intros s Hs; pose proof (exp_small s Hs); apply Rabs_le_between; lra).
    assert (W1 : forall i, (i < 2)%nat -> Rabs (hessian_forward 2 (fun v => exp (v 0%nat + v 1%nat)) (fun _ => 0) None (fun _ => 1) None (fun _ => 0) (fun _ => 0) (fun _ _ => 0) i i - 1) <= 3 * h i).
    { intros i Hi. specialize (H1 i exp exp exp 3 Hi). rewrite exp_0 in H1. apply H1. intros s Hs. assert (Bh : h i <= 1 / 4) by (destruct i as [|[|i]]; [exact L|rewrite E01; exact L|lia]).
      assert (DX : D exp s (exp s)) by (apply (D_ext (fun t => exp (0 + t))); [intros; f_equal; ring|apply (D_eq _ _ (exp (0 + s))); [apply DE|f_equal; ring]]).
      split; [|split; [exact DX|split; [exact DX|apply EX; lra]]].
      apply (D_ext exp); [|exact DX]. intros t. f_equal. destruct i as [|[|i]]; cbn; [ring|ring|lia]. }
    assert (W2 : forall i j, (i < 2)%nat -> (j < 2)%nat -> i <> j -> Rabs (hessian_forward 2 (fun v => exp (v 0%nat + v 1%nat)) (fun _ => 0) None (fun _ => 1) None (fun _ => 0) (fun _ => 0) (fun _ _ => 0) i j - 1) <= 3 / 2 * (h i + h j)).
    { intros i j Hi Hj Hij. specialize (H2 i j (fun _ _ s t => exp (s + t)) 3 Hi Hj Hij). cbv beta in H2. rewrite !Rplus_0_r, exp_0 in H2.
      assert (Bh : forall i, (i < 2)%nat -> h i <= 1 / 4) by (intros k Hk; destruct k as [|[|k]]; [exact L|rewrite E01; exact L|lia]).
      apply H2.
      - intros s t. f_equal. destruct i as [|[|i]], j as [|[|j]]; try lia; cbn; ring.
      - intros a b s t Hs Ht. split; [intros _; split; [apply DE'|apply DE]|intros _]. pose proof (Bh i Hi). pose proof (Bh j Hj). apply EX. lra. }
    intros i j Hi Hj. destruct (Nat.eq_dec i j) as [<- |Hij].
    + specialize (W1 i Hi). destruct i as [|[|i]]; [lra|rewrite E01 in W1; lra|lia].
    + specialize (W2 i j Hi Hj Hij). destruct i as [|[|i]], j as [|[|j]]; try lia; rewrite E01 in W2; lra.
Qed.
Print Assumptions C10_centered_error.
Print Assumptions C10_complex_error.
Print Assumptions C10_jacobian_error.
Print Assumptions C11_centered_error.
Print Assumptions C11_forward_error.
