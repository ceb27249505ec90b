(** Convergence of the Runge-Kutta integrator (src/polykin/math/derivatives/ode.py) with its nominal order, for general right-hand
    sides. *)
From Coq Require Import Reals Lra Lia List Bool Arith ZArith.
From Coquelicot Require Import Coquelicot.
From Verif Require Import Prelude RootsModel DiffModel DiffProps Deriv.
Open Scope R_scope.

(* ------------------------------------------------------------------ *)
(** * Taylor bounds                                                    *)
(* ------------------------------------------------------------------ *)

Lemma D_mono g g1 a b : a <= b -> (forall s, a <= s <= b -> D g s (g1 s)) -> (forall s, a <= s <= b -> 0 <= g1 s) -> g a <= g b.
Proof.
  intros H HD HP. destruct (MVT_gen g a b g1) as (c & Hc & E).
  - intros x Hx. rewrite Rmin_left, Rmax_right in Hx by lra. apply HD. lra.
  - intros x Hx. rewrite Rmin_left, Rmax_right in Hx by lra. apply continuity_pt_filterlim. apply (ex_derive_continuous (V := R_NormedModule)). exists (g1 x). apply HD. lra.
  - rewrite Rmin_left, Rmax_right in Hc by lra. assert (0 <= g1 c * (b - a)) by (apply Rmult_le_pos; [now apply HP|lra]). lra.
Qed.
Lemma D_powS n x : D (fun t => t ^ S n) x (INR (S n) * x ^ n).
Proof. apply (D_eq _ _ (INR (S n) * 1 * x ^ pred (S n))); [apply (is_derive_pow (fun t => t) (S n) x 1), (is_derive_id (K := R_AbsRing))|cbn [pred]; ring]. Qed.
Lemma grow g g1 h C k : 0 <= h -> g 0 = 0 -> (forall s, 0 <= s <= h -> D g s (g1 s)) -> (forall s, 0 <= s <= h -> Rabs (g1 s) <= C * s ^ k) ->
  Rabs (g h) <= C / INR (S k) * h ^ S k.
Proof.
  intros Hh G0 HD HB. assert (P : INR (S k) <> 0) by (apply not_0_INR; lia).
  assert (DP : forall s, D (fun t => C / INR (S k) * t ^ S k) s (C * s ^ k)).
  { intros s. apply (D_eq _ _ (C / INR (S k) * (INR (S k) * s ^ k))); [apply D_scal, D_powS|field; exact P]. }
  assert (A : forall sg, (sg = 1 \/ sg = -1) -> 0 <= C / INR (S k) * h ^ S k + sg * g h).
  { intros sg Hs. apply Rle_trans with (C / INR (S k) * 0 ^ S k + sg * g 0).
    - rewrite G0. cbn [pow]. lra.
    - apply (D_mono (fun s => C / INR (S k) * s ^ S k + sg * g s) (fun s => C * s ^ k + sg * g1 s)); [exact Hh| |].
      + intros s Hs'. apply D_plus; [apply DP|apply D_scal, HD, Hs'].
      + intros s Hs'. specialize (HB s Hs'). apply Rabs_le_between in HB. destruct Hs as [-> | ->]; lra. }
  apply Rabs_le_between. pose proof (A 1 ltac:(auto)). pose proof (A (-1) ltac:(auto)). lra.
Qed.
Lemma D_shift g t s l : D g (t + s) l -> D (fun u => g (t + u)) s l.
Proof. intros H. apply (D_eq _ _ (l * (0 + 1))); [apply (D_comp g (fun u => t + u)); [apply D_plus; [apply D_const|apply D_id]|exact H]|ring]. Qed.

Lemma D_lin1 c x : D (fun s => s * c) x c.
Proof. apply (D_eq _ _ (c * 1)); [|ring]. apply (D_ext (fun s => c * s)); [intros; ring|apply D_scal, D_id]. Qed.

Section Taylor.
Variables (Y : nat -> R -> R) (a b M : R).
Hypothesis HD : forall k t, (k <= 4)%nat -> a <= t <= b -> D (Y k) t (Y (S k) t).
Hypothesis HM : forall k t, (2 <= k <= 5)%nat -> a <= t <= b -> Rabs (Y k t) <= M.
Lemma tay1 k t h : (1 <= k <= 4)%nat -> a <= t -> 0 <= h -> t + h <= b -> Rabs (Y k (t + h) - Y k t) <= M * h.
Proof.
  intros Hk Ht Hh Hb. pose proof (grow (fun s => Y k (t + s) - Y k t) (fun s => Y (S k) (t + s)) h M 0 Hh) as G. cbn [pow INR] in G.
  replace (M * h) with (M / 1 * (h * 1)) by field. apply G; [rewrite Rplus_0_r; ring| |].
  - intros s Hs. apply (D_eq _ _ (Y (S k) (t + s) - 0)); [apply D_minus; [apply D_shift, HD; [lia|lra]|apply D_const]|ring].
  - intros s Hs. rewrite Rmult_1_r. apply HM; [lia|lra].
Qed.
Lemma tay2 k t h : (k <= 3)%nat -> a <= t -> 0 <= h -> t + h <= b -> Rabs (Y k (t + h) - Y k t - h * Y (S k) t) <= M / 2 * h ^ 2.
Proof.
  intros Hk Ht Hh Hb. apply (grow (fun s => Y k (t + s) - Y k t - s * Y (S k) t) (fun s => Y (S k) (t + s) - Y (S k) t) h M 1 Hh); [rewrite Rplus_0_r; ring| |].
  - intros s Hs. apply (D_eq _ _ (Y (S k) (t + s) - 0 - Y (S k) t)); [|ring]. apply D_minus; [apply D_minus; [apply D_shift, HD; [lia|lra]|apply D_const]|apply D_lin1].
  - intros s Hs. rewrite pow_1. apply tay1; [lia|lra..].
Qed.
Lemma tay3 k t h : (k <= 2)%nat -> a <= t -> 0 <= h -> t + h <= b -> Rabs (Y k (t + h) - Y k t - h * Y (S k) t - h ^ 2 / 2 * Y (S (S k)) t) <= M / 6 * h ^ 3.
Proof.
  intros Hk Ht Hh Hb. replace (M / 6) with (M / 2 / INR 3) by (cbn [INR]; field).
  apply (grow (fun s => Y k (t + s) - Y k t - s * Y (S k) t - s ^ 2 / 2 * Y (S (S k)) t) (fun s => Y (S k) (t + s) - Y (S k) t - s * Y (S (S k)) t) h (M / 2) 2 Hh); [rewrite Rplus_0_r; field| |].
  - intros s Hs. apply (D_eq _ _ (Y (S k) (t + s) - 0 - Y (S k) t - Y (S (S k)) t / 2 * (INR 2 * s ^ 1))); [|cbn [INR]; field].
    apply (D_ext (fun s => Y k (t + s) - Y k t - s * Y (S k) t - Y (S (S k)) t / 2 * s ^ 2)); [intros; field|].
    apply D_minus; [|apply D_scal, (D_powS 1)]. apply D_minus; [apply D_minus; [apply D_shift, HD; [lia|lra]|apply D_const]|apply D_lin1].
  - intros s Hs. apply tay2; [lia|lra..].
Qed.
Lemma tay4 k t h : (k <= 1)%nat -> a <= t -> 0 <= h -> t + h <= b ->
  Rabs (Y k (t + h) - Y k t - h * Y (S k) t - h ^ 2 / 2 * Y (S (S k)) t - h ^ 3 / 6 * Y (S (S (S k))) t) <= M / 24 * h ^ 4.
Proof.
  intros Hk Ht Hh Hb. replace (M / 24) with (M / 6 / INR 4) by (cbn [INR]; field).
  apply (grow (fun s => Y k (t + s) - Y k t - s * Y (S k) t - s ^ 2 / 2 * Y (S (S k)) t - s ^ 3 / 6 * Y (S (S (S k))) t)
    (fun s => Y (S k) (t + s) - Y (S k) t - s * Y (S (S k)) t - s ^ 2 / 2 * Y (S (S (S k))) t) h (M / 6) 3 Hh); [rewrite Rplus_0_r; field| |].
  - intros s Hs. apply (D_eq _ _ (Y (S k) (t + s) - 0 - Y (S k) t - Y (S (S k)) t / 2 * (INR 2 * s ^ 1) - Y (S (S (S k))) t / 6 * (INR 3 * s ^ 2))); [|cbn [INR]; field].
    apply (D_ext (fun s => Y k (t + s) - Y k t - s * Y (S k) t - Y (S (S k)) t / 2 * s ^ 2 - Y (S (S (S k))) t / 6 * s ^ 3)); [intros; field|].
    apply D_minus; [|apply D_scal, (D_powS 2)]. apply D_minus; [|apply D_scal, (D_powS 1)].
    apply D_minus; [apply D_minus; [apply D_shift, HD; [lia|lra]|apply D_const]|apply D_lin1].
  - intros s Hs. apply tay3; [lia|lra..].
Qed.
Lemma tay5 t h : a <= t -> 0 <= h -> t + h <= b ->
  Rabs (Y 0 (t + h) - Y 0 t - h * Y 1 t - h ^ 2 / 2 * Y 2 t - h ^ 3 / 6 * Y 3 t - h ^ 4 / 24 * Y 4 t) <= M / 120 * h ^ 5.
Proof.
  intros Ht Hh Hb. replace (M / 120) with (M / 24 / INR 5) by (cbn [INR]; field).
  apply (grow (fun s => Y 0 (t + s) - Y 0 t - s * Y 1 t - s ^ 2 / 2 * Y 2 t - s ^ 3 / 6 * Y 3 t - s ^ 4 / 24 * Y 4 t)
    (fun s => Y 1 (t + s) - Y 1 t - s * Y 2 t - s ^ 2 / 2 * Y 3 t - s ^ 3 / 6 * Y 4 t) h (M / 24) 4 Hh); [rewrite Rplus_0_r; field| |].
  - intros s Hs. apply (D_eq _ _ (Y 1%nat (t + s) - 0 - Y 1%nat t - Y 2%nat t / 2 * (INR 2 * s ^ 1) - Y 3%nat t / 6 * (INR 3 * s ^ 2) - Y 4%nat t / 24 * (INR 4 * s ^ 3))); [|cbn [INR]; field].
    apply (D_ext (fun s => Y 0%nat (t + s) - Y 0%nat t - s * Y 1%nat t - Y 2%nat t / 2 * s ^ 2 - Y 3%nat t / 6 * s ^ 3 - Y 4%nat t / 24 * s ^ 4)); [intros; field|].
    apply D_minus; [|apply D_scal, (D_powS 3)]. apply D_minus; [|apply D_scal, (D_powS 2)]. apply D_minus; [|apply D_scal, (D_powS 1)].
    apply D_minus; [apply D_minus; [apply D_shift, HD; [lia|lra]|apply D_const]|apply D_lin1].
  - intros s Hs. apply tay4; [lia|lra..].
Qed.
End Taylor.

(* ------------------------------------------------------------------ *)
(** * From the error of one step to the error of the integration      *)
(* ------------------------------------------------------------------ *)

Lemma global step (Y : R -> R) t0 tf y0 h n hf (y : nat -> R) K Lam p : 0 < h -> 0 <= K -> 0 <= Lam ->
  0 <= hf < h -> t0 + INR n * h + hf = tf -> y O = y0 -> (forall i, (i < n)%nat -> y (S i) = step (t0 + INR i * h) (y i) h) -> y0 = Y t0 ->
  (forall t s, t0 <= t -> 0 <= s <= h -> t + s <= tf -> Rabs (step t (Y t) s - Y (t + s)) <= K * s ^ S p) ->
  (forall t s u v, t0 <= t -> 0 <= s <= h -> t + s <= tf -> Rabs (step t u s - step t v s) <= (1 + Lam * s) * Rabs (u - v)) ->
  Rabs (step (t0 + INR n * h) (y n) hf - Y tf) <= K * h ^ p * ((tf - t0) * exp (Lam * (tf - t0))).
Proof.
  intros Hh HK HL Hf Et E0 ES EY HC HS.
  assert (ST : forall i s e, t0 <= t0 + INR i * h -> 0 <= s <= h -> t0 + INR i * h + s <= tf ->
    Rabs (e - Y (t0 + INR i * h)) <= K * h ^ p * (INR i * h * exp (Lam * (INR i * h))) ->
    Rabs (step (t0 + INR i * h) e s - Y (t0 + INR i * h + s)) <= K * h ^ p * ((INR i * h + s) * exp (Lam * (INR i * h + s)))).
  { intros i s e H0 H1 H2 HE. set (t := t0 + INR i * h) in *. assert (A := HC t s H0 H1 H2). assert (B := HS t s e (Y t) H0 H1 H2).
    replace (step t e s - Y (t + s)) with ((step t e s - step t (Y t) s) + (step t (Y t) s - Y (t + s))) by ring.
    eapply Rle_trans; [apply Rabs_triang|]. assert (X : 0 <= INR i * h) by (apply Rmult_le_pos; [apply pos_INR|lra]).
    assert (LS : 0 <= Lam * s) by (apply Rmult_le_pos; lra). assert (LX : 0 <= Lam * (INR i * h)) by (apply Rmult_le_pos; lra).
    assert (P : 0 <= h ^ p) by (apply pow_le; lra). assert (SP : K * s ^ S p <= K * h ^ p * s).
    { rewrite Rmult_assoc. apply Rmult_le_compat_l; [exact HK|]. cbn [pow]. rewrite Rmult_comm. apply Rmult_le_compat_r; [lra|]. apply pow_incr. lra. }
    assert (EX : 1 + Lam * s <= exp (Lam * s)) by apply exp_ineq1_le.
    assert (E1 : 1 <= exp (Lam * (INR i * h + s))) by (pose proof (exp_ineq1_le (Lam * (INR i * h + s))); rewrite Rmult_plus_distr_l in *; lra).
    replace (exp (Lam * (INR i * h + s))) with (exp (Lam * s) * exp (Lam * (INR i * h))) in * by (rewrite <- exp_plus; f_equal; ring).
    assert (F : (1 + Lam * s) * Rabs (e - Y t) <= exp (Lam * s) * (K * h ^ p * (INR i * h * exp (Lam * (INR i * h))))).
    { apply Rmult_le_compat; [lra|apply Rabs_pos|exact EX|exact HE]. }
    assert (G : K * h ^ p * s * 1 <= K * h ^ p * s * (exp (Lam * s) * exp (Lam * (INR i * h)))) by (apply Rmult_le_compat_l; [apply Rmult_le_pos; [apply Rmult_le_pos; auto|lra]|exact E1]).
    eapply Rle_trans; [apply Rplus_le_compat; [eapply Rle_trans; [exact B|exact F]|eapply Rle_trans; [exact A|exact SP]]|]. lra. }
  assert (IT : forall i, (i <= n)%nat -> Rabs (y i - Y (t0 + INR i * h)) <= K * h ^ p * (INR i * h * exp (Lam * (INR i * h)))).
  { induction i as [|i IH]; intros Hi.
    - cbn [INR]. rewrite E0, EY, Rmult_0_l, Rplus_0_r. replace (Y t0 - Y t0) with 0 by ring. rewrite Rabs_R0. lra.
    - rewrite ES by lia. rewrite S_INR. assert (N : INR (S i) <= INR n) by (apply le_INR; lia). rewrite S_INR in N. pose proof (pos_INR i).
      assert (Q : (INR i + 1) * h <= INR n * h) by (apply Rmult_le_compat_r; lra). assert (0 <= INR i * h) by (apply Rmult_le_pos; lra).
      replace (t0 + (INR i + 1) * h) with (t0 + INR i * h + h) by ring. replace ((INR i + 1) * h) with (INR i * h + h) by ring.
      apply ST; [lra|lra|lra|apply IH; lia]. }
  assert (0 <= INR n * h) by (apply Rmult_le_pos; [apply pos_INR|lra]).
  replace (tf - t0) with (INR n * h + hf) by lra. rewrite <- Et. apply ST; [lra|lra|lra|apply IT; lia].
Qed.

(* ------------------------------------------------------------------ *)
(** * Orders 1 and 2                                                   *)
(* ------------------------------------------------------------------ *)

Lemma lip_step1 (f : R -> R -> R) L t u v s : Rabs (f t u - f t v) <= L * Rabs (u - v) -> 0 <= s -> Rabs (u + s * f t u - (v + s * f t v)) <= (1 + L * s) * Rabs (u - v).
Proof.
  intros H Hs. replace (u + s * f t u - (v + s * f t v)) with ((u - v) + s * (f t u - f t v)) by ring.
  eapply Rle_trans; [apply Rabs_triang|]. rewrite Rabs_mult, (Rabs_pos_eq s) by exact Hs. assert (s * Rabs (f t u - f t v) <= s * (L * Rabs (u - v))) by (apply Rmult_le_compat_l; auto). lra.
Qed.
(** Euler's method: for a right-hand side with Lipschitz constant L and a solution with |y''| <= M *)
Theorem C13_converges_order1 f (Y Y1 Y2 : R -> R) t0 tf h L M : 0 < h -> t0 <= tf -> 0 <= L ->
  (forall t, t0 <= t <= tf -> D Y t (Y1 t) /\ D Y1 t (Y2 t) /\ Y1 t = f t (Y t) /\ Rabs (Y2 t) <= M) ->
  (forall t u v, t0 <= t <= tf -> Rabs (f t u - f t v) <= L * Rabs (u - v)) ->
  exists y, ode_rk f t0 tf (Y t0) h 1 = Ok y /\ Rabs (y - Y tf) <= M / 2 * h * ((tf - t0) * exp (L * (tf - t0))).
Proof.
  intros Hh Ht HL HY HF. assert (M0 : 0 <= M) by (destruct (HY t0) as (_ & _ & _ & B); [lra|]; pose proof (Rabs_pos (Y2 t0)); lra).
  destruct (C13_covers_interval f t0 tf (Y t0) h 1 _ ltac:(left; split; reflexivity) Hh Ht) as (n & hf & y & Hf & Et & E0 & ES & E). cbv beta in *.
  eexists. split; [exact E|]. replace (M / 2 * h) with (M / 2 * h ^ 1) by ring.
  apply (global (fun t y h => y + h * f t y) Y t0 tf (Y t0) h n hf y (M / 2) L 1); auto; try lra.
  - intros t s H0 H1 H2. destruct (HY t) as (_ & _ & <- & _); [lra|]. replace (Y t + s * Y1 t - Y (t + s)) with (- (Y (t + s) - Y t - s * Y1 t)) by ring. rewrite Rabs_Ropp.
    apply (grow (fun s => Y (t + s) - Y t - s * Y1 t) (fun s => Y1 (t + s) - Y1 t) s M 1); [lra|rewrite Rplus_0_r; ring| |].
    + intros x Hx. apply (D_eq _ _ (Y1 (t + x) - 0 - Y1 t)); [|ring]. apply D_minus; [apply D_minus; [apply D_shift, HY; lra|apply D_const]|apply D_lin1].
    + intros x Hx. rewrite pow_1. pose proof (grow (fun s => Y1 (t + s) - Y1 t) (fun s => Y2 (t + s)) x M 0 ltac:(lra)) as G. cbn [pow INR] in G. replace (M * x) with (M / 1 * (x * 1)) by field.
      apply G; [rewrite Rplus_0_r; ring| |].
      * intros z Hz. apply (D_eq _ _ (Y2 (t + z) - 0)); [|ring]. apply D_minus; [apply D_shift, HY; lra|apply D_const].
      * intros z Hz. rewrite Rmult_1_r. apply HY. lra.
  - intros t s u v H0 H1 H2. apply lip_step1; [apply HF; lra|lra].
Qed.
(** midpoint method: with |y''| <= M2 and |y'''| <= M3 *)
Theorem C13_converges_order2 f (Y Y1 Y2 Y3 : R -> R) t0 tf h L M2 M3 : 0 < h -> t0 <= tf -> 0 <= L ->
  (forall t, t0 <= t <= tf -> D Y t (Y1 t) /\ D Y1 t (Y2 t) /\ D Y2 t (Y3 t) /\ Y1 t = f t (Y t) /\ Rabs (Y2 t) <= M2 /\ Rabs (Y3 t) <= M3) ->
  (forall t u v, t0 <= t <= tf -> Rabs (f t u - f t v) <= L * Rabs (u - v)) ->
  exists y, ode_rk f t0 tf (Y t0) h 2 = Ok y /\
    Rabs (y - Y tf) <= (7 * M3 / 24 + L * M2 / 8) * h ^ 2 * ((tf - t0) * exp (L * (1 + L * h / 2) * (tf - t0))).
Proof.
  intros Hh Ht HL HY HF. assert (M0 : 0 <= M2 /\ 0 <= M3) by (destruct (HY t0) as (_ & _ & _ & _ & B & C); [lra|]; pose proof (Rabs_pos (Y2 t0)); pose proof (Rabs_pos (Y3 t0)); lra).
  destruct (C13_covers_interval f t0 tf (Y t0) h 2 _ ltac:(right; left; split; reflexivity) Hh Ht) as (n & hf & y & Hf & Et & E0 & ES & E). cbv beta in *.
  assert (LL : 0 <= L * L) by (apply Rmult_le_pos; auto). assert (LM : 0 <= L * M2) by (apply Rmult_le_pos; tauto).
  eexists. split; [exact E|].
  apply (global (fun t y h => y + h * f (t + h / 2) (y + h / 2 * f t y)) Y t0 tf (Y t0) h n hf y (7 * M3 / 24 + L * M2 / 8) (L * (1 + L * h / 2)) 2); auto; try lra.
  - apply Rmult_le_pos; [exact HL|]. assert (0 <= L * h) by (apply Rmult_le_pos; lra). lra.
  - intros t s H0 H1 H2. destruct (HY t) as (_ & _ & _ & <- & _); [lra|].
    assert (T1 : forall k x, 0 <= k -> t <= x -> x + k <= t + s -> Rabs (Y1 (x + k) - Y1 x - k * Y2 x) <= M3 / 2 * k ^ 2 /\ Rabs (Y (x + k) - Y x - k * Y1 x) <= M2 / 2 * k ^ 2 /\ Rabs (Y (x + k) - Y x - k * Y1 x - k ^ 2 / 2 * Y2 x) <= M3 / 6 * k ^ 3).
    { intros k x Hk Hx Hxk.
      assert (A : forall g g1 g2 MM, (forall z, x <= z <= x + k -> D g z (g1 z) /\ D g1 z (g2 z) /\ Rabs (g2 z) <= MM) -> forall q, 0 <= q <= k -> Rabs (g (x + q) - g x - q * g1 x) <= MM / 2 * q ^ 2).
      { intros g g1 g2 MM HG q Hq. apply (grow (fun s => g (x + s) - g x - s * g1 x) (fun s => g1 (x + s) - g1 x) q MM 1); [lra|rewrite Rplus_0_r; ring| |].
        - intros z Hz. apply (D_eq _ _ (g1 (x + z) - 0 - g1 x)); [|ring]. apply D_minus; [apply D_minus; [apply D_shift, HG; lra|apply D_const]|apply D_lin1].
        - intros z Hz. rewrite pow_1. pose proof (grow (fun s => g1 (x + s) - g1 x) (fun s => g2 (x + s)) z MM 0 ltac:(lra)) as G. cbn [pow INR] in G. replace (MM * z) with (MM / 1 * (z * 1)) by field.
          apply G; [rewrite Rplus_0_r; ring| |].
          + intros w Hw. apply (D_eq _ _ (g2 (x + w) - 0)); [|ring]. apply D_minus; [apply D_shift, HG; lra|apply D_const].
          + intros w Hw. rewrite Rmult_1_r. apply HG. lra. }
      assert (B1 : forall q, 0 <= q <= k -> Rabs (Y1 (x + q) - Y1 x - q * Y2 x) <= M3 / 2 * q ^ 2) by (apply (A Y1 Y2 Y3 M3); intros z Hz; destruct (HY z) as (_ & a1 & a2 & _ & _ & a3); [lra|auto]).
      split; [apply B1; lra|]. split; [apply (A Y Y1 Y2 M2); [intros z Hz; destruct (HY z) as (a1 & a2 & _ & _ & a3 & _); [lra|auto]|lra]|].
      replace (M3 / 6) with (M3 / 2 / INR 3) by (cbn [INR]; field).
      apply (grow (fun s => Y (x + s) - Y x - s * Y1 x - s ^ 2 / 2 * Y2 x) (fun s => Y1 (x + s) - Y1 x - s * Y2 x) k (M3 / 2) 2 Hk); [rewrite Rplus_0_r; field| |].
      - intros z Hz. apply (D_eq _ _ (Y1 (x + z) - 0 - Y1 x - Y2 x / 2 * (INR 2 * z ^ 1))); [|cbn [INR]; field].
        apply (D_ext (fun s => Y (x + s) - Y x - s * Y1 x - Y2 x / 2 * s ^ 2)); [intros; field|]. apply D_minus; [|apply D_scal, (D_powS 1)].
        apply D_minus; [apply D_minus; [apply D_shift, HY; lra|apply D_const]|apply D_lin1].
      - intros z Hz. apply B1. lra. }
    destruct (T1 (s / 2) t) as (A1 & A2 & _); [lra..|]. destruct (T1 s t) as (_ & _ & A3); [lra..|].
    set (m := t + s / 2) in *. destruct (HY m) as (_ & _ & _ & Em & _); [unfold m; lra|].
    assert (B : Rabs (f m (Y t + s / 2 * Y1 t) - f m (Y m)) <= L * (M2 / 2 * (s / 2) ^ 2)).
    { eapply Rle_trans; [apply HF; unfold m; lra|]. apply Rmult_le_compat_l; [exact HL|]. replace (Y t + s / 2 * Y1 t - Y m) with (- (Y m - Y t - s / 2 * Y1 t)) by ring. now rewrite Rabs_Ropp. }
    replace (Y t + s * f m (Y t + s / 2 * Y1 t) - Y (t + s)) with
      (s * (f m (Y t + s / 2 * Y1 t) - f m (Y m)) + s * (Y1 m - Y1 t - s / 2 * Y2 t) - (Y (t + s) - Y t - s * Y1 t - s ^ 2 / 2 * Y2 t)) by (rewrite Em; field).
    unfold Rminus at 1. eapply Rle_trans; [apply Rabs_triang|]. rewrite Rabs_Ropp.
    assert (C1 := Rabs_triang (s * (f m (Y t + s / 2 * Y1 t) - f m (Y m))) (s * (Y1 m - Y1 t - s / 2 * Y2 t))). rewrite !Rabs_mult, (Rabs_pos_eq s) in C1 by lra.
    assert (C2 : s * Rabs (f m (Y t + s / 2 * Y1 t) - f m (Y m)) <= s * (L * (M2 / 2 * (s / 2) ^ 2))) by (apply Rmult_le_compat_l; [lra|exact B]).
    assert (C3 : s * Rabs (Y1 m - Y1 t - s / 2 * Y2 t) <= s * (M3 / 2 * (s / 2) ^ 2)) by (apply Rmult_le_compat_l; [lra|exact A1]).
    replace ((7 * M3 / 24 + L * M2 / 8) * s ^ 3) with (s * (L * (M2 / 2 * (s / 2) ^ 2)) + s * (M3 / 2 * (s / 2) ^ 2) + M3 / 6 * s ^ 3) by field. lra.
  - intros t s u v H0 H1 H2. assert (P1 : Rabs (u + s / 2 * f t u - (v + s / 2 * f t v)) <= (1 + L * (s / 2)) * Rabs (u - v)) by (apply lip_step1; [apply HF; lra|lra]).
    set (m := t + s / 2) in *. assert (P2 : Rabs (f m (u + s / 2 * f t u) - f m (v + s / 2 * f t v)) <= L * ((1 + L * (s / 2)) * Rabs (u - v))) by (eapply Rle_trans; [apply HF; unfold m; lra|apply Rmult_le_compat_l; auto]).
    replace (u + s * f m (u + s / 2 * f t u) - (v + s * f m (v + s / 2 * f t v))) with ((u - v) + s * (f m (u + s / 2 * f t u) - f m (v + s / 2 * f t v))) by ring.
    eapply Rle_trans; [apply Rabs_triang|]. rewrite Rabs_mult, (Rabs_pos_eq s) by lra.
    assert (P3 : s * Rabs (f m (u + s / 2 * f t u) - f m (v + s / 2 * f t v)) <= s * (L * ((1 + L * (s / 2)) * Rabs (u - v)))) by (apply Rmult_le_compat_l; [lra|exact P2]).
    assert (P4 : 0 <= L * L * (s * (h - s) / 2) * Rabs (u - v)) by (apply Rmult_le_pos; [apply Rmult_le_pos; [exact LL|]|apply Rabs_pos]; assert (0 <= s * (h - s)) by (apply Rmult_le_pos; lra); lra).
    lra.
Qed.

(* ------------------------------------------------------------------ *)
(** * Order 4                                                          *)
(* ------------------------------------------------------------------ *)

Section Four.
Variables (f : R -> R -> R) (Y : nat -> R -> R) (J : R -> R) (t0 tf L B M : R).
Hypothesis HD : forall k t, (k <= 4)%nat -> t0 <= t <= tf -> D (Y k) t (Y (S k) t).
Hypothesis HM : forall k t, (2 <= k <= 5)%nat -> t0 <= t <= tf -> Rabs (Y k t) <= M.
Hypothesis HE : forall t, t0 <= t <= tf -> Y 1%nat t = f t (Y 0%nat t).
Hypothesis HL : forall t u v, t0 <= t <= tf -> Rabs (f t u - f t v) <= L * Rabs (u - v).
Hypothesis HJ : forall t e, t0 <= t <= tf -> Rabs (f t (Y 0%nat t + e) - f t (Y 0%nat t) - J t * e) <= B * e ^ 2.
Hypothesis HJL : forall s t, t0 <= s <= tf -> t0 <= t <= tf -> Rabs (J s - J t) <= B * Rabs (s - t).
Hypothesis L0 : 0 <= L.
Hypothesis B0 : 0 <= B.
Hypothesis M0 : 0 <= M.

(** functions of order h^k, uniformly in t *)
Definition OO (k : nat) (g : R -> R -> R) : Prop := exists C, 0 <= C /\ forall t h, t0 <= t -> 0 <= h <= 1 -> t + h <= tf -> Rabs (g t h) <= C * h ^ k.
Lemma OO_ext k g g' : (forall t h, t0 <= t -> 0 <= h <= 1 -> t + h <= tf -> g t h = g' t h) -> OO k g -> OO k g'.
Proof. intros E (C & H0 & H). exists C. split; [exact H0|]. intros t h A1 A2 A3. rewrite <- E by auto. now apply H. Qed.
Lemma OO_plus k g g' : OO k g -> OO k g' -> OO k (fun t h => g t h + g' t h).
Proof.
  intros (C & H0 & H) (C' & H0' & H'). exists (C + C'). split; [lra|]. intros t h A1 A2 A3. eapply Rle_trans; [apply Rabs_triang|]. specialize (H t h A1 A2 A3). specialize (H' t h A1 A2 A3). lra.
Qed.
Lemma OO_mult k l g g' : OO k g -> OO l g' -> OO (k + l) (fun t h => g t h * g' t h).
Proof.
  intros (C & H0 & H) (C' & H0' & H'). exists (C * C'). split; [now apply Rmult_le_pos|]. intros t h A1 A2 A3. rewrite Rabs_mult, pow_add.
  replace (C * C' * (h ^ k * h ^ l)) with ((C * h ^ k) * (C' * h ^ l)) by ring. apply Rmult_le_compat; [apply Rabs_pos|apply Rabs_pos|now apply H|now apply H'].
Qed.
Lemma OO_w k l g : (l <= k)%nat -> OO k g -> OO l g.
Proof.
  intros Hk (C & H0 & H). exists C. split; [exact H0|]. intros t h A1 A2 A3. eapply Rle_trans; [now apply H|]. apply Rmult_le_compat_l; [exact H0|].
  replace k with (l + (k - l))%nat by lia. rewrite pow_add. assert (P : 0 <= h ^ l) by (apply pow_le; lra). assert (Q : h ^ (k - l) <= 1) by (rewrite <- (pow1 (k - l)); apply pow_incr; lra).
  rewrite <- (Rmult_1_r (h ^ l)) at 2. now apply Rmult_le_compat_l.
Qed.
Lemma OO_dom k c g g' : 0 <= c -> (forall t h, t0 <= t -> 0 <= h <= 1 -> t + h <= tf -> Rabs (g t h) <= c * Rabs (g' t h)) -> OO k g' -> OO k g.
Proof.
  intros Hc E (C & H0 & H). exists (c * C). split; [now apply Rmult_le_pos|]. intros t h A1 A2 A3. eapply Rle_trans; [now apply E|]. rewrite Rmult_assoc. apply Rmult_le_compat_l; [exact Hc|now apply H].
Qed.
Lemma OO_c c : OO 0 (fun _ _ => c).
Proof. exists (Rabs c). split; [apply Rabs_pos|]. intros. cbn [pow]. lra. Qed.
Lemma OO_h : OO 1 (fun _ h => h).
Proof. exists 1. split; [lra|]. intros t h _ Hh _. rewrite Rabs_pos_eq by lra. lra. Qed.
Lemma OO_hk k : OO k (fun _ h => h ^ k).
Proof. exists 1. split; [lra|]. intros t h _ Hh _. rewrite Rabs_pos_eq by (apply pow_le; lra). lra. Qed.
Lemma OO_Y k : (2 <= k <= 5)%nat -> OO 0 (fun t _ => Y k t).
Proof. intros Hk. exists M. split; [exact M0|]. intros t h A1 A2 A3. cbn [pow]. rewrite Rmult_1_r. apply HM; [exact Hk|lra]. Qed.
Lemma OO_scal k c g : OO k g -> OO k (fun t h => c * g t h).
Proof. intros H. apply (OO_mult 0 k _ _ (OO_c c) H). Qed.
Lemma OO_hkY k l c : (2 <= l <= 5)%nat -> OO k (fun t h => c * h ^ k * Y l t).
Proof. intros Hl. replace k with (k + 0)%nat at 1 by lia. apply (OO_mult k 0 (fun _ h => c * h ^ k)); [apply OO_scal, OO_hk|now apply OO_Y]. Qed.

Let m (t h : R) := t + h / 2.
Let Jm t h := J (m t h).
Let e2 t h := Y 0%nat t + h / 2 * Y 1%nat t - Y 0%nat (m t h).
Let d2 t h := f (m t h) (Y 0%nat t + h / 2 * Y 1%nat t) - Y 1%nat (m t h).
Let e3 t h := Y 0%nat t + h / 2 * (Y 1%nat (m t h) + d2 t h) - Y 0%nat (m t h).
Let d3 t h := f (m t h) (Y 0%nat t + h / 2 * (Y 1%nat (m t h) + d2 t h)) - Y 1%nat (m t h).
Let e4 t h := Y 0%nat t + h * (Y 1%nat (m t h) + d3 t h) - Y 0%nat (t + h).
Let d4 t h := f (t + h) (Y 0%nat t + h * (Y 1%nat (m t h) + d3 t h)) - Y 1%nat (t + h).

Lemma OO_J (u : R -> R -> R) : (forall t h, t0 <= t -> 0 <= h <= 1 -> t + h <= tf -> t0 <= u t h <= tf) -> OO 0 (fun t h => J (u t h)).
Proof.
  intros Hu. exists (B + L). split; [lra|]. intros t h A1 A2 A3. cbn [pow]. rewrite Rmult_1_r. specialize (Hu t h A1 A2 A3). pose proof (HJ (u t h) 1 Hu) as E. pose proof (HL (u t h) (Y 0%nat (u t h) + 1) (Y 0%nat (u t h)) Hu) as F.
  replace (Y 0%nat (u t h) + 1 - Y 0%nat (u t h)) with 1 in F by ring. rewrite Rabs_R1 in F. set (j := J (u t h)) in *. set (w := f (u t h) (Y 0%nat (u t h) + 1) - f (u t h) (Y 0%nat (u t h))) in *.
  apply Rabs_le_between in E. apply Rabs_le_between in F. apply Rabs_le_between. lra.
Qed.
Lemma OO_Jm : OO 0 Jm.
Proof. apply (OO_J m). intros t h A1 A2 A3. unfold m. lra. Qed.
(** a perturbed argument: first and second order *)
Lemma OO_pert k (u e : R -> R -> R) : (forall t h, t0 <= t -> 0 <= h <= 1 -> t + h <= tf -> t0 <= u t h <= tf) -> OO k e ->
  OO k (fun t h => f (u t h) (Y 0%nat (u t h) + e t h) - Y 1%nat (u t h)) /\ OO (k + k) (fun t h => f (u t h) (Y 0%nat (u t h) + e t h) - Y 1%nat (u t h) - J (u t h) * e t h).
Proof.
  intros Hu He. split.
  - apply (OO_dom k L _ e L0); [|exact He]. intros t h A1 A2 A3. rewrite HE by auto. replace (e t h) with (Y 0%nat (u t h) + e t h - Y 0%nat (u t h)) at 2 by ring. apply HL. auto.
  - apply (OO_dom (k + k) B _ (fun t h => e t h * e t h) B0); [|now apply OO_mult]. intros t h A1 A2 A3. rewrite HE by auto. eapply Rle_trans; [apply HJ; auto|]. apply Rmult_le_compat_l; [exact B0|].
    rewrite (Rabs_pos_eq (e t h * e t h)) by apply Rle_0_sqr. simpl. lra.
Qed.
Ltac rng := intros t h A1 A2 A3; unfold m; lra.
Lemma OO_t4 : OO 4 (fun t h => Y 0%nat (m t h) - Y 0%nat t - h / 2 * Y 1%nat t - h ^ 2 / 8 * Y 2%nat t - h ^ 3 / 48 * Y 3%nat t).
Proof.
  exists (M / 24 / 16). split; [lra|]. intros t h A1 A2 A3. pose proof (tay4 Y t0 tf M HD HM 0 t (h / 2) ltac:(lia) A1 ltac:(lra) ltac:(lra)) as E. fold (m t h) in E.
  replace (M / 24 * (h / 2) ^ 4) with (M / 24 / 16 * h ^ 4) in E by field. eapply Rle_trans; [|exact E]. right. f_equal. field.
Qed.
Lemma OO_t4' : OO 4 (fun t h => Y 0%nat (t + h) - Y 0%nat t - h * Y 1%nat t - h ^ 2 / 2 * Y 2%nat t - h ^ 3 / 6 * Y 3%nat t).
Proof. exists (M / 24). split; [lra|]. intros t h A1 A2 A3. apply (tay4 Y t0 tf M HD HM 0 t h); [lia|lra..]. Qed.
Lemma OO_t3 : OO 3 (fun t h => Y 1%nat (m t h) - Y 1%nat t - h / 2 * Y 2%nat t - h ^ 2 / 8 * Y 3%nat t).
Proof.
  exists (M / 6 / 8). split; [lra|]. intros t h A1 A2 A3. pose proof (tay3 Y t0 tf M HD HM 1 t (h / 2) ltac:(lia) A1 ltac:(lra) ltac:(lra)) as E. fold (m t h) in E.
  replace (M / 6 * (h / 2) ^ 3) with (M / 6 / 8 * h ^ 3) in E by field. eapply Rle_trans; [|exact E]. right. f_equal. field.
Qed.
Lemma OO_e2 : OO 4 (fun t h => e2 t h + h ^ 2 / 8 * Y 2%nat t + h ^ 3 / 48 * Y 3%nat t) /\ OO 2 e2.
Proof.
  assert (F1 : OO 4 (fun t h => e2 t h + h ^ 2 / 8 * Y 2%nat t + h ^ 3 / 48 * Y 3%nat t)) by (eapply OO_ext; [|exact (OO_scal 4 (-1) _ OO_t4)]; intros t h _ _ _; unfold e2; ring).
  split; [exact F1|]. apply (OO_ext 2 (fun t h => (e2 t h + h ^ 2 / 8 * Y 2%nat t + h ^ 3 / 48 * Y 3%nat t) + (- / 8 * h ^ 2 * Y 2%nat t + - / 48 * h ^ 3 * Y 3%nat t))); [intros; field|].
  apply OO_plus; [apply (OO_w 4); [lia|exact F1]|]. apply OO_plus; [apply OO_hkY; lia|]. apply (OO_w 3); [lia|]. apply OO_hkY; lia.
Qed.
Lemma OO_d2 : OO 2 d2 /\ OO 4 (fun t h => d2 t h - Jm t h * e2 t h).
Proof.
  destruct (OO_pert 2 m e2 ltac:(rng) (proj2 OO_e2)) as (A & B'). split; (eapply OO_ext; [|first [exact A|exact B']]); intros t h _ _ _; unfold d2, e2, Jm; repeat (f_equal; try ring).
Qed.
Lemma OO_e3 : OO 4 (fun t h => e3 t h - h ^ 2 / 8 * Y 2%nat t - h ^ 3 / 24 * Y 3%nat t + h ^ 3 / 16 * Jm t h * Y 2%nat t) /\ OO 2 e3.
Proof.
  assert (F : OO 4 (fun t h => e3 t h - h ^ 2 / 8 * Y 2%nat t - h ^ 3 / 24 * Y 3%nat t + h ^ 3 / 16 * Jm t h * Y 2%nat t)).
  { apply (OO_ext 4 (fun t h => -1 * (Y 0%nat (m t h) - Y 0%nat t - h / 2 * Y 1%nat t - h ^ 2 / 8 * Y 2%nat t - h ^ 3 / 48 * Y 3%nat t)
      + (/ 2 * (h * (Y 1%nat (m t h) - Y 1%nat t - h / 2 * Y 2%nat t - h ^ 2 / 8 * Y 3%nat t)) + (/ 2 * (h * (d2 t h - Jm t h * e2 t h)) + / 2 * (h * (Jm t h * (e2 t h + h ^ 2 / 8 * Y 2%nat t))))))).
    - intros t h _ _ _. unfold e3. field.
    - apply OO_plus; [apply OO_scal, OO_t4|]. apply OO_plus; [apply OO_scal, (OO_mult 1 3 _ _ OO_h OO_t3)|]. apply OO_plus; apply OO_scal.
      + apply (OO_w 5); [lia|]. apply (OO_mult 1 4 _ _ OO_h (proj2 OO_d2)).
      + apply (OO_mult 1 3 _ _ OO_h). apply (OO_mult 0 3 _ _ OO_Jm). apply (OO_ext 3 (fun t h => (e2 t h + h ^ 2 / 8 * Y 2%nat t + h ^ 3 / 48 * Y 3%nat t) + - / 48 * h ^ 3 * Y 3%nat t)); [intros; field|].
        apply OO_plus; [apply (OO_w 4); [lia|exact (proj1 OO_e2)]|apply OO_hkY; lia]. }
  split; [exact F|]. apply (OO_ext 2 (fun t h => (e3 t h - h ^ 2 / 8 * Y 2%nat t - h ^ 3 / 24 * Y 3%nat t + h ^ 3 / 16 * Jm t h * Y 2%nat t) + (/ 8 * h ^ 2 * Y 2%nat t + (/ 24 * h ^ 3 * Y 3%nat t + (- / 16 * h ^ 3 * Y 2%nat t) * Jm t h)))); [intros; field|].
  apply OO_plus; [apply (OO_w 4); [lia|exact F]|]. apply OO_plus; [apply OO_hkY; lia|]. apply (OO_w 3); [lia|]. apply OO_plus; [apply OO_hkY; lia|]. apply (OO_mult 3 0); [apply OO_hkY; lia|exact OO_Jm].
Qed.
Lemma OO_d3 : OO 2 d3 /\ OO 4 (fun t h => d3 t h - Jm t h * e3 t h).
Proof.
  destruct (OO_pert 2 m e3 ltac:(rng) (proj2 OO_e3)) as (A & B'). split; (eapply OO_ext; [|first [exact A|exact B']]); intros t h _ _ _; unfold d3, e3, Jm; repeat (f_equal; try ring).
Qed.
Lemma OO_e4 : OO 4 (fun t h => e4 t h + h ^ 3 / 24 * Y 3%nat t - h ^ 3 / 8 * Jm t h * Y 2%nat t) /\ OO 3 e4.
Proof.
  assert (F : OO 4 (fun t h => e4 t h + h ^ 3 / 24 * Y 3%nat t - h ^ 3 / 8 * Jm t h * Y 2%nat t)).
  { apply (OO_ext 4 (fun t h => -1 * (Y 0%nat (t + h) - Y 0%nat t - h * Y 1%nat t - h ^ 2 / 2 * Y 2%nat t - h ^ 3 / 6 * Y 3%nat t)
      + (h * (Y 1%nat (m t h) - Y 1%nat t - h / 2 * Y 2%nat t - h ^ 2 / 8 * Y 3%nat t) + (h * (d3 t h - Jm t h * e3 t h) + h * (Jm t h * (e3 t h - h ^ 2 / 8 * Y 2%nat t)))))).
    - intros t h _ _ _. unfold e4. field.
    - apply OO_plus; [apply OO_scal, OO_t4'|]. apply OO_plus; [apply (OO_mult 1 3 _ _ OO_h OO_t3)|]. apply OO_plus.
      + apply (OO_w 5); [lia|]. apply (OO_mult 1 4 _ _ OO_h (proj2 OO_d3)).
      + apply (OO_mult 1 3 _ _ OO_h). apply (OO_mult 0 3 _ _ OO_Jm).
        apply (OO_ext 3 (fun t h => (e3 t h - h ^ 2 / 8 * Y 2%nat t - h ^ 3 / 24 * Y 3%nat t + h ^ 3 / 16 * Jm t h * Y 2%nat t) + (/ 24 * h ^ 3 * Y 3%nat t + (- / 16 * h ^ 3 * Y 2%nat t) * Jm t h))); [intros; field|].
        apply OO_plus; [apply (OO_w 4); [lia|exact (proj1 OO_e3)]|]. apply OO_plus; [apply OO_hkY; lia|]. apply (OO_mult 3 0); [apply OO_hkY; lia|exact OO_Jm]. }
  split; [exact F|]. apply (OO_ext 3 (fun t h => (e4 t h + h ^ 3 / 24 * Y 3%nat t - h ^ 3 / 8 * Jm t h * Y 2%nat t) + (- / 24 * h ^ 3 * Y 3%nat t + (/ 8 * h ^ 3 * Y 2%nat t) * Jm t h))); [intros; field|].
  apply OO_plus; [apply (OO_w 4); [lia|exact F]|]. apply OO_plus; [apply OO_hkY; lia|]. apply (OO_mult 3 0); [apply OO_hkY; lia|exact OO_Jm].
Qed.
Lemma OO_d4 : OO 4 (fun t h => d4 t h - J (t + h) * e4 t h) /\ OO 4 (fun t h => (J (t + h) - Jm t h) * e4 t h).
Proof.
  split.
  - destruct (OO_pert 3 (fun t h => t + h) e4 ltac:(rng) (proj2 OO_e4)) as (_ & B'). apply (OO_w 6); [lia|]. eapply OO_ext; [|exact B']. intros t h _ _ _. unfold d4, e4. repeat (f_equal; try ring).
  - apply (OO_mult 1 3); [|exact (proj2 OO_e4)]. apply (OO_dom 1 B _ (fun _ h => / 2 * h) B0); [|apply OO_scal, OO_h]. intros t h A1 A2 A3. unfold Jm, m. eapply Rle_trans; [apply HJL; lra|]. right. f_equal. f_equal. field.
Qed.
Lemma OO_simpson : OO 5 (fun t h => Y 0%nat t + h / 6 * (Y 1%nat t + 4 * Y 1%nat (m t h) + Y 1%nat (t + h)) - Y 0%nat (t + h)).
Proof.
  assert (T5 : OO 5 (fun t h => Y 0%nat (t + h) - Y 0%nat t - h * Y 1%nat t - h ^ 2 / 2 * Y 2%nat t - h ^ 3 / 6 * Y 3%nat t - h ^ 4 / 24 * Y 4%nat t)) by (exists (M / 120); split; [lra|]; intros t h A1 A2 A3; apply (tay5 Y t0 tf M HD HM t h); lra).
  assert (T4 : OO 4 (fun t h => Y 1%nat (t + h) - Y 1%nat t - h * Y 2%nat t - h ^ 2 / 2 * Y 3%nat t - h ^ 3 / 6 * Y 4%nat t)) by (exists (M / 24); split; [lra|]; intros t h A1 A2 A3; apply (tay4 Y t0 tf M HD HM 1 t h); [lia|lra..]).
  assert (T4m : OO 4 (fun t h => Y 1%nat (m t h) - Y 1%nat t - h / 2 * Y 2%nat t - h ^ 2 / 8 * Y 3%nat t - h ^ 3 / 48 * Y 4%nat t)).
  { exists (M / 24 / 16). split; [lra|]. intros t h A1 A2 A3. pose proof (tay4 Y t0 tf M HD HM 1 t (h / 2) ltac:(lia) A1 ltac:(lra) ltac:(lra)) as E. fold (m t h) in E.
    replace (M / 24 * (h / 2) ^ 4) with (M / 24 / 16 * h ^ 4) in E by field. eapply Rle_trans; [|exact E]. right. f_equal. field. }
  apply (OO_ext 5 (fun t h => -1 * (Y 0%nat (t + h) - Y 0%nat t - h * Y 1%nat t - h ^ 2 / 2 * Y 2%nat t - h ^ 3 / 6 * Y 3%nat t - h ^ 4 / 24 * Y 4%nat t)
    + (2 / 3 * (h * (Y 1%nat (m t h) - Y 1%nat t - h / 2 * Y 2%nat t - h ^ 2 / 8 * Y 3%nat t - h ^ 3 / 48 * Y 4%nat t)) + / 6 * (h * (Y 1%nat (t + h) - Y 1%nat t - h * Y 2%nat t - h ^ 2 / 2 * Y 3%nat t - h ^ 3 / 6 * Y 4%nat t))))); [intros; field|].
  apply OO_plus; [now apply OO_scal|]. apply OO_plus; apply OO_scal; [apply (OO_mult 1 4 _ _ OO_h T4m)|apply (OO_mult 1 4 _ _ OO_h T4)].
Qed.
Let step t y h := let k1 := f t y in let k2 := f (t + h / 2) (y + h / 2 * k1) in let k3 := f (t + h / 2) (y + h / 2 * k2) in let k4 := f (t + h) (y + h * k3) in y + h / 6 * (k1 + 2 * k2 + 2 * k3 + k4).
Lemma OO_local : OO 5 (fun t h => step t (Y 0%nat t) h - Y 0%nat (t + h)).
Proof.
  apply (OO_ext 5 (fun t h => (Y 0%nat t + h / 6 * (Y 1%nat t + 4 * Y 1%nat (m t h) + Y 1%nat (t + h)) - Y 0%nat (t + h))
    + / 6 * (h * (2 * (d2 t h - Jm t h * e2 t h) + (2 * (d3 t h - Jm t h * e3 t h) + ((d4 t h - J (t + h) * e4 t h) + ((J (t + h) - Jm t h) * e4 t h
       + Jm t h * (2 * (e2 t h + h ^ 2 / 8 * Y 2%nat t + h ^ 3 / 48 * Y 3%nat t) + (2 * (e3 t h - h ^ 2 / 8 * Y 2%nat t - h ^ 3 / 24 * Y 3%nat t + h ^ 3 / 16 * Jm t h * Y 2%nat t)
          + (e4 t h + h ^ 3 / 24 * Y 3%nat t - h ^ 3 / 8 * Jm t h * Y 2%nat t)))))))))).
  - intros t h A1 A2 A3. unfold step. cbv zeta. rewrite <- HE by lra. fold (m t h).
    replace (f (m t h) (Y 0%nat t + h / 2 * Y 1%nat t)) with (Y 1%nat (m t h) + d2 t h) by (unfold d2; ring).
    replace (f (m t h) (Y 0%nat t + h / 2 * (Y 1%nat (m t h) + d2 t h))) with (Y 1%nat (m t h) + d3 t h) by (unfold d3; ring).
    replace (f (t + h) (Y 0%nat t + h * (Y 1%nat (m t h) + d3 t h))) with (Y 1%nat (t + h) + d4 t h) by (unfold d4; ring). field.
  - apply OO_plus; [exact OO_simpson|]. apply OO_scal, (OO_mult 1 4 _ _ OO_h). apply OO_plus; [apply OO_scal, OO_d2|]. apply OO_plus; [apply OO_scal, OO_d3|].
    apply OO_plus; [apply OO_d4|]. apply OO_plus; [apply OO_d4|]. apply (OO_mult 0 4 _ _ OO_Jm). apply OO_plus; [apply OO_scal, OO_e2|]. apply OO_plus; [apply OO_scal, OO_e3|apply OO_e4].
Qed.
Lemma lip_step4 : exists Lam, 0 <= Lam /\ forall t h u v, t0 <= t -> 0 <= h <= 1 -> t + h <= tf -> Rabs (step t u h - step t v h) <= (1 + Lam * h) * Rabs (u - v).
Proof.
  set (l2 := L * (1 + L)). set (l3 := L * (1 + l2)). set (l4 := L * (1 + l3)). assert (P2 : 0 <= l2) by (apply Rmult_le_pos; lra). assert (P3 : 0 <= l3) by (apply Rmult_le_pos; lra). assert (P4 : 0 <= l4) by (apply Rmult_le_pos; lra).
  exists ((L + 2 * l2 + 2 * l3 + l4) / 6). split; [lra|]. intros t h u v A1 A2 A3. unfold step. cbv zeta. set (d := Rabs (u - v)). assert (Hd : 0 <= d) by apply Rabs_pos.
  assert (ST : forall s c k1 k2 l, 0 <= c <= 1 -> 0 <= l -> t0 <= s <= tf -> Rabs (k1 - k2) <= l * d -> Rabs (f s (u + c * k1) - f s (v + c * k2)) <= L * (1 + l) * d).
  { intros s c k1 k2 l Hc Hl Hs HK. eapply Rle_trans; [apply HL, Hs|]. rewrite Rmult_assoc. apply Rmult_le_compat_l; [exact L0|]. replace (u + c * k1 - (v + c * k2)) with ((u - v) + c * (k1 - k2)) by ring.
    eapply Rle_trans; [apply Rabs_triang|]. rewrite Rabs_mult, (Rabs_pos_eq c) by lra. fold d. assert (c * Rabs (k1 - k2) <= 1 * (l * d)) by (apply Rmult_le_compat; [lra|apply Rabs_pos|lra|exact HK]). lra. }
  assert (K1 : Rabs (f t u - f t v) <= L * d) by (apply HL; lra). set (k1 := f t u) in *. set (j1 := f t v) in *.
  assert (K2 := ST (t + h / 2) (h / 2) k1 j1 L ltac:(lra) L0 ltac:(lra) K1). fold l2 in K2. set (k2 := f (t + h / 2) (u + h / 2 * k1)) in *. set (j2 := f (t + h / 2) (v + h / 2 * j1)) in *.
  assert (K3 := ST (t + h / 2) (h / 2) k2 j2 l2 ltac:(lra) P2 ltac:(lra) K2). fold l3 in K3. set (k3 := f (t + h / 2) (u + h / 2 * k2)) in *. set (j3 := f (t + h / 2) (v + h / 2 * j2)) in *.
  assert (K4 := ST (t + h) h k3 j3 l3 ltac:(lra) P3 ltac:(lra) K3). fold l4 in K4. set (k4 := f (t + h) (u + h * k3)) in *. set (j4 := f (t + h) (v + h * j3)) in *.
  replace (u + h / 6 * (k1 + 2 * k2 + 2 * k3 + k4) - (v + h / 6 * (j1 + 2 * j2 + 2 * j3 + j4))) with ((u - v) + h * (((k1 - j1) + 2 * (k2 - j2) + 2 * (k3 - j3) + (k4 - j4)) / 6)) by field.
  eapply Rle_trans; [apply Rabs_triang|]. fold d. rewrite Rabs_mult, (Rabs_pos_eq h) by lra.
  assert (K : Rabs (((k1 - j1) + 2 * (k2 - j2) + 2 * (k3 - j3) + (k4 - j4)) / 6) <= (L + 2 * l2 + 2 * l3 + l4) / 6 * d).
  { apply Rabs_le_between in K1. apply Rabs_le_between in K2. apply Rabs_le_between in K3. apply Rabs_le_between in K4. apply Rabs_le_between. lra. }
  assert (h * Rabs (((k1 - j1) + 2 * (k2 - j2) + 2 * (k3 - j3) + (k4 - j4)) / 6) <= h * ((L + 2 * l2 + 2 * l3 + l4) / 6 * d)) by (apply Rmult_le_compat_l; [lra|exact K]). lra.
Qed.
Lemma order4 : t0 <= tf -> exists C, forall h, 0 < h <= 1 -> exists y, ode_rk f t0 tf (Y 0%nat t0) h 4 = Ok y /\ Rabs (y - Y 0%nat tf) <= C * h ^ 4.
Proof.
  intros Ht. destruct OO_local as (K & K0 & HK). destruct lip_step4 as (Lam & La0 & HLam).
  exists (K * ((tf - t0) * exp (Lam * (tf - t0)))). intros h Hh.
  destruct (C13_covers_interval f t0 tf (Y 0%nat t0) h 4 _ ltac:(right; right; split; reflexivity) ltac:(lra) Ht) as (n & hf & y & Hf & Et & E0 & ES & E).
  eexists. split; [exact E|]. replace (K * ((tf - t0) * exp (Lam * (tf - t0))) * h ^ 4) with (K * h ^ 4 * ((tf - t0) * exp (Lam * (tf - t0)))) by ring.
  apply (global step (Y 0%nat) t0 tf (Y 0%nat t0) h n hf y K Lam 4); auto; try lra.
  - intros t s H0 H1 H2. apply HK; lra.
  - intros t s u v H0 H1 H2. apply HLam; lra.
Qed.
End Four.

(** the classical method: for a right-hand side that is Lipschitz and, along the solution, has a derivative J with respect to y with a
    quadratic remainder and itself Lipschitz, and a solution with bounded derivatives up to the fifth, the error is at most a
    constant times h^4; Y k is the k-th derivative of the solution *)
Theorem C13_converges_order4 f (Y : nat -> R -> R) (J : R -> R) t0 tf L B M : t0 <= tf ->
  (forall k t, (k <= 4)%nat -> t0 <= t <= tf -> D (Y k) t (Y (S k) t)) ->
  (forall k t, (2 <= k <= 5)%nat -> t0 <= t <= tf -> Rabs (Y k t) <= M) ->
  (forall t, t0 <= t <= tf -> Y 1%nat t = f t (Y 0%nat t)) ->
  (forall t u v, t0 <= t <= tf -> Rabs (f t u - f t v) <= L * Rabs (u - v)) ->
  (forall t e, t0 <= t <= tf -> Rabs (f t (Y 0%nat t + e) - f t (Y 0%nat t) - J t * e) <= B * e ^ 2) ->
  (forall s t, t0 <= s <= tf -> t0 <= t <= tf -> Rabs (J s - J t) <= B * Rabs (s - t)) ->
  exists C, forall h, 0 < h <= 1 -> exists y, ode_rk f t0 tf (Y 0%nat t0) h 4 = Ok y /\ Rabs (y - Y 0%nat tf) <= C * h ^ 4.
Proof.
  intros Ht HD HM HE HL HJ HJL. apply (order4 f Y J t0 tf L B M); auto.
  - specialize (HL t0 1 0 ltac:(lra)). replace (1 - 0) with 1 in HL by ring. rewrite Rabs_R1 in HL. pose proof (Rabs_pos (f t0 1 - f t0 0)). lra.
  - specialize (HJ t0 1 ltac:(lra)). pose proof (Rabs_pos (f t0 (Y 0%nat t0 + 1) - f t0 (Y 0%nat t0) - J t0 * 1)). lra.
  - specialize (HM 2%nat t0 ltac:(lia) ltac:(lra)). pose proof (Rabs_pos (Y 2%nat t0)). lra.
Qed.

(** y' = t - y with y(0) = 1 on [0, 1], whose solution is t - 1 + 2 exp (-t) *)
Example C13_converges_case :
  (forall h, 0 < h -> exists y, ode_rk (fun t y => t - y) 0 1 1 h 1 = Ok y /\ Rabs (y - 2 * exp (-1)) <= h * exp 1) /\
  (forall h, 0 < h <= 1 -> exists y, ode_rk (fun t y => t - y) 0 1 1 h 2 = Ok y /\ Rabs (y - 2 * exp (-1)) <= h ^ 2 * exp (3 / 2)) /\
  (exists C, forall h, 0 < h <= 1 -> exists y, ode_rk (fun t y => t - y) 0 1 1 h 4 = Ok y /\ Rabs (y - 2 * exp (-1)) <= C * h ^ 4).
Proof.
  set (E := fun t => exp (- t)). assert (DE : forall t, D E t (- E t)).
  { intros t. unfold E. apply (D_eq _ _ (exp (- t) * (- (1)))); [|ring]. apply (D_exp (fun t => - t)). apply (D_opp (fun t => t)), D_id. }
  assert (EB : forall t, 0 <= t -> 0 <= E t <= 1).
  { intros t Ht. unfold E. split; [left; apply exp_pos|]. rewrite <- exp_0. destruct Ht as [Ht| <-]; [left; apply exp_increasing; lra|right; f_equal; ring]. }
  assert (DS : forall c t, D (fun t => c * E t) t (- c * E t)) by (intros c t; apply (D_eq _ _ (c * - E t)); [apply D_scal, DE|ring]).
  assert (LIP : forall t u v : R, 0 <= t <= 1 -> Rabs (t - u - (t - v)) <= 1 * Rabs (u - v)) by (intros t u v _; replace (t - u - (t - v)) with (- (u - v)) by ring; rewrite Rabs_Ropp; lra).
  set (Y := fun k => match k with O => fun t => t - 1 + 2 * E t | 1%nat => fun t => 1 + -2 * E t | k => fun t => (if Nat.even k then 2 else -2) * E t end).
  assert (Y0 : Y 0%nat 0 = 1) by (cbn; unfold E; rewrite Ropp_0, exp_0; ring). assert (Y1 : Y 0%nat 1 = 2 * exp (-1)) by (cbn; unfold E; change (-1) with (- (1)); ring).
  assert (HD : forall k t, (k <= 4)%nat -> D (Y k) t (Y (S k) t)).
  { intros k t Hk. destruct k as [|[|k]].
    - cbn. apply (D_eq _ _ (1 - 0 + -2 * E t)); [|ring]. apply (D_plus (fun t => t - 1)); [apply D_minus; [apply D_id|apply D_const]|]. apply DS.
    - cbn. apply (D_eq _ _ (0 + - -2 * E t)); [|ring]. apply (D_plus (fun _ => 1)); [apply D_const|]. apply DS.
    - destruct k as [|[|[|k]]]; [cbn; apply DS|cbn|cbn; apply DS|lia]. apply (D_eq _ _ (- -2 * E t)); [apply DS|ring]. }
  assert (HM : forall k t, (2 <= k <= 5)%nat -> 0 <= t <= 1 -> Rabs (Y k t) <= 2).
  { intros k t Hk Ht. specialize (EB t ltac:(lra)). destruct k as [|[|[|[|[|[|k]]]]]]; try lia; cbn; apply Rabs_le_between; lra. }
  assert (HE : forall t, Y 1%nat t = t - Y 0%nat t) by (intros t; cbn; ring).
  split; [|split].
  - intros h Hh. destruct (C13_converges_order1 (fun t y => t - y) (Y 0%nat) (Y 1%nat) (Y 2%nat) 0 1 h 1 2) as (y & Ey & By); auto; try lra.
    + intros t Ht. split; [apply HD; lia|]. split; [apply HD; lia|]. split; [apply HE|]. apply HM; [lia|exact Ht].
    + rewrite Y0 in Ey. rewrite Y1 in By. exists y. split; [exact Ey|]. replace (h * exp 1) with (2 / 2 * h * ((1 - 0) * exp (1 * (1 - 0)))) by (replace (1 * (1 - 0)) with 1 by ring; field). exact By.
  - intros h Hh. destruct (C13_converges_order2 (fun t y => t - y) (Y 0%nat) (Y 1%nat) (Y 2%nat) (Y 3%nat) 0 1 h 1 2 2) as (y & Ey & By); auto; try lra.
    + intros t Ht. split; [apply HD; lia|]. split; [apply HD; lia|]. split; [apply HD; lia|]. split; [apply HE|]. split; apply HM; try exact Ht; lia.
    + rewrite Y0 in Ey. rewrite Y1 in By. exists y. split; [exact Ey|]. eapply Rle_trans; [exact By|]. replace ((7 * 2 / 24 + 1 * 2 / 8) * h ^ 2 * ((1 - 0) * exp (1 * (1 + 1 * h / 2) * (1 - 0)))) with (h ^ 2 * (5 / 6 * exp (1 + h / 2))) by (replace (1 * (1 + 1 * h / 2) * (1 - 0)) with (1 + h / 2) by field; field).
      apply Rmult_le_compat_l; [apply pow_le; lra|]. assert (exp (1 + h / 2) <= exp (3 / 2)) by (destruct (Req_dec h 1) as [-> |]; [right; f_equal; field|left; apply exp_increasing; lra]). pose proof (exp_pos (1 + h / 2)). lra.
  - destruct (C13_converges_order4 (fun t y => t - y) Y (fun _ => -1) 0 1 1 0 2) as (C & HC); auto; try lra.
    + intros t e _. replace (t - (Y 0%nat t + e) - (t - Y 0%nat t) - -1 * e) with 0 by ring. rewrite Rabs_R0. lra.
    + intros s t _ _. replace (-1 - -1) with 0 by ring. rewrite Rabs_R0. lra.
    + exists C. intros h Hh. destruct (HC h Hh) as (y & Ey & By). rewrite Y0 in Ey. rewrite Y1 in By. eauto.
Qed.
Print Assumptions C13_converges_order1.
Print Assumptions C13_converges_order2.
Print Assumptions C13_converges_order4.
