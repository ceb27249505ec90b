(** C98: confidence_ellipse.  C99: confidence_region. *)
From Coq Require Import Reals Lra Lia List Bool Arith Psatz FunctionalExtensionality.
From Coquelicot Require Import Coquelicot.
From Verif Require Import Prelude RootsModel RootsProofs CopoModel Deriv NumBounds HmtProps JcrModel.
Import ListNotations.
Open Scope R_scope.

(* ------------------------------------------------------------------ *)
(** * The ellipse                                                     *)
(* ------------------------------------------------------------------ *)

(** the boundary of a matplotlib Ellipse patch, by its parameter: the axes of the given full lengths, turned by the
    angle (in degrees) about the centre *)
Definition patch_point (c : R * R) (w h deg t : R) : R * R :=
  let a := deg * PI / 180 in
  (fst c + w / 2 * cos t * cos a - h / 2 * sin t * sin a, snd c + w / 2 * cos t * sin a + h / 2 * sin t * cos a).
(** (beta - c)^T V^-1 (beta - c) for a symmetric 2x2 matrix *)
Definition quad2 (V : nat -> nat -> R) (c p : R * R) : R :=
  let x := fst p - fst c in let y := snd p - snd c in
  (V 1%nat 1%nat * (x * x) - 2 * V 0%nat 1%nat * (x * y) + V 0%nat 0%nat * (y * y)) / (V 0%nat 0%nat * V 1%nat 1%nat - V 0%nat 1%nat * V 0%nat 1%nat).
(** what np.linalg.eigh documents: eigenvalues in ascending order, orthonormal eigenvectors in the columns *)
Definition eigh_spec (V : nat -> nat -> R) (e : eigh2) : Prop :=
  let v := eg_v e in
  eg_w0 e <= eg_w1 e /\
  v 0%nat 0%nat ^ 2 + v 1%nat 0%nat ^ 2 = 1 /\ v 0%nat 1%nat ^ 2 + v 1%nat 1%nat ^ 2 = 1 /\ v 0%nat 0%nat * v 0%nat 1%nat + v 1%nat 0%nat * v 1%nat 1%nat = 0 /\
  (forall i, (i < 2)%nat -> V i 0%nat * v 0%nat 0%nat + V i 1%nat * v 1%nat 0%nat = eg_w0 e * v i 0%nat) /\
  (forall i, (i < 2)%nat -> V i 0%nat * v 0%nat 1%nat + V i 1%nat * v 1%nat 1%nat = eg_w1 e * v i 1%nat).

Lemma eig_expand V e : V 0%nat 1%nat = V 1%nat 0%nat -> eigh_spec V e -> let v := eg_v e in
  V 0%nat 0%nat = eg_w0 e * v 0%nat 0%nat ^ 2 + eg_w1 e * v 0%nat 1%nat ^ 2 /\ V 1%nat 1%nat = eg_w0 e * v 1%nat 0%nat ^ 2 + eg_w1 e * v 1%nat 1%nat ^ 2 /\
  V 0%nat 1%nat = eg_w0 e * v 0%nat 0%nat * v 1%nat 0%nat + eg_w1 e * v 0%nat 1%nat * v 1%nat 1%nat /\
  v 0%nat 0%nat ^ 2 + v 0%nat 1%nat ^ 2 = 1 /\ v 1%nat 0%nat ^ 2 + v 1%nat 1%nat ^ 2 = 1 /\ v 0%nat 0%nat * v 1%nat 0%nat + v 0%nat 1%nat * v 1%nat 1%nat = 0.
Proof.
  intros Hs (_ & N0 & N1 & O & E0 & E1) v. fold v in N0, N1, O, E0, E1. pose proof (E0 0%nat ltac:(lia)) as A0. pose proof (E0 1%nat ltac:(lia)) as A1. pose proof (E1 0%nat ltac:(lia)) as B0. pose proof (E1 1%nat ltac:(lia)) as B1. rewrite <- Hs in A1, B1.
  set (a := v 0%nat 0%nat) in *. set (b := v 1%nat 0%nat) in *. set (c := v 0%nat 1%nat) in *. set (d := v 1%nat 1%nat) in *. set (w0 := eg_w0 e) in *. set (w1 := eg_w1 e) in *.
  (* (c, d) = +-(-b, a) *)
  assert (K : exists k, k * k = 1 /\ c = - k * b /\ d = k * a).
  { exists (a * d - b * c). repeat split.
    - transitivity ((a ^ 2 + b ^ 2) * (c ^ 2 + d ^ 2) - (a * c + b * d) ^ 2); [ring|]. rewrite N0, N1, O. ring.
    - transitivity ((a ^ 2 + b ^ 2) * c - a * (a * c + b * d)); [rewrite N0, O; ring|ring].
    - transitivity ((a ^ 2 + b ^ 2) * d - b * (a * c + b * d)); [rewrite N0, O; ring|ring]. }
  destruct K as (k & K2 & Ec & Ed).
  assert (R0 : a ^ 2 + c ^ 2 = 1) by (rewrite Ec; transitivity (a ^ 2 + k * k * b ^ 2); [ring|rewrite K2; lra]).
  assert (R1 : b ^ 2 + d ^ 2 = 1) by (rewrite Ed; transitivity (b ^ 2 + k * k * a ^ 2); [ring|rewrite K2; lra]).
  assert (R2 : a * b + c * d = 0) by (rewrite Ec, Ed; transitivity (a * b - k * k * (a * b)); [ring|rewrite K2; ring]).
  repeat split; auto.
  - transitivity (V 0%nat 0%nat * (a ^ 2 + c ^ 2) + V 0%nat 1%nat * (a * b + c * d)); [rewrite R0, R2; ring|]. transitivity ((V 0%nat 0%nat * a + V 0%nat 1%nat * b) * a + (V 0%nat 0%nat * c + V 0%nat 1%nat * d) * c); [ring|]. rewrite A0, B0. ring.
  - transitivity (V 1%nat 1%nat * (b ^ 2 + d ^ 2) + V 0%nat 1%nat * (a * b + c * d)); [rewrite R1, R2; ring|]. transitivity ((V 0%nat 1%nat * a + V 1%nat 1%nat * b) * b + (V 0%nat 1%nat * c + V 1%nat 1%nat * d) * d); [ring|]. rewrite A1, B1. ring.
  - transitivity (V 0%nat 1%nat * (b ^ 2 + d ^ 2) + V 0%nat 0%nat * (a * b + c * d)); [rewrite R1, R2; ring|]. transitivity ((V 0%nat 0%nat * a + V 0%nat 1%nat * b) * b + (V 0%nat 0%nat * c + V 0%nat 1%nat * d) * d); [ring|]. rewrite A0, B0. ring.
Qed.
(** the angle computed from the first row (c, s): its cosine and sine are those of the row up to a common sign *)
Lemma angle_cs e c s : eg_v e 0%nat 0%nat = c -> eg_v e 0%nat 1%nat = s -> c ^ 2 + s ^ 2 = 1 ->
  exists deg k, ell_angle e = Fin deg /\ k * k = 1 /\ cos (deg * PI / 180) = k * c /\ sin (deg * PI / 180) = k * s.
Proof.
  intros Ec Es N. pose proof PI_RGT_0 as P. unfold ell_angle. rewrite Ec, Es. unfold np_div. destruct (Reqb c 0) eqn:C0.
  - apply Reqb_true in C0. rewrite C0 in N |- *. assert (S2 : s * s = 1) by (rewrite <- N; ring). rewrite Reqb_f by (intros Z; rewrite Z in S2; lra).
    destruct (Rltb 0 s) eqn:S0; cbn.
    + exists (PI / 2 * (180 / PI)), s. split; [reflexivity|]. split; [exact S2|]. replace (PI / 2 * (180 / PI) * PI / 180) with (PI / 2) by (field; lra). rewrite cos_PI2, sin_PI2. lra.
    + exists (- (PI / 2) * (180 / PI)), (- s). split; [reflexivity|]. split; [lra|]. replace (- (PI / 2) * (180 / PI) * PI / 180) with (- (PI / 2)) by (field; lra). rewrite cos_neg, sin_neg, cos_PI2, sin_PI2. lra.
  - apply Reqb_false in C0. cbn. assert (Q : 1 + (s / c)² = / (c * c)). { unfold Rsqr. apply (Rmult_eq_reg_r (c * c)); [|now apply Rmult_integral_contrapositive_currified]. rewrite Rinv_l by (now apply Rmult_integral_contrapositive_currified). transitivity (c ^ 2 + s ^ 2); [field; auto|auto]. }
    assert (SQ : sqrt (1 + (s / c)²) = / Rabs c). { rewrite Q, sqrt_inv. f_equal. apply sqrt_Rsqr_abs. }
    do 2 eexists. split; [reflexivity|]. replace (atan (s / c) * (180 / PI) * PI / 180) with (atan (s / c)) by (field; lra). rewrite cos_atan, sin_atan, SQ.
    assert (A0 : Rabs c <> 0) by (now apply Rabs_no_R0). split; [|split; [|]].
    + instantiate (1 := Rabs c / c). transitivity (Rabs c * Rabs c / (c * c)); [field; auto|]. rewrite <- Rabs_mult, Rabs_right by nra. field. auto.
    + field. auto.
    + field. auto.
Qed.
(** if the eigenvector matrix is symmetric, the drawn curve is exactly the boundary of the documented region *)
Theorem C98_ellipse Fq tq eigh c V ndata alpha confint el :
  confidence_ellipse Fq tq eigh 2 c 2 2 V ndata alpha confint = Ok el ->
  V 0%nat 1%nat = V 1%nat 0%nat -> eigh_spec V (eigh V) -> 0 < eg_w0 (eigh V) -> eg_v (eigh V) 0%nat 1%nat = eg_v (eigh V) 1%nat 0%nat ->
  let scale := 2 * Fq (1 - alpha) (ndata - 2)%nat in 0 < scale ->
  exists deg, el_angle el = Fin deg /\ el_center el = c /\
    (forall t, quad2 V c (patch_point c (el_width el) (el_height el) deg t) = scale) /\
    (forall p, quad2 V c p = scale -> exists t, p = patch_point c (el_width el) (el_height el) deg t).
Proof.
  intros E Hs Hsp Hw Hsym scale Hsc. set (e := eigh V) in *. unfold confidence_ellipse in E. cbn [Nat.eqb negb andb] in E. destruct (negb _) in E; [discriminate|]. destruct (negb (Nat.leb 3 ndata)) in E; [discriminate|]. injection E as <-. cbn [el_angle el_center el_width el_height]. fold e. fold scale.
  destruct (eig_expand V e Hs Hsp) as (E00 & E11 & E01 & R0 & R1 & R2). destruct Hsp as (W & N0 & N1 & O & _).
  set (w0 := eg_w0 e) in *. set (w1 := eg_w1 e) in *. assert (W1 : 0 < w1) by lra.
  destruct (angle_cs e (eg_v e 0%nat 0%nat) (eg_v e 0%nat 1%nat) eq_refl eq_refl R0) as (deg & k & Ea & K2 & Cd & Sd). exists deg. split; [exact Ea|]. split; [reflexivity|].
  set (a := eg_v e 0%nat 0%nat) in *. rewrite <- Hsym in *. set (s := eg_v e 0%nat 1%nat) in *. set (d := eg_v e 1%nat 1%nat) in *.
  (* v = [[a, s], [s, d]] with d = -a or s = 0 *)
  set (A := sqrt (scale * w0)). set (B := sqrt (scale * w1)). assert (A2 : A * A = scale * w0) by (apply sqrt_sqrt; apply Rmult_le_pos; lra). assert (B2 : B * B = scale * w1) by (apply sqrt_sqrt; apply Rmult_le_pos; lra).
  assert (AP : 0 < A) by (apply sqrt_lt_R0, Rmult_lt_0_compat; lra). assert (BP : 0 < B) by (apply sqrt_lt_R0, Rmult_lt_0_compat; lra).
  assert (D2 : d ^ 2 = a ^ 2) by lra. assert (AD : s * (a + d) = 0) by lra.
  assert (DET : V 0%nat 0%nat * V 1%nat 1%nat - V 0%nat 1%nat * V 0%nat 1%nat = w0 * w1).
  { rewrite E00, E11, E01. transitivity (w0 * w1 * (a * d - s * s) ^ 2); [ring|]. replace ((a * d - s * s) ^ 2) with ((a ^ 2 + s ^ 2) * (s ^ 2 + d ^ 2) - (s * (a + d)) ^ 2) by ring. rewrite R0, AD. rewrite D2. replace (s ^ 2 + a ^ 2) with 1 by lra. ring. }
  (* the quadratic form in the coordinates along the axes *)
  assert (QF : forall p, quad2 V c p = (a * (fst p - fst c) + s * (snd p - snd c)) ^ 2 / w0 + (s * (fst p - fst c) + d * (snd p - snd c)) ^ 2 / w1).
  { intros p. unfold quad2. rewrite DET. set (x := fst p - fst c). set (y := snd p - snd c). rewrite E00, E11, E01. apply (Rmult_eq_reg_r (w0 * w1)); [|nra].
    transitivity ((w0 * s ^ 2 + w1 * d ^ 2) * (x * x) - 2 * (w0 * a * s + w1 * s * d) * (x * y) + (w0 * a ^ 2 + w1 * s ^ 2) * (y * y)); [field; split; lra|].
    transitivity (w1 * (a * x + s * y) ^ 2 + w0 * (s * x + d * y) ^ 2); [|field; split; lra].
    rewrite D2. replace (d ^ 2) with (a ^ 2) by lra. replace ((s * x + d * y) ^ 2) with (s ^ 2 * (x * x) + 2 * (s * d) * (x * y) + d ^ 2 * (y * y)) by ring. rewrite D2.
    replace (s * d) with (- (a * s)) by lra. replace (w1 * s * d) with (w1 * (s * d)) by ring. replace (s * d) with (- (a * s)) by lra. ring. }
  (* turning back by the angle *)
  assert (AX : forall X Y, a * (X * (k * a) - Y * (k * s)) + s * (X * (k * s) + Y * (k * a)) = k * X) by (intros X Y; transitivity (k * X * (a ^ 2 + s ^ 2)); [ring|rewrite R0; ring]).
  assert (AY : forall X Y, (s * (X * (k * a) - Y * (k * s)) + d * (X * (k * s) + Y * (k * a))) ^ 2 = Y ^ 2).
  { intros X Y. replace (s * (X * (k * a) - Y * (k * s)) + d * (X * (k * s) + Y * (k * a))) with (k * (X * (s * (a + d)) + Y * (a * d - s * s))) by ring. rewrite AD, Rmult_0_r, Rplus_0_l. transitivity (k * k * (Y ^ 2 * (a * d - s * s) ^ 2)); [ring|]. replace ((a * d - s * s) ^ 2) with ((a ^ 2 + s ^ 2) * (s ^ 2 + d ^ 2) - (s * (a + d)) ^ 2) by ring. rewrite R0, AD, D2, K2. replace (s ^ 2 + a ^ 2) with 1 by lra. ring. }
  assert (PP : forall t, quad2 V c (patch_point c (2 * A) (2 * B) deg t) = (A * cos t) ^ 2 / w0 + (B * sin t) ^ 2 / w1).
  { intros t. rewrite QF. unfold patch_point. cbn [fst snd]. rewrite Cd, Sd. replace (2 * A / 2) with A by field. replace (2 * B / 2) with B by field.
    replace (fst c + A * cos t * (k * a) - B * sin t * (k * s) - fst c) with (A * cos t * (k * a) - B * sin t * (k * s)) by ring. replace (snd c + A * cos t * (k * s) + B * sin t * (k * a) - snd c) with (A * cos t * (k * s) + B * sin t * (k * a)) by ring.
    rewrite AX, AY. replace ((k * (A * cos t)) ^ 2) with (k * k * (A * cos t) ^ 2) by ring. now rewrite K2, Rmult_1_l. }
  split.
  - intros t. rewrite PP. replace ((A * cos t) ^ 2) with (A * A * (cos t * cos t)) by ring. replace ((B * sin t) ^ 2) with (B * B * (sin t * sin t)) by ring. rewrite A2, B2. pose proof (sin2_cos2 t) as SC. unfold Rsqr in SC. transitivity (scale * (sin t * sin t + cos t * cos t)); [field; split; lra|]. rewrite SC. ring.
  - intros p Hp. set (x := fst p - fst c). set (y := snd p - snd c). rewrite QF in Hp. fold x y in Hp.
    (* coordinates along the drawn axes *)
    set (X := k * (a * x + s * y)). set (Y := k * (a * y - s * x)).
    assert (Y2 : Y ^ 2 = (s * x + d * y) ^ 2). { unfold Y. transitivity (k * k * (a * y - s * x) ^ 2); [ring|]. rewrite K2, Rmult_1_l. transitivity (s ^ 2 * (x * x) - 2 * (a * s) * (x * y) + a ^ 2 * (y * y)); [ring|]. transitivity (s ^ 2 * (x * x) + 2 * (s * d) * (x * y) + d ^ 2 * (y * y)); [|ring]. rewrite D2. replace (s * d) with (- (a * s)) by lra. ring. }
    assert (X2 : X ^ 2 = (a * x + s * y) ^ 2) by (unfold X; transitivity (k * k * (a * x + s * y) ^ 2); [ring|rewrite K2; ring]).
    rewrite <- X2, <- Y2 in Hp. set (u := X / A). set (v := Y / B). assert (UV : u ^ 2 + v ^ 2 = 1).
    { unfold u, v. apply (Rmult_eq_reg_l scale); [|lra]. rewrite Rmult_1_r. rewrite <- Hp at 2. transitivity (scale * X ^ 2 / (A * A) + scale * Y ^ 2 / (B * B)); [field; split; lra|]. rewrite A2, B2. field. repeat split; lra. }
    assert (T : exists t, cos t = u /\ sin t = v).
    { assert (U1 : -1 <= u <= 1) by (split; nra). destruct (Rle_dec 0 v) as [V0|V0].
      - exists (acos u). rewrite cos_acos by auto. split; [reflexivity|]. rewrite sin_acos by auto. replace (1 - u²) with (v * v) by (unfold Rsqr; lra). apply sqrt_square. auto.
      - exists (- acos u). rewrite cos_neg, sin_neg, cos_acos by auto. split; [reflexivity|]. rewrite sin_acos by auto. replace (1 - u²) with ((- v) * (- v)) by (unfold Rsqr; lra). rewrite sqrt_square by lra. ring. }
    destruct T as (t & Ct & St). exists t. unfold patch_point. rewrite Ct, St, Cd, Sd. unfold u, v. replace (2 * A / 2 * (X / A)) with X by (field; lra). replace (2 * B / 2 * (Y / B)) with Y by (field; lra).
    rewrite (surjective_pairing p). f_equal.
    + transitivity (fst c + x); [unfold x; ring|]. unfold X, Y. transitivity (fst c + k * k * ((a ^ 2 + s ^ 2) * x)); [rewrite K2, R0; ring|ring].
    + transitivity (snd c + y); [unfold y; ring|]. unfold X, Y. transitivity (snd c + k * k * ((a ^ 2 + s ^ 2) * y)); [rewrite K2, R0; ring|ring].
Qed.
(** eigh's documentation leaves the signs of the eigenvectors open.  With determinant -1 the matrix is symmetric, so
    the ellipse is right *)
Theorem C98_reflection V e : eigh_spec V e -> eg_v e 0%nat 0%nat * eg_v e 1%nat 1%nat - eg_v e 0%nat 1%nat * eg_v e 1%nat 0%nat = -1 -> eg_v e 0%nat 1%nat = eg_v e 1%nat 0%nat.
Proof.
  intros (_ & N0 & N1 & O & _) H. set (a := eg_v e 0%nat 0%nat) in *. set (b := eg_v e 1%nat 0%nat) in *. set (c := eg_v e 0%nat 1%nat) in *. set (d := eg_v e 1%nat 1%nat) in *.
  assert (Z : (a + d) ^ 2 + (c - b) ^ 2 = 0); [|pose proof (pow2_ge_0 (a + d)); pose proof (pow2_ge_0 (c - b)); assert (Z' : (c - b) * (c - b) = 0) by lra; apply Rmult_integral in Z'; lra]. transitivity (a ^ 2 + b ^ 2 + (c ^ 2 + d ^ 2) + 2 * (a * d - c * b)); [ring|]. rewrite N0, N1, H. ring.
Qed.
(** finding: with determinant +1, just as valid a result of eigh, the first row is used as if it were the first column
    and the ellipse is mirrored *)
Theorem C98_rotation_refuted : exists V e, V 0%nat 1%nat = V 1%nat 0%nat /\ eigh_spec V e /\ 0 < eg_w0 e /\
  forall Fq tq c ndata alpha, 0 < Fq (1 - alpha) (ndata - 2)%nat -> (3 <= ndata)%nat -> 1 / 1000 <= alpha <= 9 / 10 ->
  exists el deg t, confidence_ellipse Fq tq (fun _ => e) 2 c 2 2 V ndata alpha false = Ok el /\ el_angle el = Fin deg /\
    quad2 V c (patch_point c (el_width el) (el_height el) deg t) < 68 / 100 * (2 * Fq (1 - alpha) (ndata - 2)%nat).
Proof.
  set (V := fun i j : nat => match i, j with 0%nat, 0%nat => 41 / 25 | 1%nat, 1%nat => 34 / 25 | _, _ => - (12 / 25) end).
  set (v := fun i j : nat => match i, j with 0%nat, 0%nat => 3 / 5 | 1%nat, 0%nat => 4 / 5 | 0%nat, _ => - (4 / 5) | _, _ => 3 / 5 end).
  exists V, (mkEig 1 2 v). split; [reflexivity|]. split; [|split; [cbn; lra|]].
  - unfold eigh_spec. cbn. repeat split; try lra; intros i Hi; destruct i as [|[|i]]; cbn; try lra; lia.
  - intros Fq tq c ndata alpha HF Hn Ha. unfold confidence_ellipse. cbn [Nat.eqb negb andb]. rewrite !(proj2 (Rleb_true _ _)) by lra. rewrite (proj2 (Nat.leb_le 3 ndata)) by lia. cbn [negb andb].
    destruct (angle_cs (mkEig 1 2 v) (3 / 5) (- (4 / 5)) eq_refl eq_refl ltac:(lra)) as (deg & k & Ea & K2 & Cd & Sd). do 3 eexists. split; [reflexivity|]. cbn [el_angle el_width el_height]. split; [exact Ea|]. instantiate (1 := 0).
    cbn [eg_w0 eg_w1]. set (s := 2 * Fq (1 - alpha) (ndata - 2)%nat). assert (S0 : 0 < s) by (unfold s; lra). rewrite Rmult_1_r. unfold quad2, patch_point. cbn [fst snd]. rewrite Cd, Sd, cos_0, sin_0. unfold V. set (q := sqrt s). assert (Q2 : q * q = s) by (apply sqrt_sqrt; lra).
    replace (fst c + 2 * q / 2 * 1 * (k * (3 / 5)) - 2 * sqrt (s * 2) / 2 * 0 * (k * - (4 / 5)) - fst c) with (q * k * (3 / 5)) by field. replace (snd c + 2 * q / 2 * 1 * (k * - (4 / 5)) + 2 * sqrt (s * 2) / 2 * 0 * (k * (3 / 5)) - snd c) with (- (q * k * (4 / 5))) by field.
    match goal with |- ?l < _ => replace l with (337 / 625 * (q * q) * (k * k)) by field end. rewrite Q2, K2. lra.
Qed.
(** the ellipse touches the box of half-widths sqrt(scale V_ii): the error bars are these times t / sqrt(scale) *)
Theorem C98_box V c s : 0 < V 0%nat 0%nat -> 0 < V 1%nat 1%nat -> 0 < V 0%nat 0%nat * V 1%nat 1%nat - V 0%nat 1%nat * V 0%nat 1%nat -> 0 <= s ->
  (forall p, quad2 V c p = s -> (fst p - fst c) ^ 2 <= s * V 0%nat 0%nat /\ (snd p - snd c) ^ 2 <= s * V 1%nat 1%nat) /\
  (exists p, quad2 V c p = s /\ fst p = fst c + sqrt (s * V 0%nat 0%nat)) /\ (exists p, quad2 V c p = s /\ snd p = snd c + sqrt (s * V 1%nat 1%nat)).
Proof.
  intros H0 H1 HD Hs. set (a := V 0%nat 0%nat) in *. set (d := V 1%nat 1%nat) in *. set (b := V 0%nat 1%nat) in *. unfold quad2. fold a b d. split; [|split].
  - intros p Hp. set (x := fst p - fst c) in *. set (y := snd p - snd c) in *. rewrite <- Hp. split.
    + assert (0 <= (a * y - b * x) ^ 2 / (a * d - b * b)) by (apply Rle_mult_inv_pos; [apply pow2_ge_0|auto]). replace ((d * (x * x) - 2 * b * (x * y) + a * (y * y)) / (a * d - b * b) * a) with (x ^ 2 + (a * y - b * x) ^ 2 / (a * d - b * b)) by (field; lra). lra.
    + assert (0 <= (d * x - b * y) ^ 2 / (a * d - b * b)) by (apply Rle_mult_inv_pos; [apply pow2_ge_0|auto]). replace ((d * (x * x) - 2 * b * (x * y) + a * (y * y)) / (a * d - b * b) * d) with (y ^ 2 + (d * x - b * y) ^ 2 / (a * d - b * b)) by (field; lra). lra.
  - set (q := sqrt (s * a)). assert (Q : q * q = s * a) by (apply sqrt_sqrt, Rmult_le_pos; lra). exists (fst c + q, snd c + b * q / a). cbn [fst snd]. split; [|reflexivity]. replace (fst c + q - fst c) with q by ring. replace (snd c + b * q / a - snd c) with (b * q / a) by ring.
    transitivity (q * q / a); [field; split; lra|]. rewrite Q. field. lra.
  - set (q := sqrt (s * d)). assert (Q : q * q = s * d) by (apply sqrt_sqrt, Rmult_le_pos; lra). exists (fst c + b * q / d, snd c + q). cbn [fst snd]. split; [|reflexivity]. replace (fst c + b * q / d - fst c) with (b * q / d) by ring. replace (snd c + q - snd c) with q by ring.
    transitivity (q * q / d); [field; split; lra|]. rewrite Q. field. lra.
Qed.
(** accepted inputs *)
Theorem C98_accepts Fq tq eigh lenc c rows cols V ndata alpha confint :
  (exists el, confidence_ellipse Fq tq eigh lenc c rows cols V ndata alpha confint = Ok el) <-> lenc = 2%nat /\ rows = 2%nat /\ cols = 2%nat /\ 1 / 1000 <= alpha <= 90 / 100 /\ (3 <= ndata)%nat.
Proof.
  unfold confidence_ellipse. destruct (Nat.eqb_spec lenc 2) as [A|A], (Nat.eqb_spec rows 2) as [B|B], (Nat.eqb_spec cols 2) as [C|C]; cbn [negb andb]; try (split; [intros (el & E); discriminate|intros; lia]).
  destruct (Rleb (1 / 1000) alpha) eqn:E1, (Rleb alpha (90 / 100)) eqn:E2; cbn [negb andb]; (try apply Rleb_true in E1); (try apply Rleb_false in E1); (try apply Rleb_true in E2); (try apply Rleb_false in E2); try (split; [intros (el & E); discriminate|intros; lra]).
  destruct (Nat.leb_spec 3 ndata) as [D|D]; cbn [negb]; [|split; [intros (el & E); discriminate|intros; lia]]. split; [intros _; repeat split; auto|intros _; eexists; reflexivity].
Qed.
(** the error bars: half-lengths t sqrt(V_ii); they lie inside the box of the ellipse if t^2 <= 2 F, and are absent unless asked for *)
Theorem C98_bars Fq tq eigh c V ndata alpha confint el : confidence_ellipse Fq tq eigh 2 c 2 2 V ndata alpha confint = Ok el -> 0 < V 0%nat 0%nat -> 0 < V 1%nat 1%nat -> 0 < V 0%nat 0%nat * V 1%nat 1%nat - V 0%nat 1%nat * V 0%nat 1%nat ->
  let t := tq (1 - alpha / 2) (ndata - 2)%nat in let s := 2 * Fq (1 - alpha) (ndata - 2)%nat in
  if confint then exists a b, el_ci el = Some (a, b) /\ a * a = t * t * V 0%nat 0%nat /\ b * b = t * t * V 1%nat 1%nat /\ (0 <= t -> 0 <= a /\ 0 <= b) /\
    (t * t <= s -> (exists p, quad2 V c p = s /\ fst c + a <= fst p) /\ (exists p, quad2 V c p = s /\ snd c + b <= snd p))
  else el_ci el = None.
Proof.
  intros E H0 H1 HD t s. unfold confidence_ellipse in E. cbn [Nat.eqb negb andb] in E. destruct (negb (Rleb (1 / 1000) alpha && Rleb alpha (90 / 100))); [discriminate|]. destruct (negb (Nat.leb 3 ndata)); [discriminate|]. injection E as <-. destruct confint; [|reflexivity]. cbn [el_ci]. fold t.
  assert (Q0 : sqrt (V 0%nat 0%nat) * sqrt (V 0%nat 0%nat) = V 0%nat 0%nat) by (apply sqrt_sqrt; lra). assert (Q1 : sqrt (V 1%nat 1%nat) * sqrt (V 1%nat 1%nat) = V 1%nat 1%nat) by (apply sqrt_sqrt; lra).
  do 2 eexists. split; [reflexivity|]. split; [transitivity (t * t * (sqrt (V 0%nat 0%nat) * sqrt (V 0%nat 0%nat))); [ring|now rewrite Q0]|]. split; [transitivity (t * t * (sqrt (V 1%nat 1%nat) * sqrt (V 1%nat 1%nat))); [ring|now rewrite Q1]|]. split; [intros Ht; split; apply Rmult_le_pos; auto; apply sqrt_pos|]. intros Ht.
  assert (HS : 0 <= s) by (pose proof (Rle_0_sqr t); unfold Rsqr in *; lra). destruct (C98_box V c s H0 H1 HD HS) as (_ & (p & P1 & P2) & (q & Q2 & Q3)).
  assert (BAR : forall v, 0 < v -> sqrt v * t <= sqrt (s * v)). { intros v Hv. destruct (Rle_dec t 0) as [T|T]; [pose proof (sqrt_pos v); pose proof (sqrt_pos (s * v)); nra|]. rewrite <- (sqrt_square t) at 1 by lra. rewrite <- sqrt_mult by nra. apply sqrt_le_1; nra. }
  split; [exists p; split; auto; rewrite P2|exists q; split; auto; rewrite Q3]; apply Rplus_le_compat_l, BAR; auto.
Qed.
Example C98_example : let V := fun i j : nat => if Nat.eq_dec i j then 2 else 1 in let r := sqrt 2 / 2 in
  let e := mkEig 1 3 (fun i j : nat => match i, j with 0%nat, 0%nat => - r | _, _ => r end) in eigh_spec V e /\ eg_v e 0%nat 1%nat = eg_v e 1%nat 0%nat.
Proof.
  cbv zeta. assert (R2 : sqrt 2 * sqrt 2 = 2) by (apply sqrt_sqrt; lra). split; [|reflexivity]. unfold eigh_spec. cbn [eg_w0 eg_w1 eg_v]. repeat split; try lra; try nra; intros i Hi; destruct i as [|[|i]]; cbn; try lra; lia.
Qed.
Print Assumptions C98_ellipse.
Print Assumptions C98_rotation_refuted.

(* ------------------------------------------------------------------ *)
(** * The secant method on finite numbers                             *)
(* ------------------------------------------------------------------ *)

Lemma fl_max_fin a b : fl_max (Fin a) (Fin b) = Fin (Rmax a b).
Proof.
  unfold fl_max. cbn [fl_leb]. unfold Rleb, Rmax. destruct (Rle_dec b a), (Rle_dec a b); auto; f_equal; lra.
Qed.
Lemma eps0 : 0 < eps.
Proof. unfold eps. apply Rinv_0_lt_compat, pow_lt. lra. Qed.
Lemma eps_lt : eps < 1 / 10 ^ 15.
Proof. unfold eps, Rdiv. rewrite Rmult_1_l. apply Rinv_lt_contravar; [apply Rmult_lt_0_compat; apply pow_lt; lra|lra]. Qed.
Definition sec_res (o : outcome R fl) (d : fl) : bool * fl := match snd o with Ok r => (rr_success r, rr_x r) | Err _ => (false, d) end.
Lemma sec_loop_fin f g tolx tolf : (forall x, f (Fin x) = Fin (g x)) -> forall n k x0 x1 x2 f2 tr,
  sec_loop f tolx tolf n (Fin x0) (Fin (g x0)) (Fin x1) (Fin (g x1)) x2 = sec_res (secant_loop g tolx tolf n k x0 (g x0) x1 (g x1) x2 f2 tr) x2.
Proof.
  intros Hf n. induction n as [|n IH]; intros k x0 x1 x2 f2 tr.
  - cbn. unfold sec_res. cbn. destruct (Nat.eqb k 0); reflexivity.
  - cbn [sec_loop secant_loop]. unfold fl_sub. cbn [fl_opp fl_add fl_abs]. rewrite !fl_max_fin. cbn [fl_mul fl_leb]. change (g x1 + - g x0) with (g x1 - g x0). change (x1 + - x0) with (x1 - x0).
    destruct (Rleb (Rabs (g x1 - g x0)) (eps * Rmax (Rmax (Rabs (g x0)) (Rabs (g x1))) 1)) eqn:E; [reflexivity|]. apply Rleb_false in E.
    assert (NZ : g x1 - g x0 <> 0). { intros Z. rewrite Z, Rabs_R0 in E. pose proof eps0. pose proof (Rmax_r (Rmax (Rabs (g x0)) (Rabs (g x1))) 1). nra. }
    cbn [fl_div]. unfold np_div. rewrite Reqb_f by exact NZ. cbn [fl_opp fl_add]. rewrite Hf. cbn [fl_opp fl_add fl_abs fl_leb].
    change (x1 + - (g x1 * (x1 - x0) / (g x1 - g x0))) with (x1 - g x1 * (x1 - x0) / (g x1 - g x0)). set (nx := x1 - g x1 * (x1 - x0) / (g x1 - g x0)). change (nx + - x1) with (nx - x1).
    destruct (Rleb (Rabs (nx - x1)) tolx); [reflexivity|]. destruct (Rleb (Rabs (g nx)) tolf); [reflexivity|]. rewrite (IH (k + 1)%nat x1 nx (Fin nx) (Fin (g nx)) (tr ++ [nx])).
    unfold sec_res. cbv zeta. destruct (snd (secant_loop _ _ _ n _ _ _ _ _ _ _ _)) as [r|ex] eqn:ER; [reflexivity|]. exfalso. clear - ER.
    assert (G : forall n k x0 f0 x1 f1 x2 f2 tr, (0 < k)%nat -> snd (secant_loop g tolx tolf n k x0 f0 x1 f1 x2 f2 tr) <> Err ex).
    { clear. induction n as [|n IH]; intros k x0 f0 x1 f1 x2 f2 tr Hk; cbn [secant_loop]; [destruct k; [lia|discriminate]|]. destruct (Rleb _ _); [discriminate|]. cbv zeta. destruct (Rleb _ _); [discriminate|]. destruct (Rleb _ _); [discriminate|]. apply IH. lia. }
    eapply G; [|exact ER]. lia.
Qed.
Lemma sec_fl_fin f g x0 x1 tolx tolf n : (forall x, f (Fin x) = Fin (g x)) -> sec_fl f (Fin x0) (Fin x1) tolx tolf n = sec_res (root_secant g x0 x1 tolx tolf n) NaN.
Proof.
  intros Hf. unfold sec_fl, root_secant. rewrite !Hf. cbn [fl_abs fl_leb]. destruct (Rleb (Rabs (g x0)) tolf); [reflexivity|]. destruct (Rleb (Rabs (g x1)) tolf); [reflexivity|]. now apply sec_loop_fin.
Qed.
(** the function whose zero is sought on the ray, as a real function of ln r *)
Definition ray (sse : R * R -> R) (c : R * R) (B th x : R) : R := sse (fst c + exp x * cos th, snd c + exp x * sin th) / sse c / B - 1.
Lemma find_fin sse c B rtol th r0 : sse c <> 0 -> B <> 0 -> 0 < r0 ->
  find_radius sse c B rtol th r0 = sec_res (root_secant (ray sse c B th) (ln (r0 * (102 / 100))) (ln r0) (Rabs (ln (1 + rtol))) (1 / 10 ^ 4) 100) NaN.
Proof.
  intros Hs HB Hr. unfold find_radius, ln_fl. rewrite !Rltb_t by lra. apply sec_fl_fin. intros x. unfold nsse, np_div. rewrite Reqb_f by auto. cbn [fl_div]. unfold np_div. rewrite Reqb_f by auto. cbn. unfold ray, Rminus. reflexivity.
Qed.

(* ------------------------------------------------------------------ *)
(** * The region                                                      *)
(* ------------------------------------------------------------------ *)

(** the documented boundary value of S / S(centre) *)
Definition bound (Fq : R -> nat -> R) (ndata : nat) (alpha : R) : R := 1 + 2 / INR (ndata - 2) * Fq (1 - alpha) (ndata - 2)%nat.
(** the documented ranges of the arguments *)
Definition args_ok (ndata : nat) (alpha : R) (npoints : nat) (rtol : R) : Prop :=
  1 / 1000 <= alpha <= 99 / 100 /\ (3 <= ndata)%nat /\ (1 <= npoints <= 500)%nat /\ 1 / 10 ^ 4 <= rtol <= 1 / 10.
Definition point (c : R * R) (th r : R) : R * R := (fst c + r * cos th, snd c + r * sin th).
Lemma region_unf Fq sse c ndata alpha width npoints rtol : args_ok ndata alpha npoints rtol -> eps <= Rabs (sse c) ->
  confidence_region Fq sse 2 c ndata alpha width npoints rtol =
  Ok (map (fun p => match snd p with Some r => Some (point c (fst p) r) | None => None end)
     (combine (angles npoints) (radii (find_radius sse c (bound Fq ndata alpha) rtol) (guess0 width (fst c)) (guess0 width (fst c)) (angles npoints)))).
Proof.
  intros (Ha & Hn & Hp & Hr) Hs. unfold confidence_region. cbn [Nat.eqb negb]. rewrite !(proj2 (Rleb_true _ _)) by lra. rewrite (proj2 (Nat.leb_le 3 ndata)), (proj2 (Nat.leb_le 1 npoints)), (proj2 (Nat.leb_le npoints 500)) by lia. cbn [negb andb]. rewrite Rltb_f by lra. reflexivity.
Qed.
Lemma radii_length find g0 : forall ths g, length (radii find g0 g ths) = length ths.
Proof. induction ths as [|t ths IH]; intros g; cbn; [reflexivity|]. destruct (find t g) as [[|] [z| | |]]; cbn; now rewrite IH. Qed.
Lemma angles_length n : length (angles n) = n.
Proof. unfold angles. now rewrite map_length, seq_length. Qed.
(** the directions: evenly spaced from 0 to one full turn, so that the region is closed *)
Theorem C99_angles n : (2 <= n)%nat -> length (angles n) = n /\ nth_error (angles n) 0 = Some 0 /\ nth_error (angles n) (n - 1) = Some (2 * PI) /\
  forall i, (i < n)%nat -> nth_error (angles n) i = Some (2 * PI * INR i / INR (n - 1)).
Proof.
  intros H. assert (N : 0 < INR (n - 1)) by (apply lt_0_INR; lia). assert (G : forall i, (i < n)%nat -> nth_error (angles n) i = Some (2 * PI * INR i / INR (n - 1))).
  { intros i Hi. unfold angles. rewrite nth_error_map. rewrite (nth_error_nth' _ 0%nat) by (rewrite seq_length; lia). rewrite seq_nth by lia. cbn [option_map Nat.add]. f_equal. field. lra. }
  split; [apply angles_length|]. split; [rewrite G by lia; f_equal; cbn [INR]; field; lra|]. split; [rewrite G by lia; f_equal; field; lra|exact G].
Qed.
(** which guesses occur: the first one, and the radii found *)
Lemma radii_ind find g0 (P : R -> Prop) (Q : R -> option R -> Prop) : P g0 ->
  (forall th g, P g -> match find th g with (true, Fin z) => P (exp z) /\ Q th (Some (exp z)) | (true, NInf) => P 0 /\ Q th (Some 0) | _ => Q th None end) ->
  forall ths g, P g -> Forall2 Q ths (radii find g0 g ths).
Proof.
  intros H0 H ths. induction ths as [|th ths IH]; intros g Hg; cbn; [constructor|]. specialize (H th g Hg). destruct (find th g) as [[|] [z| | |]]; constructor; try apply H; auto; apply IH; auto; apply H.
Qed.
Lemma Forall2_nth {A B} (Q : A -> B -> Prop) l l' : Forall2 Q l l' -> forall i a b, nth_error l i = Some a -> nth_error l' i = Some b -> Q a b.
Proof. induction 1 as [|x y l l' H F IH]; intros i a b Ha Hb; [destruct i; discriminate|]. destruct i as [|i]; cbn in *; [injection Ha as <-; injection Hb as <-; auto|eauto]. Qed.
Lemma combine_nth_error {A B} : forall (l : list A) (l' : list B) i x, nth_error (combine l l') i = Some x -> nth_error l i = Some (fst x) /\ nth_error l' i = Some (snd x).
Proof. induction l as [|a l IH]; intros [|b l'] [|i] x H; cbn in *; try discriminate; [injection H as <-; auto|now apply IH]. Qed.
Theorem C99_accepts Fq sse lenc c ndata alpha width npoints rtol :
  (exists pts, confidence_region Fq sse lenc c ndata alpha width npoints rtol = Ok pts) <-> lenc = 2%nat /\ args_ok ndata alpha npoints rtol /\ eps <= Rabs (sse c).
Proof.
  split.
  - intros (pts & E). unfold confidence_region in E. destruct (Nat.eqb_spec lenc 2) as [A|A]; cbn [negb] in E; [|discriminate].
    destruct (Rleb (1 / 1000) alpha) eqn:E1; [|discriminate]. destruct (Rleb alpha (99 / 100)) eqn:E2; [|discriminate]. destruct (Nat.leb_spec 3 ndata) as [D|D]; [|discriminate]. destruct (Nat.leb_spec 1 npoints) as [P|P]; [|discriminate]. destruct (Nat.leb_spec npoints 500) as [P2|P2]; [|discriminate]. destruct (Rleb (1 / 10 ^ 4) rtol) eqn:E3; [|discriminate]. destruct (Rleb rtol (1 / 10)) eqn:E4; [|discriminate]. cbn [negb andb] in E. destruct (Rltb (Rabs (sse c)) eps) eqn:E5; [discriminate|].
    apply Rleb_true in E1. apply Rleb_true in E2. apply Rleb_true in E3. apply Rleb_true in E4. apply Rltb_false in E5. split; [exact A|]. split; [repeat split; auto|exact E5].
  - intros (-> & HA & HS). eexists. now apply region_unf.
Qed.
(** what can be said of every point: it lies on its ray, and either S is at the boundary value (relative tolerance 1e-4) or the last
    two iterates of the radius agree to rtol.  Missing: in the second case nothing is known about S (refuted below) *)
Theorem C99_points_partial Fq sse c ndata alpha width npoints rtol : args_ok ndata alpha npoints rtol -> eps <= Rabs (sse c) -> 0 < bound Fq ndata alpha -> 0 < guess0 width (fst c) ->
  exists pts, confidence_region Fq sse 2 c ndata alpha width npoints rtol = Ok pts /\ length pts = npoints /\
  forall i p, nth_error pts i = Some (Some p) -> exists th r, nth_error (angles npoints) i = Some th /\ 0 < r /\ p = point c th r /\
    (Rabs (sse p / (sse c * bound Fq ndata alpha) - 1) <= 1 / 10 ^ 4 \/ exists r', 0 < r' /\ r' <= r * (1 + rtol) /\ r <= r' * (1 + rtol)).
Proof.
  intros Ha Hs HB Hg. rewrite region_unf by auto. eexists. split; [reflexivity|]. split; [rewrite map_length, combine_length, radii_length, angles_length; lia|].
  assert (S0 : sse c <> 0) by (intros Z; rewrite Z, Rabs_R0 in Hs; pose proof eps0; lra). set (B := bound Fq ndata alpha) in *.
  set (Q := fun th (o : option R) => forall r, o = Some r -> 0 < r /\ (Rabs (sse (point c th r) / (sse c * B) - 1) <= 1 / 10 ^ 4 \/ exists r', 0 < r' /\ r' <= r * (1 + rtol) /\ r <= r' * (1 + rtol))).
  assert (F : Forall2 Q (angles npoints) (radii (find_radius sse c B rtol) (guess0 width (fst c)) (guess0 width (fst c)) (angles npoints))).
  { apply (radii_ind _ _ (fun g => 0 < g)); auto. intros th g G. rewrite find_fin by (auto; lra). destruct (root_secant_spec (ray sse c B th) (ln (g * (102 / 100))) (ln g) (Rabs (ln (1 + rtol))) (1 / 10 ^ 4) 100 ltac:(lia)) as (tr & r & E & _ & _ & _ & C & HS). rewrite E. unfold sec_res. cbn [snd].
    destruct (rr_success r) eqn:ES; [|unfold Q; discriminate]. destruct (HS eq_refl) as (z & Ez & Ef & Hz). rewrite Ez. split; [apply exp_pos|]. unfold Q. intros r1 [= <-]. split; [apply exp_pos|]. destruct Hz as [Hz|(q & y & _ & Hz)].
    - left. unfold ray in Hz. replace (sse (point c th (exp z)) / (sse c * B)) with (sse (point c th (exp z)) / sse c / B) by (field; lra). exact Hz.
    - right. exists (exp y). destruct Ha as (_ & _ & _ & Hr). assert (0 <= ln (1 + rtol)) by (rewrite <- ln_1; destruct (Req_dec rtol 0) as [-> |N]; [rewrite Rplus_0_r; lra|left; apply ln_increasing; lra]). rewrite (Rabs_right (ln _)) in Hz by lra.
      split; [apply exp_pos|]. rewrite <- (exp_ln (1 + rtol)) by lra. rewrite <- !exp_plus. pose proof (Rle_abs (z - y)). pose proof (Rle_abs (- (z - y))). rewrite Rabs_Ropp in *. split; apply exp_le; lra. }
  intros i p Hp. rewrite nth_error_map in Hp. destruct (nth_error (combine _ _) i) as [[th o]|] eqn:EC; [|discriminate]. cbn in Hp. apply combine_nth_error in EC. cbn in EC. destruct EC as (E1 & E2). pose proof (Forall2_nth _ _ _ F _ _ _ E1 E2) as HQ. destruct o as [r|]; [|discriminate]. injection Hp as <-. destruct (HQ r eq_refl) as (R0 & H). exists th, r. auto.
Qed.
(** the region does not depend on the unit of S *)
Theorem C99_scale Fq sse c ndata alpha width npoints rtol k : k <> 0 -> eps <= Rabs (sse c) -> eps <= Rabs (k * sse c) ->
  confidence_region Fq (fun p => k * sse p) 2 c ndata alpha width npoints rtol = confidence_region Fq sse 2 c ndata alpha width npoints rtol.
Proof.
  intros Hk H1 H2. assert (S0 : sse c <> 0) by (intros Z; rewrite Z, Rabs_R0 in H1; pose proof eps0; lra).
  assert (E : find_radius (fun p => k * sse p) c = find_radius sse c).
  { extensionality B. extensionality r. extensionality th. extensionality r0. unfold find_radius. f_equal. extensionality v. do 2 f_equal. destruct v; cbn; auto; unfold np_div; rewrite !Reqb_f by (auto; now apply Rmult_integral_contrapositive_currified); f_equal; field; auto. }
  unfold confidence_region. rewrite !Rltb_f by lra. rewrite E. reflexivity.
Qed.
(** with an explicit width the region moves with the centre *)
Definition shift (s p : R * R) : R * R := (fst p + fst s, snd p + snd s).
Theorem C99_translation Fq sse c s ndata alpha width npoints rtol : 0 < width ->
  confidence_region Fq (fun p => sse (fst p - fst s, snd p - snd s)) 2 (shift s c) ndata alpha width npoints rtol =
  match confidence_region Fq sse 2 c ndata alpha width npoints rtol with Ok l => Ok (map (option_map (shift s)) l) | Err e => Err e end.
Proof.
  intros Hw. set (sse' := fun p : R * R => sse (fst p - fst s, snd p - snd s)).
  assert (EC : sse' (shift s c) = sse c). { unfold sse', shift. cbn. rewrite (surjective_pairing c) at 3. f_equal. f_equal; ring. }
  assert (E : find_radius sse' (shift s c) = find_radius sse c).
  { extensionality B. extensionality r. extensionality th. extensionality r0. unfold find_radius. f_equal. extensionality v. do 2 f_equal. destruct v as [z| | |]; unfold nsse; auto; rewrite EC; unfold sse', shift; cbn [fst snd]; f_equal; f_equal; f_equal; ring. }
  unfold confidence_region. rewrite EC, E. unfold guess0. rewrite (Rltb_t 0 width) by auto. destruct (negb (Nat.eqb 2 2)); [reflexivity|]. destruct (negb (Rleb (1 / 1000) alpha && Rleb alpha (99 / 100))); [reflexivity|]. destruct (negb (Nat.leb 3 ndata)); [reflexivity|]. destruct (negb (Nat.leb 1 npoints && Nat.leb npoints 500)); [reflexivity|]. destruct (negb (Rleb (1 / 10 ^ 4) rtol && Rleb rtol (1 / 10))); [reflexivity|]. destruct (Rltb (Rabs (sse c)) eps); [reflexivity|].
  f_equal. rewrite map_map. apply map_ext. intros (th & [r|]); cbn; [|reflexivity]. unfold shift. cbn. do 2 f_equal; ring.
Qed.

(** ** A guess beyond the boundary of a quadratic S *)
Lemma e_le : exp 1 <= 28 / 10.
Proof. apply exp_upper; unfold q5; lra. Qed.
Lemma exp_1p x : 1 + x <= exp x.
Proof. destruct (Req_dec x 0) as [-> |N]; [rewrite exp_0; lra|]. left. now apply exp_ineq1. Qed.
(** one secant step for a (e^(2x) - e^(2L)) from two points to the right of L *)
Lemma sec_step a L x0 x1 : 0 < a -> L < x1 -> x1 < x0 <= x1 + 1 / 2 ->
  let g := fun x => a * (exp (2 * x) - exp (2 * L)) in let d := g x1 * (x1 - x0) / (g x1 - g x0) in
  0 < d /\ d <= 1 / 2 /\ d <= x1 - L /\ (x1 - L) / (28 / 10 * (1 + 2 * (x1 - L))) <= d /\ exp (2 * x1) - exp (2 * L) <= 56 / 10 * d * exp (2 * x1) /\
  2 * a * (x0 - x1) * exp (2 * x1) <= g x0 - g x1 /\ g x0 <= 28 / 10 * a * exp (2 * x1).
Proof.
  intros Ha HL Hx g d. set (h := x0 - x1). set (t := x1 - L). set (E1 := exp (2 * x1)). assert (P1 : 0 < E1) by apply exp_pos. assert (Hh : 0 < h <= 1 / 2) by (unfold h; lra). assert (Ht : 0 < t) by (unfold t; lra).
  assert (X0 : exp (2 * x0) = E1 * exp (2 * h)) by (unfold E1, h; rewrite <- exp_plus; f_equal; ring).
  assert (XL : exp (2 * L) = E1 * exp (- (2 * t))) by (unfold E1, t; rewrite <- exp_plus; f_equal; ring).
  pose proof (exp_1p (2 * h)) as U1. assert (U2 : exp (2 * h) - 1 <= 2 * h * (28 / 10)).
  { pose proof (exp_1p (- (2 * h))) as U. pose proof (exp_pos (2 * h)) as P. assert (Q : exp (2 * h) * exp (- (2 * h)) = 1) by (rewrite <- exp_plus, <- exp_0; f_equal; ring). assert (exp (2 * h) <= exp 1) by (apply exp_le; lra). pose proof e_le. nra. }
  assert (U3 : exp (2 * h) <= 28 / 10) by (pose proof e_le; assert (exp (2 * h) <= exp 1) by (apply exp_le; lra); lra).
  pose proof (exp_1p (- (2 * t))) as V1. assert (V2 : exp (- (2 * t)) * (1 + 2 * t) <= 1).
  { pose proof (exp_1p (2 * t)) as V. pose proof (exp_pos (- (2 * t))). assert (Q : exp (2 * t) * exp (- (2 * t)) = 1) by (rewrite <- exp_plus, <- exp_0; f_equal; ring). nra. }
  assert (V3 : 0 < exp (- (2 * t)) < 1). { split; [apply exp_pos|]. rewrite <- exp_0. apply exp_increasing. lra. }
  assert (G1 : g x1 = a * E1 * (1 - exp (- (2 * t)))) by (unfold g; fold E1; rewrite XL; ring).
  assert (G0 : g x0 - g x1 = a * E1 * (exp (2 * h) - 1)) by (unfold g; fold E1; rewrite X0; ring).
  set (s := exp (2 * h) - 1) in *. set (w := 1 - exp (- (2 * t))) in *. assert (PA : 0 < a * E1) by nra.
  assert (Hs : 0 < s) by (unfold s; lra). assert (Hw : 0 < w < 1) by (unfold w; lra).
  assert (Hd : d = w * h / s). { unfold d. replace (g x1 - g x0) with (- (a * E1 * s)) by lra. rewrite G1. replace (x1 - x0) with (- h) by (unfold h; ring). field. repeat split; lra. }
  assert (DS : d * s = w * h) by (rewrite Hd; field; lra). assert (D0 : 0 < d) by (rewrite Hd; apply Rdiv_lt_0_compat; nra).
  assert (D1 : 2 * d <= w). { unfold s in DS. assert (d * (2 * h) <= w * h) by nra. nra. }
  assert (D2 : w <= 56 / 10 * d). { assert (w * h <= d * (2 * h * (28 / 10))) by nra. nra. }
  split; [auto|]. split; [lra|]. split; [unfold w in D1; lra|]. split; [|split; [|split]].
  - apply Rle_div_l; [nra|]. assert (2 * t <= w * (1 + 2 * t)) by (unfold w; lra). nra.
  - rewrite XL. assert (E1 * w <= E1 * (56 / 10 * d)) by (apply Rmult_le_compat_l; lra). unfold w in *. lra.
  - rewrite G0. unfold s. replace (2 * a * h * E1) with (a * E1 * (2 * h)) by ring. apply Rmult_le_compat_l; lra.
  - unfold g. rewrite X0. pose proof (exp_pos (2 * L)). assert (a * (E1 * exp (2 * h)) <= a * (E1 * (28 / 10))) by (apply Rmult_le_compat_l; [lra|apply Rmult_le_compat_l; lra]). nra.
Qed.
(** enough iterations are left for the distance t *)
Definition enough (tau : R) (n : nat) (t : R) : Prop :=
  ((1 <= n)%nat /\ t <= 1 / 2 /\ t * (5 / 6) ^ (n - 1) <= tau) \/ ((51 <= n)%nat /\ t <= 1 / 2 + INR (n - 51) * (5 / 56)).
Lemma enough_step tau n t d : 9 / 10 ^ 5 <= tau -> 0 < t -> enough tau (S n) t -> d <= t -> tau < d -> t / (28 / 10 * (1 + 2 * t)) <= d -> enough tau n (t - d).
Proof.
  intros Ht T0 H D1 D2 D3. apply Rle_div_l in D3; [|nra].
  assert (C1 : t <= 1 / 2 -> t * (5 / 6) ^ n <= tau -> enough tau n (t - d)).
  { intros T1 T2. left. destruct n as [|n]; [cbn in T2; lra|]. split; [lia|]. split; [lra|]. cbn [Nat.sub]. rewrite Nat.sub_0_r. cbn [pow] in T2. assert (0 < (5 / 6) ^ n) by (apply pow_lt; lra). assert (t - d <= t * (5 / 6)) by nra. nra. }
  destruct H as [(N1 & T1 & T2)|(N1 & T1)]; [cbn [Nat.sub] in T2; rewrite Nat.sub_0_r in T2; auto|]. destruct (Rle_dec t (1 / 2)) as [C|C].
  - apply C1; auto. replace n with (50 + (n - 50))%nat by lia. rewrite pow_add. assert (H1 : (5 / 6) ^ 50 <= 12 / 10 ^ 5) by lra. assert (H2 : 0 < (5 / 6) ^ (n - 50) <= 1). { split; [apply pow_lt; lra|]. rewrite <- (pow1 (n - 50)). apply pow_incr. lra. } assert (0 < (5 / 6) ^ 50) by (apply pow_lt; lra). assert ((5 / 6) ^ 50 * (5 / 6) ^ (n - 50) <= 12 / 10 ^ 5) by nra. nra.
  - right. destruct (Nat.eq_dec (S n) 51) as [E|N]; [rewrite E in T1; cbn in T1; lra|]. split; [lia|]. replace (S n - 51)%nat with (S (n - 51)) in T1 by lia. rewrite S_INR in T1. assert (5 / 56 <= d) by nra. lra.
Qed.
Lemma sec_conv a L tau : 0 < a -> 1 / 1000 <= a * exp (2 * L) -> 9 / 10 ^ 5 <= tau -> let g := fun x => a * (exp (2 * x) - exp (2 * L)) in
  forall n k x0 x1 x2 f2 tr d, 1 / 10 ^ 4 < g x1 -> x1 + 9 / 10 ^ 5 <= x0 <= x1 + 1 / 2 -> enough tau n (x1 - L) ->
  exists z, sec_res (secant_loop g tau (1 / 10 ^ 4) n k x0 (g x0) x1 (g x1) x2 f2 tr) d = (true, Fin z) /\ L <= z <= x1 /\ (exp (2 * z) * (1 - 6 * tau) <= exp (2 * L) \/ g z <= 1 / 10 ^ 4).
Proof.
  intros Ha Hm Ht g n. induction n as [|n IH]; intros k x0 x1 x2 f2 tr dd G1 Hx Hn; [destruct Hn; lia|].
  assert (HL : L < x1). { destruct (Rlt_dec L x1) as [C|C]; auto. exfalso. assert (exp (2 * x1) <= exp (2 * L)) by (apply exp_le; lra). unfold g in G1. assert (a * (exp (2 * x1) - exp (2 * L)) <= 0) by nra. lra. }
  pose proof (sec_step a L x0 x1 Ha HL ltac:(lra)) as ST. cbv zeta in ST. fold g in ST. change (a * (exp (2 * x0) - exp (2 * L))) with (g x0) in ST. change (a * (exp (2 * x1) - exp (2 * L))) with (g x1) in ST.
  cbn [secant_loop]. set (d := g x1 * (x1 - x0) / (g x1 - g x0)) in *. destruct ST as (D0 & D1 & D2 & D3 & D4 & D5 & D6).
  assert (EL : exp (2 * L) < exp (2 * x1)) by (apply exp_increasing; lra). pose proof (exp_pos (2 * L)) as PL.
  assert (A1 : 1 / 1000 <= a * exp (2 * x1)) by nra. set (m := a * exp (2 * x1)) in *.
  assert (S1 : 18 / 10 ^ 5 * m <= g x0 - g x1). { eapply Rle_trans; [|exact D5]. replace (2 * a * (x0 - x1) * exp (2 * x1)) with (2 * (x0 - x1) * m) by (unfold m; ring). apply Rmult_le_compat_r; lra. }
  assert (S2 : g x0 <= 28 / 10 * m) by (unfold m; lra).
  rewrite (proj2 (Rleb_false (Rabs (g x1 - g x0)) _)).
  2:{ rewrite (Rabs_left (g x1 - g x0)) by lra. rewrite (Rabs_right (g x0)), (Rabs_right (g x1)) by lra. rewrite (Rmax_left (g x0)) by lra. pose proof eps_lt. pose proof eps0.
    apply Rle_lt_trans with (eps * (3000 * m)). { apply Rmult_le_compat_l; [lra|]. apply Rmax_lub; lra. } assert (eps * (3000 * m) <= 1 / 10 ^ 15 * (3000 * m)) by (apply Rmult_le_compat_r; lra). lra. }
  cbv zeta. replace (x1 - d - x1) with (- d) by ring. rewrite Rabs_Ropp, (Rabs_right d) by lra.
  assert (EZ : exp (2 * (x1 - d)) <= exp (2 * x1)) by (apply exp_le; lra).
  destruct (Rleb d tau) eqn:ET; [apply Rleb_true in ET|apply Rleb_false in ET].
  - exists (x1 - d). split; [reflexivity|]. split; [lra|]. left. assert (exp (2 * x1) * (1 - 56 / 10 * d) <= exp (2 * L)) by lra. pose proof (exp_pos (2 * (x1 - d))). destruct (Rle_dec 0 (1 - 6 * tau)) as [C|C]; [|nra].
    apply Rle_trans with (exp (2 * x1) * (1 - 56 / 10 * d)); [|lra]. apply Rmult_le_compat; lra.
  - assert (GZ : 0 <= g (x1 - d)). { unfold g. assert (exp (2 * L) <= exp (2 * (x1 - d))) by (apply exp_le; lra). nra. } rewrite (Rabs_right (g (x1 - d))) by lra.
    destruct (Rleb (g (x1 - d)) (1 / 10 ^ 4)) eqn:EF; [apply Rleb_true in EF; exists (x1 - d); split; [reflexivity|]; split; [lra|now right]|apply Rleb_false in EF].
    destruct (IH (k + 1)%nat x1 (x1 - d) (Fin (x1 - d)) (Fin (g (x1 - d))) (tr ++ [x1 - d])%list dd) as (z & Z1 & Z2 & Z3); [exact EF|lra| |exists z; split; [exact Z1|split; [lra|exact Z3]]].
    replace (x1 - d - L) with (x1 - L - d) by ring. apply (enough_step tau n (x1 - L) d); auto; lra.
Qed.
Lemma ln_b x : 0 <= x <= 1 -> x - x * x / 2 <= ln (1 + x) <= x.
Proof.
  intros H. split.
  - assert (HM : ln (1 + 0) - 0 <= ln (1 + x) - (x - x * x / 2)).
    { replace 0 with (0 - 0 * 0 / 2) at 2 by lra. apply (mono_incr (fun t => ln (1 + t) - (t - t * t / 2)) (fun t => / (1 + t) - (1 - t))); [lra| |].
      - intros t Ht. unfold D; auto_derive; [lra|field; lra].
      - intros t Ht. assert ((1 + t) * / (1 + t) = 1) by (field; lra). assert (0 < / (1 + t)) by (apply Rinv_0_lt_compat; lra). nra. }
    rewrite Rplus_0_r, ln_1 in HM. lra.
  - rewrite <- (ln_exp x) at 2. destruct (Req_dec x 0) as [-> |N]; [rewrite exp_0, Rplus_0_r; lra|]. left. apply ln_increasing; [lra|]. now apply exp_ineq1.
Qed.
(** along a ray on which S is quadratic with boundary rho, a guess between rho and 100 rho gives a radius r >= rho that is right
    up to the tolerances *)
Theorem C99_ray sse c B rtol th r0 kappa rho : eps <= Rabs (sse c) -> 0 < kappa -> 0 < rho -> kappa * rho ^ 2 = B - 1 -> B <= 1000 * (B - 1) -> 1 / 10 ^ 4 <= rtol <= 1 / 10 ->
  (forall r, 0 < r -> sse (point c th r) = sse c * (1 + kappa * r ^ 2)) -> rho <= r0 <= 100 * rho ->
  exists x, find_radius sse c B rtol th r0 = (true, Fin x) /\ rho <= exp x /\
    (exp x ^ 2 * (1 - 6 * rtol) <= rho ^ 2 \/ exp x ^ 2 <= rho ^ 2 * (1 + 1 / 10 ^ 4 * (B / (B - 1)))).
Proof.
  intros Hs Hk Hrho HB HB2 Hr HS Hg. assert (S0 : sse c <> 0) by (intros Z; rewrite Z, Rabs_R0 in Hs; pose proof eps0; lra).
  assert (B1 : 1 < B) by (assert (0 < kappa * rho ^ 2) by (apply Rmult_lt_0_compat; [lra|apply pow_lt; lra]); lra).
  rewrite find_fin by (auto; lra). set (L := ln rho). set (a := kappa / B). assert (Ha : 0 < a) by (apply Rdiv_lt_0_compat; lra).
  assert (SQ : forall x, exp (2 * x) = exp x ^ 2) by (intros x; replace (2 * x) with (x + x) by ring; rewrite exp_plus; ring).
  assert (EL : exp (2 * L) = rho ^ 2) by (rewrite SQ; unfold L; now rewrite exp_ln by lra).
  set (g := fun x => a * (exp (2 * x) - exp (2 * L))). assert (ER : ray sse c B th = g).
  { extensionality x. unfold ray, g. change (fst c + exp x * cos th, snd c + exp x * sin th) with (point c th (exp x)). rewrite HS by apply exp_pos. rewrite EL, SQ. unfold a. replace (sse c * (1 + kappa * exp x ^ 2) / sse c / B - 1) with ((kappa * exp x ^ 2 - (B - 1)) / B) by (field; lra). rewrite <- HB. field. lra. }
  rewrite ER. set (tau := ln (1 + rtol)). pose proof (ln_b rtol ltac:(lra)) as TB. fold tau in TB. assert (T1 : 9 / 10 ^ 5 <= tau) by nra. rewrite (Rabs_right tau) by lra.
  assert (MA : a * exp (2 * L) = (B - 1) / B) by (rewrite EL, <- HB; unfold a; field; lra).
  assert (M1 : 1 / 1000 <= a * exp (2 * L)). { rewrite MA. apply (proj1 (Rle_div_r (1 / 1000) (B - 1) B ltac:(lra))). lra. }
  set (x1 := ln r0). set (x0 := ln (r0 * (102 / 100))). assert (X0 : x0 = x1 + ln (1 + 2 / 100)). { unfold x0, x1. rewrite ln_mult by lra. do 2 f_equal. lra. } pose proof (ln_b (2 / 100) ltac:(lra)) as LB.
  assert (XL : L <= x1). { unfold L, x1. destruct (Req_dec rho r0) as [-> |N]; [lra|]. left. apply ln_increasing; lra. }
  assert (GP : forall x, L <= x -> 0 <= g x). { intros x H. unfold g. assert (exp (2 * L) <= exp (2 * x)) by (apply exp_le; lra). nra. }
  assert (FIN : forall z, L <= z -> (exp (2 * z) * (1 - 6 * tau) <= exp (2 * L) \/ g z <= 1 / 10 ^ 4) -> rho <= exp z /\ (exp z ^ 2 * (1 - 6 * rtol) <= rho ^ 2 \/ exp z ^ 2 <= rho ^ 2 * (1 + 1 / 10 ^ 4 * (B / (B - 1))))).
  { intros z HL H. split; [rewrite <- (exp_ln rho) by lra; now apply exp_le|]. rewrite <- SQ, <- EL. destruct H as [H|H].
    - left. eapply Rle_trans; [|exact H]. apply Rmult_le_compat_l; [left; apply exp_pos|lra].
    - right. unfold g in H. apply (Rmult_le_reg_l a); auto. replace (a * (exp (2 * L) * (1 + 1 / 10 ^ 4 * (B / (B - 1))))) with (a * exp (2 * L) + (a * exp (2 * L)) * (1 / 10 ^ 4 * (B / (B - 1)))) by ring. rewrite MA at 2. replace ((B - 1) / B * (1 / 10 ^ 4 * (B / (B - 1)))) with (1 / 10 ^ 4) by (field; lra). lra. }
  unfold root_secant. rewrite !(Rabs_right (g _)) by (apply Rle_ge, GP; lra).
  destruct (Rleb (g x0) (1 / 10 ^ 4)) eqn:E0; [apply Rleb_true in E0; exists x0; split; [reflexivity|]; apply FIN; [lra|now right]|].
  destruct (Rleb (g x1) (1 / 10 ^ 4)) eqn:E1; [apply Rleb_true in E1; exists x1; split; [reflexivity|]; apply FIN; [lra|now right]|]. apply Rleb_false in E1.
  destruct (sec_conv a L tau Ha M1 T1 100 0 x0 x1 NaN NaN [x0; x1] NaN) as (z & Z1 & Z2 & Z3); [exact E1|lra| |exists z; split; [exact Z1|apply FIN; [lra|exact Z3]]].
  right. split; [lia|]. replace (INR (100 - 51)) with 49 by (cbn; lra).
  assert (x1 - L <= 48 / 10). { unfold x1, L. rewrite <- (ln_exp (48 / 10)). assert (E48 : 100 <= exp (48 / 10)). { replace (48 / 10) with (12 / 10 + 12 / 10 + 12 / 10 + 12 / 10) by lra. rewrite !exp_plus. assert (32 / 10 <= exp (12 / 10)) by (apply exp_lower; unfold q6; lra). assert (10 <= exp (12 / 10) * exp (12 / 10)) by nra. nra. }
    assert (ln r0 <= ln (rho * exp (48 / 10))). { destruct (Req_dec r0 (rho * exp (48 / 10))) as [<- |N]; [lra|]. left. apply ln_increasing; nra. } rewrite ln_mult in H by (try apply exp_pos; lra). lra. }
  lra.
Qed.

(** ** The region of a circular S *)
(** S is a paraboloid of revolution about the centre; its boundary S = B S(c) is the circle of radius rho *)
Definition circular (sse : R * R -> R) (c : R * R) (B rho : R) : Prop :=
  0 < rho /\ 1 < B /\ B <= 1000 * (B - 1) /\ forall p, sse p = sse c * (1 + (B - 1) / rho ^ 2 * ((fst p - fst c) ^ 2 + (snd p - snd c) ^ 2)).
Lemma circ_ray sse c B rho th r : circular sse c B rho -> sse (point c th r) = sse c * (1 + (B - 1) / rho ^ 2 * r ^ 2).
Proof.
  intros (H0 & H1 & H2 & H). rewrite H. unfold point. cbn [fst snd]. do 2 f_equal. pose proof (sin2_cos2 th) as SC. unfold Rsqr in SC. transitivity ((B - 1) / rho ^ 2 * (r ^ 2 * (sin th * sin th + cos th * cos th))); [f_equal; ring|rewrite SC; f_equal; ring].
Qed.
Lemma dist_point c th r : (fst (point c th r) - fst c) ^ 2 + (snd (point c th r) - snd c) ^ 2 = r ^ 2.
Proof. unfold point. cbn [fst snd]. pose proof (sin2_cos2 th) as SC. unfold Rsqr in SC. transitivity (r ^ 2 * (sin th * sin th + cos th * cos th)); [ring|rewrite SC; ring]. Qed.
Lemma region_all Fq sse c ndata alpha width npoints rtol (Q : R -> R -> Prop) : args_ok ndata alpha npoints rtol -> eps <= Rabs (sse c) ->
  Forall2 (fun th o => exists r, o = Some r /\ Q th r) (angles npoints) (radii (find_radius sse c (bound Fq ndata alpha) rtol) (guess0 width (fst c)) (guess0 width (fst c)) (angles npoints)) ->
  exists pts, confidence_region Fq sse 2 c ndata alpha width npoints rtol = Ok pts /\ length pts = npoints /\ forall i, (i < npoints)%nat -> exists th r, nth_error (angles npoints) i = Some th /\ nth_error pts i = Some (Some (point c th r)) /\ Q th r.
Proof.
  intros Ha Hs F. rewrite region_unf by auto. eexists. split; [reflexivity|]. split; [rewrite map_length, combine_length, radii_length, angles_length; lia|]. intros i Hi. rewrite nth_error_map. remember (angles npoints) as l eqn:El. set (l' := radii _ _ _ l) in *. assert (Hl : (i < length l)%nat) by (subst l; now rewrite angles_length). clearbody l'. clear El Ha Hs. revert i Hi Hl. induction F as [|th o l l' (r & -> & HQ) F IH]; intros i Hi Hl; [cbn in Hl; lia|]. destruct i as [|i]; [exists th, r; cbn; auto|]. cbn [combine nth_error]. cbn in Hl. apply IH; lia.
Qed.
(** a guess between rho and 100 rho: every point is found, on or outside the circle, and right up to the tolerances *)
Theorem C99_circle Fq sse c ndata alpha width npoints rtol rho : args_ok ndata alpha npoints rtol -> eps <= Rabs (sse c) -> circular sse c (bound Fq ndata alpha) rho -> rho <= guess0 width (fst c) <= 100 * rho ->
  exists pts, confidence_region Fq sse 2 c ndata alpha width npoints rtol = Ok pts /\ length pts = npoints /\ forall i, (i < npoints)%nat -> exists th r, nth_error (angles npoints) i = Some th /\ nth_error pts i = Some (Some (point c th r)) /\
    rho <= r /\ (r ^ 2 * (1 - 6 * rtol) <= rho ^ 2 \/ r ^ 2 <= rho ^ 2 * (1 + 1 / 10 ^ 4 * (bound Fq ndata alpha / (bound Fq ndata alpha - 1)))).
Proof.
  intros Ha Hs HC Hg. set (B := bound Fq ndata alpha) in *. pose proof HC as (R0 & B1 & B2 & _). pose proof Ha as (_ & _ & _ & Hr).
  apply (region_all Fq sse c ndata alpha width npoints rtol (fun th r => rho <= r /\ (r ^ 2 * (1 - 6 * rtol) <= rho ^ 2 \/ r ^ 2 <= rho ^ 2 * (1 + 1 / 10 ^ 4 * (B / (B - 1)))))); auto. fold B.
  apply (radii_ind _ _ (fun g => rho <= g <= 100 * rho)); auto. intros th g G. pose proof (pow_lt rho 2 R0) as R2.
  destruct (C99_ray sse c B rtol th g ((B - 1) / rho ^ 2) rho) as (x & -> & X1 & X2); auto; [apply Rdiv_lt_0_compat; lra|field; lra|intros r _; now apply circ_ray|].
  split; [|exists (exp x); auto]. split; auto. set (r := exp x) in *. assert (r ^ 2 <= 4 * rho ^ 2).
  { destruct X2 as [X2|X2]; [assert (r ^ 2 * (4 / 10) <= r ^ 2 * (1 - 6 * rtol)) by (apply Rmult_le_compat_l; [apply pow2_ge_0|lra]); lra|]. assert (B / (B - 1) <= 1000) by (apply (proj2 (Rle_div_l B 1000 (B - 1) ltac:(lra))); lra). nra. }
  destruct (Rle_dec r (100 * rho)) as [C|C]; auto. nra.
Qed.

(** ** A guess that is too small: the iteration stops where it started *)
Lemma exp_small : exp (8 / 10 ^ 7) <= 1 + 1 / 10 ^ 6.
Proof. apply exp_upper; unfold q5; lra. Qed.
Lemma exp30 x : 30 <= x -> 10 ^ 9 <= exp x.
Proof.
  intros H. apply Rle_trans with (exp 30); [|now apply exp_le]. assert (E1 : 2 <= exp 1) by (pose proof (exp_1p 1); lra). replace 30 with (INR 30 * 1) by (cbn; lra). assert (G : forall n, 2 ^ n <= exp (INR n * 1)). { induction n as [|n IH]; [cbn [pow INR]; rewrite Rmult_0_l, exp_0; lra|]. rewrite S_INR. replace ((INR n + 1) * 1) with (INR n * 1 + 1) by ring. rewrite exp_plus. cbn [pow]. pose proof (exp_pos (INR n * 1)). assert (0 < 2 ^ n) by (apply pow_lt; lra). nra. }
  eapply Rle_trans; [|apply G]. lra.
Qed.
Lemma zero_slope_no f0 f1 : eps * (1 + Rabs f0 + Rabs f1) < Rabs (f1 - f0) -> Rleb (Rabs (f1 - f0)) (eps * Rmax (Rmax (Rabs f0) (Rabs f1)) 1) = false.
Proof.
  intros H. apply Rleb_false. eapply Rle_lt_trans; [|exact H]. apply Rmult_le_compat_l; [left; apply eps0|]. pose proof (Rabs_pos f0). pose proof (Rabs_pos f1). repeat apply Rmax_lub; lra.
Qed.
Lemma zs w : 1 / 10 <= w -> eps * (1 + w) < w.
Proof. intros H. pose proof eps0. pose proof eps_lt. nra. Qed.
Lemma sl_go g tolx tolf n k x0 x1 nx x2 f2 tr dd : eps * (1 + Rabs (g x0) + Rabs (g x1)) < Rabs (g x1 - g x0) -> x1 - g x1 * (x1 - x0) / (g x1 - g x0) = nx -> tolx < Rabs (nx - x1) -> tolf < Rabs (g nx) ->
  sec_res (secant_loop g tolx tolf (S n) k x0 (g x0) x1 (g x1) x2 f2 tr) dd = sec_res (secant_loop g tolx tolf n (k + 1) x1 (g x1) nx (g nx) (Fin nx) (Fin (g nx)) (tr ++ [nx])) dd.
Proof. intros HZ <- HX HF. cbn [secant_loop]. rewrite zero_slope_no by auto. cbv zeta. rewrite (proj2 (Rleb_false _ _) HX), (proj2 (Rleb_false _ _) HF). reflexivity. Qed.
Lemma sl_stop g tolx tolf n k x0 x1 nx x2 f2 tr dd : eps * (1 + Rabs (g x0) + Rabs (g x1)) < Rabs (g x1 - g x0) -> x1 - g x1 * (x1 - x0) / (g x1 - g x0) = nx -> Rabs (nx - x1) <= tolx ->
  sec_res (secant_loop g tolx tolf (S n) k x0 (g x0) x1 (g x1) x2 f2 tr) dd = (true, Fin nx).
Proof. intros HZ <- HX. cbn [secant_loop]. rewrite zero_slope_no by auto. cbv zeta. rewrite (proj2 (Rleb_true _ _) HX). reflexivity. Qed.
Lemma stall_run m L tau x1 : 1 / 1000 <= m <= 1 -> 9 / 10 ^ 5 <= tau <= 1 / 10 -> 1 / 400 <= exp (2 * (x1 - L)) <= 1 / 64 ->
  let g := fun x => m * (exp (2 * (x - L)) - 1) in let x0 := x1 + ln (1 + 2 / 100) in
  exists z, sec_res (root_secant g x0 x1 tau (1 / 10 ^ 4) 100) NaN = (true, Fin z) /\ x1 <= z <= x1 + 8 / 10 ^ 7.
Proof.
  intros Hm Ht Hu g x0. set (u := exp (2 * (x1 - L))) in *. set (l := ln (1 + 2 / 100)) in *. pose proof (ln_b (2 / 100) ltac:(lra)) as LB. fold l in LB. pose proof eps0 as P0. pose proof eps_lt as PE.
  assert (EX : forall y, exp (2 * (x1 + y - L)) = u * exp (2 * y)) by (intros y; unfold u; rewrite <- exp_plus; f_equal; ring).
  assert (E0 : exp (2 * (x0 - L)) = u * (10404 / 10000)). { unfold x0. rewrite EX. f_equal. replace (2 * l) with (l + l) by ring. rewrite exp_plus. unfold l. rewrite exp_ln by lra. lra. }
  assert (G1 : g x1 = m * (u - 1)) by reflexivity. assert (G0 : g x0 = m * (u * (10404 / 10000) - 1)) by (unfold g; now rewrite E0).
  assert (N0 : - 1 <= g x0 <= - (1 / 2) * m) by (rewrite G0; nra). assert (N1 : - 1 <= g x1 <= - (1 / 2) * m) by (rewrite G1; nra).
  unfold root_secant. rewrite (Rabs_left (g x0)), (Rabs_left (g x1)) by lra. rewrite !(proj2 (Rleb_false _ _)) by lra.
  (* first step: far to the right *)
  set (d := (1 - u) * l / (404 / 10000 * u)). assert (Hd : 30 <= d). { unfold d. apply (proj1 (Rle_div_r 30 ((1 - u) * l) (404 / 10000 * u) ltac:(lra))). nra. }
  assert (S1 : g x0 - g x1 = 404 / 10000 * m * u) by (rewrite G0, G1; lra). assert (S1' : 1 / 10 ^ 8 <= g x0 - g x1) by (rewrite S1; nra).
  change 100%nat with (S (S (S 97))). generalize 97%nat as n97. intros n97.
  assert (X2 : x1 - g x1 * (x1 - x0) / (g x1 - g x0) = x1 + d). { replace (g x1 - g x0) with (- (404 / 10000 * m * u)) by lra. rewrite G1. replace (x1 - x0) with (- l) by (unfold x0; ring). unfold d. field. repeat split; lra. }
  set (x2 := x1 + d) in *.
  set (e2 := u * exp (2 * d)). assert (G2 : g x2 = m * (e2 - 1)) by (unfold g, x2; now rewrite EX).
  assert (ED : 10 ^ 9 <= exp d) by now apply exp30. pose proof (exp_1p d) as ED1. assert (EDD : exp (2 * d) = exp d * exp d) by (rewrite <- exp_plus; f_equal; ring). set (q := exp d) in *.
  assert (K1 : d * q + q <= exp (2 * d)) by (rewrite EDD; nra). assert (K2 : 10 ^ 6 <= e2) by (unfold e2; nra).
  assert (N2 : 100 * m <= g x2) by (rewrite G2; nra). rewrite (sl_go g tau (1 / 10 ^ 4) _ _ x0 x1 x2); [|rewrite (Rabs_left (g x0)), (Rabs_left (g x1)), (Rabs_left (g x1 - g x0)) by lra; nra|exact X2|replace (x2 - x1) with d by (unfold x2; ring); rewrite Rabs_right; lra|rewrite Rabs_right; lra].
  (* second step: back to the guess *)
  assert (S2 : g x2 - g x1 = m * (e2 - u)) by (rewrite G2, G1; ring). assert (S2' : g x2 + m / 2 <= g x2 - g x1) by lra.
  set (h1 := d * (1 - u) / (e2 - u)). assert (X3 : x2 - g x2 * (x2 - x1) / (g x2 - g x1) = x1 + h1). { rewrite S2, G2. replace (x2 - x1) with d by (unfold x2; ring). unfold h1, x2. field. split; lra. }
  assert (BD : forall y v, 0 < y <= 1 -> v <= 2 * u -> 0 < d * y / (e2 - v) <= 4 / 10 ^ 7). { intros y v Hy Hv. assert (e2 - v >= u * (d * q)) by (unfold e2; nra). assert (0 < u * (d * q)) by (apply Rmult_lt_0_compat; [lra|apply Rmult_lt_0_compat; lra]). split; [apply Rdiv_lt_0_compat; nra|]. apply (proj2 (Rle_div_l (d * y) (4 / 10 ^ 7) (e2 - v) ltac:(lra))). assert (d * 1 <= 4 / 10 ^ 7 * (u * (d * q))). { replace (4 / 10 ^ 7 * (u * (d * q))) with (d * (4 / 10 ^ 7 * (u * q))) by ring. apply Rmult_le_compat_l; [lra|]. assert (1 / 400 * 10 ^ 9 <= u * q) by (apply Rmult_le_compat; lra). lra. } nra. }
  pose proof (BD (1 - u) u ltac:(lra) ltac:(lra)) as B1. fold h1 in B1. set (x3 := x1 + h1) in *.
  set (e3 := u * exp (2 * h1)). assert (G3 : g x3 = m * (e3 - 1)) by (unfold g, x3; now rewrite EX). assert (E3 : u <= e3 <= 2 * u). { unfold e3. pose proof (exp_1p (2 * h1)). assert (exp (2 * h1) <= exp (2 * (1 / 10))) by (apply exp_le; lra). assert (exp (2 * (1 / 10)) <= 2) by (apply exp_upper; unfold q5; lra). nra. }
  assert (N3 : - 1 <= g x3 <= - (1 / 2) * m) by (rewrite G3; nra). rewrite (sl_go g tau (1 / 10 ^ 4) _ _ x1 x2 x3); [|rewrite (Rabs_left (g x1)), (Rabs_right (g x2)), (Rabs_right (g x2 - g x1)) by lra; replace (1 + - g x1 + g x2) with (1 + (g x2 - g x1)) by ring; apply zs; lra|exact X3|replace (x3 - x2) with (- (d - h1)) by (unfold x3, x2; ring); rewrite Rabs_Ropp, Rabs_right; lra|rewrite Rabs_left; lra].
  (* third step: no movement *)
  assert (S3 : g x2 - g x3 = m * (e2 - e3)) by (rewrite G2, G3; ring). assert (S3' : g x2 + m / 2 <= g x2 - g x3) by lra.
  set (h2 := (d - h1) * (1 - e3) / (e2 - e3)). assert (X4 : x3 - g x3 * (x3 - x2) / (g x3 - g x2) = x3 + h2). { replace (x3 - x2) with (- (d - h1)) by (unfold x3, x2; ring). replace (g x3 - g x2) with (- (m * (e2 - e3))) by lra. rewrite G3. unfold h2. field. split; lra. }
  assert (B2 : 0 < h2 <= 4 / 10 ^ 7). { pose proof (BD 1 e3 ltac:(lra) ltac:(lra)) as (A1 & A2). assert (HE : 0 < e2 - e3) by lra. unfold h2. split; [apply Rdiv_lt_0_compat; nra|]. eapply Rle_trans; [|exact A2]. unfold Rdiv. apply Rmult_le_compat_r; [left; now apply Rinv_0_lt_compat|]. nra. }
  exists (x3 + h2). split; [apply sl_stop; [rewrite (Rabs_left (g x3)), (Rabs_right (g x2)), (Rabs_left (g x3 - g x2)) by lra; replace (1 + g x2 + - g x3) with (1 + - (g x3 - g x2)) by ring; apply zs; lra|exact X4|replace (x3 + h2 - x3) with h2 by ring; rewrite Rabs_right; lra]|]. unfold x3. lra.
Qed.
Lemma stall_find sse c B rho rtol th r0 : eps <= Rabs (sse c) -> circular sse c B rho -> 1 / 10 ^ 4 <= rtol <= 1 / 10 -> rho / 20 <= r0 <= rho / 8 ->
  exists z, find_radius sse c B rtol th r0 = (true, Fin z) /\ r0 <= exp z <= r0 * (1 + 1 / 10 ^ 6).
Proof.
  intros Hs HC Hr Hg. pose proof HC as (R0 & B1 & B2 & _). assert (S0 : sse c <> 0) by (intros Z; rewrite Z, Rabs_R0 in Hs; pose proof eps0; lra).
  rewrite find_fin by (auto; lra). set (L := ln rho). set (m := (B - 1) / B).
  assert (ER : ray sse c B th = fun x => m * (exp (2 * (x - L)) - 1)).
  { extensionality x. unfold ray. change (fst c + exp x * cos th, snd c + exp x * sin th) with (point c th (exp x)). rewrite (circ_ray sse c B rho) by auto. replace (2 * (x - L)) with ((x - L) + (x - L)) by ring. rewrite exp_plus. assert (EX : exp (x - L) = exp x / rho) by (unfold Rminus; rewrite exp_plus, exp_Ropp; unfold L; now rewrite exp_ln by lra). rewrite EX. unfold m. field. lra. }
  rewrite ER. replace (ln (r0 * (102 / 100))) with (ln r0 + ln (1 + 2 / 100)) by (rewrite ln_mult by lra; do 2 f_equal; lra). pose proof (ln_b rtol ltac:(lra)) as TB. rewrite (Rabs_right (ln (1 + rtol))) by nra.
  assert (Hm : 1 / 1000 <= m <= 1). { unfold m. split; [apply (proj1 (Rle_div_r (1 / 1000) (B - 1) B ltac:(lra))); lra|apply (proj2 (Rle_div_l (B - 1) 1 B ltac:(lra))); lra]. }
  destruct (stall_run m L (ln (1 + rtol)) (ln r0) Hm) as (z & Z1 & Z2); [nra| |].
  - replace (2 * (ln r0 - L)) with ((ln r0 - L) + (ln r0 - L)) by ring. rewrite exp_plus. replace (exp (ln r0 - L)) with (r0 / rho) by (unfold Rminus; rewrite exp_plus, exp_Ropp; unfold L; rewrite !exp_ln by lra; reflexivity).
    assert (1 / 20 <= r0 / rho <= 1 / 8). { split; [apply (proj1 (Rle_div_r (1 / 20) r0 rho R0)); lra|apply (proj2 (Rle_div_l r0 (1 / 8) rho R0)); lra]. } nra.
  - exists z. split; [exact Z1|]. rewrite <- (exp_ln r0) at 1 2 by lra. split; [apply exp_le; lra|]. apply Rle_trans with (exp (ln r0 + 8 / 10 ^ 7)); [apply exp_le; lra|]. rewrite exp_plus. apply Rmult_le_compat_l; [left; apply exp_pos|apply exp_small].
Qed.
(** a guess between a twentieth and a ninth of the radius: every ray "converges" at the guess, and the region is at least eight
    times too small, without any warning *)
Theorem C99_stall Fq sse c ndata alpha width npoints rtol rho : args_ok ndata alpha npoints rtol -> eps <= Rabs (sse c) -> circular sse c (bound Fq ndata alpha) rho -> rho / 20 <= guess0 width (fst c) <= rho / 9 ->
  exists pts, confidence_region Fq sse 2 c ndata alpha width npoints rtol = Ok pts /\ length pts = npoints /\ forall i, (i < npoints)%nat -> exists th r, nth_error (angles npoints) i = Some th /\ nth_error pts i = Some (Some (point c th r)) /\ rho / 20 <= r <= rho / 8.
Proof.
  intros Ha Hs HC Hg. set (B := bound Fq ndata alpha) in *. pose proof HC as (R0 & B1 & B2 & _). pose proof Ha as (_ & _ & Hn & Hr).
  apply (region_all Fq sse c ndata alpha width npoints rtol (fun th r => rho / 20 <= r <= rho / 8)); auto. fold B. set (g0 := guess0 width (fst c)) in *. set (w := 1 + 1 / 10 ^ 6).
  assert (W : w ^ 500 <= 9 / 8). { apply Rle_trans with (exp (1 / 10 ^ 6) ^ 500); [apply pow_incr; unfold w; pose proof (exp_1p (1 / 10 ^ 6)); lra|]. assert (G : forall n x, exp x ^ n = exp (INR n * x)). { induction n as [|n IH]; intros x; [cbn [pow INR]; now rewrite Rmult_0_l, exp_0|]. rewrite S_INR. cbn [pow]. rewrite IH, <- exp_plus. f_equal. ring. } rewrite G. apply Rle_trans with (exp (1 / 1000)); [|apply exp_upper; unfold q5; lra]. apply exp_le. rewrite INR_IZR_INZ. cbn. lra. }
  assert (GO : forall ths g, rho / 20 <= g -> g * w ^ length ths <= rho / 8 -> Forall2 (fun (th : R) o => exists r, o = Some r /\ rho / 20 <= r <= rho / 8) ths (radii (find_radius sse c B rtol) g0 g ths)).
  { induction ths as [|th ths IH]; intros g G1 G2; cbn [radii]; [constructor|]. cbn [length pow] in G2. assert (1 <= w ^ length ths) by (apply pow_R1_Rle; unfold w; lra). assert (HW : 1 < w) by (unfold w; lra).
    assert (G3 : g * w <= g * (w * w ^ length ths)) by (apply Rmult_le_compat_l; [lra|]; nra). assert (G4 : g * 1 <= g * w) by (apply Rmult_le_compat_l; lra).
    destruct (stall_find sse c B rho rtol th g Hs HC Hr) as (z & -> & Z); [lra|]. fold w in Z. constructor; [exists (exp z); split; [reflexivity|lra]|]. apply IH; [lra|]. eapply Rle_trans; [|exact G2]. replace (g * (w * w ^ length ths)) with (g * w * w ^ length ths) by ring. apply Rmult_le_compat_r; lra. }
  apply GO; [lra|]. rewrite angles_length. assert (w ^ npoints <= 9 / 8). { eapply Rle_trans; [|exact W]. apply Rle_pow; [unfold w; lra|lia]. } assert (0 < w ^ npoints) by (apply pow_lt; unfold w; lra). nra.
Qed.
(** with the default width: a centre (0.4, y) and an S whose boundary is the unit circle *)
Theorem C99_stall_refuted : forall Fq ndata alpha npoints rtol y, args_ok ndata alpha npoints rtol -> 1 < bound Fq ndata alpha <= 1000 * (bound Fq ndata alpha - 1) ->
  exists sse c, snd c = y /\ 0 < fst c /\ circular sse c (bound Fq ndata alpha) 1 /\ exists pts, confidence_region Fq sse 2 c ndata alpha 0 npoints rtol = Ok pts /\ length pts = npoints /\
  forall i, (i < npoints)%nat -> exists p, nth_error pts i = Some (Some p) /\ sse p <= sse c * (1 + (bound Fq ndata alpha - 1) / 64).
Proof.
  intros Fq ndata alpha npoints rtol y Ha HB. set (B := bound Fq ndata alpha) in *. set (c := (4 / 10, y)). set (sse := fun p : R * R => 1 + (B - 1) * ((fst p - fst c) ^ 2 + (snd p - snd c) ^ 2)). exists sse, c. split; [reflexivity|]. split; [cbn; lra|].
  assert (SC : sse c = 1) by (unfold sse; rewrite !Rminus_eq_0; ring).
  assert (HC : circular sse c B 1). { repeat split; try lra. intros p. rewrite SC. unfold sse. rewrite pow1. field. } split; [exact HC|].
  assert (HS : eps <= Rabs (sse c)). { rewrite SC, Rabs_R1. pose proof eps_lt. lra. }
  destruct (C99_stall Fq sse c ndata alpha 0 npoints rtol 1 Ha HS HC) as (pts & E & EL & HP); [unfold guess0; rewrite Rltb_f by lra; cbn; lra|]. exists pts. split; [exact E|]. split; [exact EL|]. intros i Hi. destruct (HP i Hi) as (th & r & _ & Er & Hr). exists (point c th r). split; [exact Er|]. rewrite (circ_ray sse c B 1) by auto. rewrite SC, pow1. assert (r ^ 2 <= 1 / 64) by nra. replace ((B - 1) / 1) with (B - 1) by field. assert ((B - 1) * r ^ 2 <= (B - 1) * (1 / 64)) by (apply Rmult_le_compat_l; lra). lra.
Qed.

(** ** The default guess of a non-positive centre *)
Lemma sec_nan f tolx tolf n x2 : f NaN = NaN -> fst (sec_loop f tolx tolf n NaN NaN NaN NaN x2) = false.
Proof. intros Hf. revert x2. induction n as [|n IH]; intros x2; [reflexivity|]. cbn. rewrite Hf. cbn. apply IH. Qed.
Lemma find_bad sse c B rtol th r0 : sse c <> 0 -> 1 < B <= 1000 * (B - 1) -> r0 <= 0 -> fst (find_radius sse c B rtol th r0) = false.
Proof.
  intros S0 HB Hr. unfold find_radius, ln_fl. destruct (Req_dec r0 0) as [-> |N].
  - rewrite Rmult_0_l. rewrite !Rltb_f by lra. rewrite !Reqb_refl. set (f := fun v => _). assert (F : f NInf = Fin (/ B - 1)). { unfold f, nsse. rewrite !Rmult_0_l, !Rplus_0_r, <- surjective_pairing. unfold np_div. rewrite Reqb_f by auto. cbn [fl_div]. unfold np_div. rewrite Reqb_f by lra. cbn. f_equal. field. lra. }
    assert (V : / B * B = 1) by (field; lra). assert (V1 : 0 < / B) by (apply Rinv_0_lt_compat; lra). assert (V2 : / B - 1 < - (1 / 10 ^ 4)) by nra. unfold sec_fl. rewrite F. cbn [fl_abs fl_leb]. rewrite (Rabs_left (/ B - 1)) by lra. rewrite !(proj2 (Rleb_false _ _)) by lra.
    change 100%nat with (S 99). generalize 99%nat as n99. intros n99. cbn [sec_loop]. unfold fl_sub at 1. cbn [fl_opp fl_add fl_abs]. rewrite !fl_max_fin. cbn [fl_mul fl_leb]. rewrite Rplus_opp_r, Rabs_R0. rewrite (proj2 (Rleb_true _ _)); [reflexivity|]. apply Rmult_le_pos; [left; apply eps0|]. eapply Rle_trans; [|apply Rmax_r]. lra.
  - rewrite !Rltb_f by lra. rewrite !Reqb_f by lra. unfold sec_fl. generalize 100%nat as n100. intros n100. cbn [nsse fl_div fl_sub fl_opp fl_add fl_abs fl_leb]. apply sec_nan. reflexivity.
Qed.
Theorem C99_nonpositive Fq sse c ndata alpha width npoints rtol : args_ok ndata alpha npoints rtol -> eps <= Rabs (sse c) -> 1 < bound Fq ndata alpha <= 1000 * (bound Fq ndata alpha - 1) -> fst c <= 0 -> width <= 0 ->
  confidence_region Fq sse 2 c ndata alpha width npoints rtol = Ok (repeat None npoints).
Proof.
  intros Ha Hs HB Hc Hw. rewrite region_unf by auto. f_equal. assert (S0 : sse c <> 0) by (intros Z; rewrite Z, Rabs_R0 in Hs; pose proof eps0; lra). set (g0 := guess0 width (fst c)). assert (G : g0 <= 0) by (unfold g0, guess0; rewrite Rltb_f by lra; lra).
  transitivity (repeat (@None (R * R)) (length (angles npoints))); [|now rewrite angles_length]. generalize (angles npoints) as l. induction l as [|th l IH]; [reflexivity|]. cbn [radii length repeat]. pose proof (find_bad sse c (bound Fq ndata alpha) rtol th g0 S0 HB G) as F. destruct (find_radius _ _ _ _ th g0) as ([|] & v); [discriminate|]. cbn [combine map snd]. now rewrite IH.
Qed.
Theorem C99_nan_refuted : forall Fq ndata alpha npoints rtol, args_ok ndata alpha npoints rtol -> 1 < bound Fq ndata alpha <= 1000 * (bound Fq ndata alpha - 1) ->
  exists sse c, circular sse c (bound Fq ndata alpha) 1 /\ sse c = 1 /\ confidence_region Fq sse 2 c ndata alpha 0 npoints rtol = Ok (repeat None npoints).
Proof.
  intros Fq ndata alpha npoints rtol Ha HB. set (B := bound Fq ndata alpha) in *. set (c := (-3, 2)). set (sse := fun p : R * R => 1 + (B - 1) * ((fst p - fst c) ^ 2 + (snd p - snd c) ^ 2)). exists sse, c. assert (SC : sse c = 1) by (unfold sse; rewrite !Rminus_eq_0; ring).
  split; [repeat split; try lra; intros p; rewrite SC; unfold sse; rewrite pow1; field|]. split; [exact SC|]. apply C99_nonpositive; auto; [rewrite SC, Rabs_R1; pose proof eps_lt; lra|cbn; lra|lra].
Qed.

(** 12 observations, S = 3 (1 + |p - c|^2 / 100), B = 2: the boundary is the circle of radius 10 about (40, -1).  The default guess is
    a quarter of the first coordinate, 10, i.e. right on the circle.  With the centre (4, -1) the default guess is 1, a tenth of the
    radius: no point is further than 5/4 from the centre *)
Example C99_example : let Fq := fun (_ : R) (_ : nat) => 5 in let S := fun c p : R * R => 3 * (1 + / 100 * ((fst p - fst c) ^ 2 + (snd p - snd c) ^ 2)) in
  (exists pts, confidence_region Fq (S (40, -1)) 2 (40, -1) 12 (5 / 100) 0 200 (1 / 100) = Ok pts /\ length pts = 200%nat /\
    forall i, (i < 200)%nat -> exists th r, nth_error (angles 200) i = Some th /\ nth_error pts i = Some (Some (point (40, -1) th r)) /\ 10 <= r <= 10 * (104 / 100)) /\
  (exists pts, confidence_region Fq (S (4, -1)) 2 (4, -1) 12 (5 / 100) 0 200 (1 / 100) = Ok pts /\ length pts = 200%nat /\
    forall i, (i < 200)%nat -> exists th r, nth_error (angles 200) i = Some th /\ nth_error pts i = Some (Some (point (4, -1) th r)) /\ r <= 5 / 4) /\
  confidence_region Fq (S (-4, -1)) 2 (-4, -1) 12 (5 / 100) 0 200 (1 / 100) = Ok (repeat None 200).
Proof.
  intros Fq S. assert (HB : bound Fq 12 (5 / 100) = 2) by (unfold bound, Fq; replace (INR (12 - 2)) with 10 by (cbn; lra); lra).
  assert (HA : args_ok 12 (5 / 100) 200 (1 / 100)) by (repeat split; try lia; lra). pose proof eps_lt as PE.
  assert (SC : forall c, S c c = 3) by (intros c; unfold S; rewrite !Rminus_eq_0; ring). assert (HS : forall c, eps <= Rabs (S c c)) by (intros c; rewrite SC, Rabs_right; lra).
  assert (HC : forall c, circular (S c) c (bound Fq 12 (5 / 100)) 10). { intros c. rewrite HB. repeat split; try lra. intros p. rewrite SC. unfold S. field. }
  split; [|split].
  - destruct (C99_circle Fq (S (40, -1)) (40, -1) 12 (5 / 100) 0 200 (1 / 100) 10 HA (HS _) (HC _)) as (pts & E & EL & HP); [unfold guess0; rewrite Rltb_f by lra; cbn [fst]; lra|]. exists pts. split; [exact E|]. split; [exact EL|]. intros i Hi. destruct (HP i Hi) as (th & r & E1 & E2 & R1 & R2). exists th, r. split; [exact E1|]. split; [exact E2|]. split; [exact R1|]. rewrite HB in R2. destruct (Rle_dec r (10 * (104 / 100))) as [C|C]; [exact C|]. exfalso. destruct R2 as [R2|R2]; nra.
  - destruct (C99_stall Fq (S (4, -1)) (4, -1) 12 (5 / 100) 0 200 (1 / 100) 10 HA (HS _) (HC _)) as (pts & E & EL & HP); [unfold guess0; rewrite Rltb_f by lra; cbn [fst]; lra|]. exists pts. split; [exact E|]. split; [exact EL|]. intros i Hi. destruct (HP i Hi) as (th & r & E1 & E2 & R1). exists th, r. split; [exact E1|]. split; [exact E2|]. lra.
  - apply C99_nonpositive; auto; [rewrite HB; lra|cbn; lra|lra].
Qed.
Print Assumptions C99_example.
Print Assumptions C99_stall_refuted.
