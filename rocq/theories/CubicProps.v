(** C46 (cubic equations of state: roots, pressure, Helmholtz energy), C47 (interaction parameters and
    fugacity coefficients), C84 (saturation pressure). *)
From Coq Require Import Reals Lra Lia List Bool Arith Psatz FunctionalExtensionality.
From Coquelicot Require Import Coquelicot.
From Verif Require Import Prelude Deriv KinModel RootsModel DiffModel FixModel FixProps AcmModel AcmProps EosModel EosProps.
Import List ListNotations.
Open Scope R_scope.

(** RedlichKwong and SoaveRedlichKwong share RK_consts *)
Definition known (e : cubic) : Prop := e = RK_consts \/ e = PR_consts.
Lemma known_facts e : known e ->
  0 < cu_d e /\ cu_d e * cu_d e = cu_u e ^ 2 - 4 * cu_w e /\ -2 < cu_u e - cu_d e /\ 0 < cu_u e /\ 1 + cu_u e + cu_w e = 2 /\
  forall Z B, 0 < B -> B < Z -> 0 < Z ^ 2 + cu_u e * B * Z + cu_w e * B ^ 2.
Proof.
  intros [-> | ->]; unfold cu_d; cbn [cu_u cu_w RK_consts PR_consts].
  - replace (1 ^ 2 - 4 * 0) with 1 by ring. rewrite sqrt_1. repeat split; try lra. intros. nra.
  - replace (2 ^ 2 - 4 * (-1)) with 8 by ring. assert (H : sqrt 8 * sqrt 8 = 8) by (apply sqrt_sqrt; lra). assert (0 < sqrt 8) by (apply sqrt_lt_R0; lra).
    repeat split; try lra. nra. intros. nra.
Qed.

(** the cubic equation in the compressibility factor *)
Definition pZ (e : cubic) (A B z : R) : R := z ^ 3 - (1 + B - cu_u e * B) * z ^ 2 + (A + cu_w e * B ^ 2 - cu_u e * B - cu_u e * B ^ 2) * z - (A * B + cu_w e * B ^ 2 + cu_w e * B ^ 3).
Lemma pZ_factor e A B z : let Q := z ^ 2 + cu_u e * B * z + cu_w e * B ^ 2 in pZ e A B z = (z - B) * Q - Q + A * (z - B).
Proof. unfold pZ. cbv zeta. ring. Qed.
Lemma pZ_B e A B : known e -> pZ e A B B = - 2 * B ^ 2.
Proof. intros H. destruct (known_facts e H) as (_ & _ & _ & _ & K & _). rewrite pZ_factor. cbv zeta. replace (cu_w e) with (1 - cu_u e) by lra. ring. Qed.

(** a monic cubic is positive far to the right and negative far to the left *)
Lemma cubic_right c2 c1 c0 : let M := 1 + Rabs c2 + Rabs c1 + Rabs c0 in forall z, M <= z -> 0 < z ^ 3 + c2 * z ^ 2 + c1 * z + c0.
Proof.
  intros M z Hz. unfold M in Hz. pose proof (Rabs_pos c2) as A2. pose proof (Rabs_pos c1) as A1. pose proof (Rabs_pos c0) as A0.
  pose proof (Rle_abs (- c2)) as H2. pose proof (Rle_abs (- c1)) as H1. pose proof (Rle_abs (- c0)) as H0. rewrite Rabs_Ropp in H2, H1, H0.
  assert (1 <= z) by lra. assert (z <= z ^ 2) by nra. assert (1 <= z ^ 2) by nra.
  assert (- c2 * z ^ 2 <= Rabs c2 * z ^ 2) by nra. assert (- c1 * z <= Rabs c1 * z ^ 2) by nra. assert (- c0 <= Rabs c0 * z ^ 2) by nra.
  assert (z ^ 3 = z * z ^ 2) by ring. nra.
Qed.
Lemma cubic_left c2 c1 c0 : let M := 1 + Rabs c2 + Rabs c1 + Rabs c0 in (- M) ^ 3 + c2 * (- M) ^ 2 + c1 * (- M) + c0 < 0.
Proof.
  intros M. pose proof (cubic_right (- c2) c1 (- c0)) as H. cbv zeta in H. rewrite !Rabs_Ropp in H. specialize (H M (Rle_refl _)). nra.
Qed.
Lemma cubic_cont c2 c1 c0 : continuity (fun z => z ^ 3 + c2 * z ^ 2 + c1 * z + c0).
Proof. intros z. reg. Qed.
Lemma pZ_root e A B : known e -> 0 < B -> exists z, B < z /\ pZ e A B z = 0.
Proof.
  intros K HB. set (c2 := Zc2 (cu_u e) (cu_w e) A B). set (c1 := Zc1 (cu_u e) (cu_w e) A B). set (c0 := Zc0 (cu_u e) (cu_w e) A B).
  assert (Q : forall z, pZ e A B z = z ^ 3 + c2 * z ^ 2 + c1 * z + c0) by (intros; unfold pZ, c2, c1, c0, Zc2, Zc1, Zc0; ring).
  set (M := 1 + Rabs c2 + Rabs c1 + Rabs c0).
  destruct (IVT (fun z => z ^ 3 + c2 * z ^ 2 + c1 * z + c0) B (Rmax M (B + 1)) (cubic_cont _ _ _)) as (z & Hz & Ez).
  - pose proof (Rmax_r M (B + 1)). lra.
  - rewrite <- Q, pZ_B by auto. nra.
  - apply cubic_right. apply Rmax_l.
  - exists z. rewrite Q. split; auto. destruct (proj1 Hz) as [L| ->]; auto. exfalso. rewrite <- Q, pZ_B in Ez by auto. nra.
Qed.

Lemma lnq x y : 0 < x -> 0 < y -> ln (x / y) = ln x - ln y.
Proof. intros. unfold Rdiv. rewrite ln_mult by (auto; now apply Rinv_0_lt_compat). rewrite ln_Rinv by auto. ring. Qed.
(** complex arithmetic *)
Lemma cmul_zero a b : cmul a b = (0, 0) -> a = (0, 0) \/ b = (0, 0).
Proof.
  destruct a as [x y], b as [u v]. unfold cmul. cbn. intros [= E1 E2].
  assert (H : (x * x + y * y) * (u * u + v * v) = 0) by (replace ((x * x + y * y) * (u * u + v * v)) with ((x * u - y * v) * (x * u - y * v) + (x * v + y * u) * (x * v + y * u)) by ring; rewrite E1, E2; ring).
  apply Rmult_integral in H. destruct H as [H|H]; [left|right]; f_equal; nra.
Qed.
(** what a list of three roots contains *)
Lemma roots_real c2 c1 c0 r1 r2 r3 z : cadd r1 (cadd r2 r3) = (- c2, 0) -> cadd (cmul r1 r2) (cadd (cmul r1 r3) (cmul r2 r3)) = (c1, 0) ->
  cmul r1 (cmul r2 r3) = (- c0, 0) -> z ^ 3 + c2 * z ^ 2 + c1 * z + c0 = 0 -> In (z, 0) [r1; r2; r3].
Proof.
  destruct r1 as [x1 y1], r2 as [x2 y2], r3 as [x3 y3]. unfold cadd, cmul. cbn [fst snd]. intros [= A1 A2] [= B1 B2] [= C1 C2] Hz.
  assert (E : cmul (z - x1, - y1) (cmul (z - x2, - y2) (z - x3, - y3)) = (0, 0)).
  { unfold cmul. cbn [fst snd]. f_equal.
    - transitivity (z ^ 3 - (x1 + (x2 + x3)) * z ^ 2 + (x1 * x2 - y1 * y2 + (x1 * x3 - y1 * y3 + (x2 * x3 - y2 * y3))) * z - (x1 * (x2 * x3 - y2 * y3) - y1 * (x2 * y3 + y2 * x3))); [ring|]. rewrite A1, B1, C1. lra.
    - transitivity (- (y1 + (y2 + y3)) * z ^ 2 + (x1 * y2 + y1 * x2 + (x1 * y3 + y1 * x3 + (x2 * y3 + y2 * x3))) * z - (x1 * (x2 * y3 + y2 * x3) + y1 * (x2 * x3 - y2 * y3))); [ring|]. rewrite A2, B2, C2. ring. }
  apply cmul_zero in E. destruct E as [E|E]; [|apply cmul_zero in E; destruct E as [E|E]]; injection E; intros P1 P2; cbn.
  - left. f_equal; lra.
  - right. left. f_equal; lra.
  - right. right. left. f_equal; lra.
Qed.
Lemma roots_sound c2 c1 c0 r1 r2 r3 x y : cadd r1 (cadd r2 r3) = (- c2, 0) -> cadd (cmul r1 r2) (cadd (cmul r1 r3) (cmul r2 r3)) = (c1, 0) ->
  cmul r1 (cmul r2 r3) = (- c0, 0) -> In (x, y) [r1; r2; r3] ->
  x ^ 3 + c2 * x ^ 2 + c1 * x + c0 = y ^ 2 * (3 * x + c2) /\ y * (3 * x ^ 2 + 2 * c2 * x + c1 - y ^ 2) = 0.
Proof.
  destruct r1 as [x1 y1], r2 as [x2 y2], r3 as [x3 y3]. unfold cadd, cmul. cbn [fst snd]. intros [= A1 A2] [= B1 B2] [= C1 C2] Hz.
  assert (E : cmul (x - x1, y - y1) (cmul (x - x2, y - y2) (x - x3, y - y3)) = (0, 0)).
  { cbn in Hz. destruct Hz as [H|[H|[H|[]]]]; injection H; intros; subst; unfold cmul; cbn [fst snd]; f_equal; ring. }
  unfold cmul in E. cbn [fst snd] in E. injection E as E F.
  assert (Q : x ^ 3 - 3 * x * y ^ 2 - (x1 + (x2 + x3)) * (x ^ 2 - y ^ 2) + (y1 + (y2 + y3)) * (2 * x * y)
     + (x1 * x2 - y1 * y2 + (x1 * x3 - y1 * y3 + (x2 * x3 - y2 * y3))) * x - (x1 * y2 + y1 * x2 + (x1 * y3 + y1 * x3 + (x2 * y3 + y2 * x3))) * y
     - (x1 * (x2 * x3 - y2 * y3) - y1 * (x2 * y3 + y2 * x3)) = 0) by (rewrite <- E; ring).
  assert (Q' : 3 * x ^ 2 * y - y ^ 3 - (x1 + (x2 + x3)) * (2 * x * y) - (y1 + (y2 + y3)) * (x ^ 2 - y ^ 2)
     + (x1 * x2 - y1 * y2 + (x1 * x3 - y1 * y3 + (x2 * x3 - y2 * y3))) * y + (x1 * y2 + y1 * x2 + (x1 * y3 + y1 * x3 + (x2 * y3 + y2 * x3))) * x
     - (x1 * (x2 * y3 + y2 * x3) + y1 * (x2 * x3 - y2 * y3)) = 0) by (rewrite <- F; ring).
  rewrite A1, A2, B1, B2, C1 in Q. rewrite A1, A2, B1, B2, C2 in Q'. split; lra.
Qed.

(** min and max of a list by folds *)
Lemma fold_min_spec : forall l r, In (fold_left Rmin l r) (r :: l) /\ forall x, In x (r :: l) -> fold_left Rmin l r <= x.
Proof.
  induction l as [|a l IH]; intros r; cbn [fold_left].
  - split; [now left|]. intros x [->|[]]. lra.
  - destruct (IH (Rmin r a)) as (I & L). split.
    + destruct I as [E|I]; [|now right; right]. rewrite <- E. unfold Rmin. destruct (Rle_dec r a); [now left|right; now left].
    + intros x [->|[->|I']].
      * eapply Rle_trans; [apply L; now left|apply Rmin_l].
      * eapply Rle_trans; [apply L; now left|apply Rmin_r].
      * apply L. now right.
Qed.
Lemma fold_max_spec : forall l r, In (fold_left Rmax l r) (r :: l) /\ forall x, In x (r :: l) -> x <= fold_left Rmax l r.
Proof.
  induction l as [|a l IH]; intros r; cbn [fold_left].
  - split; [now left|]. intros x [->|[]]. lra.
  - destruct (IH (Rmax r a)) as (I & L). split.
    + destruct I as [E|I]; [|now right; right]. rewrite <- E. unfold Rmax. destruct (Rle_dec r a); [right; now left|now left].
    + intros x [->|[->|I']].
      * eapply Rle_trans; [apply Rmax_l|apply L; now left].
      * eapply Rle_trans; [apply Rmax_r|apply L; now left].
      * apply L. now right.
Qed.

(* ------------------------------------------------------------------ *)
(** * C46                                                             *)
(* ------------------------------------------------------------------ *)

(** every returned Z lies above B and is the real part of a root whose imaginary part y is below the
    machine epsilon, so the residual is y^2 (3 Z + c2); in particular a real root is an exact solution *)
Theorem C46_sound orc e A B l Z : roots_spec orc -> Z_cubic_roots orc (cu_u e) (cu_w e) A B = Ok l -> In Z l ->
  B < Z /\ exists y, Rabs y < eps /\ pZ e A B Z = y ^ 2 * (3 * Z - (1 + B - cu_u e * B)).
Proof.
  intros HO HR HI. unfold Z_cubic_roots in HR. destruct (HO (Zc2 (cu_u e) (cu_w e) A B) (Zc1 (cu_u e) (cu_w e) A B) (Zc0 (cu_u e) (cu_w e) A B)) as (r1 & r2 & r3 & E & V1 & V2 & V3).
  rewrite E in HR. unfold Z_select in HR. match type of HR with context [filter ?f ?l] => set (fl := filter f l) in HR end.
  assert (IN : In Z (map fst fl)).
  { destruct (map fst fl) as [|r rs]; [discriminate|]. destruct (fold_min_spec rs r) as (Im & _). destruct (fold_max_spec rs r) as (IM & _).
    injection HR as <-. destruct rs; cbn [In] in HI.
    - destruct HI as [<-|[]]. exact Im.
    - destruct HI as [<-|[<-|[]]]; assumption. }
  apply in_map_iff in IN. destruct IN as ((x & y) & EZ & IF). cbn in EZ. subst x. unfold fl in IF. apply filter_In in IF. destruct IF as (II & C).
  cbn [fst snd] in C. apply andb_true_iff in C. destruct C as (C1 & C2). apply Rltb_true in C1. apply Rltb_true in C2.
  split; auto. exists y. split; auto. pose proof (proj1 (roots_sound _ _ _ _ _ _ Z y V1 V2 V3 II)) as Q.
  unfold pZ. unfold Zc2, Zc1, Zc0 in Q. lra.
Qed.
(** for B > 0 there is always a result: one or two values in increasing order, and every exact real root
    above B lies between the first and the last *)
Theorem C46_complete orc e A B : roots_spec orc -> known e -> 0 < B ->
  exists l, Z_cubic_roots orc (cu_u e) (cu_w e) A B = Ok l /\ (length l = 1 \/ length l = 2)%nat /\
    (forall Z, In Z l -> hd 0 l <= Z <= last l 0) /\
    forall z, B < z -> pZ e A B z = 0 -> hd 0 l <= z <= last l 0.
Proof.
  intros HO K HB. unfold Z_cubic_roots. destruct (HO (Zc2 (cu_u e) (cu_w e) A B) (Zc1 (cu_u e) (cu_w e) A B) (Zc0 (cu_u e) (cu_w e) A B)) as (r1 & r2 & r3 & E & V1 & V2 & V3).
  rewrite E. unfold Z_select. match goal with |- context [filter ?f ?l] => set (fl := filter f l) end.
  assert (IN : forall z, B < z -> pZ e A B z = 0 -> In z (map fst fl)).
  { intros z Bz Pz. apply in_map_iff. exists (z, 0). split; auto. apply filter_In. split.
    - apply (roots_real _ _ _ _ _ _ z V1 V2 V3). unfold Zc2, Zc1, Zc0. unfold pZ in Pz. lra.
    - cbn. rewrite Rabs_R0. apply andb_true_iff. split; apply (proj2 (Rltb_true _ _)); auto. apply eps_pos. }
  destruct (pZ_root e A B K HB) as (z0 & Bz0 & Pz0). pose proof (IN z0 Bz0 Pz0) as I0.
  destruct (map fst fl) as [|r rs]; [contradiction|]. destruct (fold_min_spec rs r) as (Im & Lm). destruct (fold_max_spec rs r) as (IM & LM).
  eexists. split; [reflexivity|]. destruct rs as [|r' rs].
  - split; [now left|]. cbn. split.
    + intros Z [<-|[]]. lra.
    + intros z Bz Pz. destruct (IN z Bz Pz) as [->|[]]. lra.
  - set (mn := fold_left Rmin (r' :: rs) r) in *. set (mx := fold_left Rmax (r' :: rs) r) in *. split; [now right|]. cbn [hd last]. split.
    + assert (mn <= mx) by (apply Lm; exact IM). intros Z [<-|[<-|[]]]; lra.
    + intros z Bz Pz. pose proof (IN z Bz Pz) as I. split; [now apply Lm|now apply LM].
Qed.
(** v = Z R T / P gives back the pressure up to the residual of the cubic; exactly for an exact root *)
Theorem C46_pressure e am bm T P Z : known e -> 0 < T -> 0 < P -> 0 < bm -> cu_B bm T P < Z ->
  let B := cu_B bm T P in
  cu_P e am bm T (eos_v Z T P) = P * (1 - pZ e (cu_A am T P) B Z / ((Z - B) * (Z ^ 2 + cu_u e * B * Z + cu_w e * B ^ 2))).
Proof.
  intros K HT HP Hb HZ. cbv zeta. pose proof Rgas_pos as HR. destruct (known_facts e K) as (_ & _ & _ & _ & _ & KQ).
  assert (HB : 0 < cu_B bm T P) by (unfold cu_B; apply Rdiv_lt_0_compat; apply Rmult_lt_0_compat; auto).
  pose proof (KQ Z _ HB HZ) as Q. rewrite pZ_factor. cbv zeta.
  set (B := cu_B bm T P) in *. set (QQ := Z ^ 2 + cu_u e * B * Z + cu_w e * B ^ 2) in *.
  assert (HRT : 0 < Rgas * T) by now apply Rmult_lt_0_compat.
  assert (Eb : bm = B * (Rgas * T) / P) by (unfold B, cu_B; field; lra).
  unfold cu_P, eos_v. rewrite Eb.
  replace (Z * Rgas * T / P - B * (Rgas * T) / P) with ((Z - B) * (Rgas * T) / P) by (field; lra).
  replace ((Z * Rgas * T / P) ^ 2 + cu_u e * (Z * Rgas * T / P) * (B * (Rgas * T) / P) + cu_w e * (B * (Rgas * T) / P) ^ 2) with (QQ * (Rgas * T / P) ^ 2) by (unfold QQ; field; lra).
  unfold cu_A. field. repeat split; lra.
Qed.
Theorem C46_roundtrip e am bm T P Z : known e -> 0 < T -> 0 < P -> 0 < bm -> cu_B bm T P < Z -> pZ e (cu_A am T P) (cu_B bm T P) Z = 0 ->
  cu_P e am bm T (eos_v Z T P) = P.
Proof. intros. rewrite C46_pressure by auto. cbv zeta. rewrite H4. unfold Rdiv. ring. Qed.
(** conversely every volume above bm with pressure P comes from a root *)
Theorem C46_converse e am bm T v : known e -> 0 < T -> 0 < bm -> bm < v -> 0 < cu_P e am bm T v ->
  let P := cu_P e am bm T v in let Z := P * v / (Rgas * T) in cu_B bm T P < Z /\ pZ e (cu_A am T P) (cu_B bm T P) Z = 0.
Proof.
  intros K HT Hb Hv HP. cbv zeta. pose proof Rgas_pos as HR. set (P := cu_P e am bm T v) in *. assert (HRT : 0 < Rgas * T) by now apply Rmult_lt_0_compat.
  assert (L : cu_B bm T P < P * v / (Rgas * T)).
  { unfold cu_B. apply Rmult_lt_compat_r; [now apply Rinv_0_lt_compat|]. rewrite (Rmult_comm bm). now apply Rmult_lt_compat_l. }
  split; auto. pose proof (C46_pressure e am bm T P _ K HT HP Hb L) as E. cbv zeta in E.
  replace (eos_v (P * v / (Rgas * T)) T P) with v in E by (unfold eos_v; field; lra). change (cu_P e am bm T v) with P in E.
  destruct (known_facts e K) as (_ & _ & _ & _ & _ & KQ).
  assert (HB : 0 < cu_B bm T P) by (unfold cu_B; apply Rdiv_lt_0_compat; auto; now apply Rmult_lt_0_compat).
  pose proof (KQ _ _ HB L) as Q. set (B := cu_B bm T P) in *. set (Z := P * v / (Rgas * T)) in *. set (QQ := Z ^ 2 + _ + _) in *.
  set (p := pZ e (cu_A am T P) B Z) in *. assert (D0 : 0 < (Z - B) * QQ) by (apply Rmult_lt_0_compat; lra).
  assert (H : P * (p / ((Z - B) * QQ)) = 0) by lra. apply Rmult_integral in H. destruct H as [H|H]; [lra|].
  apply (f_equal (fun t => t * ((Z - B) * QQ))) in H. replace (p / ((Z - B) * QQ) * ((Z - B) * QQ)) with p in H by (field; split; lra). lra.
Qed.
Theorem C46_helmholtz e am bm nT T V v0 : known e -> 0 < bm -> 0 < nT -> 0 < v0 -> nT * bm < V ->
  D (fun V => cu_DA e am bm nT T V v0) V (- cu_P e am bm T (V / nT)).
Proof.
  intros K Hb Hn Hv HV. destruct (known_facts e K) as (D0 & DD & UD & U0 & _ & KQ). set (d := cu_d e) in *. set (u := cu_u e) in *.
  assert (Hnb : 0 < nT * bm) by now apply Rmult_lt_0_compat. set (b := nT * bm) in *.
  assert (P1 : 0 < 2 * V + b * (u - d)) by nra. assert (P2 : 0 < 2 * V + b * (u + d)) by nra.
  pose proof (KQ V b Hnb HV) as Q.
  unfold cu_DA. cbv zeta. fold d u b. eapply D_eq.
  - apply (D_minus (fun V => _ * ln _) (fun V => _ * ln _)).
    + apply (D_scal (nT * am / (bm * d)) (fun V => ln _)). apply (D_ln (fun V => (2 * V + b * (u - d)) / (2 * V + b * (u + d)))).
      * apply (D_div (fun V => 2 * V + b * (u - d)) (fun V => 2 * V + b * (u + d)) V (2 * 1 + 0) (2 * 1 + 0)).
        -- apply (D_plus (fun V => 2 * V) (fun _ => b * (u - d))); [apply (D_scal 2 (fun V => V)), D_id|apply D_const].
        -- apply (D_plus (fun V => 2 * V) (fun _ => b * (u + d))); [apply (D_scal 2 (fun V => V)), D_id|apply D_const].
        -- lra.
      * now apply Rdiv_lt_0_compat.
    + apply (D_scal (nT * Rgas * T) (fun V => ln _)). apply (D_ln (fun V => (V - b) / (nT * v0))).
      * apply (D_div (fun V => V - b) (fun _ => nT * v0)); [apply (D_minus (fun V => V) (fun _ => b)); [apply D_id|apply D_const]|apply D_const|].
        apply Rmult_integral_contrapositive_currified; lra.
      * apply Rdiv_lt_0_compat; [lra|now apply Rmult_lt_0_compat].
  - cbv beta. unfold cu_P. fold u.
    assert (E1 : V / nT - bm = (V - b) / nT) by (unfold b; field; lra).
    assert (E2 : (V / nT) ^ 2 + u * (V / nT) * bm + cu_w e * bm ^ 2 = (V ^ 2 + u * b * V + cu_w e * b ^ 2) / nT ^ 2) by (unfold b; field; lra).
    rewrite E1, E2. assert (E3 : (2 * V + b * (u - d)) * (2 * V + b * (u + d)) = 4 * (V ^ 2 + u * b * V + cu_w e * b ^ 2)).
    { replace (cu_w e) with ((u ^ 2 - d * d) / 4) by lra. field. }
    set (QQ := V ^ 2 + u * b * V + cu_w e * b ^ 2) in *.
    replace QQ with ((2 * V + b * (u - d)) * (2 * V + b * (u + d)) / 4) by lra. unfold b. unfold b in P1, P2, HV. field. repeat split; try lra.
Qed.
(** the oracle exists: every real cubic has its three complex roots *)
Theorem C46_oracle : exists orc, roots_spec orc.
Proof.
  assert (R1 : forall c2 c1 c0, {z | z ^ 3 + c2 * z ^ 2 + c1 * z + c0 = 0}).
  { intros c2 c1 c0. set (M := 1 + Rabs c2 + Rabs c1 + Rabs c0).
    assert (PM : 0 < M) by (unfold M; pose proof (Rabs_pos c2); pose proof (Rabs_pos c1); pose proof (Rabs_pos c0); lra).
    destruct (IVT (fun z => z ^ 3 + c2 * z ^ 2 + c1 * z + c0) (- M) M (cubic_cont _ _ _)) as (z & _ & Ez).
    - lra.
    - apply cubic_left.
    - apply cubic_right. apply Rle_refl.
    - now exists z. }
  exists (fun c2 c1 c0 => let z := proj1_sig (R1 c2 c1 c0) in let p := - (c2 + z) / 2 in let q := c1 + c2 * z + z ^ 2 in
    let D := p ^ 2 - q in if Rle_dec 0 D then [(z, 0); (p + sqrt D, 0); (p - sqrt D, 0)] else [(z, 0); (p, sqrt (- D)); (p, - sqrt (- D))]).
  intros c2 c1 c0. cbv zeta. destruct (R1 c2 c1 c0) as (z & Ez). cbn [proj1_sig]. set (p := - (c2 + z) / 2). set (q := c1 + c2 * z + z ^ 2).
  assert (Hc : z * q = - c0) by (unfold q; lra). assert (Hp : 2 * p = - (c2 + z)) by (unfold p; field).
  destruct (Rle_dec 0 (p ^ 2 - q)) as [H|H]; do 3 eexists; (split; [reflexivity|]); unfold cadd, cmul; cbn [fst snd].
  - pose proof (sqrt_sqrt _ H) as Q. set (s := sqrt (p ^ 2 - q)) in *. repeat split; f_equal; try ring; try lra.
    + transitivity (z * (2 * p) + (p ^ 2 - s * s)); [ring|]. rewrite Q, Hp. unfold q. ring.
    + transitivity (z * (p ^ 2 - s * s)); [ring|]. rewrite Q. lra.
  - assert (H' : 0 <= - (p ^ 2 - q)) by lra. pose proof (sqrt_sqrt _ H') as Q. set (s := sqrt (- (p ^ 2 - q))) in *. repeat split; f_equal; try ring; try lra.
    + transitivity (z * (2 * p) + (p ^ 2 + s * s)); [ring|]. rewrite Q, Hp. unfold q. ring.
    + transitivity (z * (p ^ 2 + s * s)); [ring|]. rewrite Q. lra.
Qed.
(** when the cubic is increasing (with a margin above the tolerance) there is one value only *)
Theorem C46_single orc e A B l : roots_spec orc -> known e -> 0 < B ->
  eps ^ 2 < (A + cu_w e * B ^ 2 - cu_u e * B - cu_u e * B ^ 2) - (1 + B - cu_u e * B) ^ 2 / 3 ->
  Z_cubic_roots orc (cu_u e) (cu_w e) A B = Ok l -> hd 0 l = last l 0 /\ B < hd 0 l /\ pZ e A B (hd 0 l) = 0.
Proof.
  intros HO K HB HM HR. unfold Z_cubic_roots in HR. destruct (HO (Zc2 (cu_u e) (cu_w e) A B) (Zc1 (cu_u e) (cu_w e) A B) (Zc0 (cu_u e) (cu_w e) A B)) as (r1 & r2 & r3 & E & V1 & V2 & V3).
  rewrite E in HR. unfold Z_select in HR. match type of HR with context [filter ?f ?l] => set (fl := filter f l) in HR end. destruct (pZ_root e A B K HB) as (z0 & Bz0 & Pz0).
  pose proof eps_pos as He.
  assert (IN : forall z, In z (map fst fl) -> z = z0).
  { intros z I. apply in_map_iff in I. destruct I as ((x & y) & EZ & IF). cbn in EZ. subst x. unfold fl in IF. apply filter_In in IF. destruct IF as (II & C).
    cbn [fst snd] in C. apply andb_true_iff in C. destruct C as (C1 & C2). apply Rltb_true in C1. apply Rltb_true in C2.
    destruct (roots_sound _ _ _ _ _ _ z y V1 V2 V3 II) as (S1 & S2). unfold Zc2, Zc1, Zc0 in S1, S2.
    set (c2 := 1 + B - cu_u e * B) in *. set (c1 := A + cu_w e * B ^ 2 - cu_u e * B - cu_u e * B ^ 2) in *.
    assert (Y0 : y = 0).
    { apply Rmult_integral in S2. destruct S2 as [S2|S2]; auto. exfalso. assert (y ^ 2 < eps ^ 2) by (apply Rabs_def2 in C1; nra).
      assert (0 <= (z - c2 / 3) ^ 2) by apply pow2_ge_0. nra. }
    subst y. unfold pZ in Pz0. fold c2 c1 in Pz0. set (c0 := A * B + _ + _) in *.
    assert (F : (z - z0) * (z ^ 2 + z * z0 + z0 ^ 2 - c2 * (z + z0) + c1) = 0) by (transitivity ((z ^ 3 - c2 * z ^ 2 + c1 * z - c0) - (z0 ^ 3 - c2 * z0 ^ 2 + c1 * z0 - c0)); [ring|lra]).
    apply Rmult_integral in F. destruct F as [F|F]; [lra|]. exfalso.
    assert (0 <= (z + z0 - 2 * c2 / 3) ^ 2) by apply pow2_ge_0. assert (0 <= (z - z0) ^ 2) by apply pow2_ge_0. nra. }
  destruct (map fst fl) as [|r rs]; [discriminate|]. destruct (fold_min_spec rs r) as (Im & _). destruct (fold_max_spec rs r) as (IM & _).
  apply IN in Im. apply IN in IM. injection HR as <-. destruct rs; cbn [hd last]; rewrite ?Im, ?IM; auto.
Qed.
(** RK with A = 3/2, B = 1/2: the only root is Z = 1 *)
Lemma RK_example_roots orc : roots_spec orc -> exists l, Z_cubic_roots orc 1 0 (3 / 2) (1 / 2) = Ok l /\ hd 0 l = 1 /\ last l 0 = 1.
Proof.
  intros HO. assert (K : known RK_consts) by now left.
  destruct (C46_complete orc RK_consts (3 / 2) (1 / 2) HO K ltac:(lra)) as (l & E & _ & _ & C). cbn [cu_u cu_w RK_consts] in E. exists l. split; auto.
  destruct (C46_single orc RK_consts (3 / 2) (1 / 2) l HO K ltac:(lra)) as (H & _); [|exact E|].
  - cbn [cu_u cu_w RK_consts]. assert (eps ^ 2 < 1 / 16).
    { assert (He : eps <= / 2 ^ 3) by (unfold eps; apply Rinv_le_contravar; [lra|apply Rle_pow; [lra|lia]]). pose proof eps_pos. nra. }
    lra.
  - specialize (C 1 ltac:(lra)). rewrite H in C. assert (pZ RK_consts (3 / 2) (1 / 2) 1 = 0) by (unfold pZ, RK_consts; cbn; field). rewrite H. specialize (C H0). split; lra.
Qed.
Example C46_example orc : roots_spec orc -> forall T am bm P, 0 < T -> 0 < P -> cu_A am T P = 3 / 2 -> cu_B bm T P = 1 / 2 ->
  exists l, cu_Z orc RK_consts am bm T P = Ok l /\ cu_P RK_consts am bm T (eos_v (hd 0 l) T P) = P.
Proof.
  intros HO T am bm P HT HP EA EB. destruct (RK_example_roots orc HO) as (l & E & H1 & _). exists l. unfold cu_Z. rewrite EA, EB. split; auto.
  pose proof Rgas_pos as HR. assert (0 < Rgas * T) by now apply Rmult_lt_0_compat.
  rewrite H1. apply C46_roundtrip; auto; [now left| |lra|].
  - assert (bm = 1 / 2 * (Rgas * T) / P) by (rewrite <- EB; unfold cu_B; field; lra). rewrite H0. apply Rdiv_lt_0_compat; lra.
  - rewrite EA, EB. unfold pZ, RK_consts; cbn; field.
Qed.

(* ------------------------------------------------------------------ *)
(** * C47: interaction parameters and fugacity coefficients           *)
(* ------------------------------------------------------------------ *)

(** am and Z do not distinguish k = 0 from k = None *)
Theorem C47_am_Z orc e N a b T P z : (forall i, (i < N)%nat -> 0 <= a i) ->
  cu_am N a (Some (fun _ _ => 0)) z = cu_am N a None z /\
  cu_Z orc e (cu_am N a (Some (fun _ _ => 0)) z) (cu_bm N b z) T P = cu_Z orc e (cu_am N a None z) (cu_bm N b z) T P.
Proof. intros H. unfold cu_am. now rewrite C53_zero_k. Qed.

(** with k = None, ln phi_i + ln Z is the composition derivative of the residual Helmholtz energy at
    constant temperature and volume, for every exact root Z *)
Theorem C47_lnphi_derivative e N a b n v0 T P Z i : known e -> (i < N)%nat -> moles N n -> 0 < v0 -> 0 < T -> 0 < P ->
  (forall j, (j < N)%nat -> 0 < a j) -> (forall j, (j < N)%nat -> 0 < b j) ->
  let y := frac N n in let am := cu_am N a None y in let bm := cu_bm N b y in
  let A := cu_A am T P in let B := cu_B bm T P in
  B < Z -> pZ e A B Z = 0 ->
  let V := sumn N n * eos_v Z T P in
  D (fun t => let n' := upd n i t in
      (cu_DA e (cu_am N a None (frac N n')) (cu_bm N b (frac N n')) (sumn N n') T V v0 - IG_DA N T V n' v0) / (Rgas * T)) (n i)
    (cu_lnphi e (b i) am bm A B Z (cu_delta N a am None y i) + ln Z).
Proof.
  intros K Hi M Hv HT HP Ha Hb y am bm A B HBZ Hp V. pose proof Rgas_pos as HR. pose proof (proj2 M) as HS.
  destruct (known_facts e K) as (D0 & DD & UD & U0 & _ & KQ). set (d := cu_d e) in *. set (u := cu_u e) in *.
  set (St := fun m : nat -> R => sumn N (fun j => m j * sqrt (a j))). set (Bt := fun m : nat -> R => sumn N (fun j => m j * b j)).
  set (nt := sumn N n) in *. set (q := Rgas * T) in *. assert (Hq : 0 < q) by (unfold q; now apply Rmult_lt_0_compat).
  assert (PS : 0 < St n) by (apply moles_wsum; auto; intros; apply sqrt_lt_R0; auto).
  assert (PB : 0 < Bt n) by (apply moles_wsum; auto).
  assert (Fam : forall m, sumn N m <> 0 -> cu_am N a None (frac N m) = (St m / sumn N m) ^ 2).
  { intros m Hm. unfold cu_am, geometric_interaction_mixing, frac, St. f_equal. rewrite <- sumn_div. apply sumn_ext. intros. field. auto. }
  assert (Fbm : forall m, sumn N m <> 0 -> cu_bm N b (frac N m) = Bt m / sumn N m).
  { intros m Hm. unfold cu_bm, frac, Bt. rewrite <- sumn_div. apply sumn_ext. intros. field. auto. }
  assert (Eam : am = (St n / nt) ^ 2) by (apply Fam; unfold nt in HS; lra).
  assert (Ebm : bm = Bt n / nt) by (apply Fbm; unfold nt in HS; lra).
  assert (Pbm : 0 < bm) by (rewrite Ebm; now apply Rdiv_lt_0_compat).
  assert (PBs : 0 < B) by (unfold B, cu_B; apply Rdiv_lt_0_compat; auto; now apply Rmult_lt_0_compat).
  assert (PZ : 0 < Z) by lra.
  assert (EB : Bt n = B * (nt * q / P)) by (unfold B, cu_B; fold q; rewrite Ebm; field; lra).
  assert (EV : V = Z * (nt * q / P)) by (unfold V, eos_v, q; field; lra).
  assert (Pc : 0 < nt * q / P) by (apply Rdiv_lt_0_compat; auto; now apply Rmult_lt_0_compat).
  assert (PV : 0 < V) by (rewrite EV; now apply Rmult_lt_0_compat).
  assert (LBV : Bt n < V) by (rewrite EB, EV; now apply Rmult_lt_compat_r).
  pose proof (KQ V (Bt n) PB LBV) as QV. pose proof (KQ Z B PBs HBZ) as QZ.
  set (bf := fun t => Bt (upd n i t)).
  assert (Db : D bf (n i) (b i)) by (exact (D_lin N n i b Hi)).
  assert (Ib : bf (n i) = Bt n) by apply lin_id.
  assert (Ds : D (fun t => St (upd n i t)) (n i) (sqrt (a i))) by (exact (D_lin N n i (fun j => sqrt (a j)) Hi)).
  assert (Is : St (upd n i (n i)) = St n) by apply (lin_id N n i (fun j => sqrt (a j))).
  assert (IT : sumn N (upd n i (n i)) = nt) by (apply sumn_ext; intros; apply upd_id).
  assert (Cb : continuous bf (n i)) by (apply (ex_derive_continuous bf); eexists; exact Db).
  assert (N1 : locally (n i) (fun t => bf t < V)) by (apply (Cb (fun y => y < V)); apply (open_lt V (bf (n i))); lra).
  assert (N2 : locally (n i) (fun t => 0 < bf t)) by (apply (Cb (fun y => 0 < y)); apply (open_gt 0 (bf (n i))); lra).
  destruct N1 as (e1 & N1). destruct N2 as (e2 & N2).
  set (ee := Rmin nt (Rmin e1 e2)). assert (He : 0 < ee) by (unfold ee; repeat apply Rmin_glb_lt; auto; apply cond_pos).
  apply (D_ext_loc (fun t => St (upd n i t) ^ 2 / bf t * (/ (d * q)) * (ln (2 * V + bf t * (u - d)) - ln (2 * V + bf t * (u + d)))
      - sumn N (upd n i t) * (ln (V - bf t) - ln V)) _ _ _ ee He).
  { intros t Ht. assert (Q0 : Rabs (t - n i) < nt) by (eapply Rlt_le_trans; [exact Ht|apply Rmin_l]).
    assert (Q1 : Rabs (t - n i) < e1) by (eapply Rlt_le_trans; [exact Ht|eapply Rle_trans; [apply Rmin_r|apply Rmin_l]]).
    assert (Q2 : Rabs (t - n i) < e2) by (eapply Rlt_le_trans; [exact Ht|eapply Rle_trans; [apply Rmin_r|apply Rmin_r]]).
    pose proof (tot_near N n i Hi M t Q0) as PT. specialize (N1 t Q1). specialize (N2 t Q2). cbv beta in N1, N2.
    cbv zeta. rewrite Fam, Fbm by lra. fold (bf t). unfold cu_DA, IG_DA. cbv zeta. fold d u.
    set (x := bf t) in *. set (m := sumn N (upd n i t)) in *. set (s := St (upd n i t)).
    replace (m * (x / m)) with x by (field; lra).
    assert (P1 : 0 < 2 * V + x * (u - d)) by nra. assert (P2 : 0 < 2 * V + x * (u + d)) by nra.
    assert (Pd : 0 < m * v0) by now apply Rmult_lt_0_compat.
    rewrite (lnq (2 * V + x * (u - d))), (lnq (V - x)), (lnq V) by lra. fold q. replace (m * Rgas * T) with (m * q) by (unfold q; ring). replace (- m * Rgas * T) with (- m * q) by (unfold q; ring). field. repeat split; lra. }
  assert (P1 : 0 < 2 * V + Bt n * (u - d)) by nra. assert (P2 : 0 < 2 * V + Bt n * (u + d)) by nra.
  eapply D_eq.
  - apply (D_minus (fun t => _ * (_ - _)) (fun t => _ * (_ - _))).
    + apply (D_mult (fun t => St (upd n i t) ^ 2 / bf t * (/ (d * q))) (fun t => ln (2 * V + bf t * (u - d)) - ln (2 * V + bf t * (u + d)))).
      * apply (D_ext (fun t => / (d * q) * (St (upd n i t) * St (upd n i t) / bf t))); [intros; unfold Rdiv; ring|].
        apply (D_scal (/ (d * q)) (fun t => St (upd n i t) * St (upd n i t) / bf t)).
        apply (D_div (fun t => St (upd n i t) * St (upd n i t)) bf); [|exact Db|rewrite Ib; lra].
        apply (D_mult (fun t => St (upd n i t)) (fun t => St (upd n i t))); exact Ds.
      * apply (D_minus (fun t => ln _) (fun t => ln _)).
        -- apply (D_ln (fun t => 2 * V + bf t * (u - d)) (n i) (0 + b i * (u - d))); [|rewrite Ib; auto].
           apply (D_plus (fun _ => 2 * V) (fun t => bf t * (u - d))); [apply D_const|].
           apply (D_ext (fun t => (u - d) * bf t)); [intros; ring|]. eapply D_eq; [apply (D_scal (u - d) bf); exact Db|ring].
        -- apply (D_ln (fun t => 2 * V + bf t * (u + d)) (n i) (0 + b i * (u + d))); [|rewrite Ib; auto].
           apply (D_plus (fun _ => 2 * V) (fun t => bf t * (u + d))); [apply D_const|].
           apply (D_ext (fun t => (u + d) * bf t)); [intros; ring|]. eapply D_eq; [apply (D_scal (u + d) bf); exact Db|ring].
    + apply (D_mult (fun t => sumn N (upd n i t)) (fun t => ln (V - bf t) - ln V)); [now apply tot_upd|].
      apply (D_minus (fun t => ln (V - bf t)) (fun _ => ln V)); [|apply D_const]. apply (D_ln (fun t => V - bf t)); [|rewrite Ib; lra].
      apply (D_minus (fun _ => V) bf); [apply D_const|exact Db].
  - cbv beta. rewrite Ib, Is, IT.
    set (L1 := ln (2 * V + Bt n * (u - d)) - ln (2 * V + Bt n * (u + d))).
    assert (EL : L1 = - ln ((2 * Z + B * (u + d)) / (2 * Z + B * (u - d)))).
    { assert (P3 : 0 < 2 * Z + B * (u - d)) by nra. assert (P4 : 0 < 2 * Z + B * (u + d)) by nra. unfold L1.
      replace (2 * V + Bt n * (u - d)) with ((2 * Z + B * (u - d)) * (nt * q / P)) by (rewrite EB, EV; ring).
      replace (2 * V + Bt n * (u + d)) with ((2 * Z + B * (u + d)) * (nt * q / P)) by (rewrite EB, EV; ring).
      rewrite lnq by auto. rewrite !ln_mult by auto. ring. }
    assert (EL2 : ln (V - Bt n) - ln V = ln (Z - B) - ln Z).
    { rewrite EB, EV. replace (Z * (nt * q / P) - B * (nt * q / P)) with ((Z - B) * (nt * q / P)) by ring. rewrite !ln_mult by lra. ring. }
    rewrite EL2. unfold cu_lnphi. cbv zeta. fold d u. set (L := ln ((2 * Z + B * (u + d)) / (2 * Z + B * (u - d)))) in *. rewrite EL.
    assert (Esq : sqrt (a i / am) = sqrt (a i) * nt / St n).
    { rewrite sqrt_div by (try (left; auto); rewrite Eam; apply pow_lt; now apply Rdiv_lt_0_compat). rewrite Eam.
      replace ((St n / nt) ^ 2) with (St n / nt * (St n / nt)) by ring. rewrite sqrt_square by (left; now apply Rdiv_lt_0_compat). field. lra. }
    unfold cu_delta. rewrite Esq.
    (* the cubic equation: A = (1/(Z-B) - 1) Q *)
    rewrite pZ_factor in Hp. cbv zeta in Hp. fold u in Hp. set (QQ := Z ^ 2 + u * B * Z + cu_w e * B ^ 2) in *.
    assert (EA : A = (St n / nt) ^ 2 * P / q ^ 2) by (unfold A, cu_A; fold q; now rewrite Eam).
    assert (EQ : (2 * V + Bt n * (u - d)) * (2 * V + Bt n * (u + d)) = 4 * QQ * (nt * q / P) ^ 2).
    { rewrite EV, EB. transitivity ((4 * Z ^ 2 + 4 * u * B * Z + B ^ 2 * (u ^ 2 - d * d)) * (nt * q / P) ^ 2); [ring|]. rewrite DD. unfold QQ. fold u. ring. }
    set (sa := sqrt (a i)). set (S := St n) in *. clearbody sa.
    assert (EM : (0 + b i * (u - d)) / (2 * V + Bt n * (u - d)) - (0 + b i * (u + d)) / (2 * V + Bt n * (u + d))
               = - b i * d * V / (QQ * (nt * q / P) ^ 2)).
    { transitivity (- 4 * b i * d * V / ((2 * V + Bt n * (u - d)) * (2 * V + Bt n * (u + d)))); [field; split; lra|]. rewrite EQ. field. repeat split; lra. }
    rewrite EM. rewrite EV, EB. rewrite Ebm, EB.
    assert (Zm : QQ * (1 - (Z - B)) = A * (Z - B)) by lra.
    assert (EA' : A / QQ = 1 / (Z - B) - 1). { apply (Rmult_eq_reg_r (QQ * (Z - B))); [|apply Rmult_integral_contrapositive_currified; lra]. transitivity (A * (Z - B)); [field; lra|]. rewrite <- Zm. field. lra. }
    assert (ES : S ^ 2 = A * q ^ 2 / P * nt ^ 2) by (rewrite EA; field; lra).
    transitivity ((- L) * (2 * S * sa / (B * (nt * q / P)) - b i * (S ^ 2) / (B * (nt * q / P)) ^ 2) / (d * q)
       - S ^ 2 / (B * (nt * q / P)) / q * (b i * (Z * (nt * q / P)) / (QQ * (nt * q / P) ^ 2)) - (ln (Z - B) - ln Z) + nt * b i / ((Z - B) * (nt * q / P))).
    { field. repeat split; try lra. rewrite <- Rmult_minus_distr_r. apply Rmult_integral_contrapositive_currified; [lra|]. apply Rmult_integral_contrapositive_currified; lra. }
    rewrite ES.
    transitivity ((- L) * (2 * S * sa / (B * (nt * q / P)) - b i * (A * q ^ 2 / P * nt ^ 2) / (B * (nt * q / P)) ^ 2) / (d * q)
       - b i * P / (B * q) * Z * (A / QQ) - (ln (Z - B) - ln Z) + P * b i / ((Z - B) * q)).
    { field. repeat split; lra. }
    rewrite EA'.
    assert (E2 : 2 * S * sa / (B * (nt * q / P)) = 2 * sa * (A * q ^ 2 / P * nt ^ 2) / (S * (B * (nt * q / P)))) by (rewrite <- ES; field; repeat split; lra).
    rewrite E2. field. repeat split; lra.
Qed.

(** a single component: with k = 0 the fugacity coefficient differs from the one with k = None for every
    state, unless a happens to be 4 (Pa m6/mol2) *)
Theorem C47_phi_differs orc e a b T P : roots_spec orc -> known e -> 0 < a -> a <> 4 -> 0 < b -> 0 < T -> 0 < P ->
  forall ph, ph <> PhOther -> exists p p',
    cu_phi orc e 1 (fun _ => a) (fun _ => b) None T P (fun _ => 1) ph = Ok p /\
    cu_phi orc e 1 (fun _ => a) (fun _ => b) (Some (fun _ _ => 0)) T P (fun _ => 1) ph = Ok p' /\ p 0%nat <> p' 0%nat.
Proof.
  intros HO K Ha Ha4 Hb HT HP ph Hph. pose proof Rgas_pos as HR. assert (Hq : 0 < Rgas * T) by now apply Rmult_lt_0_compat.
  destruct (known_facts e K) as (D0 & DD & UD & U0 & _ & KQ).
  assert (Eam : cu_am 1 (fun _ => a) None (fun _ => 1) = a).
  { unfold cu_am, geometric_interaction_mixing. cbn [sumn]. transitivity (sqrt a * sqrt a); [ring|apply sqrt_sqrt; lra]. }
  assert (Ebm : cu_bm 1 (fun _ => b) (fun _ => 1) = b) by (unfold cu_bm; cbn [sumn]; ring).
  assert (Eam' : cu_am 1 (fun _ => a) (Some (fun _ _ => 0)) (fun _ => 1) = a) by (unfold cu_am; rewrite C53_zero_k; [exact Eam|intros; lra]).
  assert (HB : 0 < cu_B b T P) by (unfold cu_B; apply Rdiv_lt_0_compat; auto; now apply Rmult_lt_0_compat).
  assert (HA : 0 < cu_A a T P) by (unfold cu_A; apply Rdiv_lt_0_compat; [now apply Rmult_lt_0_compat|now apply pow_lt]).
  destruct (C46_complete orc e (cu_A a T P) (cu_B b T P) HO K HB) as (l & El & Hl & _ & _).
  assert (Hin : In (hd 0 l) l /\ In (last l 0) l) by (destruct l as [|x [|y [|]]]; cbn in Hl |- *; try lia; auto).
  assert (Hp : exists Zi, pick ph l = Ok Zi /\ In Zi l) by (destruct ph; cbn; [exists (hd 0 l)|exists (last l 0)|]; tauto). destruct Hp as (Zi & Ep & Iz).
  destruct (C46_sound orc e _ _ l Zi HO El Iz) as (LZ & _).
  unfold cu_phi. rewrite Eam, Eam', Ebm. cbv zeta. unfold cu_Z. rewrite El. cbn [bind]. rewrite Ep. cbn [bind].
  do 2 eexists. split; [reflexivity|]. split; [reflexivity|]. cbv beta. intros E. apply exp_inv in E.
  unfold cu_lnphi in E. cbv zeta in E. unfold cu_delta in E. cbn [sumn] in E.
  set (B := cu_B b T P) in *. set (A := cu_A a T P) in *. set (d := cu_d e) in *. set (u := cu_u e) in *.
  assert (P3 : 0 < 2 * Zi + B * (u - d)) by nra.
  assert (LL : 0 < ln ((2 * Zi + B * (u + d)) / (2 * Zi + B * (u - d)))).
  { rewrite <- ln_1. apply ln_increasing; [lra|]. apply (Rmult_lt_reg_r (2 * Zi + B * (u - d))); auto. unfold Rdiv. rewrite Rmult_assoc, Rinv_l by lra. nra. }
  set (L := ln ((2 * Zi + B * (u + d)) / (2 * Zi + B * (u - d)))) in *. assert (C0 : 0 < A / (B * d) * L) by (apply Rmult_lt_0_compat; auto; apply Rdiv_lt_0_compat; auto; now apply Rmult_lt_0_compat).
  replace (a / a) with 1 in E by (field; lra). rewrite sqrt_1 in E.
  assert (E3 : A / (B * d) * L * (sqrt a - 2) = 0) by lra. apply Rmult_integral in E3. destruct E3 as [E3|E3]; [lra|].
  apply Ha4. rewrite <- (sqrt_sqrt a) by lra. replace (sqrt a) with 2 by lra. ring.
Qed.
Theorem C47_neutral_refuted : exists e N a b T P z ph, forall orc, roots_spec orc ->
  cu_phi orc e N a b None T P z ph <> cu_phi orc e N a b (Some (fun _ _ => 0)) T P z ph.
Proof.
  exists RK_consts, 1%nat, (fun _ => 1), (fun _ => 1), 300, 100000, (fun _ => 1), PhL. intros orc HO E.
  destruct (C47_phi_differs orc RK_consts 1 1 300 100000 HO ltac:(now left) ltac:(lra) ltac:(lra) ltac:(lra) ltac:(lra) ltac:(lra) PhL ltac:(discriminate)) as (p & p' & E1 & E2 & H).
  rewrite E1, E2 in E. injection E as E. now rewrite E in H.
Qed.

(* ------------------------------------------------------------------ *)
(** * C84: saturation pressure                                        *)
(* ------------------------------------------------------------------ *)

(** K-value of the pure component as Psat uses it *)
Definition K1 (orc : roots_oracle) (e : cubic) (a b T x : R) : R :=
  match cu_K orc e 1 (fun _ => a) (fun _ => b) None T x (fun _ => 1) (fun _ => 1) with Ok k => k 0%nat | Err _ => 0 end.

Lemma scalex1 x : 0 < x -> scalex 1 (fun _ => x) 0%nat = 1 / x.
Proof.
  intros H. unfold scalex. cbn [min_nonzero maxn]. rewrite (Rabs_pos_eq x) by lra. destruct (Req_EM_T x 0) as [C|C]; [lra|].
  destruct (Req_EM_T x 0) as [C'|C']; [lra|]. rewrite ?Rmax_right by lra. match goal with |- (if ?b then _ else _) = _ => destruct b; reflexivity end.
Qed.
Lemma weg_none N g x0 tolx wait qmin qmax m nan : fixpoint_wegstein N g x0 None tolx wait qmin qmax m nan = fixpoint_wegstein N g x0 (@Some vec (scalex N x0)) tolx wait qmin qmax m nan.
Proof. reflexivity. Qed.
(** success: at the returned pressure the fugacities agree within 1e-6 of the starting guess *)
Theorem C84_residual K T Tc Pc w P0 nan x : 0 < P0 -> cu_Psat 1 K T Tc Pc w (Some P0) nan = Ok x -> T < Tc /\ Rabs (x * K x - x) <= / 10 ^ 6 * P0.
Proof.
  intros HP H. unfold cu_Psat in H. cbn [Nat.eqb negb] in H. destruct (Rleb Tc T) eqn:ET; [discriminate|].
  split; [destruct (Rlt_le_dec T Tc) as [|L]; auto; apply (proj2 (Rleb_true _ _)) in L; congruence|].
  cbv beta iota zeta in H. rewrite weg_none in H. destruct (C07_wegstein_result 1 (fun x i => x i * K (x 0%nat)) (fun _ => P0) (scalex 1 (fun _ => P0)) (/ 10 ^ 6) 1 (-5) 0 50 nan ltac:(lia) ltac:(lia)) as (Tr & r & Er & _ & _ & _ & _ & _ & Hf & Hs & _).
  rewrite Er in H. cbn [snd bind] in H. destruct (v_success r); [|discriminate]. injection H as <-.
  pose proof (proj1 Hs eq_refl 0%nat ltac:(lia)) as Q. rewrite Hf, scalex1 in Q by auto. rewrite Rabs_mult, (Rabs_pos_eq (1 / P0)) in Q by (left; apply Rdiv_lt_0_compat; lra).
  apply (Rmult_le_compat_l P0) in Q; [|lra]. replace (P0 * (1 / P0 * Rabs (v_x r 0%nat * K (v_x r 0%nat) - v_x r 0%nat))) with (Rabs (v_x r 0%nat * K (v_x r 0%nat) - v_x r 0%nat)) in Q by (field; lra). lra.
Qed.
Theorem C84_start K T Tc Pc w P0 nan : T < Tc -> K P0 = 1 -> cu_Psat 1 K T Tc Pc w (Some P0) nan = Ok P0.
Proof.
  intros HT HK. unfold cu_Psat. cbn [Nat.eqb negb]. replace (Rleb Tc T) with false by (symmetry; destruct (Rleb Tc T) eqn:E; auto; apply Rleb_true in E; lra).
  unfold fixpoint_wegstein. change 50%nat with (S 49). generalize 49%nat. intros m. cbn [weg_loop]. rewrite HK.
  match goal with |- context [if Rleb ?a ?b then _ else _] => replace (Rleb a b) with true end; [reflexivity|].
  symmetry. apply (proj2 (Rleb_true _ _)). unfold norm_inf. cbn [maxn]. match goal with |- context [Rabs ?x] => replace x with 0 by ring end.
  rewrite Rabs_R0, ?Rmax_left by lra. left. apply Rinv_0_lt_compat. apply pow_lt. lra.
Qed.
Theorem C84_guard N K T Tc Pc w P0 nan : N <> 1%nat \/ Tc <= T -> cu_Psat N K T Tc Pc w P0 nan = Err ValueError.
Proof.
  intros H. unfold cu_Psat. destruct (Nat.eqb_spec N 1); cbn [negb]; auto. destruct H as [H|H]; [contradiction|]. now rewrite (proj2 (Rleb_true _ _) H).
Qed.
(** one compressibility factor only: both "phases" coincide and K = 1 *)
Lemma K1_single orc e a b T P : roots_spec orc -> known e -> 0 < a -> 0 < b -> 0 < T -> 0 < P ->
  let A := cu_A a T P in let B := cu_B b T P in
  eps ^ 2 < (A + cu_w e * B ^ 2 - cu_u e * B - cu_u e * B ^ 2) - (1 + B - cu_u e * B) ^ 2 / 3 -> K1 orc e a b T P = 1.
Proof.
  intros HO K Ha Hb HT HP A B HM. pose proof Rgas_pos as HR. assert (Hq : 0 < Rgas * T) by now apply Rmult_lt_0_compat.
  assert (Eam : cu_am 1 (fun _ => a) None (fun _ => 1) = a).
  { unfold cu_am, geometric_interaction_mixing. cbn [sumn]. transitivity (sqrt a * sqrt a); [ring|apply sqrt_sqrt; lra]. }
  assert (Ebm : cu_bm 1 (fun _ => b) (fun _ => 1) = b) by (unfold cu_bm; cbn [sumn]; ring).
  assert (HB : 0 < B) by (unfold B, cu_B; apply Rdiv_lt_0_compat; auto; now apply Rmult_lt_0_compat).
  destruct (C46_complete orc e A B HO K HB) as (l & El & _ & _ & _). destruct (C46_single orc e A B l HO K HB HM El) as (Hl & _).
  unfold K1, cu_K, cu_phi. rewrite Eam, Ebm. cbv zeta. unfold cu_Z. fold A B. rewrite El. cbn [bind pick]. rewrite Hl. field. apply Rgt_not_eq, exp_pos.
Qed.
(** Redlich-Kwong at T = Tc/4 with the guess R T/b = 2.88 Pc: Psat returns that guess, far above the critical pressure *)
Theorem C84_guess_refuted orc Tc Pc w nan : roots_spec orc -> 0 < Tc -> 0 < Pc ->
  let T := Tc / 4 in let a := cu_a RK_consts RK_alpha (fun _ => Tc) (fun _ => Pc) (fun _ => w) T 0%nat in let b := cu_b RK_consts (fun _ => Tc) (fun _ => Pc) 0%nat in
  exists x, cu_Psat 1 (K1 orc RK_consts a b T) T Tc Pc w (Some (Rgas * T / b)) nan = Ok x /\ x = Rgas * T / b /\ 2 * Pc < x.
Proof.
  intros HO HT HP T a b. pose proof Rgas_pos as HR.
  assert (Hb : 0 < b) by (unfold b, cu_b; cbn [cu_Ob RK_consts]; apply Rdiv_lt_0_compat; auto; nra).
  assert (PT : 0 < T) by (unfold T; lra). assert (Hq : 0 < Rgas * T) by now apply Rmult_lt_0_compat.
  assert (Ea : a = 2 * (42748 / 100000) * (Rgas * Tc) ^ 2 / Pc).
  { unfold a, cu_a, RK_alpha, T. cbn [cu_Oa RK_consts]. replace (Tc / (Tc / 4)) with (2 * 2) by (field; lra). rewrite sqrt_square by lra. field. lra. }
  assert (Eb : b = 8664 / 100000 * Rgas * Tc / Pc) by reflexivity.
  assert (Ha : 0 < a) by (rewrite Ea; apply Rdiv_lt_0_compat; auto; assert (0 < (Rgas * Tc) ^ 2) by (apply pow_lt; nra); lra).
  assert (Pp : 0 < Rgas * T / b) by now apply Rdiv_lt_0_compat.
  exists (Rgas * T / b). split; [|split; auto].
  - apply C84_start; [unfold T; lra|]. apply K1_single; auto; [now left|]. cbn [cu_u cu_w RK_consts].
    assert (EB : cu_B b T (Rgas * T / b) = 1) by (unfold cu_B; field; split; lra).
    assert (EA : cu_A a T (Rgas * T / b) = 2 * 42748 / 8664 * 4) by (unfold cu_A; rewrite Ea, Eb; unfold T; field; repeat split; lra).
    rewrite EA, EB. assert (eps ^ 2 < 1 / 16).
    { assert (He : eps <= / 2 ^ 3) by (unfold eps; apply Rinv_le_contravar; [lra|apply Rle_pow; [lra|lia]]). pose proof eps_pos. nra. }
    lra.
  - rewrite Eb. unfold T. replace (Rgas * (Tc / 4) / (8664 / 100000 * Rgas * Tc / Pc)) with (100000 / 34656 * Pc) by (field; lra). lra.
Qed.

Print Assumptions C46_complete.
Print Assumptions C46_helmholtz.
Print Assumptions C47_lnphi_derivative.
Print Assumptions C47_neutral_refuted.
Print Assumptions C84_guess_refuted.
