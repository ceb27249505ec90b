(** Corresponding states: scaling temperatures with the critical temperatures and pressures with the critical
    pressures leaves the reduced results unchanged. *)
From Coq Require Import Reals Lra Lia List Bool Arith FunctionalExtensionality.
From Verif Require Import Prelude KinModel AcmModel EosModel PropModel HmtProps FlowProps EosCritProps DimProps DimProps2.
Import ListNotations.
Open Scope R_scope.

(** ** Virial equation: t and p are the factors of temperature and pressure *)
Lemma B_pure_cs T Tc Pc w t p : 0 < t -> 0 < p -> B_pure (t * T) (t * Tc) (p * Pc) w = t / p * B_pure T Tc Pc w.
Proof. intros Ht Hp. unfold B_pure. cbv zeta. rewrite ratio_same by auto. unfold Rdiv. rewrite Rinv_mult. ring. Qed.
Lemma vc_cs Z Tc Pc t p : 0 < t -> 0 < p -> Z * Rgas * (t * Tc) / (p * Pc) = t / p * (Z * Rgas * Tc / Pc).
Proof. intros. unfold Rdiv. rewrite Rinv_mult. ring. Qed.
Lemma cbrt3 c : 0 < c -> Rpower c (1 / 3) ^ 3 = c.
Proof. intros H. rewrite <- Rpower_pow by apply exp_pos. rewrite Rpower_mult. replace (1 / 3 * INR 3) with 1 by (cbn [INR]; field). apply Rpower_1; auto. Qed.
Lemma B_cross_cs T Tc Pc Zc w i j t p : 0 < t -> 0 < p -> (forall i, 0 < Tc i) -> (forall i, 0 < Pc i) -> (forall i, 0 < Zc i) ->
  B_cross (t * T) (fun i => t * Tc i) (fun i => p * Pc i) Zc w i j = t / p * B_cross T Tc Pc Zc w i j.
Proof.
  intros Ht Hp HT HP HZ. unfold B_cross. cbv zeta. rewrite !vc_cs by auto. set (c := t / p). assert (Hc : 0 < c) by (apply Rdiv_lt_0_compat; auto).
  assert (HR : 0 < Rgas) by (unfold Rgas; lra).
  set (vi := Zc i * Rgas * Tc i / Pc i). set (vj := Zc j * Rgas * Tc j / Pc j).
  assert (Hvi : 0 < vi) by (apply Rdiv_lt_0_compat; [apply Rmult_lt_0_compat; [apply Rmult_lt_0_compat|]|]; auto). assert (Hvj : 0 < vj) by (apply Rdiv_lt_0_compat; [apply Rmult_lt_0_compat; [apply Rmult_lt_0_compat|]|]; auto).
  rewrite <- !(Rpower_mult_distr c) by auto.
  replace ((Rpower c (1 / 3) * Rpower vi (1 / 3) + Rpower c (1 / 3) * Rpower vj (1 / 3)) ^ 3 / 8) with (c * ((Rpower vi (1 / 3) + Rpower vj (1 / 3)) ^ 3 / 8)).
  2:{ rewrite <- (cbrt3 c) at 1 by auto. field. }
  set (vm := (Rpower vi (1 / 3) + Rpower vj (1 / 3)) ^ 3 / 8).
  assert (Hvm : 0 < vm). { unfold vm. apply Rdiv_lt_0_compat; [|lra]. apply pow_lt. apply Rplus_lt_0_compat; apply exp_pos. }
  replace (c * vi * (c * vj)) with (c ^ 2 * (vi * vj)) by ring. rewrite sqrt_scale by auto. rewrite ratio_same by auto.
  replace (t * Tc i * (t * Tc j)) with (t ^ 2 * (Tc i * Tc j)) by ring. rewrite sqrt_scale by auto.
  set (k := 1 - (1 - sqrt (vi * vj) / vm)). replace (t * sqrt (Tc i * Tc j) * k) with (t * (sqrt (Tc i * Tc j) * k)) by ring. set (Tm := sqrt (Tc i * Tc j) * k).
  replace ((Zc i + Zc j) / 2 * Rgas * (t * Tm) / (c * vm)) with (p * ((Zc i + Zc j) / 2 * Rgas * Tm / vm)) by (unfold c; field; repeat split; lra).
  apply B_pure_cs; auto.
Qed.
Theorem C119_virial N T P Tc Pc Zc w y t p i : 0 < t -> 0 < p -> (forall i, 0 < Tc i) -> (forall i, 0 < Pc i) -> (forall i, 0 < Zc i) -> 0 < T ->
  let B := B_mixture T Tc Pc Zc w in let B' := B_mixture (t * T) (fun i => t * Tc i) (fun i => p * Pc i) Zc w in
  (forall a b, B' a b = t / p * B a b) /\ Vir_Z N B' (t * T) (p * P) y = Vir_Z N B T P y /\ Vir_phi N B' (t * T) (p * P) y i = Vir_phi N B T P y i /\
  forall v, Vir_P N B' (t * T) (t / p * v) y = p * Vir_P N B T v y.
Proof.
  intros Ht Hp HT HP HZ H0 B B'. assert (HR : 0 < Rgas) by (unfold Rgas; lra).
  assert (EB : forall a b, B' a b = t / p * B a b).
  { intros a b. unfold B', B, B_mixture. destruct (Nat.eqb a b); [apply B_pure_cs; auto|]. destruct (Nat.ltb a b); apply B_cross_cs; auto. }
  assert (EM : Vir_Bm N B' y = t / p * Vir_Bm N B y).
  { unfold Vir_Bm, quadratic_mixing. rewrite <- sumn_scal. apply sumn_ext. intros a _. rewrite (sumn_ext N _ (fun j => t / p * (y j * B j a))) by (intros; rewrite EB; ring). rewrite sumn_scal. ring. }
  split; [exact EB|]. split; [|split].
  - unfold Vir_Z. rewrite EM. f_equal. field. repeat split; lra.
  - unfold Vir_phi. rewrite EM. rewrite (sumn_ext N _ (fun j => t / p * (B i j * y j))) by (intros; rewrite EB; ring). rewrite sumn_scal. f_equal. field. repeat split; lra.
  - intros v. unfold Vir_P. rewrite EM. replace (t / p * v - t / p * Vir_Bm N B y) with (t / p * (v - Vir_Bm N B y)) by ring. unfold Rdiv. rewrite !Rinv_mult, Rinv_inv. generalize (/ (v - Vir_Bm N B y)); intros x. field. lra.
Qed.

(** ** Cubic equations of state *)
Lemma cu_b_cs e Tc Pc t p i : 0 < p -> 0 < Pc i -> cu_b e (fun i => t * Tc i) (fun i => p * Pc i) i = t / p * cu_b e Tc Pc i.
Proof. intros Hp H. unfold cu_b. field. lra. Qed.
Lemma cu_a_cs e al Tc Pc w T t p i : alphaf al -> 0 < t -> 0 < p -> 0 < T -> 0 < Tc i -> 0 < Pc i ->
  cu_a e al (fun i => t * Tc i) (fun i => p * Pc i) w (t * T) i = t ^ 2 / p * cu_a e al Tc Pc w T i.
Proof. intros Ha Ht Hp HT H1 H2. unfold cu_a. rewrite (C109_alpha_reduced al t T (Tc i) (w i) Ha Ht HT H1). field. lra. Qed.
Lemma geo_scale N y Q k c : 0 < c -> (forall i, 0 <= Q i) -> geometric_interaction_mixing N y (fun i => c * Q i) k = c * geometric_interaction_mixing N y Q k.
Proof.
  intros Hc HQ. unfold geometric_interaction_mixing. destruct k as [k|].
  - rewrite <- sumn_scal. apply sumn_ext. intros i _. rewrite Rmult_plus_distr_l, <- sumn_scal. f_equal; [ring|]. apply sumn_ext. intros d _.
    replace (c * Q i * (c * Q (i + 1 + d)%nat)) with (c ^ 2 * (Q i * Q (i + 1 + d)%nat)) by ring. rewrite sqrt_scale by auto. ring.
  - rewrite (sumn_ext N _ (fun i => sqrt c * (y i * sqrt (Q i)))) by (intros; rewrite sqrt_mult by (auto; lra); ring). rewrite sumn_scal, Rpow_mult_distr.
    replace (sqrt c ^ 2) with c; [reflexivity|]. symmetry. replace (sqrt c ^ 2) with (sqrt c * sqrt c) by ring. apply sqrt_sqrt. lra.
Qed.
Lemma alphaf_pos al T Tc w : alphaf al -> 0 < T -> 0 < Tc -> 0 <= al T Tc w.
Proof. intros [|g|] H1 H2; [unfold RK_alpha; apply sqrt_pos|unfold SRK_alpha; apply pow2_ge_0|unfold PR_alpha; apply pow2_ge_0]. Qed.
Lemma cu_a_nonneg e al Tc Pc w T i : alphaf al -> 0 <= cu_Oa e -> 0 < T -> 0 < Tc i -> 0 < Pc i -> 0 <= cu_a e al Tc Pc w T i.
Proof.
  intros Ha He HT H1 H2. unfold cu_a. apply Rmult_le_pos; [|apply alphaf_pos; auto]. apply Rmult_le_pos; [|left; apply Rinv_0_lt_compat; auto].
  apply Rmult_le_pos; auto. apply pow2_ge_0.
Qed.
(** The mixture: reduced parameters, compressibility factors and pressure.  Any interaction parameters. *)
Theorem C119_cubic orc e al N k z T P Tc Pc w t p : alphaf al -> 0 <= cu_Oa e -> 0 < t -> 0 < p -> 0 < T -> (forall i, 0 < Tc i) -> (forall i, 0 < Pc i) ->
  let a := cu_a e al Tc Pc w T in let a' := cu_a e al (fun i => t * Tc i) (fun i => p * Pc i) w (t * T) in
  let b := cu_b e Tc Pc in let b' := cu_b e (fun i => t * Tc i) (fun i => p * Pc i) in
  cu_A (cu_am N a' k z) (t * T) (p * P) = cu_A (cu_am N a k z) T P /\ cu_B (cu_bm N b' z) (t * T) (p * P) = cu_B (cu_bm N b z) T P /\
  cu_Z orc e (cu_am N a' k z) (cu_bm N b' z) (t * T) (p * P) = cu_Z orc e (cu_am N a k z) (cu_bm N b z) T P /\
  forall v, cu_P e (cu_am N a' k z) (cu_bm N b' z) (t * T) (t / p * v) = p * cu_P e (cu_am N a k z) (cu_bm N b z) T v.
Proof.
  intros Ha He Ht Hp HT HTc HPc a a' b b'. assert (HR : 0 < Rgas) by (unfold Rgas; lra).
  assert (EA : cu_am N a' k z = t ^ 2 / p * cu_am N a k z).
  { unfold cu_am. replace a' with (fun i => t ^ 2 / p * a i) by (apply functional_extensionality; intros i; symmetry; apply cu_a_cs; auto).
    apply geo_scale; [apply Rdiv_lt_0_compat; auto; apply pow_lt; auto|]. intros i. apply cu_a_nonneg; auto. }
  assert (EB : cu_bm N b' z = t / p * cu_bm N b z).
  { unfold cu_bm. rewrite <- sumn_scal. apply sumn_ext. intros i _. unfold b', b. rewrite cu_b_cs by auto. ring. }
  assert (E1 : cu_A (cu_am N a' k z) (t * T) (p * P) = cu_A (cu_am N a k z) T P) by (unfold cu_A; rewrite EA; field; repeat split; lra).
  assert (E2 : cu_B (cu_bm N b' z) (t * T) (p * P) = cu_B (cu_bm N b z) T P) by (unfold cu_B; rewrite EB; field; repeat split; lra).
  split; [exact E1|]. split; [exact E2|]. split; [unfold cu_Z; rewrite E1, E2; reflexivity|].
  intros v. unfold cu_P. rewrite EA, EB. set (am := cu_am N a k z). set (bm := cu_bm N b z).
  replace (t / p * v - t / p * bm) with (t / p * (v - bm)) by ring.
  replace ((t / p * v) ^ 2 + cu_u e * (t / p * v) * (t / p * bm) + cu_w e * (t / p * bm) ^ 2) with ((t / p) ^ 2 * (v ^ 2 + cu_u e * v * bm + cu_w e * bm ^ 2)) by ring.
  unfold Rdiv. rewrite !Rinv_mult. generalize (/ (v - bm)) (/ (v ^ 2 + cu_u e * v * bm + cu_w e * bm ^ 2)); intros x y. field. lra.
Qed.
(** The fugacity coefficients, without interaction parameters *)
Theorem C119_cubic_phi orc e al N z T P Tc Pc w t p ph : alphaf al -> 0 <= cu_Oa e -> 0 < t -> 0 < p -> 0 < T -> (forall i, 0 < Tc i) -> (forall i, 0 < Pc i) ->
  cu_phi orc e N (cu_a e al (fun i => t * Tc i) (fun i => p * Pc i) w (t * T)) (cu_b e (fun i => t * Tc i) (fun i => p * Pc i)) None (t * T) (p * P) z ph =
  cu_phi orc e N (cu_a e al Tc Pc w T) (cu_b e Tc Pc) None T P z ph.
Proof.
  intros Ha He Ht Hp HT HTc HPc. destruct (C119_cubic orc e al N None z T P Tc Pc w t p Ha He Ht Hp HT HTc HPc) as (E1 & E2 & E3 & _).
  unfold cu_phi. cbv zeta. rewrite E3. clear E3. destruct (cu_Z _ _ _ _ _ _) as [Z|x]; cbn [bind]; [|reflexivity]. destruct (pick ph Z) as [Zi|x]; cbn [bind]; [|reflexivity].
  f_equal. apply functional_extensionality. intros i. f_equal. rewrite E1, E2.
  assert (Hc : 0 < t ^ 2 / p) by (apply Rdiv_lt_0_compat; auto; apply pow_lt; auto). assert (Hd : 0 < t / p) by (apply Rdiv_lt_0_compat; auto).
  assert (EA : cu_am N (cu_a e al (fun i => t * Tc i) (fun i => p * Pc i) w (t * T)) None z = t ^ 2 / p * cu_am N (cu_a e al Tc Pc w T) None z).
  { unfold cu_am. rewrite <- geo_scale by (auto; intros; apply cu_a_nonneg; auto). f_equal. apply functional_extensionality. intros j. apply cu_a_cs; auto. }
  assert (EB : cu_bm N (cu_b e (fun i => t * Tc i) (fun i => p * Pc i)) z = t / p * cu_bm N (cu_b e Tc Pc) z).
  { unfold cu_bm. rewrite <- sumn_scal. apply sumn_ext. intros j _. rewrite cu_b_cs by auto. ring. }
  unfold cu_lnphi, cu_delta. cbv zeta. rewrite EA, EB, cu_a_cs, cu_b_cs by auto. rewrite !ratio_same by auto. reflexivity.
Qed.
(** With interaction parameters (here zero) the fugacity coefficient depends on the unit of pressure: four times the
    pressure and critical pressure, everything else equal, at every root Z of the vapour or liquid. *)
Theorem C119_cubic_k_refuted : exists e al N k z T P Tc Pc w p, alphaf al /\ 0 < p /\ e = RK_consts /\ (forall i j, k i j = 0) /\
  let a := cu_a e al Tc Pc w T in let a' := cu_a e al Tc (fun i => p * Pc i) w T in let b := cu_b e Tc Pc in let b' := cu_b e Tc (fun i => p * Pc i) in
  let am := cu_am N a (Some k) z in let am' := cu_am N a' (Some k) z in let bm := cu_bm N b z in let bm' := cu_bm N b' z in
  forall Zi, cu_B bm T P < Zi ->
  cu_lnphi e (b' 0%nat) am' bm' (cu_A am' T (p * P)) (cu_B bm' T (p * P)) Zi (cu_delta N a' am' (Some k) z 0) <>
  cu_lnphi e (b 0%nat) am bm (cu_A am T P) (cu_B bm T P) Zi (cu_delta N a am (Some k) z 0).
Proof.
  exists RK_consts, RK_alpha, 1%nat, (fun _ _ => 0), (fun _ => 1), 1, 1, (fun _ => 1), (fun _ => 1), (fun _ => 0), 4.
  split; [constructor|]. split; [lra|]. split; [reflexivity|]. split; [reflexivity|]. intros a a' b b' am am' bm bm' Zi HZ E.
  assert (HR : 0 < Rgas) by (unfold Rgas; lra).
  assert (Eb : b' 0%nat = b 0%nat / 4) by (unfold b', b, cu_b; field).
  assert (Ea : a' 0%nat = a 0%nat / 4) by (unfold a', a, cu_a; field).
  assert (Hb : 0 < b 0%nat) by (unfold b, cu_b, RK_consts; cbn [cu_Ob]; nra).
  assert (Ha0 : 0 < a 0%nat).
  { unfold a, cu_a, RK_consts, RK_alpha. cbn [cu_Oa]. replace (1 / 1) with 1 by field. rewrite sqrt_1. assert (0 < Rgas ^ 2) by (apply pow_lt; auto). nra. }
  assert (Eam : am = a 0%nat) by (unfold am, cu_am, geometric_interaction_mixing; cbn [sumn Nat.sub Nat.add]; ring).
  assert (Eam' : am' = a 0%nat / 4) by (unfold am', cu_am, geometric_interaction_mixing; cbn [sumn Nat.sub Nat.add]; rewrite Ea; field).
  assert (Ebm : bm = b 0%nat) by (unfold bm, cu_bm; cbn [sumn]; ring).
  assert (Ebm' : bm' = b 0%nat / 4) by (unfold bm', cu_bm; cbn [sumn]; rewrite Eb; field).
  clearbody am am' bm bm'. subst am am' bm bm'. rewrite Eb in E. unfold cu_delta in E. cbn [sumn] in E. rewrite Ea in E.
  clearbody a a' b b'. set (x := a 0%nat) in *. set (y := b 0%nat) in *. clearbody x y. clear Eb Ea a a' b b'.
  unfold cu_lnphi, cu_A, cu_B, cu_d, RK_consts in E. cbn [cu_u cu_w] in E. cbv zeta in E.
  replace (sqrt (1 ^ 2 - 4 * 0)) with 1 in E by (replace (1 ^ 2 - 4 * 0) with 1 by ring; rewrite sqrt_1; reflexivity).
  unfold cu_B in HZ. set (B := y * 1 / (Rgas * 1)) in *. assert (HB : 0 < B) by (unfold B; apply Rdiv_lt_0_compat; lra).
  replace (y / 4 * (4 * 1) / (Rgas * 1)) with B in E by (unfold B; field; lra).
  replace (x / 4 * (4 * 1) / (Rgas * 1) ^ 2) with (x * 1 / (Rgas * 1) ^ 2) in E by (field; lra). set (A := x * 1 / (Rgas * 1) ^ 2) in *.
  assert (HA : 0 < A) by (unfold A; apply Rdiv_lt_0_compat; [lra|apply pow_lt; lra]).
  replace (y / 4 / (y / 4)) with 1 in E by (field; lra). replace (y / y) with 1 in E by (field; lra).
  set (L := ln ((2 * Zi + B * (1 + 1)) / (2 * Zi + B * (1 - 1)))) in *.
  assert (HL : 0 < L). { unfold L. rewrite <- ln_1. apply ln_increasing; [lra|]. apply (Rmult_lt_reg_r (2 * Zi + B * (1 - 1))); [lra|]. unfold Rdiv. rewrite Rmult_assoc, Rinv_l by lra. lra. }
  assert (Hq : 0 < A / (B * 1) * L) by (apply Rmult_lt_0_compat; auto; apply Rdiv_lt_0_compat; lra).
  assert (Hs : sqrt (x / 4) = sqrt x / 2). { replace (x / 4) with ((/ 2) ^ 2 * x) by field. rewrite sqrt_scale by lra. field. }
  rewrite Hs in E. pose proof (sqrt_lt_R0 x Ha0) as Hsx.
  assert (X : A / (B * 1) * L * (sqrt x / 2) = 0) by lra. nra.
Qed.

(** ** Vapour pressure, vaporisation, liquid volume *)
Lemma red_cs T Tc t : 0 < t -> t * T / (t * Tc) = T / Tc.
Proof. apply ratio_same. Qed.
Theorem C119_vapour_pressure T Tb Tc Pc w t p : 0 < t ->
  PL_Wilson (t * T) (t * Tc) (p * Pc) w = p * PL_Wilson T Tc Pc w /\
  PL_Ambrose_Walton (t * T) (t * Tc) (p * Pc) w = pmap (Rmult p) (PL_Ambrose_Walton T Tc Pc w) /\
  PL_Lee_Kesler (t * T) (t * Tb) (t * Tc) Pc = PL_Lee_Kesler T Tb Tc Pc /\
  forall a b c d, Wagner25 (t * T) a b c d (p * Pc) (t * Tc) = pmap (Rmult p) (Wagner25 T a b c d Pc Tc) /\ Wagner36 (t * T) a b c d (p * Pc) (t * Tc) = pmap (Rmult p) (Wagner36 T a b c d Pc Tc).
Proof.
  intros Ht. unfold PL_Wilson, PL_Ambrose_Walton, PL_Lee_Kesler, Wagner25, Wagner36. cbv zeta. rewrite !red_cs by auto. split; [ring|].
  split; [destruct (pmap2 _ (aw_f _ _ _ _ _ _) _) as [u|]; destruct (pmap _ (aw_f _ _ _ _ _ _)) as [v|]; cbn [pmap pmap2]; try reflexivity; f_equal; ring|].
  split; [reflexivity|]. intros a b c d. split.
  - destruct (fpow (1 - T / Tc) (3 / 2)); destruct (fpow (1 - T / Tc) (5 / 2)); cbn [pmap pmap2]; try reflexivity. f_equal. ring.
  - destruct (fpow (1 - T / Tc) (3 / 2)); cbn [pmap]; try reflexivity. f_equal. ring.
Qed.
Theorem C119_vaporisation T T1 Tc Pc w h t : 0 < t ->
  DHVL_Pitzer (t * T) (t * Tc) w = pmap (Rmult t) (DHVL_Pitzer T Tc w) /\ DHVL_Vetere (t * T) (t * Tc) Pc = t * DHVL_Vetere T Tc Pc /\
  DHVL_Watson h (t * T1) (t * T) (t * Tc) = DHVL_Watson h T1 T Tc.
Proof.
  intros Ht. unfold DHVL_Pitzer, DHVL_Vetere, DHVL_Watson. cbv zeta. rewrite !red_cs by auto. split; [|split; [unfold Rdiv; ring|reflexivity]].
  destruct (fpow (1 - T / Tc) (354 / 1000)); destruct (fpow (1 - T / Tc) (456 / 1000)); cbn [pmap pmap2]; try reflexivity. f_equal. ring.
Qed.
Theorem C119_Rackett T Tc Pc Z w t p : 0 < t -> 0 < p -> VL_Rackett (t * T) (t * Tc) (p * Pc) Z w = match VL_Rackett T Tc Pc Z w with Ok v => Ok (pmap (Rmult (t / p)) v) | Err e => Err e end.
Proof.
  intros Ht Hp. unfold VL_Rackett. rewrite red_cs by auto.
  assert (X : forall z, match fpow (1 - T / Tc) (2 / 7) with Flt q => Ok (pmap (fun q0 => Rgas * (t * Tc) / (p * Pc) * q0) (fpow z (1 + q))) | NotReal => Ok NotReal end =
    match match fpow (1 - T / Tc) (2 / 7) with Flt q => Ok (pmap (fun q0 => Rgas * Tc / Pc * q0) (fpow z (1 + q))) | NotReal => Ok NotReal end with Ok v => Ok (pmap (Rmult (t / p)) v) | Err e => Err e end).
  { intros z. destruct (fpow (1 - T / Tc) (2 / 7)) as [q|]; [|reflexivity]. destruct (fpow z (1 + q)) as [u|]; [|reflexivity]. cbn [pmap]. do 2 f_equal. unfold Rdiv. rewrite Rinv_mult. ring. }
  destruct Z as [z|], w as [w|]; cbn [bind]; try reflexivity; apply X.
Qed.

(** ** Dense-gas transport: the factors m^2 of molar mass, t^6 of Tc, p^3 of Pc *)
Lemma root6 t m p : 0 < t -> 0 < m -> 0 < p -> forall Tc M Pc, 0 < Tc -> 0 < M -> 0 < Pc ->
  Rpower (t ^ 6 * Tc / ((m ^ 2 * M) ^ 3 * (p ^ 3 * Pc) ^ 4)) (1 / 6) = t / (m * p ^ 2) * Rpower (Tc / (M ^ 3 * Pc ^ 4)) (1 / 6).
Proof.
  intros Ht Hm Hp Tc M Pc HT HM HP. set (c := t / (m * p ^ 2)). assert (Hc : 0 < c) by (apply Rdiv_lt_0_compat; auto; apply Rmult_lt_0_compat; auto; apply pow_lt; auto).
  replace (t ^ 6 * Tc / ((m ^ 2 * M) ^ 3 * (p ^ 3 * Pc) ^ 4)) with (c ^ 6 * (Tc / (M ^ 3 * Pc ^ 4))) by (unfold c; field; repeat split; lra).
  rewrite <- Rpower_mult_distr; [|apply pow_lt; auto|apply Rdiv_lt_0_compat; auto; apply Rmult_lt_0_compat; apply pow_lt; auto]. f_equal.
  rewrite <- Rpower_pow by auto. rewrite Rpower_mult. replace (INR 6 * (1 / 6)) with 1 by (cbn [INR]; field). apply Rpower_1; auto.
Qed.
Theorem C119_Jossi rhor M Tc Pc t m p : 0 < t -> 0 < m -> 0 < p -> 0 < M -> 0 < Tc -> 0 < Pc ->
  MUVPC_Jossi rhor (m ^ 2 * M) (t ^ 6 * Tc) (p ^ 3 * Pc) = m * p ^ 2 / t * MUVPC_Jossi rhor M Tc Pc.
Proof.
  intros Ht Hm Hp HM HT HP. unfold MUVPC_Jossi. cbv zeta. rewrite root6 by auto. set (z := Rpower _ (1 / 6)). assert (0 < z) by apply exp_pos. field. repeat split; lra.
Qed.
Theorem C119_Dean_Stiel v M Tc Pc vc t m p l : 0 < t -> 0 < m -> 0 < p -> 0 < l -> 0 < M -> 0 < Tc -> 0 < Pc ->
  Dean_Stiel_pure (l * v) (m ^ 2 * M) (t ^ 6 * Tc) (p ^ 3 * Pc) (l * vc) = m * p ^ 2 / t * Dean_Stiel_pure v M Tc Pc vc.
Proof.
  intros Ht Hm Hp Hl HM HT HP. unfold Dean_Stiel_pure. cbv zeta. rewrite ratio_same by auto. rewrite sqrt_scale by auto.
  rewrite <- !Rpower_mult_distr by (auto; apply pow_lt; auto).
  replace (Rpower (t ^ 6) (1 / 6)) with t by (rewrite <- Rpower_pow by auto; rewrite Rpower_mult; replace (INR 6 * (1 / 6)) with 1 by (cbn [INR]; field); rewrite Rpower_1; auto).
  replace (Rpower (p ^ 3) (2 / 3)) with (p ^ 2) by (rewrite <- !Rpower_pow by auto; rewrite Rpower_mult; f_equal; cbn [INR]; field).
  pose proof (sqrt_lt_R0 M HM). assert (0 < Rpower Tc (1 / 6)) by apply exp_pos. assert (0 < Rpower Pc (2 / 3)) by apply exp_pos.
  generalize (exp (1439 / 1000 * (vc / v)) - exp (- (1111 / 1000) * Rpower (vc / v) (1858 / 1000))); intros q.
  set (x := Rpower Tc (1 / 6)) in *. set (y := Rpower Pc (2 / 3)) in *. set (s := sqrt M) in *. field. repeat split; lra.
Qed.
Theorem C119_Lucas T P M Tc Pc Zc dm t m p : 0 < t -> 0 < m -> 0 < p -> 0 < M -> 0 < Tc -> 0 < Pc ->
  MUV_Lucas (t ^ 6 * T) (p ^ 6 * P) (m ^ 2 * M) (t ^ 6 * Tc) (p ^ 6 * Pc) Zc (t ^ 6 / p ^ 3 * dm) = pmap (Rmult (m * p ^ 4 / t)) (MUV_Lucas T P M Tc Pc Zc dm).
Proof.
  intros Ht Hm Hp HM HT HP. assert (Ht6 : 0 < t ^ 6) by (apply pow_lt; auto). assert (Hp6 : 0 < p ^ 6) by (apply pow_lt; auto). assert (Hp2 : 0 < p ^ 2) by (apply pow_lt; auto).
  unfold MUV_Lucas, Lucas_FP0. rewrite !red_cs by auto.
  replace (Lucas_dmr (t ^ 6 / p ^ 3 * dm) (p ^ 6 * Pc) (t ^ 6 * Tc)) with (Lucas_dmr dm Pc Tc) by (unfold Lucas_dmr; field; repeat split; lra).
  destruct (fpow (292 / 1000 - Zc) (172 / 100)) as [q|]; [|reflexivity]. cbn [pmap]. f_equal.
  unfold Lucas_mu. cbv zeta.
  replace (Rpower (t ^ 6 * Tc / ((m ^ 2 * M * 1000) ^ 3 * (p ^ 6 * Pc / 100000) ^ 4)) (1 / 6)) with (t / (m * (p ^ 2) ^ 2) * Rpower (Tc / ((M * 1000) ^ 3 * (Pc / 100000) ^ 4)) (1 / 6)).
  2:{ rewrite <- root6 by (auto; lra). f_equal. f_equal. f_equal; f_equal; field. }
  set (z := Rpower (Tc / ((M * 1000) ^ 3 * (Pc / 100000) ^ 4)) (1 / 6)). assert (0 < z) by apply exp_pos. clearbody z.
  match goal with |- ?x * ?y / _ = _ * (?x * ?y / _) => generalize (x * y); intros u end. field. repeat split; lra.
Qed.
Theorem C119_Stiel_Thodos v M Tc Pc Zc t m p : 0 < t -> 0 < m -> 0 < p -> 0 < M -> 0 < Tc -> 0 < Pc -> 0 < Zc ->
  KVPC_Stiel_Thodos (t ^ 6 / p ^ 3 * v) (m ^ 2 * M) (t ^ 6 * Tc) (p ^ 3 * Pc) Zc = rscale (p ^ 2 / (t * m)) (KVPC_Stiel_Thodos v M Tc Pc Zc).
Proof.
  intros Ht Hm Hp HM HT HP HZ. assert (HR : 0 < Rgas) by (unfold Rgas; lra). assert (HN : 0 < NA) by (unfold NA; lra).
  unfold KVPC_Stiel_Thodos. cbv zeta. rewrite vc_cs by (apply pow_lt; auto).
  rewrite ratio_same by (apply Rdiv_lt_0_compat; apply pow_lt; auto).
  destruct (ST_a (Zc * Rgas * Tc / Pc / v)) as [a|x]; cbn [bind rscale]; [|reflexivity]. f_equal.
  set (c := t * m / p ^ 2). assert (Hc : 0 < c) by (apply Rdiv_lt_0_compat; [apply Rmult_lt_0_compat|apply pow_lt]; auto).
  replace (t ^ 6 * Tc * (m ^ 2 * M) ^ 3 * NA ^ 2 / (Rgas ^ 5 * (p ^ 3 * Pc) ^ 4)) with (c ^ 6 * (Tc * M ^ 3 * NA ^ 2 / (Rgas ^ 5 * Pc ^ 4))) by (unfold c; field; repeat split; lra).
  rewrite <- Rpower_mult_distr; [|apply pow_lt; auto|apply Rdiv_lt_0_compat; [apply Rmult_lt_0_compat; [apply Rmult_lt_0_compat|]|apply Rmult_lt_0_compat]; auto; apply pow_lt; auto].
  replace (Rpower (c ^ 6) (1 / 6)) with c by (rewrite <- Rpower_pow by auto; rewrite Rpower_mult; replace (INR 6 * (1 / 6)) with 1 by (cbn [INR]; field); rewrite Rpower_1; auto).
  set (z := Rpower _ (1 / 6)). assert (0 < z) by apply exp_pos. replace (p ^ 2 / (t * m)) with (/ c) by (unfold c; field; repeat split; lra). field. repeat split; lra.
Qed.

(** Two gases in corresponding states: the second has twice the critical temperature and four times the critical pressure *)
Example C119_case : B_pure 400 400 (4 * 10 ^ 6) 0 = 1 / 2 * B_pure 200 200 (1 * 10 ^ 6) 0 /\ B_pure 200 200 (1 * 10 ^ 6) 0 < 0.
Proof.
  split.
  - replace 400 with (2 * 200) by ring. replace (4 * 10 ^ 6) with (4 * (1 * 10 ^ 6)) by ring. rewrite B_pure_cs by lra. f_equal. field.
  - rewrite C109_B_critical by lra. unfold Rgas. lra.
Qed.
Example C119_case_Wilson : PL_Wilson 350 500 (4 * 10 ^ 6) (1 / 4) = 2 * PL_Wilson 175 250 (2 * 10 ^ 6) (1 / 4) /\ PL_Wilson 175 250 (2 * 10 ^ 6) (1 / 4) < 2 * 10 ^ 6.
Proof.
  split.
  - destruct (C119_vapour_pressure 175 1 250 (2 * 10 ^ 6) (1 / 4) 2 2) as (H & _); [lra|]. rewrite <- H. f_equal; ring.
  - unfold PL_Wilson. pose proof (exp_increasing (5373 / 1000 * (1 + 1 / 4) * (1 - 250 / 175)) 0 ltac:(lra)) as H. rewrite exp_0 in H. lra.
Qed.
Print Assumptions C119_cubic_phi.
Print Assumptions C119_Lucas.
