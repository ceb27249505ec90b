(** Closed-form distribution families: ordered averages (C18), Flory pdf/cdf/moments
    (C19), Poisson, Schulz-Zimm and log-normal parameters and moments (C20), pdf as
    derivative of cdf (C66). *)
From Coq Require Import Reals Lra Lia List Bool Arith.
From Coquelicot Require Import Coquelicot.
From Verif Require Import Prelude UtilsModel DistModel.
Import ListNotations.
Open Scope R_scope.

Local Ltac eqR := match goal with |- ?a = ?b => change (@eq R a b) end.

(* ------------------------------------------------------------------ *)
(** ** Averages of an individual distribution *)
(* ------------------------------------------------------------------ *)
Definition moments_only (mom : nat -> R) (M0 : R) : idist := mkI (fun _ => 0) (fun _ _ => 0) mom M0.

Lemma mm_powz d n s : (s <= n)%nat -> moment_mass d n s = i_mom d n * i_M0 d ^ (n - s).
Proof.
  intros H. unfold moment_mass, Rpowz. f_equal.
  rewrite <- Nat2Z.inj_sub by lia. now rewrite <- pow_powerRZ.
Qed.

(** Specification: averages are ratios of consecutive moments (times M0). *)
Record averages (mom : nat -> R) (M0 DPn DPw DPz : R) : Prop := {
  av_n : DPn = mom 1%nat / mom 0%nat;
  av_w : DPw = mom 2%nat / mom 1%nat;
  av_z : DPz = mom 3%nat / mom 2%nat }.

Lemma averages_ok d : 0 < i_M0 d -> (forall n, (n <= 2)%nat -> 0 < i_mom d n) ->
  let mm := moment_mass d in
  exists n w z, averages (i_mom d) (i_M0 d) n w z /\
   av_DPn mm = Ok n /\ av_DPw mm = Ok w /\ av_DPz mm = Ok z /\
   av_Mn mm = Ok (n * i_M0 d) /\ av_Mw mm = Ok (w * i_M0 d) /\ av_Mz mm = Ok (z * i_M0 d) /\
   av_PDI mm = Ok (w / n) /\ av_M0 mm = Ok (i_M0 d).
Proof.
  intros HM Hm mm.
  pose proof (Hm 0%nat ltac:(lia)) as H0. pose proof (Hm 1%nat ltac:(lia)) as H1. pose proof (Hm 2%nat ltac:(lia)) as H2.
  assert (P : forall n, 0 < i_M0 d ^ n) by (intros; apply pow_lt; auto).
  assert (Q : forall n s, (s <= n)%nat -> (n <= 2)%nat -> mm n s <> 0).
  { intros n s Hs Hn. unfold mm. rewrite mm_powz by auto.
    pose proof (Rmult_lt_0_compat _ _ (Hm n Hn) (P (n - s)%nat)). lra. }
  assert (Mn : 0 < i_mom d 1 / i_mom d 0 * i_M0 d).
  { apply Rmult_lt_0_compat; auto. now apply Rdiv_lt_0_compat. }
  assert (Dn : 0 < i_mom d 1 / i_mom d 0) by now apply Rdiv_lt_0_compat.
  exists (i_mom d 1 / i_mom d 0), (i_mom d 2 / i_mom d 1), (i_mom d 3 / i_mom d 2).
  split; [constructor; reflexivity|].
  assert (E1 : av_DPn mm = Ok (i_mom d 1 / i_mom d 0)).
  { unfold av_DPn. rewrite pydiv_ok by (apply Q; lia). unfold mm. rewrite !mm_powz by lia. f_equal. cbn. field. lra. }
  assert (E2 : av_Mn mm = Ok (i_mom d 1 / i_mom d 0 * i_M0 d)).
  { unfold av_Mn. rewrite pydiv_ok by (apply Q; lia). unfold mm. rewrite !mm_powz by lia. f_equal. cbn. field. lra. }
  assert (E3 : av_Mw mm = Ok (i_mom d 2 / i_mom d 1 * i_M0 d)).
  { unfold av_Mw. rewrite pydiv_ok by (apply Q; lia). unfold mm. rewrite !mm_powz by lia. f_equal. cbn. field. lra. }
  split; [auto|]. split.
  { unfold av_DPw. rewrite pydiv_ok by (apply Q; lia). unfold mm. rewrite !mm_powz by lia. f_equal. cbn. field. lra. }
  split.
  { unfold av_DPz. rewrite pydiv_ok by (apply Q; lia). unfold mm. rewrite !mm_powz by lia. f_equal. cbn. field. lra. }
  split; [auto|]. split; [auto|]. split.
  { unfold av_Mz. rewrite pydiv_ok by (apply Q; lia). unfold mm. rewrite !mm_powz by lia. f_equal. cbn. field. lra. }
  split.
  - unfold av_PDI. rewrite E3, E2. cbn [bind]. rewrite pydiv_ok by lra. f_equal. field. lra.
  - unfold av_M0. rewrite E1, E2. cbn [bind]. rewrite pydiv_ok by lra. f_equal. field. lra.
Qed.

(** ** C18: ordering *)
(** "n, w, z are the averages of d, ordered, with equality exactly if [mono]". *)
Definition ordered_averages (d : idist) (mono : Prop) : Prop :=
  let mm := moment_mass d in
  exists n w z,
    av_DPn mm = Ok n /\ av_DPw mm = Ok w /\ av_DPz mm = Ok z /\
    av_Mn mm = Ok (n * i_M0 d) /\ av_Mw mm = Ok (w * i_M0 d) /\ av_Mz mm = Ok (z * i_M0 d) /\
    av_PDI mm = Ok (w / n) /\
    0 < n <= w /\ w <= z /\ 1 <= w / n /\ (n = w <-> mono) /\ (w = z <-> mono).

Lemma ordered_from_moments d mono : 0 < i_M0 d -> (forall n, (n <= 2)%nat -> 0 < i_mom d n) ->
  i_mom d 1 ^ 2 <= i_mom d 0 * i_mom d 2 -> i_mom d 2 ^ 2 <= i_mom d 1 * i_mom d 3 ->
  (i_mom d 1 ^ 2 = i_mom d 0 * i_mom d 2 <-> mono) -> (i_mom d 2 ^ 2 = i_mom d 1 * i_mom d 3 <-> mono) ->
  ordered_averages d mono.
Proof.
  intros HM Hm I1 I2 Q1 Q2.
  destruct (averages_ok d HM Hm) as (n & w & z & [-> -> ->] & E1 & E2 & E3 & E4 & E5 & E6 & E7 & _).
  pose proof (Hm 0%nat ltac:(lia)) as H0. pose proof (Hm 1%nat ltac:(lia)) as H1. pose proof (Hm 2%nat ltac:(lia)) as H2.
  red. do 3 eexists. do 7 (split; [eassumption|]).
  set (m0 := i_mom d 0) in *. set (m1 := i_mom d 1) in *. set (m2 := i_mom d 2) in *. set (m3 := i_mom d 3) in *.
  assert (D1 : m2 / m1 - m1 / m0 = (m0 * m2 - m1 ^ 2) / (m0 * m1)) by (field; lra).
  assert (D2 : m3 / m2 - m2 / m1 = (m1 * m3 - m2 ^ 2) / (m1 * m2)) by (field; lra).
  assert (P1 : 0 < / (m0 * m1)) by (apply Rinv_0_lt_compat, Rmult_lt_0_compat; auto).
  assert (P2 : 0 < / (m1 * m2)) by (apply Rinv_0_lt_compat, Rmult_lt_0_compat; auto).
  assert (N0 : 0 < m1 / m0) by now apply Rdiv_lt_0_compat.
  unfold Rdiv in D1 at 3. unfold Rdiv in D2 at 3.
  assert (L1 : m1 / m0 <= m2 / m1) by nra.
  assert (L2 : m2 / m1 <= m3 / m2) by nra.
  split; [lra|]. split; [lra|]. split.
  - apply (Rmult_le_reg_r (m1 / m0)); auto. unfold Rdiv at 2.
    rewrite Rmult_assoc, Rinv_l by lra. lra.
  - split.
    + rewrite <- Q1. split; intros E; nra.
    + rewrite <- Q2. split; intros E; nra.
Qed.

Theorem C18_Flory : forall pl DPn M0, 1 <= DPn -> 0 < M0 ->
  ordered_averages (moments_only (flory_moment pl (flory_a DPn)) M0) (DPn = 1).
Proof.
  intros pl D M0 HD HM. unfold flory_a.
  assert (Hi : 0 < / D) by (apply Rinv_0_lt_compat; lra).
  assert (E1 : flory_moment pl (1 - 1 / D) 1 = D) by (cbn; field; lra).
  assert (E2 : flory_moment pl (1 - 1 / D) 2 = 2 * D ^ 2 - D) by (cbn; field; lra).
  assert (E3 : flory_moment pl (1 - 1 / D) 3 = 6 * D ^ 3 - 6 * D ^ 2 + D) by (cbn; field; lra).
  apply ordered_from_moments; cbn [i_M0 i_mom moments_only]; rewrite ?E1, ?E2, ?E3; auto.
  - intros n Hn. destruct n as [|[|[|]]]; try lia; rewrite ?E1, ?E2; [cbn; lra|lra|nra].
  - cbn [flory_moment]. nra.
  - assert (0 <= D * D * (D - 1)) by (apply Rmult_le_pos; nra). nra.
  - cbn [flory_moment]. split; [nra|intros ->; lra].
  - split; [|intros ->; lra]. intros E.
    assert (2 * (D * D * D) * (D - 1) = 0) by lra.
    assert (0 < D * D * D) by (repeat apply Rmult_lt_0_compat; lra).
    destruct (Rmult_integral _ _ H); lra.
Qed.

Theorem C18_Poisson : forall DPn M0, 1 <= DPn -> 0 < M0 ->
  ordered_averages (moments_only (poisson_moment (poisson_a DPn)) M0) (DPn = 1).
Proof.
  intros D M0 HD HM. unfold poisson_a. set (a := D - 1). assert (Ha : 0 <= a) by (unfold a; lra).
  assert (Ea : D = 1 <-> a = 0) by (unfold a; lra).
  assert (Pa : forall n, 0 <= a ^ n) by (intros; now apply pow_le).
  pose proof (Pa 2%nat). pose proof (Pa 3%nat). pose proof (Pa 4%nat).
  apply ordered_from_moments; cbn [i_M0 i_mom moments_only poisson_moment]; auto.
  - intros n Hn. destruct n as [|[|[|]]]; try lia; cbn [poisson_moment]; lra.
  - lra.
  - replace ((a ^ 2 + 3 * a + 1) ^ 2) with (a ^ 4 + 6 * a ^ 3 + 11 * a ^ 2 + 6 * a + 1) by ring.
    replace ((a + 1) * (a ^ 3 + 6 * a ^ 2 + 7 * a + 1)) with (a ^ 4 + 7 * a ^ 3 + 13 * a ^ 2 + 8 * a + 1) by ring. lra.
  - rewrite Ea. split; [lra|intros ->; ring].
  - rewrite Ea. split; [|intros ->; ring].
    replace ((a ^ 2 + 3 * a + 1) ^ 2) with (a ^ 4 + 6 * a ^ 3 + 11 * a ^ 2 + 6 * a + 1) by ring.
    replace ((a + 1) * (a ^ 3 + 6 * a ^ 2 + 7 * a + 1)) with (a ^ 4 + 7 * a ^ 3 + 13 * a ^ 2 + 8 * a + 1) by ring. lra.
Qed.

(** Log-normal moments in terms of DPn and PDI. *)
Lemma logn_moment_eq D P n : 0 < D -> 1 < P ->
  logn_moment (logn_mu D P) (logn_sigma D P) n = exp (INR n * ln D + / 2 * (INR n ^ 2 - INR n) * ln P).
Proof.
  intros HD HP. unfold logn_moment, logn_mu, logn_sigma. f_equal.
  assert (0 < ln P) by (rewrite <- ln_1; apply ln_increasing; lra).
  rewrite pow2_sqrt by lra.
  assert (0 < sqrt P) by (apply sqrt_lt_R0; lra).
  unfold Rdiv. rewrite ln_mult, ln_Rinv by (auto; apply Rinv_0_lt_compat; auto).
  assert (E : ln P = 2 * ln (sqrt P)).
  { rewrite <- (sqrt_sqrt P) at 1 by lra. rewrite ln_mult by auto. ring. }
  rewrite E. field.
Qed.

Theorem C18_LogNormal : forall DPn PDI M0, 1 <= DPn -> 1 < PDI -> 0 < M0 ->
  ordered_averages (moments_only (logn_moment (logn_mu DPn PDI) (logn_sigma DPn PDI)) M0) False.
Proof.
  intros D P M0 HD HP HM.
  assert (L : 0 < ln P) by (rewrite <- ln_1; apply ln_increasing; lra).
  apply ordered_from_moments; cbn [i_M0 i_mom moments_only]; auto.
  - intros; apply exp_pos.
  - rewrite !logn_moment_eq by lra. cbn [INR pow]. rewrite ?Rmult_1_r, <- !exp_plus. left. apply exp_increasing. lra.
  - rewrite !logn_moment_eq by lra. cbn [INR pow]. rewrite ?Rmult_1_r, <- !exp_plus. left. apply exp_increasing. lra.
  - split; [|easy]. rewrite !logn_moment_eq by lra. cbn [INR pow]. rewrite ?Rmult_1_r, <- !exp_plus.
    intros E. apply exp_inv in E. lra.
  - split; [|easy]. rewrite !logn_moment_eq by lra. cbn [INR pow]. rewrite ?Rmult_1_r, <- !exp_plus.
    intros E. apply exp_inv in E. lra.
Qed.

Theorem C18_SchulzZimm : forall DPn PDI M0, 1 <= DPn -> 1 < PDI -> 0 < M0 ->
  ordered_averages (moments_only (sz_moment (sz_k DPn PDI) (sz_theta DPn PDI)) M0) False.
Proof.
  intros D P M0 HD HP HM. unfold sz_k, sz_theta.
  set (k := 1 / (P - 1)). set (t := D * (P - 1)).
  assert (Hk : 0 < k) by (apply Rdiv_lt_0_compat; lra).
  assert (Ht : 0 < t) by (apply Rmult_lt_0_compat; lra).
  assert (Pt : forall n, 0 < t ^ n) by (intros; now apply pow_lt).
  pose proof (Pt 2%nat) as P2. pose proof (Pt 4%nat) as P4.
  assert (K2 : 0 < k * t ^ 2) by now apply Rmult_lt_0_compat.
  assert (K4 : 0 < k ^ 2 * (k + 1) * t ^ 4).
  { apply Rmult_lt_0_compat; auto. apply Rmult_lt_0_compat; [now apply pow_lt|lra]. }
  apply ordered_from_moments; cbn [i_M0 i_mom moments_only]; auto; unfold sz_moment; cbn [poch INR].
  - intros n Hn. apply Rmult_lt_0_compat; auto. destruct n as [|[|[|]]]; try lia; cbn [poch INR]; nra.
  - replace ((1 * (k + 0) * t ^ 1) ^ 2) with (k ^ 2 * t ^ 2) by ring.
    replace (1 * t ^ 0 * (1 * (k + 0) * (k + 1) * t ^ 2)) with (k ^ 2 * t ^ 2 + k * t ^ 2) by ring. lra.
  - replace ((1 * (k + 0) * (k + 1) * t ^ 2) ^ 2) with (k ^ 2 * (k + 1) * t ^ 4 * (k + 1)) by ring.
    replace (1 * (k + 0) * t ^ 1 * (1 * (k + 0) * (k + 1) * (k + (1 + 1)) * t ^ 3))
      with (k ^ 2 * (k + 1) * t ^ 4 * (k + 2)) by ring. nra.
  - split; [|easy].
    replace ((1 * (k + 0) * t ^ 1) ^ 2) with (k ^ 2 * t ^ 2) by ring.
    replace (1 * t ^ 0 * (1 * (k + 0) * (k + 1) * t ^ 2)) with (k ^ 2 * t ^ 2 + k * t ^ 2) by ring. lra.
  - split; [|easy].
    replace ((1 * (k + 0) * (k + 1) * t ^ 2) ^ 2) with (k ^ 2 * (k + 1) * t ^ 4 * (k + 1)) by ring.
    replace (1 * (k + 0) * t ^ 1 * (1 * (k + 0) * (k + 1) * (k + (1 + 1)) * t ^ 3))
      with (k ^ 2 * (k + 1) * t ^ 4 * (k + 2)) by ring. nra.
Qed.

(** Finding: M0 = 0 is accepted by the setter, but then Mw raises ZeroDivisionError. *)
Theorem C18_zero_M0_refuted : exists M0,
  check_bounds (VNum (Fin M0)) (Fin 0) PInf = Ok (VNum (Fin M0)) /\
  forall pl D, 1 <= D ->
    av_Mw (moment_mass (moments_only (flory_moment pl (flory_a D)) M0)) = Err ZeroDivisionError.
Proof.
  exists 0. split.
  - cbn. unfold between; cbn. replace (Rleb 0 0) with true by (symmetry; rdec; lra). easy.
  - intros pl D HD. unfold av_Mw. apply pydiv_zero. rewrite mm_powz by lia. cbn. ring.
Qed.

Example C18_case : ordered_averages (moments_only (poisson_moment (poisson_a 100)) (1/10)) (100 = 1).
Proof. apply C18_Poisson; lra. Qed.

(* ------------------------------------------------------------------ *)
(** ** C19: Flory *)
(* ------------------------------------------------------------------ *)
Lemma pow_geo_bound c : 0 <= c < 1 -> exists B, forall k, 0 <= INR k * c ^ k <= B.
Proof.
  intros Hc. destruct (Req_dec c 0) as [->|Hne].
  - exists 0. intros [|k]; cbn; [lra|]. rewrite !Rmult_0_l, Rmult_0_r. lra.
  - set (h := / c - 1). assert (Hh : 0 < h).
    { unfold h. assert (1 < / c); [|lra]. rewrite <- Rinv_1 at 1. apply Rinv_lt_contravar; lra. }
    exists (/ h). intros k.
    assert (P : 0 < c ^ k) by (apply pow_lt; lra).
    pose proof (poly k h Hh) as B. unfold h in B at 2. replace (1 + (/ c - 1)) with (/ c) in B by ring.
    rewrite pow_inv in B.
    split; [apply Rmult_le_pos; [apply pos_INR|lra]|].
    apply (Rmult_le_reg_r h); [auto|]. rewrite Rinv_l by lra.
    apply (Rmult_le_compat_r (c ^ k)) in B; [|lra]. rewrite Rinv_l in B by lra. nra.
Qed.

Lemma lim_pow_geo n : forall a, 0 <= a < 1 -> is_lim_seq (fun k => INR k ^ n * a ^ k) 0.
Proof.
  induction n as [|n IH]; intros a Ha.
  - apply is_lim_seq_ext with (fun k => a ^ k); [intros; cbn; ring|].
    apply is_lim_seq_geom. rewrite Rabs_pos_eq; lra.
  - set (c := sqrt a).
    assert (Hc : 0 <= c < 1).
    { split; [apply sqrt_pos|]. rewrite <- sqrt_1. apply sqrt_lt_1_alt. lra. }
    destruct (pow_geo_bound c Hc) as [B HB].
    apply is_lim_seq_le_le with (fun _ => 0) (fun k => B * (INR k ^ n * c ^ k)).
    + intros k. assert (E : INR k ^ S n * a ^ k = (INR k * c ^ k) * (INR k ^ n * c ^ k)).
      { assert (a ^ k = c ^ k * c ^ k) as ->; [|cbn; ring].
        rewrite <- Rpow_mult_distr. unfold c. now rewrite sqrt_sqrt by lra. }
      rewrite E.
      assert (0 <= INR k ^ n * c ^ k) by (apply Rmult_le_pos; apply pow_le; [apply pos_INR|lra]).
      specialize (HB k). split; [apply Rmult_le_pos; lra|]. apply Rmult_le_compat_r; lra.
    + apply is_lim_seq_const.
    + replace (Finite 0) with (Rbar_mult B 0) by (cbn; f_equal; ring).
      apply is_lim_seq_scal_l. now apply IH.
Qed.

Lemma sum_n_sumn (f : nat -> R) n : sum_n f n = sumn (S n) f.
Proof.
  induction n as [|n IH]; [rewrite sum_O; cbn [sumn]; eqR; ring|].
  rewrite sum_Sn, IH. cbn [sumn]. reflexivity.
Qed.

(** Partial sums: if term(k+1) = S(k+1) - S(k). *)
Lemma is_series_telescope (t S : nat -> R) (l : R) :
  t O = S O -> (forall k, t (Datatypes.S k) = S (Datatypes.S k) - S k) -> is_lim_seq S l -> is_series t l.
Proof.
  intros H0 Hs HL. unfold is_series.
  apply (is_lim_seq_ext S (sum_n t)) in HL; [exact HL|].
  intros n. induction n as [|n IH].
  - now rewrite sum_O.
  - rewrite sum_Sn, <- IH, Hs. unfold plus; cbn. ring.
Qed.

(** The tail polynomial times a^k tends to zero. *)
Lemma lim_poly4 a c0 c1 c2 c3 c4 m : 0 <= a < 1 ->
  is_lim_seq (fun k => m - a ^ k * (c0 + c1 * INR k + c2 * INR k ^ 2 + c3 * INR k ^ 3 + c4 * INR k ^ 4)) m.
Proof.
  intros Ha.
  apply is_lim_seq_ext with (fun k => m - (c0 * (INR k ^ 0 * a ^ k) + c1 * (INR k ^ 1 * a ^ k)
     + c2 * (INR k ^ 2 * a ^ k) + c3 * (INR k ^ 3 * a ^ k) + c4 * (INR k ^ 4 * a ^ k))).
  { intros k. ring. }
  assert (Z : forall c n, is_lim_seq (fun k => c * (INR k ^ n * a ^ k)) 0).
  { intros c n. replace (Finite 0) with (Rbar_mult c 0) by (cbn; f_equal; ring).
    apply is_lim_seq_scal_l. now apply lim_pow_geo. }
  replace (Finite m) with (Finite (m - (0 + 0 + 0 + 0 + 0))) by (f_equal; ring).
  apply is_lim_seq_minus'; [apply is_lim_seq_const|].
  repeat apply is_lim_seq_plus'; apply Z.
Qed.

(** C19 (a): for 0 <= a < 1 the closed-form moments of order 0..4 are the sums of
    k^n p(k) over k >= 1 (index j = k-1).  Missing for all orders: order >= 5 relies on
    mpmath's polylog, see C19_flory_polylog. *)
Theorem C19_flory_moments : forall pl DPn n, 1 <= DPn -> (n <= 4)%nat ->
  is_series (fun j => INR (S j) ^ n * flory_pdf0 (flory_a DPn) (S j)) (flory_moment pl (flory_a DPn) n).
Proof.
  intros pl D n HD Hn. unfold flory_pdf0.
  assert (Ha : 0 <= flory_a D < 1).
  { unfold flory_a. assert (0 < / D <= 1).
    { split; [apply Rinv_0_lt_compat; lra|]. rewrite <- Rinv_1. apply Rinv_le_contravar; lra. }
    unfold Rdiv; rewrite Rmult_1_l. lra. }
  set (a := flory_a D) in *. clearbody a.
  assert (Hs : forall (t : nat -> R) (S : nat -> R) (l : R), t O = S O ->
     (forall k, t (Datatypes.S k) = S (Datatypes.S k) - S k) -> is_lim_seq S l -> is_series t l)
    by apply is_series_telescope.
  assert (Hp : 1 - a <> 0) by lra.
  destruct n as [|[|[|[|[|]]]]]; try lia; cbn [flory_moment].
  - apply (Hs _ (fun k => 1 - a ^ k * (a + 0 * INR k + 0 * INR k ^ 2 + 0 * INR k ^ 3 + 0 * INR k ^ 4))).
    + cbn. ring.
    + intros k. replace (S (S k) - 1)%nat with (S k) by lia. rewrite !S_INR. cbn [pow]. ring.
    + now apply lim_poly4.
  - apply (Hs _ (fun k => 1 / (1 - a) - a ^ k * (a * (1 + / (1 - a)) + a * INR k + 0 * INR k ^ 2 + 0 * INR k ^ 3 + 0 * INR k ^ 4))).
    + cbn. field. auto.
    + intros k. replace (S (S k) - 1)%nat with (S k) by lia. rewrite !S_INR. cbn [pow]. field. auto.
    + now apply lim_poly4.
  - set (p := 1 - a) in *.
    apply (Hs _ (fun k => 2 / p ^ 2 - 1 / p - a ^ k * (a * (1 + 1 / p + 2 / p ^ 2) + a * (2 + 2 / p) * INR k + a * INR k ^ 2 + 0 * INR k ^ 3 + 0 * INR k ^ 4))).
    + cbn. unfold p. field. auto.
    + intros k. replace (S (S k) - 1)%nat with (S k) by lia. rewrite !S_INR. cbn [pow]. unfold p. field. auto.
    + now apply lim_poly4.
  - set (p := 1 - a) in *.
    apply (Hs _ (fun k => 6 / p ^ 3 - 6 / p ^ 2 + 1 / p - a ^ k * (a * (1 + 1 / p + 6 / p ^ 3) + a * (3 + 3 / p + 6 / p ^ 2) * INR k + a * (3 + 3 / p) * INR k ^ 2 + a * INR k ^ 3 + 0 * INR k ^ 4))).
    + cbn. unfold p. field. auto.
    + intros k. replace (S (S k) - 1)%nat with (S k) by lia. rewrite !S_INR. cbn [pow]. unfold p. field. auto.
    + now apply lim_poly4.
  - set (p := 1 - a) in *.
    apply (Hs _ (fun k => 24 / p ^ 4 - 36 / p ^ 3 + 14 / p ^ 2 - 1 / p - a ^ k * (a * (1 + 1 / p + 2 / p ^ 2 - 12 / p ^ 3 + 24 / p ^ 4) + a * (4 + 4 / p + 24 / p ^ 3) * INR k + a * (6 + 6 / p + 12 / p ^ 2) * INR k ^ 2 + a * (4 + 4 / p) * INR k ^ 3 + a * INR k ^ 4))).
    + cbn. unfold p. field. auto.
    + intros k. replace (S (S k) - 1)%nat with (S k) by lia. rewrite !S_INR. cbn [pow]. unfold p. field. auto.
    + now apply lim_poly4.
Qed.

(** C19 (b): every order, given that polylog(-n, a) is the sum of k^n a^k. *)
Theorem C19_flory_polylog : forall (pl : nat -> R -> R) DPn n m, 1 < DPn ->
  (forall i x, 0 < x < 1 -> is_series (fun j => INR (S j) ^ i * x ^ S j) (pl i x)) ->
  flory_moment_res pl (flory_a DPn) n = Ok m ->
  is_series (fun j => INR (S j) ^ n * flory_pdf0 (flory_a DPn) (S j)) m.
Proof.
  intros pl D n m HD Hpl. unfold flory_moment_res.
  destruct (Nat.leb_spec n 4) as [L|L].
  - intros [= <-]. apply C19_flory_moments; auto; lra.
  - assert (Ha : 0 < flory_a D < 1).
    { unfold flory_a. assert (0 < / D < 1).
      { split; [apply Rinv_0_lt_compat; lra|]. rewrite <- Rinv_1. apply Rinv_lt_contravar; lra. }
      unfold Rdiv; rewrite Rmult_1_l. lra. }
    rewrite pydiv_ok by lra. cbn [bind]. intros [= <-].
    apply is_series_ext with (fun j => (1 - flory_a D) / flory_a D * (INR (S j) ^ n * flory_a D ^ S j)).
    + intros j. unfold flory_pdf0. replace (S j - 1)%nat with j by lia. cbn [pow]. eqR. field. lra.
    + refine (is_series_scal_l ((1 - flory_a D) / flory_a D) _ _ _). now apply Hpl.
Qed.

(** Finding: for DPn = 1 (accepted) the moments of order >= 5 raise. *)
Theorem C19_flory_monodisperse_refuted : exists D, 1 <= D /\
  forall pl n, (5 <= n)%nat -> flory_moment_res pl (flory_a D) n = Err ZeroDivisionError.
Proof.
  exists 1. split; [lra|]. intros pl n Hn. unfold flory_moment_res.
  destruct (Nat.leb_spec n 4); [lia|]. unfold flory_a. replace (1 - 1 / 1) with 0 by field. now rewrite pydiv_zero.
Qed.

(** C19 (c): number and mass cdf are normalised partial sums of pdf and k pdf. *)
Theorem C19_flory_cdf : forall DPn k, 1 <= DPn ->
  let pdf := flory_pdf0 (flory_a DPn) in
  flory_cdf (flory_a DPn) k 0 = Ok (sumn k (fun j => pdf (S j))) /\
  flory_cdf (flory_a DPn) k 1 = Ok (sumn k (fun j => INR (S j) * pdf (S j)) / DPn).
Proof.
  intros D k HD pdf. unfold pdf, flory_cdf, flory_pdf0. cbn [flory_moment].
  set (a := flory_a D).
  assert (Hp : 1 - a = / D) by (unfold a, flory_a; field; lra).
  assert (Hi : 0 < / D) by (apply Rinv_0_lt_compat; lra).
  split; f_equal.
  - rewrite Rdiv_1. induction k as [|k IH]; cbn [sumn]; [cbn; ring|].
    rewrite <- IH. replace (S k - 1)%nat with k by lia. cbn [pow]. ring.
  - assert (E : sumn k (fun j => INR (S j) * ((1 - a) * a ^ (S j - 1))) = (a ^ k * (- a * INR k + INR k + 1) - 1) / (a - 1)).
    { induction k as [|k IH]; cbn [sumn]; [cbn; field; lra|].
      rewrite IH. replace (S k - 1)%nat with k by lia. rewrite S_INR. cbn [pow]. field. lra. }
    rewrite E. rewrite Hp. field. lra.
Qed.

(** C19 (d): both cdfs are nondecreasing, within [0, 1], and tend to 1. *)
Theorem C19_flory_cdf_shape : forall DPn o, 1 <= DPn -> (o <= 1)%nat ->
  exists F, (forall k, flory_cdf (flory_a DPn) k o = Ok (F k)) /\
    F O = 0 /\ (forall k, F k <= F (S k)) /\ (forall k, 0 <= F k <= 1) /\ is_lim_seq F 1.
Proof.
  intros D o HD Ho.
  assert (Ha : 0 <= flory_a D < 1).
  { unfold flory_a. assert (0 < / D <= 1).
    { split; [apply Rinv_0_lt_compat; lra|]. rewrite <- Rinv_1. apply Rinv_le_contravar; lra. }
    unfold Rdiv; rewrite Rmult_1_l. lra. }
  assert (P : forall j, 0 <= flory_pdf0 (flory_a D) (S j)).
  { intros j. unfold flory_pdf0. apply Rmult_le_pos; [lra|]. apply pow_le. lra. }
  assert (S1 : exists F, (forall k, flory_cdf (flory_a D) k o = Ok (F k)) /\
     F O = 0 /\ (forall k, F k <= F (S k)) /\ is_lim_seq F 1).
  { destruct o as [|[|]]; [| |lia].
    - exists (fun k => sumn k (fun j => flory_pdf0 (flory_a D) (S j))).
      split; [intros k; apply C19_flory_cdf; auto|]. split; [reflexivity|]. split.
      + intros k. cbn [sumn]. specialize (P k). lra.
      + pose proof (C19_flory_moments (fun _ _ => 0) D 0 HD ltac:(lia)) as HS. cbn [flory_moment] in HS.
        apply is_lim_seq_incr_1. unfold is_series in HS.
        apply is_lim_seq_ext with (sum_n (fun j => INR (S j) ^ 0 * flory_pdf0 (flory_a D) (S j))); [|exact HS].
        intros n. rewrite sum_n_sumn. apply sumn_ext. intros; cbn [pow]; ring.
    - exists (fun k => sumn k (fun j => INR (S j) * flory_pdf0 (flory_a D) (S j)) / D).
      split; [intros k; apply C19_flory_cdf; auto|]. split; [cbn; field; lra|]. split.
      + intros k. cbn [sumn]. unfold Rdiv. apply Rmult_le_compat_r; [left; apply Rinv_0_lt_compat; lra|].
        specialize (P k). pose proof (pos_INR (S k)). nra.
      + pose proof (C19_flory_moments (fun _ _ => 0) D 1 HD ltac:(lia)) as HS.
        assert (E : flory_moment (fun _ _ => 0) (flory_a D) 1 = D) by (unfold flory_a; cbn; field; lra).
        rewrite E in HS. apply is_lim_seq_incr_1. unfold is_series in HS.
        replace (Finite 1) with (Rbar_mult (/ D) D) by (cbn; f_equal; field; lra).
        apply is_lim_seq_ext with (fun n => / D * sum_n (fun j => INR (S j) ^ 1 * flory_pdf0 (flory_a D) (S j)) n);
          [|apply is_lim_seq_scal_l; exact HS].
        intros n. unfold Rdiv. rewrite Rmult_comm. f_equal.
        rewrite sum_n_sumn. apply sumn_ext. intros; cbn [pow]; ring. }
  destruct S1 as (F & A & B & C & L). exists F. repeat split; auto.
  - induction k as [|k IH]; [rewrite B; lra|]. specialize (C k). lra.
  - apply (is_lim_seq_incr_compare F 1 L C k).
Qed.

(** C19 (e): the mass pdf. *)
Theorem C19_flory_mass_pdf : forall DPn M0 pl pdfR cdfR k, 1 <= DPn -> (1 <= k)%nat ->
  (forall j, pdfR (INR j) = flory_pdf0 (flory_a DPn) j) ->
  ind_pdf (mkI pdfR cdfR (flory_moment pl (flory_a DPn)) M0) (INR k) 1 false
  = INR k * flory_pdf0 (flory_a DPn) k / DPn.
Proof.
  intros D M0 pl p c k HD Hk E. unfold ind_pdf. cbn [i_pdf0 i_mom i_M0]. rewrite E.
  assert (flory_moment pl (flory_a D) 1 = D) as -> by (unfold flory_a; cbn; field; lra).
  field. lra.
Qed.

Example C19_case : flory_cdf (flory_a 2) 2 0 = Ok (3 / 4) /\ flory_cdf (flory_a 2) 2 1 = Ok (1 / 2).
Proof. unfold flory_cdf, flory_a. cbn. split; f_equal; field. Qed.

(* ------------------------------------------------------------------ *)
(** ** C20 *)
(* ------------------------------------------------------------------ *)
Definition reports (d : idist) (DPn PDI : R) : Prop :=
  let mm := moment_mass d in
  av_DPn mm = Ok DPn /\ av_PDI mm = Ok PDI /\ av_Mn mm = Ok (DPn * i_M0 d) /\
  av_Mw mm = Ok (PDI * DPn * i_M0 d) /\ av_M0 mm = Ok (i_M0 d).

Lemma reports_from_moments d D P : 0 < i_M0 d -> 0 < D -> 0 < P ->
  i_mom d 0 = 1 -> i_mom d 1 = D -> i_mom d 2 = P * D ^ 2 -> reports d D P.
Proof.
  intros HM HD HP E0 E1 E2.
  assert (0 < D ^ 2) by now apply pow_lt.
  assert (Hm : forall n, (n <= 2)%nat -> 0 < i_mom d n).
  { intros n Hn. destruct n as [|[|[|]]]; try lia; rewrite ?E0, ?E1, ?E2; try lra. now apply Rmult_lt_0_compat. }
  destruct (averages_ok d HM Hm) as (n & w & z & [-> -> ->] & F1 & F2 & F3 & F4 & F5 & F6 & F7 & F8).
  rewrite E0, E1, E2 in *. unfold reports. rewrite F1, F7, F4, F5, F8.
  repeat split; f_equal; field; lra.
Qed.

Theorem C20_Flory_reports : forall pl DPn M0, 1 <= DPn -> 0 < M0 ->
  reports (moments_only (flory_moment pl (flory_a DPn)) M0) DPn (2 - 1 / DPn).
Proof.
  intros pl D M0 HD HM.
  assert (0 < / D <= 1).
  { split; [apply Rinv_0_lt_compat; lra|]. rewrite <- Rinv_1. apply Rinv_le_contravar; lra. }
  apply reports_from_moments; cbn [i_M0 i_mom moments_only flory_moment]; try lra;
    unfold flory_a; field; lra.
Qed.

Theorem C20_Poisson_reports : forall DPn M0, 1 <= DPn -> 0 < M0 ->
  reports (moments_only (poisson_moment (poisson_a DPn)) M0) DPn (1 + (DPn - 1) / DPn ^ 2).
Proof.
  intros D M0 HD HM.
  assert (0 < / D ^ 2) by (apply Rinv_0_lt_compat, pow_lt; lra).
  apply reports_from_moments; cbn [i_M0 i_mom moments_only poisson_moment]; unfold poisson_a; try lra.
  - unfold Rdiv. nra.
  - field. lra.
Qed.

Theorem C20_LogNormal_reports : forall DPn PDI M0, 1 <= DPn -> 1 < PDI -> 0 < M0 ->
  reports (moments_only (logn_moment (logn_mu DPn PDI) (logn_sigma DPn PDI)) M0) DPn PDI.
Proof.
  intros D P M0 HD HP HM.
  apply reports_from_moments; cbn [i_M0 i_mom moments_only]; try lra; rewrite logn_moment_eq by lra; cbn [INR].
  - rewrite <- exp_0. f_equal. ring.
  - replace (1 * ln D + / 2 * (1 ^ 2 - 1) * ln P) with (ln D) by field. apply exp_ln. lra.
  - replace ((1 + 1) * ln D + / 2 * ((1 + 1) ^ 2 - (1 + 1)) * ln P) with (ln P + (ln D + ln D)) by field.
    rewrite !exp_plus, !exp_ln by lra. ring.
Qed.

Theorem C20_SchulzZimm_reports : forall DPn PDI M0, 1 <= DPn -> 1 < PDI -> 0 < M0 ->
  reports (moments_only (sz_moment (sz_k DPn PDI) (sz_theta DPn PDI)) M0) DPn PDI.
Proof.
  intros D P M0 HD HP HM.
  apply reports_from_moments; cbn [i_M0 i_mom moments_only]; unfold sz_moment, sz_k, sz_theta; cbn [poch INR]; try lra;
   field; lra.
Qed.

(** *** Poisson sums *)
Fixpoint ff (x : nat) (i : nat) {struct i} : R :=
  match i with O => 1 | S m => match x with O => 0 | S y => INR (S y) * ff y m end end.

Lemma ff_step : forall i x, INR (S x) * ff x i = ff x (S i) + INR (S i) * ff x i.
Proof.
  induction i as [|i IH]; intros x.
  - destruct x; cbn [ff]; [cbn; ring|]. rewrite (S_INR (S x)). change (INR 1) with 1. ring.
  - destruct x as [|x].
    + cbn. ring.
    + specialize (IH x).
      change (ff (S x) (S i)) with (INR (S x) * ff x i).
      change (ff (S x) (S (S i))) with (INR (S x) * ff x (S i)).
      rewrite (S_INR (S x)), (S_INR (S i)).
      generalize dependent (ff x (S i)). intros g IH.
      apply (f_equal (Rmult (INR (S x)))) in IH. lra.
Qed.

Lemma stirling_top : forall n k, (n < k)%nat -> stirling2 n k = 0.
Proof.
  induction n as [|n IH]; intros [|k] H; try lia; cbn [stirling2]; [reflexivity|].
  rewrite !IH by lia. ring.
Qed.

Lemma pow_ff n : forall x, INR (S x) ^ n = sumn (S n) (fun i => stirling2 (S n) (S i) * ff x i).
Proof.
  induction n as [|n IH]; intros x.
  - cbn. ring.
  - change (INR (S x) ^ S n) with (INR (S x) * INR (S x) ^ n). rewrite IH.
    rewrite <- sumn_scal.
    rewrite (sumn_ext _ _ (fun i => stirling2 (S n) (S i) * ff x (S i) + INR (S i) * stirling2 (S n) (S i) * ff x i)).
    2:{ intros i _. pose proof (ff_step i x). nra. }
    rewrite sumn_plus.
    transitivity (sumn (S (S n)) (fun i => stirling2 (S n) i * ff x i) + sumn (S (S n)) (fun i => INR (S i) * stirling2 (S n) (S i) * ff x i)).
    + f_equal.
      * rewrite (sumn_S_first (S n)). change (stirling2 (S n) 0) with 0. ring.
      * change (sumn (S (S n)) ?f) with (sumn (S n) f + f (S n)). cbv beta.
        rewrite (stirling_top (S n) (S (S n))) by lia. ring.
    + rewrite <- sumn_plus. apply sumn_ext. intros i _. cbn [stirling2]. ring.
Qed.

Lemma ff_series a i : is_series (fun j => ff j i * a ^ j / INR (fact j)) (a ^ i * exp a).
Proof.
  induction i as [|i IH].
  - pose proof (is_exp_Reals a) as H. unfold is_pseries in H.
    replace (a ^ 0 * exp a) with (exp a) by (cbn; ring).
    refine (is_series_ext _ _ _ _ H). intros j. rewrite pow_n_pow. unfold scal; cbn. unfold mult; cbn.
    eqR. unfold Rdiv. ring.
  - assert (E : is_series (fun j => a * (ff j i * a ^ j / INR (fact j))) (a ^ S i * exp a)).
    { replace (a ^ S i * exp a) with (a * (a ^ i * exp a)) by (cbn [pow]; ring).
      exact (is_series_scal_l a _ _ IH). }
    apply is_series_decr_1.
    refine (eq_ind (a ^ S i * exp a) (fun l => is_series _ l) _ _ _).
    2:{ unfold plus, opp; cbn. field. }
    refine (is_series_ext _ _ _ _ E). intros j. eqR.
    change (ff (S j) (S i)) with (INR (S j) * ff j i). rewrite fact_simpl, mult_INR. cbn [pow].
    assert (INR (S j) <> 0) by (apply not_0_INR; lia). pose proof (INR_fact_neq_0 j). field. auto.
Qed.

Lemma is_series_sumn n (f : nat -> nat -> R) (l : nat -> R) :
  (forall i, (i < n)%nat -> is_series (f i) (l i)) -> is_series (fun j => sumn n (fun i => f i j)) (sumn n l).
Proof.
  induction n as [|n IH]; intros H; cbn [sumn].
  - apply (is_series_telescope _ (fun _ => 0)); [reflexivity|intros; ring|apply is_lim_seq_const].
  - exact (is_series_plus _ _ _ _ (IH (fun i Hi => H i (Nat.lt_lt_succ_r _ _ Hi))) (H n (Nat.lt_succ_diag_r n))).
Qed.

(** [gammaln] at positive integers is the logarithm of the factorial. *)
Definition gammaln_spec (g : R -> R) := forall n, g (INR (S n)) = ln (INR (fact n)).

Lemma poisson_pdf_nat g a j : gammaln_spec g -> 0 < a ->
  poisson_pdf g (INR (S j)) a false = exp (- a) * (a ^ j / INR (fact j)).
Proof.
  intros Hg Ha. unfold poisson_pdf.
  replace (INR (S j) + 1 + -1) with (INR (S j)) by ring. rewrite Hg.
  rewrite S_INR. replace ((INR j + 1 + -1) * ln a - a - ln (INR (fact j)))
    with (- a + (INR j * ln a + - ln (INR (fact j)))) by ring.
  pose proof (INR_fact_lt_0 j).
  rewrite !exp_plus, (exp_Ropp (ln _)), exp_ln by auto.
  assert (exp (INR j * ln a) = a ^ j) as -> by (apply (Rpower_pow j a Ha)). reflexivity.
Qed.

Lemma poisson_moment_sum a n : poisson_moment a n = sumn (n + 1) (fun j => stirling2 (n + 1) (j + 1) * a ^ j).
Proof. destruct n as [|[|[|[|n]]]]; [| | | |reflexivity]; cbn; ring. Qed.

(** C20: all moments of the Poisson family are the sums over chain lengths. *)
Theorem C20_poisson_moments : forall g DPn n, gammaln_spec g -> 1 < DPn ->
  is_series (fun j => INR (S j) ^ n * poisson_pdf g (INR (S j)) (poisson_a DPn) false)
            (poisson_moment (poisson_a DPn) n).
Proof.
  intros g D n Hg HD. unfold poisson_a. set (a := D - 1). assert (Ha : 0 < a) by (unfold a; lra). clearbody a.
  rewrite poisson_moment_sum. replace (n + 1)%nat with (S n) by lia.
  assert (S0 : is_series (fun j => sumn (S n) (fun i => exp (- a) * stirling2 (S n) (S i) * (ff j i * a ^ j / INR (fact j))))
                 (sumn (S n) (fun i => exp (- a) * stirling2 (S n) (S i) * (a ^ i * exp a)))).
  { apply is_series_sumn. intros i _. refine (is_series_scal_l (exp (- a) * stirling2 (S n) (S i)) _ _ _). apply ff_series. }
  rewrite (sumn_ext _ _ (fun i => exp (- a) * stirling2 (S n) (S i) * (a ^ i * exp a))).
  2:{ intros i _. replace (i + 1)%nat with (S i) by lia. rewrite exp_Ropp. pose proof (exp_pos a). field. lra. }
  refine (is_series_ext _ _ _ _ S0). intros j. eqR.
  rewrite poisson_pdf_nat by auto. rewrite (pow_ff n j).
  rewrite <- sumn_scal_r. apply sumn_ext. intros i _. unfold Rdiv. ring.
Qed.

(** C20: the Poisson cdfs are normalised partial sums; [gammaincc] at a positive integer
    is the finite Poisson sum. *)
Definition gammaincc_spec (q : R -> R -> R) :=
  forall n a, 0 < a -> q (INR (S n)) a = exp (- a) * sumn (S n) (fun j => a ^ j / INR (fact j)).

Theorem C20_poisson_cdf : forall g q DPn k, gammaln_spec g -> gammaincc_spec q -> 1 < DPn -> (1 <= k)%nat ->
  let pdf j := poisson_pdf g (INR j) (poisson_a DPn) false in
  poisson_cdf q g (poisson_a DPn) (INR k) 0 = Ok (sumn k (fun j => pdf (S j))) /\
  poisson_cdf q g (poisson_a DPn) (INR k) 1 = Ok (sumn k (fun j => INR (S j) * pdf (S j)) / DPn).
Proof.
  intros g q D k Hg Hq HD Hk pdf. unfold pdf, poisson_cdf. cbn [poisson_moment].
  set (a := poisson_a D). assert (Ha : 0 < a) by (unfold a, poisson_a; lra).
  assert (ED : D = a + 1) by (unfold a, poisson_a; ring). rewrite ED. clearbody a. clear ED HD.
  destruct k as [|k]; [lia|].
  split; f_equal.
  - rewrite Rdiv_1, Hq, <- sumn_scal by auto. apply sumn_ext. intros j _. now rewrite poisson_pdf_nat.
  - f_equal. rewrite Hq, Hg by auto.
    assert (E : exp (INR (S k) * ln a - a - ln (INR (fact k))) = exp (- a) * (a * (a ^ k / INR (fact k)))).
    { replace (INR (S k) * ln a - a - ln (INR (fact k))) with (- a + (INR (S k) * ln a + - ln (INR (fact k)))) by ring.
      pose proof (INR_fact_lt_0 k). rewrite !exp_plus, (exp_Ropp (ln _)), exp_ln by auto.
      assert (exp (INR (S k) * ln a) = a ^ S k) as -> by (apply (Rpower_pow (S k) a Ha)). cbn [pow]. unfold Rdiv. ring. }
    rewrite E. clear E.
    rewrite (sumn_ext (S k) (fun j => INR (S j) * poisson_pdf g (INR (S j)) a false) (fun j => exp (- a) * (INR (S j) * (a ^ j / INR (fact j))))).
    2:{ intros j _. rewrite poisson_pdf_nat by auto. ring. }
    rewrite sumn_scal.
    assert (E : sumn (S k) (fun j => INR (S j) * (a ^ j / INR (fact j)))
      = (a + 1) * sumn (S k) (fun j => a ^ j / INR (fact j)) - a * (a ^ k / INR (fact k))).
    { clear Hk. induction k as [|k IH]; [cbn; field|].
      change (sumn (S (S k)) ?f) with (sumn (S k) f + f (S k)). cbv beta. rewrite IH.
      rewrite fact_simpl, mult_INR. cbn [pow]. rewrite (S_INR (S k)).
      assert (INR (S k) <> 0) by (apply not_0_INR; lia). pose proof (INR_fact_neq_0 k). field. auto. }
    rewrite E. ring.
Qed.

Example C20_case : poisson_moment (poisson_a 3) 4 = 2 ^ 4 + 10 * 2 ^ 3 + 25 * 2 ^ 2 + 15 * 2 + 1.
Proof. unfold poisson_a. cbn. ring. Qed.

(* ------------------------------------------------------------------ *)
(** ** C66: pdf is the derivative of cdf (continuous families) *)
(* ------------------------------------------------------------------ *)
Definition erf_spec (erf erfc : R -> R) :=
  (forall x, is_derive erf x (2 / sqrt PI * exp (- x ^ 2))) /\ (forall x, erfc x = 1 - erf x).

Lemma exp_eq_mult a b c : a = b + c -> exp a = exp b * exp c.
Proof. intros ->. apply exp_plus. Qed.

Theorem C66_LogNormal : forall erf erfc DPn PDI M0 cdfR x o, erf_spec erf erfc ->
  1 <= DPn -> 1 < PDI -> 0 < x -> (o <= 1)%nat ->
  let mu := logn_mu DPn PDI in let sigma := logn_sigma DPn PDI in
  let d := mkI (logn_pdf0 mu sigma) cdfR (logn_moment mu sigma) M0 in
  (forall y, logn_cdf erf erfc mu sigma y o = Ok (cdfR y o)) ->
  is_derive (fun y => ind_cdf d y o false) x (ind_pdf d x o false).
Proof.
  intros erf erfc D P M0 cdfR x o [He Hc] HD HP Hx Ho mu sigma d HF.
  unfold ind_cdf, ind_pdf, d; cbn [i_cdf i_pdf0 i_mom i_M0].
  assert (HL : 0 < ln P) by (rewrite <- ln_1; apply ln_increasing; lra).
  assert (Hs : 0 < sigma) by (apply sqrt_lt_R0; auto).
  assert (H2 : 0 < sqrt 2) by (apply sqrt_lt_R0; lra).
  assert (E2 : sqrt 2 * sqrt 2 = 2) by (apply sqrt_sqrt; lra).
  assert (HPI : 0 < PI) by apply PI_RGT_0.
  assert (Hp : 0 < sqrt PI) by (apply sqrt_lt_R0; auto).
  assert (E2p : sqrt (2 * PI) = sqrt 2 * sqrt PI) by (apply sqrt_mult; lra).
  clearbody mu sigma.
  destruct o as [|[|]]; [| |lia].
  - apply is_derive_ext with (fun y => (1 + erf ((ln y - mu) / (sigma * sqrt 2))) / 2).
    { intros y. specialize (HF y). cbn in HF. now injection HF. }
    set (u := fun y => (ln y - mu) / (sigma * sqrt 2)).
    assert (Du : is_derive u x (/ (x * sigma * sqrt 2))).
    { unfold u. auto_derive; [intuition lra|]. field. lra. }
    pose proof (is_derive_comp erf u x _ _ (He (u x)) Du) as DC.
    assert (DD : is_derive (fun y => (1 + erf (u y)) / 2) x (/ 2 * (/ (x * sigma * sqrt 2) * (2 / sqrt PI * exp (- (u x) ^ 2))))).
    { apply is_derive_ext with (fun y => / 2 * (1 + erf (u y))); [intros; eqR; field|].
      apply (is_derive_scal (fun y => 1 + erf (u y))).
      replace (/ (x * sigma * sqrt 2) * (2 / sqrt PI * exp (- u x ^ 2)))
        with (plus 0 (scal (/ (x * sigma * sqrt 2)) (2 / sqrt PI * exp (- u x ^ 2))))
        by (unfold plus, scal; cbn; unfold mult; cbn; ring).
      apply (is_derive_plus (fun _ => 1) (fun y => erf (u y))); [apply is_derive_Reals, derivable_pt_lim_const|exact DC]. }
    refine (eq_ind _ (fun l => is_derive _ x l) DD _ _).
    unfold logn_pdf0. rewrite E2p. cbn [pow].
    assert (- (u x * (u x * 1)) = - ((ln x - mu) * ((ln x - mu) * 1)) / (2 * (sigma * (sigma * 1)))) as ->.
    { transitivity (- ((ln x - mu) ^ 2 / (sigma ^ 2 * (sqrt 2 * sqrt 2)))); [unfold u; field; lra|].
      rewrite E2. field. lra. }
    assert (logn_moment mu sigma 0 = 1) as -> by (unfold logn_moment; cbn; rewrite <- exp_0; f_equal; ring).
    eqR. field. lra.
  - apply is_derive_ext with (fun y => / 2 * (1 - erf ((mu + sigma ^ 2 - ln y) / (sigma * sqrt 2)))).
    { intros y. specialize (HF y). cbn in HF. rewrite Hc in HF. injection HF as <-. eqR. cbn. field. }
    set (u := fun y => (mu + sigma ^ 2 - ln y) / (sigma * sqrt 2)).
    assert (Du : is_derive u x (- / (x * sigma * sqrt 2))).
    { unfold u. auto_derive; [intuition lra|]. field. lra. }
    pose proof (is_derive_comp erf u x _ _ (He (u x)) Du) as DC.
    assert (DD : is_derive (fun y => / 2 * (1 - erf (u y))) x (/ 2 * (/ (x * sigma * sqrt 2) * (2 / sqrt PI * exp (- (u x) ^ 2))))).
    { apply (is_derive_scal (fun y => 1 - erf (u y))).
      replace (/ (x * sigma * sqrt 2) * (2 / sqrt PI * exp (- u x ^ 2)))
        with (minus 0 (scal (- / (x * sigma * sqrt 2)) (2 / sqrt PI * exp (- u x ^ 2))))
        by (unfold minus, plus, opp, scal; cbn; unfold mult; cbn; ring).
      apply (is_derive_minus (fun _ => 1) (fun y => erf (u y))); [apply is_derive_Reals, derivable_pt_lim_const|exact DC]. }
    refine (eq_ind _ (fun l => is_derive _ x l) DD _ _).
    unfold logn_pdf0, logn_moment. rewrite E2p.
    assert (EE : exp (- u x ^ 2) = exp (- (ln x - mu) ^ 2 / (2 * sigma ^ 2)) * x / exp (INR 1 * mu + / 2 * INR 1 ^ 2 * sigma ^ 2)).
    { transitivity (exp (- (ln x - mu) ^ 2 / (2 * sigma ^ 2) + ln x + - (INR 1 * mu + / 2 * INR 1 ^ 2 * sigma ^ 2))).
      2:{ rewrite exp_plus, (exp_plus _ (ln x)), exp_Ropp, (exp_ln x) by auto. reflexivity. }
      f_equal. unfold u. change (INR 1) with 1.
      replace (((mu + sigma ^ 2 - ln x) / (sigma * sqrt 2)) ^ 2) with ((mu + sigma ^ 2 - ln x) ^ 2 / (sigma ^ 2 * (sqrt 2 * sqrt 2))) by (field; lra).
      rewrite E2. field. lra. }
    rewrite EE. pose proof (exp_pos (INR 1 * mu + / 2 * INR 1 ^ 2 * sigma ^ 2)). eqR. field. lra.
Qed.

(** The regularised incomplete gamma functions of parameters k and 1 + k, by derivative,
    and Gamma(k+1) = k Gamma(k). *)
Definition gammainc_spec (gamma : R -> R) (inc incc : R -> R -> R) (k : R) :=
  0 < gamma k /\ gamma (1 + k) = k * gamma k /\
  (forall s x, s = k \/ s = 1 + k -> 0 < x -> is_derive (inc s) x (Rpower x (s - 1) * exp (- x) / gamma s)) /\
  (forall s x, incc s x = 1 - inc s x).

Theorem C66_SchulzZimm : forall gamma inc incc DPn PDI M0 cdfR x o, gammainc_spec gamma inc incc (sz_k DPn PDI) ->
  1 <= DPn -> 1 < PDI -> 0 < x -> (o <= 1)%nat ->
  let k := sz_k DPn PDI in let t := sz_theta DPn PDI in
  let d := mkI (sz_pdf0 gamma k t) cdfR (sz_moment k t) M0 in
  (forall y, sz_cdf inc incc k t y o = Ok (cdfR y o)) ->
  is_derive (fun y => ind_cdf d y o false) x (ind_pdf d x o false).
Proof.
  intros gamma inc incc D P M0 cdfR x o (Hg & Hr & Hi & Hc) HD HP Hx Ho k t d HF. fold k in Hg, Hr, Hi.
  unfold ind_cdf, ind_pdf, d; cbn [i_cdf i_pdf0 i_mom i_M0].
  assert (Hk : 0 < k) by (apply Rdiv_lt_0_compat; lra).
  assert (Ht : 0 < t) by (apply Rmult_lt_0_compat; lra).
  clearbody k t.
  assert (DI : forall s, s = k \/ s = 1 + k -> is_derive (fun y => inc s (y / t)) x (/ t * (Rpower (x / t) (s - 1) * exp (- (x / t)) / gamma s))).
  { intros s Hs. assert (0 < x / t) by now apply Rdiv_lt_0_compat.
    assert (Du : is_derive (fun y => y / t) x (/ t)) by (auto_derive; [lra|field; lra]).
    exact (is_derive_comp (inc s) (fun y => y / t) x _ _ (Hi s (x / t) Hs H) Du). }
  assert (RD : forall s, Rpower (x / t) s = Rpower x s / Rpower t s).
  { intros s. unfold Rdiv. rewrite <- Rpower_mult_distr by (auto; now apply Rinv_0_lt_compat).
    unfold Rpower at 2. rewrite ln_Rinv by auto. rewrite <- Rpower_Ropp. f_equal. unfold Rpower. f_equal. ring. }
  assert (RP : forall y s, 0 < y -> Rpower y (s - 1) = Rpower y s / y).
  { intros y s Hy. unfold Rminus. rewrite Rpower_plus, Rpower_Ropp, Rpower_1 by auto. reflexivity. }
  assert (Pt : forall s, 0 < Rpower t s) by (intros; apply exp_pos).
  pose proof (Pt k). pose proof (Pt (k - 1)).
  destruct o as [|[|]]; [| |lia].
  - apply is_derive_ext with (fun y => inc k (y / t)).
    { intros y. specialize (HF y). cbn in HF. now injection HF. }
    refine (eq_ind _ (fun l => is_derive _ x l) (DI k (or_introl eq_refl)) _ _).
    unfold sz_pdf0, sz_moment. rewrite RD. cbn [poch pow]. rewrite (RP t k Ht).
    replace (- (x / t)) with (- x / t) by (field; lra). eqR. field. lra.
  - apply is_derive_ext with (fun y => inc (1 + k) (y / t)).
    { intros y. specialize (HF y). cbn in HF. rewrite Hc in HF. injection HF as <-. eqR. ring. }
    refine (eq_ind _ (fun l => is_derive _ x l) (DI (1 + k) (or_intror eq_refl)) _ _).
    unfold sz_pdf0, sz_moment. rewrite RD, Hr. cbn [poch pow INR].
    replace (1 + k - 1) with k by ring. rewrite (RP x k Hx).
    replace (- (x / t)) with (- x / t) by (field; lra). eqR. field. lra.
Qed.

(** The specifications used above are met by some functions. *)
Lemma is_derive_RInt_cont (f : R -> R) a b : (forall x, continuous f x) -> is_derive (fun x => RInt f a x) b (f b).
Proof.
  intros H. apply (is_derive_RInt f (fun x => RInt f a x) a b); [|apply H].
  apply filter_forall. intros x. apply @RInt_correct. apply @ex_RInt_continuous. intros; apply H.
Qed.
Example C66_erf_exists : exists erf erfc, erf_spec erf erfc.
Proof.
  exists (fun x => RInt (fun t => 2 / sqrt PI * exp (- t ^ 2)) 0 x).
  exists (fun x => 1 - RInt (fun t => 2 / sqrt PI * exp (- t ^ 2)) 0 x).
  split; [|reflexivity]. intros x. apply (is_derive_RInt_cont (fun t => 2 / sqrt PI * exp (- t ^ 2))).
  intros y. apply @ex_derive_continuous. auto_derive. auto.
Qed.
Example C66_case : forall gamma t x, 0 < t -> 0 < x -> gamma 1 = 1 -> sz_pdf0 gamma (sz_k 100 2) t x = exp (- x / t) / t.
Proof.
  intros g t x Ht Hx Hg. unfold sz_pdf0, sz_k. replace (1 / (2 - 1)) with 1 by field.
  rewrite Rpower_1, Hg by auto. replace (1 - 1) with 0 by ring. rewrite Rpower_O by auto. field. lra.
Qed.

Print Assumptions C18_Flory. Print Assumptions C18_Poisson. Print Assumptions C18_LogNormal.
Print Assumptions C18_SchulzZimm. Print Assumptions C18_zero_M0_refuted.
Print Assumptions C19_flory_moments. Print Assumptions C19_flory_polylog. Print Assumptions C19_flory_cdf.
Print Assumptions C19_flory_cdf_shape. Print Assumptions C19_flory_mass_pdf. Print Assumptions C19_flory_monodisperse_refuted.
Print Assumptions C20_Flory_reports. Print Assumptions C20_Poisson_reports. Print Assumptions C20_LogNormal_reports.
Print Assumptions C20_SchulzZimm_reports. Print Assumptions C20_poisson_moments. Print Assumptions C20_poisson_cdf.
Print Assumptions C66_LogNormal. Print Assumptions C66_SchulzZimm.
