(** C48 (virial and ideal gas), C49 (caches), C53 (mixing rules), C83 (departure functions). *)
From Coq Require Import Reals Lra Lia List Bool Arith FunctionalExtensionality.
From Coquelicot Require Import Coquelicot.
From Verif Require Import Prelude Deriv KinModel RootsModel DiffModel FixModel AcmModel AcmProps EosModel.
Import List ListNotations.
Open Scope R_scope.

(* ------------------------------------------------------------------ *)
(** * C53: mixing rules                                               *)
(* ------------------------------------------------------------------ *)

(** diagonal plus twice the strict upper triangle of a symmetric array *)
Lemma upper_sum N (f : nat -> nat -> R) : (forall i j, (i < N)%nat -> (j < N)%nat -> f i j = f j i) ->
  sumn N (fun i => f i i + sumn (N - (i + 1)) (fun d => 2 * f i (i + 1 + d)%nat)) = sumn N (fun i => sumn N (fun j => f i j)).
Proof.
  induction N as [|N IH]; intros H; [reflexivity|]. cbn [sumn].
  rewrite (sumn_ext N (fun i => f i i + _) (fun i => (f i i + sumn (N - (i + 1)) (fun d => 2 * f i (i + 1 + d)%nat)) + 2 * f i N)).
  2:{ intros i Hi. replace (S N - (i + 1))%nat with (S (N - (i + 1))) by lia. cbn [sumn]. replace (i + 1 + (N - (i + 1)))%nat with N by lia. ring. }
  rewrite sumn_plus, IH by (intros; apply H; lia). replace (S N - (N + 1))%nat with O by lia. cbn [sumn].
  rewrite !sumn_plus, sumn_scal. rewrite (sumn_ext N (fun j => f N j) (fun j => f j N)) by (intros; apply H; lia). ring.
Qed.

(** symmetric interaction parameters with zero diagonal: the documented double sum *)
Theorem C53_double_sum N y Q k : (forall i, (i < N)%nat -> 0 <= Q i) ->
  (forall i j, (i < N)%nat -> (j < N)%nat -> k i j = k j i) -> (forall i, (i < N)%nat -> k i i = 0) ->
  geometric_interaction_mixing N y Q (Some k) = sumn N (fun i => sumn N (fun j => y i * y j * sqrt (Q i * Q j) * (1 - k i j))).
Proof.
  intros HQ Hs Hz. unfold geometric_interaction_mixing.
  rewrite <- (upper_sum N (fun i j => y i * y j * sqrt (Q i * Q j) * (1 - k i j))).
  - apply sumn_ext. intros i Hi. cbv zeta. f_equal.
    + rewrite Hz by auto. rewrite sqrt_square by auto. ring.
    + apply sumn_ext. intros. ring.
  - intros i j Hi Hj. rewrite (Hs i j Hi Hj), (Rmult_comm (Q i)). ring.
Qed.
Theorem C53_upper_only N y Q k k' : (forall i j, (i < j < N)%nat -> k i j = k' i j) ->
  geometric_interaction_mixing N y Q (Some k) = geometric_interaction_mixing N y Q (Some k').
Proof.
  intros H. unfold geometric_interaction_mixing. apply sumn_ext. intros i Hi. f_equal. apply sumn_ext. intros d Hd. cbv zeta. rewrite H by lia. reflexivity.
Qed.
Theorem C53_zero_k N y Q : (forall i, (i < N)%nat -> 0 <= Q i) ->
  geometric_interaction_mixing N y Q (Some (fun _ _ => 0)) = geometric_interaction_mixing N y Q None.
Proof.
  intros HQ. rewrite C53_double_sum by auto. unfold geometric_interaction_mixing.
  replace (sumn N (fun i => y i * sqrt (Q i)) ^ 2) with (sumn N (fun i => y i * sqrt (Q i)) * sumn N (fun i => y i * sqrt (Q i))) by ring.
  rewrite <- sumn_scal_r. apply sumn_ext. intros i Hi. rewrite <- sumn_scal. apply sumn_ext. intros j Hj. rewrite sqrt_mult by auto. ring.
Qed.
Theorem C53_pure N Q k i : (i < N)%nat -> (forall j, (j < N)%nat -> 0 <= Q j) -> geometric_interaction_mixing N (pure i) Q k = Q i.
Proof.
  intros Hi HQ. unfold geometric_interaction_mixing, pure. destruct k as [k|].
  - rewrite (sumn_ext N _ (fun j => delta i j * Q j)); [now apply (sumn_delta_l N i Q)|].
    intros j Hj. rewrite (sumn_zero' (N - (j + 1))).
    + unfold delta. destruct (Nat.eq_dec i j); ring.
    + intros d Hd. cbv zeta. unfold delta. destruct (Nat.eq_dec i j), (Nat.eq_dec i (j + 1 + d)); try lia; ring.
  - rewrite (sumn_delta_l N i (fun j => sqrt (Q j)) Hi). cbn. rewrite Rmult_1_r. apply sqrt_sqrt. auto.
Qed.
(** degree 2 in the composition *)
Theorem C53_homogeneous N y Q k c : geometric_interaction_mixing N (fun i => c * y i) Q k = c ^ 2 * geometric_interaction_mixing N y Q k.
Proof.
  unfold geometric_interaction_mixing. destruct k as [k|].
  - rewrite <- sumn_scal. apply sumn_ext. intros i Hi. rewrite Rmult_plus_distr_l. f_equal; [ring|]. rewrite <- sumn_scal. apply sumn_ext. intros. cbv zeta. ring.
  - rewrite (sumn_ext N _ (fun i => c * (y i * sqrt (Q i)))) by (intros; ring). rewrite sumn_scal. ring.
Qed.
Theorem C53_quadratic N y Q : quadratic_mixing N y Q = sumn N (fun i => sumn N (fun j => y i * y j * Q i j)).
Proof.
  unfold quadratic_mixing. rewrite sumn_swap. rewrite (sumn_ext N (fun i => y i * _) (fun i => sumn N (fun j => y j * y i * Q j i))); auto.
  intros i Hi. rewrite <- sumn_scal. apply sumn_ext. intros. ring.
Qed.
Theorem C53_pseudocritical_identical N y Tc Pc Zc w : sumn N y = 1 -> Tc <> 0 -> Pc <> 0 -> Zc <> 0 ->
  pseudocritical_properties N y (fun _ => Tc) (fun _ => Pc) (fun _ => Zc) (Some (fun _ => w)) = (Tc, Pc, Zc * Rgas * Tc / Pc, Zc, w).
Proof.
  intros S HT HP HZ. pose proof Rgas_pos. unfold pseudocritical_properties. rewrite !sumn_scal_r, S. cbv zeta. rewrite !Rmult_1_l. repeat f_equal; try ring; field; repeat split; auto; lra.
Qed.
(** the mixture values are weighted means *)
Theorem C53_pseudocritical_mean N y Tc Pc Zc w lo hi : (forall i, (i < N)%nat -> 0 <= y i) -> sumn N y = 1 ->
  (forall i, (i < N)%nat -> lo <= Tc i <= hi) ->
  let '(T, _, _, _, _) := pseudocritical_properties N y Tc Pc Zc w in lo <= T <= hi.
Proof.
  intros Y S B. unfold pseudocritical_properties. split.
  - rewrite <- (Rmult_1_l lo), <- S, <- sumn_scal_r. apply sumn_le. intros i Hi. apply Rmult_le_compat_l; auto. now apply B.
  - rewrite <- (Rmult_1_l hi), <- S, <- sumn_scal_r. apply sumn_le. intros i Hi. apply Rmult_le_compat_l; auto. now apply B.
Qed.
Example C53_example : geometric_interaction_mixing 2 (fun _ => 1 / 2) (fun i => if Nat.eqb i 0 then 4 else 9) (Some (fun _ _ => 1 / 2)) = 19 / 4.
Proof.
  unfold geometric_interaction_mixing. cbn. replace (4 * 9) with (6 * 6) by ring. rewrite sqrt_square by lra. field.
Qed.

(* ------------------------------------------------------------------ *)
(** * C48: virial equation                                            *)
(* ------------------------------------------------------------------ *)

Section Virial.
  Variables (N : nat) (B : mat).
  Hypothesis HB : forall i j, (i < N)%nat -> (j < N)%nat -> B i j = B j i.

  Lemma Bm_alt y : Vir_Bm N B y = sumn N (fun i => y i * sumn N (fun j => B i j * y j)).
  Proof.
    unfold Vir_Bm, quadratic_mixing. apply sumn_ext. intros i Hi. f_equal. apply sumn_ext. intros j Hj. rewrite (HB i j Hi Hj). ring.
  Qed.
  (** n Bm as a function of mole numbers *)
  Let SB n i := sumn N (fun j => n j * B i j).
  Lemma nBm n : 0 < sumn N n -> sumn N n * Vir_Bm N B (frac N n) = sumn N (fun i => n i * SB n i) / sumn N n.
  Proof.
    intros S. rewrite Bm_alt. rewrite <- sumn_div, <- sumn_scal. apply sumn_ext. intros i Hi. unfold frac.
    rewrite (sumn_ext N (fun j => B i j * (n j / sumn N n)) (fun j => n j * B i j / sumn N n)) by (intros; unfold Rdiv; ring). rewrite sumn_div. fold (SB n i). field. lra.
  Qed.
  Lemma D_nBm n i : (i < N)%nat -> moles N n ->
    D (fun t => sumn N (upd n i t) * Vir_Bm N B (frac N (upd n i t))) (n i) (2 * sumn N (fun j => B i j * frac N n j) - Vir_Bm N B (frac N n)).
  Proof.
    intros Hi M. pose proof (proj2 M) as S.
    apply (D_ext_loc (fun t => sumn N (fun k => upd n i t k * SB (upd n i t) k) / sumn N (upd n i t)) _ _ _ (sumn N n) S).
    { intros t Ht. pose proof (tot_near N n i Hi M t Ht). now rewrite nBm. }
    assert (IT : sumn N (upd n i (n i)) = sumn N n) by (apply sumn_ext; intros; apply upd_id).
    assert (IS : forall k, SB (upd n i (n i)) k = SB n k) by (intros k; apply lin_id).
    eapply D_eq.
    - apply (D_div (fun t => sumn N _) (fun t => sumn N (upd n i t)) _ (2 * SB n i) 1).
      + eapply D_eq.
        * apply (D_sumn N (fun k t => upd n i t k * SB (upd n i t) k) (fun k => delta i k * SB n k + n k * B k i)).
          intros k Hk. eapply D_eq; [apply (D_mult (fun t => upd n i t k) (fun t => SB (upd n i t) k)); [apply D_upd|exact (D_lin N n i (fun j => B k j) Hi)]|].
          cbv beta. now rewrite upd_id, IS.
        * rewrite sumn_plus, (sumn_delta_l N i (SB n) Hi). replace (2 * SB n i) with (SB n i + SB n i) by ring. f_equal.
          apply sumn_ext. intros k Hk. now rewrite (HB k i Hk Hi).
      + now apply tot_upd.
      + rewrite IT. lra.
    - rewrite IT. rewrite (sumn_ext N (fun k => upd n i (n i) k * SB (upd n i (n i)) k) (fun k => n k * SB n k)) by (intros; now rewrite upd_id, IS).
      pose proof (nBm n S) as Q. assert (Q' : Vir_Bm N B (frac N n) = sumn N (fun i => n i * SB n i) / sumn N n / sumn N n) by (rewrite <- Q; field; lra).
      rewrite Q'. unfold frac. rewrite (sumn_ext N (fun j => B i j * (n j / sumn N n)) (fun j => n j * B i j / sumn N n)) by (intros; unfold Rdiv; ring).
      rewrite sumn_div. fold (SB n i). field. lra.
  Qed.
End Virial.

(** P(T, v(T, P, y), y) = P whenever Z is the value returned *)
Theorem C48_pressure N B T P y : 0 < T -> 0 < P -> Vir_P N B T (eos_v (Vir_Z N B T P y) T P) y = P.
Proof.
  intros HT HP. pose proof Rgas_pos. unfold Vir_P, eos_v, Vir_Z.
  assert (E : (1 + Vir_Bm N B y * P / (Rgas * T)) * Rgas * T / P - Vir_Bm N B y = Rgas * T / P) by (field; lra).
  rewrite E. field. lra.
Qed.
(** P = -dA/dV for the Helmholtz departure function *)
Theorem C48_helmholtz N B T V n v0 : 0 < sumn N n -> 0 < v0 -> 0 < V - sumn N n * Vir_Bm N B (frac N n) ->
  D (fun V => Vir_DA N B T V n v0) V (- Vir_P N B T (V / sumn N n) (frac N n)).
Proof.
  intros S Hv HV. unfold Vir_DA, Vir_P. cbv zeta. change (fun i => n i / sumn N n) with (frac N n). set (nt := sumn N n) in *. set (b := Vir_Bm N B (frac N n)) in *.
  eapply D_eq.
  - apply (D_scal (- nt * Rgas * T) (fun V => ln _)). apply (D_ln (fun V => (V - nt * b) / (nt * v0))).
    + apply (D_div (fun V => V - nt * b) (fun _ => nt * v0)); [apply (D_minus (fun V => V) (fun _ => nt * b)); [apply D_id|apply D_const]|apply D_const|].
      apply Rmult_integral_contrapositive_currified; lra.
    + apply Rdiv_lt_0_compat; auto. now apply Rmult_lt_0_compat.
  - cbv beta. assert (V / nt - b <> 0). { intros E. apply (f_equal (fun t => nt * t)) in E. replace (nt * (V / nt - b)) with (V - nt * b) in E by (field; lra). lra. }
    field. repeat split; lra.
Qed.
(** sum y_i ln phi_i = Z - 1 = Bm P / (R T) *)
Theorem C48_sum_lnphi N B T P y : (forall i j, (i < N)%nat -> (j < N)%nat -> B i j = B j i) -> sumn N y = 1 ->
  sumn N (fun i => y i * ln (Vir_phi N B T P y i)) = Vir_Z N B T P y - 1 /\ Vir_Z N B T P y - 1 = Vir_Bm N B y * P / (Rgas * T).
Proof.
  intros HB S. split; [|unfold Vir_Z; ring]. unfold Vir_phi, Vir_Z. set (c := P / (Rgas * T)).
  rewrite (sumn_ext N _ (fun i => (2 * (y i * sumn N (fun j => B i j * y j)) - y i * Vir_Bm N B y) * c)) by (intros; rewrite ln_exp; unfold c, Rdiv; ring).
  rewrite sumn_scal_r, sumn_minus, sumn_scal, sumn_scal_r, S, <- (Bm_alt N B HB). unfold c, Rdiv. ring.
Qed.
(** ln phi_i is the composition derivative of n Bm P/RT = n g^res/RT at constant T and P *)
Theorem C48_gibbs_derivative N B T P n i : (forall i j, (i < N)%nat -> (j < N)%nat -> B i j = B j i) -> (i < N)%nat -> moles N n ->
  D (fun t => sumn N (upd n i t) * (Vir_Z N B T P (frac N (upd n i t)) - 1)) (n i) (ln (Vir_phi N B T P (frac N n) i)).
Proof.
  intros HB Hi M. unfold Vir_phi. rewrite ln_exp.
  apply (D_ext (fun t => P / (Rgas * T) * (sumn N (upd n i t) * Vir_Bm N B (frac N (upd n i t))))); [intros; unfold Vir_Z, Rdiv; ring|].
  eapply D_eq; [apply (D_scal (P / (Rgas * T)) (fun t => sumn N (upd n i t) * Vir_Bm N B (frac N (upd n i t)))); now apply (D_nBm N B HB n i)|].
  unfold Rdiv. ring.
Qed.
(** and, at constant T and V, of the residual Helmholtz energy, minus ln Z *)
Theorem C48_helmholtz_derivative N B T P n v0 i : (forall i j, (i < N)%nat -> (j < N)%nat -> B i j = B j i) -> (i < N)%nat -> moles N n ->
  0 < T -> 0 < P -> 0 < v0 -> 0 < Vir_Z N B T P (frac N n) ->
  let V := sumn N n * eos_v (Vir_Z N B T P (frac N n)) T P in
  D (fun t => (Vir_DA N B T V (upd n i t) v0 - IG_DA N T V (upd n i t) v0) / (Rgas * T)) (n i)
    (ln (Vir_phi N B T P (frac N n) i) + ln (Vir_Z N B T P (frac N n))).
Proof.
  intros HB Hi M HT HP Hv HZ V. pose proof Rgas_pos as HR. pose proof (proj2 M) as S.
  set (b := fun t => sumn N (upd n i t) * Vir_Bm N B (frac N (upd n i t))).
  set (nt := sumn N n) in *. set (Z := Vir_Z N B T P (frac N n)) in *.
  assert (IT : sumn N (upd n i (n i)) = nt) by (apply sumn_ext; intros; apply upd_id).
  assert (Ib : b (n i) = nt * Vir_Bm N B (frac N n)) by (unfold b; now rewrite IT, frac_id).
  assert (PV : 0 < V) by (unfold V, eos_v; apply Rmult_lt_0_compat; [exact S|apply Rdiv_lt_0_compat; [|exact HP]]; apply Rmult_lt_0_compat; [apply Rmult_lt_0_compat; [exact HZ|exact HR]|exact HT]).
  assert (EV : V - b (n i) = nt * (Rgas * T) / P) by (rewrite Ib; unfold V, eos_v, Z, Vir_Z; field; lra).
  assert (PVb : 0 < V - b (n i)) by (rewrite EV; apply Rdiv_lt_0_compat; [|exact HP]; apply Rmult_lt_0_compat; [exact S|apply Rmult_lt_0_compat; [exact HR|exact HT]]).
  pose proof (D_nBm N B HB n i Hi M) as Db. fold b in Db. set (db := 2 * sumn N (fun j => B i j * frac N n j) - Vir_Bm N B (frac N n)) in *.
  assert (Cb : continuous b (n i)) by (apply (ex_derive_continuous b); eexists; exact Db).
  assert (Nb : locally (n i) (fun t => b t < V)) by (apply (Cb (fun y => y < V)); apply (open_lt V (b (n i))); lra).
  destruct Nb as (e & Ne).
  set (e' := Rmin e nt). assert (He' : 0 < e') by (unfold e'; apply Rmin_glb_lt; [apply cond_pos|auto]).
  apply (D_ext_loc (fun t => - (sumn N (upd n i t) * (ln (V - b t) - ln V))) _ _ _ e' He').
  { intros t Ht. assert (Q1 : Rabs (t - n i) < e) by (eapply Rlt_le_trans; [exact Ht|apply Rmin_l]).
    assert (Q2 : Rabs (t - n i) < nt) by (eapply Rlt_le_trans; [exact Ht|apply Rmin_r]).
    pose proof (tot_near N n i Hi M t Q2) as PT. specialize (Ne t Q1). cbv beta in Ne. fold nt in PT.
    unfold Vir_DA, IG_DA. cbv zeta. change (fun i0 => upd n i t i0 / sumn N (upd n i t)) with (frac N (upd n i t)). fold (b t).
    assert (Pd : 0 < sumn N (upd n i t) * v0) by now apply Rmult_lt_0_compat.
    unfold Rdiv. rewrite !ln_mult by (auto; try lra; now apply Rinv_0_lt_compat). field. lra. }
  eapply D_eq.
  - apply (D_opp (fun t => _ * _)). apply (D_mult (fun t => sumn N (upd n i t)) (fun t => ln (V - b t) - ln V)); [now apply tot_upd|].
    apply (D_minus (fun t => ln (V - b t)) (fun _ => ln V)); [|apply D_const]. apply (D_ln (fun t => V - b t)); auto.
    apply (D_minus (fun _ => V) b); [apply D_const|exact Db].
  - cbv beta. rewrite IT, EV. unfold Vir_phi. rewrite ln_exp. fold db.
    assert (LV : ln (nt * (Rgas * T) / P) - ln V = - ln Z).
    { replace V with (nt * (Rgas * T) / P * Z) by (unfold V, eos_v; field; lra). rewrite ln_mult; auto; [ring|].
      apply Rdiv_lt_0_compat; [|exact HP]; apply Rmult_lt_0_compat; [exact S|apply Rmult_lt_0_compat; [exact HR|exact HT]]. }
    rewrite LV. field. lra.
Qed.

(** the matrix of second virial coefficients *)
Theorem C48_Bmatrix T Tc Pc Zc w i j : B_mixture T Tc Pc Zc w i j = B_mixture T Tc Pc Zc w j i /\
  B_mixture T Tc Pc Zc w i i = B_pure T (Tc i) (Pc i) (w i).
Proof.
  unfold B_mixture. rewrite Nat.eqb_refl. split; auto.
  destruct (Nat.eqb_spec i j), (Nat.eqb_spec j i); subst; try lia; auto.
  destruct (Nat.ltb_spec i j), (Nat.ltb_spec j i); try lia; auto.
Qed.
(** two components with equal constants: the cross coefficient is the pure-component one *)
Theorem C48_B_identical T Tc Pc Zc w i j : 0 < Tc i -> 0 < Pc i -> 0 < Zc i ->
  Tc j = Tc i -> Pc j = Pc i -> Zc j = Zc i -> w j = w i ->
  B_mixture T Tc Pc Zc w i j = B_pure T (Tc i) (Pc i) (w i).
Proof.
  intros HT HP HZ ET EP EZ Ew. pose proof Rgas_pos as HR.
  assert (C : forall a b, Tc a = Tc i -> Pc a = Pc i -> Zc a = Zc i -> w a = w i -> Tc b = Tc i -> Pc b = Pc i -> Zc b = Zc i -> w b = w i ->
      B_cross T Tc Pc Zc w a b = B_pure T (Tc i) (Pc i) (w i)).
  { intros a b H1 H2 H3 H4 H5 H6 H7 H8. unfold B_cross. cbv zeta. rewrite H1, H2, H3, H4, H5, H6, H7, H8.
    set (vc := Zc i * Rgas * Tc i / Pc i). assert (Pvc : 0 < vc) by (unfold vc; apply Rdiv_lt_0_compat; [|exact HP]; apply Rmult_lt_0_compat; [apply Rmult_lt_0_compat; [exact HZ|exact HR]|exact HT]).
    assert (E : (Rpower vc (1 / 3) + Rpower vc (1 / 3)) ^ 3 / 8 = vc).
    { transitivity (Rpower vc (1 / 3) ^ 3); [field|]. rewrite <- Rpower_pow by (apply exp_pos). rewrite Rpower_mult. replace (1 / 3 * INR 3) with 1 by (cbn; field). now apply Rpower_1. }
    rewrite E, !sqrt_square by lra. f_equal; try field; try lra.
    unfold vc. field. lra. }
  unfold B_mixture. destruct (Nat.eqb i j); auto. destruct (Nat.ltb i j); apply C; auto.
Qed.
(** ideal gas: the case B = 0 *)
Theorem C48_ideal N T P v V n v0 y i : 0 < Rgas * T ->
  Vir_Z N (fun _ _ => 0) T P y = IG_Z /\ Vir_P N (fun _ _ => 0) T v y = IG_P T v /\
  Vir_phi N (fun _ _ => 0) T P y i = IG_phi i /\ Vir_DA N (fun _ _ => 0) T V n v0 = IG_DA N T V n v0.
Proof.
  intros H. assert (Z : forall y, Vir_Bm N (fun _ _ => 0) y = 0).
  { intros x. unfold Vir_Bm, quadratic_mixing. apply sumn_zero'. intros k Hk. rewrite (sumn_zero' N); [ring|]. intros; ring. }
  unfold Vir_Z, Vir_P, Vir_phi, Vir_DA. cbv zeta. rewrite !Z. unfold IG_Z, IG_P, IG_phi, IG_DA. cbv zeta.
  split; [unfold Rdiv; ring|]. split; [now rewrite Rminus_0_r|]. split.
  - rewrite (sumn_zero' N) by (intros; ring). rewrite <- exp_0. f_equal. unfold Rdiv. ring.
  - now rewrite Rmult_0_r, Rminus_0_r.
Qed.
Example C48_example : Vir_Z 1 (fun _ _ => - Rgas) 300 100 (fun _ => 1) = 2 / 3.
Proof. unfold Vir_Z, Vir_Bm, quadratic_mixing. cbn. pose proof Rgas_pos. field. lra. Qed.

(* ------------------------------------------------------------------ *)
(** * C83: departure functions                                        *)
(* ------------------------------------------------------------------ *)

(** EoS.DX: G = H - T S, G = A + (Z - 1) R T, U = A + T S, for any equation of state *)
Theorem C83_relations DA Z T P P0 : let r := eos_DX DA Z T P P0 in
  dx_U r = dx_A r + T * dx_S r /\ dx_G r = dx_H r - T * dx_S r /\ dx_G r = dx_A r + Rgas * T * (Z - 1) /\ dx_H r = dx_U r + Rgas * T * (Z - 1).
Proof. unfold eos_DX. cbn. repeat split; ring. Qed.
(** ideal gas: exact values A = G = RT ln(P/P0), S = -R ln(P/P0), U = H = 0 *)
Lemma eps_pos : 0 < eps. Proof. unfold eps. apply Rinv_0_lt_compat, pow_lt. lra. Qed.
Theorem C83_ideal N y T P P0 : sumn N y = 1 -> 0 < T -> 0 < P -> 0 < P0 ->
  let r := eos_DX (fun T V v0 => IG_DA N T V y v0) IG_Z T P P0 in
  dx_A r = Rgas * T * ln (P / P0) /\ dx_G r = Rgas * T * ln (P / P0) /\ dx_S r = - Rgas * ln (P / P0) /\ dx_U r = 0 /\ dx_H r = 0.
Proof.
  intros S HT HP HP0. pose proof Rgas_pos as HR. pose proof eps_pos as He. pose proof (sqrt_lt_R0 eps He) as Hs.
  unfold eos_DX, IG_DA, IG_Z. cbv zeta. cbn. rewrite S.
  replace (1 * Rgas * T / P / (1 * (Rgas * T / P0))) with (/ (P / P0)) by (field; lra).
  rewrite ln_Rinv by (now apply Rdiv_lt_0_compat). set (L := ln (P / P0)).
  repeat split; field; lra.
Qed.
(** the finite difference is second-order exact: for DA = c0 + c1 T + c2 T^2 the entropy is the exact
    derivative and A differs from DA(T) by c2 dT^2 *)
Theorem C83_quadratic c0 c1 c2 Z T P P0 : T <> 0 ->
  let r := eos_DX (fun T _ _ => c0 + c1 * T + c2 * T ^ 2) Z T P P0 in
  dx_S r = - (c1 + 2 * c2 * T) /\ dx_A r = c0 + c1 * T + c2 * T ^ 2 + c2 * (4 * eps * T ^ 2).
Proof.
  intros HT. pose proof eps_pos as He. pose proof (sqrt_lt_R0 eps He) as Hs. unfold eos_DX. cbv zeta. cbn [dx_A dx_S]. split.
  - field. split; lra.
  - replace (c2 * (4 * eps * T ^ 2)) with (c2 * (2 * sqrt eps * T) ^ 2); [field|].
    replace ((2 * sqrt eps * T) ^ 2) with (4 * (sqrt eps * sqrt eps) * T ^ 2) by ring. rewrite sqrt_sqrt by lra. ring.
Qed.

(* ------------------------------------------------------------------ *)
(** * C49: caches                                                     *)
(* ------------------------------------------------------------------ *)

(** the result of a query is fresh if it is the value of the current attributes *)
Definition fresh {A} (fT : A -> R -> nat -> nat -> R) (f0 : A -> nat -> R) (r : eres A) : Prop :=
  match r with RT T cur v => v = fT cur T | R0 cur v => v = f0 cur end.
(** no attribute is assigned after the first query *)
Fixpoint sets_first {A} (l : list (eop A)) : Prop :=
  match l with ESet _ :: l' => sets_first l' | _ => Forall (fun o => match o with ESet _ => False | _ => True end) l end.

Lemma erun_const {A} fT f0 : forall (l : list (eop A)) s,
  Forall (fun o => match o with ESet _ => False | _ => True end) l ->
  (forall T v, elookup T (e_cacheT s) = Some v -> v = fT (e_attrs s) T) ->
  (forall v, e_cache0 s = Some v -> v = f0 (e_attrs s)) -> Forall (fresh fT f0) (erun fT f0 l s).
Proof.
  induction l as [|o l IH]; intros s Hl H1 H2; [constructor|]. inversion Hl; subst. destruct o as [v|T|]; [tauto| |]; cbn [erun].
  - destruct (elookup T (e_cacheT s)) eqn:E.
    + constructor; [cbn; now apply H1|now apply IH].
    + constructor; [reflexivity|]. apply IH; auto. cbn. intros T' v'. destruct (Reqb T' T) eqn:ET; auto. intros [= <-]. apply Reqb_true in ET. now subst.
  - destruct (e_cache0 s) eqn:E.
    + constructor; [cbn; now apply H2|]. apply IH; auto. rewrite E. exact H2.
    + constructor; [reflexivity|]. apply IH; auto. cbn. now intros v' [= <-].
Qed.
Theorem C49_fresh_partial {A} fT f0 (l : list (eop A)) a0 : sets_first l -> Forall (fresh fT f0) (erun fT f0 l (mkE a0 [] None)).
Proof.
  revert a0. induction l as [|o l IH]; intros a0 H; [constructor|]. destruct o as [v|T|]; cbn [sets_first] in H.
  - cbn [erun]. now apply IH.
  - apply erun_const; auto; discriminate.
  - apply erun_const; auto; discriminate.
Qed.
(** in every history a query returns the value for the attributes at the first query with that T *)
Lemma erun_spec {A} fT f0 : forall (l : list (eop A)) s (P : A -> Prop),
  P (e_attrs s) -> Forall (fun o => match o with ESet v => P v | _ => True end) l ->
  (forall T v, elookup T (e_cacheT s) = Some v -> exists c, P c /\ v = fT c T) ->
  (forall v, e_cache0 s = Some v -> exists c, P c /\ v = f0 c) ->
  Forall (fun r => match r with RT T _ v => exists c, P c /\ v = fT c T | R0 _ v => exists c, P c /\ v = f0 c end) (erun fT f0 l s).
Proof.
  induction l as [|o l IH]; intros s P Ps Hl H1 H2; [constructor|]. inversion Hl; subst. destruct o as [v|T|]; cbn [erun].
  - apply IH; auto.
  - destruct (elookup T (e_cacheT s)) eqn:E.
    + constructor; auto.
    + constructor; [eauto|]. apply IH; auto. cbn. intros T' v'. destruct (Reqb T' T) eqn:ET; auto. intros [= <-]. apply Reqb_true in ET. subst. eauto.
  - destruct (e_cache0 s) eqn:E.
    + constructor; [auto|]. apply IH; auto. rewrite E. exact H2.
    + constructor; [eauto|]. apply IH; auto. cbn. intros v' [= <-]. eauto.
Qed.
Theorem C49_some_attrs {A} fT f0 (l : list (eop A)) a0 (P : A -> Prop) :
  P a0 -> Forall (fun o => match o with ESet v => P v | _ => True end) l ->
  Forall (fun r => match r with RT T _ v => exists c, P c /\ v = fT c T | R0 _ v => exists c, P c /\ v = f0 c end) (erun fT f0 l (mkE a0 [] None)).
Proof. intros. apply erun_spec; auto; discriminate. Qed.

(** RedlichKwong: query b, double Tc, query b again: the old value comes back (likewise a(T)) *)
Theorem C49_stale_refuted : exists (l : list (eop ((nat -> R) * (nat -> R) * (nat -> R)))) a0,
  ~ Forall (fresh (cubic_aT RK_consts RK_alpha) (cubic_b0 RK_consts)) (erun (cubic_aT RK_consts RK_alpha) (cubic_b0 RK_consts) l (mkE a0 [] None)).
Proof.
  exists [EQuery0; ESet (fun _ => 2, fun _ => 1, fun _ => 0); EQuery0], (fun _ => 1, fun _ => 1, fun _ => 0).
  cbn [erun e_cache0 e_attrs e_cacheT]. intros H. inversion H as [|? ? _ H2]; subst. inversion H2 as [|? ? H3 _]; subst. cbn in H3.
  apply (f_equal (fun f => f 0%nat)) in H3. unfold cubic_b0, cu_b, RK_consts in H3. cbn in H3. pose proof Rgas_pos. lra.
Qed.
Theorem C49_stale_aT_refuted : exists (l : list (eop ((nat -> R) * (nat -> R) * (nat -> R)))) a0,
  ~ Forall (fresh (cubic_aT RK_consts RK_alpha) (cubic_b0 RK_consts)) (erun (cubic_aT RK_consts RK_alpha) (cubic_b0 RK_consts) l (mkE a0 [] None)) /\
  Forall (fun o => o <> EQuery0) l.
Proof.
  exists [EQueryT 1; ESet (fun _ => 1, fun _ => 2, fun _ => 0); EQueryT 1], (fun _ => 1, fun _ => 1, fun _ => 0). split.
  - cbn [erun e_cache0 e_attrs e_cacheT elookup]. rewrite (proj2 (Reqb_true 1 1) eq_refl). intros H. inversion H as [|? ? _ H2]; subst. inversion H2 as [|? ? H3 _]; subst. cbn in H3.
    apply (f_equal (fun f => f 0%nat 0%nat)) in H3. unfold cubic_aT, cu_a, RK_consts, RK_alpha in H3. cbn in H3.
    replace (1 / 1) with 1 in H3 by field. rewrite sqrt_1 in H3. pose proof Rgas_pos. assert (0 < Rgas * Rgas) by nra. nra.
  - repeat constructor; discriminate.
Qed.

Print Assumptions C48_helmholtz_derivative.
Print Assumptions C49_stale_aT_refuted.
Print Assumptions C53_double_sum.
