(** C100: DataDistribution.  C101: random chain lengths.  C102: DataDistribution.fit. *)
From Coq Require Import Reals Lra Lia List Bool Arith ZArith Psatz.
From Coquelicot Require Import Coquelicot.
From Verif Require Import Prelude Deriv Erf NumBounds HmtProps DistModel DataModel.
Import ListNotations.
Open Scope R_scope.

(* ------------------------------------------------------------------ *)
(** * What is asked of the spline                                      *)
(* ------------------------------------------------------------------ *)

Definition incr (l : list R) : Prop := forall i j, (i < j < length l)%nat -> nth i l 0 < nth j l 0.
(** a cubic spline through the points, zero outside (ext = 1); through four points it is the interpolating cubic *)
Record spline_ok (spline : list R -> list R -> R -> R) : Prop := mkSok {
  sp_cont : forall x y, incr x -> length y = length x -> (4 <= length x)%nat -> exists g, (forall t, continuous g t) /\ forall t, first x <= t <= final x -> spline x y t = g t;
  sp_at : forall x y i, incr x -> length y = length x -> (4 <= length x)%nat -> (i < length x)%nat -> spline x y (nth i x 0) = nth i y 0;
  sp_out : forall x y t, incr x -> length y = length x -> (4 <= length x)%nat -> t < first x \/ final x < t -> spline x y t = 0;
  sp_lin : forall x y c t, incr x -> length y = length x -> (4 <= length x)%nat -> spline x (map (fun v => c * v) y) t = c * spline x y t;
  sp_four : forall x y, incr x -> length y = length x -> length x = 4%nat -> exists a b c d, forall t, first x <= t <= final x -> spline x y t = a + b * t + c * t ^ 2 + d * t ^ 3 }.

(* ------------------------------------------------------------------ *)
(** * Construction                                                     *)
(* ------------------------------------------------------------------ *)

Lemma increasing_iff l : increasing l = true <-> incr l.
Proof.
  induction l as [|x l IH]; [split; [intros _ i j H; cbn in H; lia|reflexivity]|]. destruct l as [|y l]; [split; [intros _ i j H; cbn in H; lia|reflexivity]|].
  change (increasing (x :: y :: l)) with (Rltb x y && increasing (y :: l)). rewrite andb_true_iff, IH, Rltb_true. split.
  - intros (H1 & H2) i j H. destruct i as [|i], j as [|j]; try lia.
    + cbn [nth]. destruct j as [|j]; [exact H1|]. eapply Rlt_trans; [exact H1|]. apply (H2 0%nat (S j)). cbn in *. lia.
    + apply (H2 i j). cbn in *. lia.
  - intros H. split; [apply (H 0%nat 1%nat); cbn; lia|]. intros i j Hij. apply (H (S i) (S j)). cbn in *. lia.
Qed.
Lemma final_nth l : final l = nth (length l - 1) l 0.
Proof. unfold final. induction l as [|x l IH]; [reflexivity|]. destruct l as [|y l]; [reflexivity|]. change (last (x :: y :: l) 0) with (last (y :: l) 0). rewrite IH. cbn [length]. rewrite !Nat.sub_succ, !Nat.sub_0_r. reflexivity. Qed.
(** the points kept: positive density and chain length at least one, in the given order *)
Definition kept (M0 : R) (sizeasmass : bool) (size pdf : list R) : list (R * R) :=
  filter (fun p => Rltb 0 (snd p) && Rleb 1 (fst p)) (combine (if sizeasmass then map (fun x => x / M0) size else size) pdf).
Lemma init_inv spline size pdf isint k sam M0 d : data_init spline size pdf isint k sam M0 = Ok d ->
  let v := kept M0 sam size pdf in dd_x d = map fst v /\ dd_y d = map snd v /\ dd_p d = kind_order k /\ dd_s d = spline (map fst v) (map snd v) /\ dd_M0 d = M0 /\
  incr (dd_x d) /\ (4 <= length (dd_x d))%nat /\ length (dd_y d) = length (dd_x d) /\ 1 <= first (dd_x d) /\ first (dd_x d) < final (dd_x d) /\ List.Forall (fun y => 0 < y) (dd_y d) /\ (sam && isint = false).
Proof.
  intros E v. unfold data_init in E. destruct (sam && isint); [discriminate|]. destruct (negb (Nat.eqb _ _)); [discriminate|]. fold (kept M0 sam size pdf) in E. fold v in E. destruct (increasing (map fst v)) eqn:EI; [|discriminate]. destruct (Nat.leb_spec 4 (length (map fst v))) as [H4|H4]; [|discriminate]. cbn [andb negb] in E. injection E as <-. cbn [dd_x dd_y dd_p dd_s dd_M0]. apply increasing_iff in EI.
  assert (HV : forall p, In p v -> 0 < snd p /\ 1 <= fst p). { intros p Hp. unfold v, kept in Hp. apply filter_In in Hp. destruct Hp as (_ & Hp). apply andb_true_iff in Hp. destruct Hp as (A & B). split; [now apply Rltb_true|now apply Rleb_true]. }
  repeat split; auto; [now rewrite !map_length| | |].
  - unfold first. assert (HI : In (nth 0 (map fst v) 0) (map fst v)) by (apply nth_In; lia). apply in_map_iff in HI. destruct HI as (p & Ep & Hp). rewrite <- Ep. now apply HV.
  - rewrite final_nth. unfold first. apply EI. lia.
  - apply List.Forall_forall. intros y Hy. apply in_map_iff in Hy. destruct Hy as (p & <- & Hp). now apply HV.
Qed.
(** exactly which data are accepted, and what is kept *)
Theorem C100_accepts spline size pdf isint k sam M0 :
  (exists d, data_init spline size pdf isint k sam M0 = Ok d) <-> sam && isint = false /\ length size = length pdf /\ incr (map fst (kept M0 sam size pdf)) /\ (4 <= length (kept M0 sam size pdf))%nat.
Proof.
  unfold data_init. destruct (sam && isint) eqn:EI; [split; [intros (d & E); discriminate|intros (E & _); discriminate]|].
  assert (EL : length (if sam then map (fun x => x / M0) size else size) = length size) by (destruct sam; [apply map_length|reflexivity]). rewrite EL. destruct (Nat.eqb_spec (length size) (length pdf)) as [E|E]; cbn [negb]; [|split; [intros (d & X); discriminate|intros (_ & X & _); contradiction]].
  fold (kept M0 sam size pdf). rewrite map_length. destruct (increasing (map fst (kept M0 sam size pdf))) eqn:I; cbn [andb negb].
  - destruct (Nat.leb_spec 4 (length (kept M0 sam size pdf))) as [H|H]; cbn [negb]; [|split; [intros (d & X); discriminate|intros (_ & _ & _ & X); lia]]. split; [intros _; repeat split; auto; now apply increasing_iff|intros _; eexists; reflexivity].
  - split; [intros (d & X); discriminate|intros (_ & _ & X & _)]. apply increasing_iff in X. congruence.
Qed.
(** sizes given as molar mass, [float] array: the same distribution *)
Theorem C100_mass spline size pdf isint k M0 : M0 <> 0 -> data_init spline (map (fun n => n * M0) size) pdf false k true M0 = data_init spline size pdf isint k false M0.
Proof.
  intros H. unfold data_init. cbn [andb]. rewrite map_map. replace (map (fun n => n * M0 / M0) size) with size; [reflexivity|]. rewrite <- (map_id size) at 1. apply map_ext. intros x. field. exact H.
Qed.
(** but an integer array of molar masses raises *)
Theorem C100_int_refuted : exists size pdf, forall spline k M0, spline_ok spline -> 0 < M0 <= 1 ->
  (exists d, data_init spline (map INR size) pdf false k true M0 = Ok d) /\ data_init spline (map INR size) pdf true k true M0 = Err TypeError.
Proof.
  exists [100; 200; 300; 400]%nat, [1; 2; 2; 1]. intros spline k M0 _ H. split; [|reflexivity]. apply C100_accepts. split; [reflexivity|]. split; [reflexivity|].
  assert (K : kept M0 true (map INR [100; 200; 300; 400]%nat) [1; 2; 2; 1] = [(INR 100 / M0, 1); (INR 200 / M0, 2); (INR 300 / M0, 2); (INR 400 / M0, 1)]).
  { unfold kept. cbn [map combine filter fst snd]. assert (G : forall n, (1 <= n)%nat -> 1 <= INR n / M0). { intros n Hn. apply le_INR in Hn. change (INR 1) with 1 in Hn. apply (proj1 (Rle_div_r 1 (INR n) M0 ltac:(lra))). lra. } rewrite !(proj2 (Rleb_true _ _)) by (apply G; lia). rewrite !Rltb_t by lra. reflexivity. }
  rewrite K. split; [|cbn; lia]. cbn [map fst]. apply increasing_iff. cbn [increasing]. assert (G : forall n m, (n < m)%nat -> Rltb (INR n / M0) (INR m / M0) = true). { intros n m Hn. apply Rltb_true. apply Rmult_lt_compat_r; [apply Rinv_0_lt_compat; lra|now apply lt_INR]. } rewrite !G by lia. reflexivity.
Qed.

(* ------------------------------------------------------------------ *)
(** * Density and cumulative distribution                              *)
(* ------------------------------------------------------------------ *)

Lemma cont_powz z x : 0 < x -> continuous (fun t => powerRZ t z) x.
Proof.
  intros H. destruct z as [|p|p]; cbn [powerRZ].
  - apply continuous_const.
  - apply (ex_derive_continuous (fun t => t ^ Pos.to_nat p) x). auto_derive. exact I.
  - apply (ex_derive_continuous (fun t => / t ^ Pos.to_nat p) x). auto_derive. apply Rgt_not_eq. now apply pow_lt.
Qed.
(** the integrand of order m *)
Definition hm (d : ddist) (m : nat) (x : R) : R := powerRZ x (Z.of_nat m - Z.of_nat (dd_p d)) * dd_s d x.
(** a distribution built from data *)
Definition built (spline : list R -> list R -> R -> R) (d : ddist) : Prop := exists size pdf isint k sam M0, data_init spline size pdf isint k sam M0 = Ok d /\ 0 < M0.
Section Built.
  Variable spline : list R -> list R -> R -> R.
  Hypothesis SOK : spline_ok spline.
  Variable d : ddist.
  Hypothesis HB : built spline d.
  Let a := first (dd_x d).
  Let b := final (dd_x d).
  Lemma b_facts : 1 <= a /\ a < b /\ incr (dd_x d) /\ (4 <= length (dd_x d))%nat /\ length (dd_y d) = length (dd_x d) /\ dd_s d = spline (dd_x d) (dd_y d) /\ 0 < dd_M0 d.
  Proof. destruct HB as (size & pdf & isint & k & sam & M0 & E & HM). destruct (init_inv _ _ _ _ _ _ _ _ E) as (X & Y & P & S & M & I & N & L & A & B & F & _). unfold a, b. rewrite M. repeat split; auto. now rewrite S, X, Y. Qed.
  Lemma b_out t : t < a \/ b < t -> dd_s d t = 0.
  Proof. intros H. destruct b_facts as (A & B & I & N & L & S & M). rewrite S. now apply sp_out. Qed.
  Lemma b_cont m : exists g, (forall t, 0 < t -> continuous g t) /\ forall t, a <= t <= b -> hm d m t = g t.
  Proof.
    destruct b_facts as (A & B & I & N & L & S & M). destruct (sp_cont _ SOK _ _ I L N) as (g & C & E). exists (fun t => powerRZ t (Z.of_nat m - Z.of_nat (dd_p d)) * g t). split; [|intros t Ht; unfold hm; rewrite S; f_equal; now apply E].
    intros t Ht. apply (continuous_mult (fun t => powerRZ t (Z.of_nat m - Z.of_nat (dd_p d))) g); [now apply cont_powz|apply C].
  Qed.
  Lemma b_int m u v : a <= u <= b -> a <= v <= b -> ex_RInt (hm d m) u v.
  Proof.
    intros Hu Hv. destruct (b_cont m) as (g & C & E). destruct b_facts as (A & _). apply (ex_RInt_ext g).
    - intros t Ht. symmetry. apply E. unfold Rmin, Rmax in Ht. destruct (Rle_dec u v); lra.
    - apply (ex_RInt_continuous g). intros t Ht. apply C. unfold Rmin, Rmax in Ht. destruct (Rle_dec u v); lra.
  Qed.
  Lemma quad_eq xb m : dd_quad d 0 xb m = RInt (hm d m) a (match xb with Some t => Rmin t b | None => b end).
  Proof.
    destruct b_facts as (A & _). unfold dd_quad. fold a b. rewrite (Rmax_right 0 a) by lra. destruct (Nat.eqb_spec m (dd_p d)) as [-> |N]; [|reflexivity]. apply RInt_ext. intros t _. unfold hm. rewrite Z.sub_diag. cbn. ring.
  Qed.
  Lemma mom_eq m : dd_moment d m = RInt (hm d m) a b.
  Proof. apply (quad_eq None). Qed.
  Lemma pdf_eq m x : 0 < x -> ind_pdf (dd_dist d) x m false = hm d m x / dd_moment d m.
  Proof.
    intros H. unfold ind_pdf, dd_dist. cbn [i_pdf0 i_mom i_M0]. unfold dd_pdf0, hm. rewrite Rmult_1_r. f_equal. unfold Zminus. rewrite powerRZ_add by lra. rewrite <- pow_powerRZ. ring.
  Qed.
  (** the density of every kind integrates to one *)
  Lemma pdf_one m : dd_moment d m <> 0 -> is_RInt (fun x => ind_pdf (dd_dist d) x m false) a b 1.
  Proof.
    intros H. destruct b_facts as (A & B & _). apply (is_RInt_ext (fun x => scal (/ dd_moment d m) (hm d m x))).
    - rewrite Rmin_left, Rmax_right by lra. intros x Hx. rewrite pdf_eq by lra. unfold scal, Rdiv. cbn. unfold mult. cbn. ring.
    - replace 1 with (scal (/ dd_moment d m) (dd_moment d m)) by (unfold scal; cbn; unfold mult; cbn; field; auto). apply (is_RInt_scal (hm d m)). rewrite mom_eq. apply (RInt_correct (hm d m) a b), b_int; lra.
  Qed.
  Lemma cdf_low m x : x <= a -> ind_cdf (dd_dist d) x m false = 0.
  Proof.
    intros H. destruct b_facts as (A & B & _). unfold ind_cdf, dd_dist. cbn [i_cdf]. unfold dd_cdf. rewrite quad_eq. rewrite (Rmin_left x b) by lra. rewrite <- opp_RInt_swap.
    - rewrite (RInt_ext _ (fun _ => 0)); [rewrite RInt_const; unfold opp, scal, mult; cbn; unfold mult; cbn; unfold Rdiv; ring|]. rewrite Rmin_left, Rmax_right by lra. intros t Ht. unfold hm. rewrite b_out by lra. apply Rmult_0_r.
    - apply (ex_RInt_ext (fun _ => 0)); [|apply ex_RInt_const]. rewrite Rmin_left, Rmax_right by lra. intros t Ht. unfold hm. rewrite b_out by lra. symmetry. apply Rmult_0_r.
  Qed.
  Lemma cdf_high m x : dd_moment d m <> 0 -> b <= x -> ind_cdf (dd_dist d) x m false = 1.
  Proof. intros HM H. unfold ind_cdf, dd_dist. cbn [i_cdf]. unfold dd_cdf. rewrite quad_eq, (Rmin_right x b) by lra. rewrite <- mom_eq. field. exact HM. Qed.
  Lemma cdf_D m x : dd_moment d m <> 0 -> a < x < b -> D (fun t => ind_cdf (dd_dist d) t m false) x (ind_pdf (dd_dist d) x m false).
  Proof.
    intros HM Hx. destruct b_facts as (A & B & _). destruct (b_cont m) as (g & C & E). rewrite pdf_eq by lra. set (e := Rmin (x - a) (b - x)). assert (He : 0 < e) by (unfold e; apply Rmin_glb_lt; lra).
    assert (H1 : e <= x - a) by apply Rmin_l. assert (H2 : e <= b - x) by apply Rmin_r.
    apply (D_ext_loc (fun t => / dd_moment d m * RInt g a t) _ x _ e He).
    - intros t Ht. apply Rabs_def2 in Ht. unfold ind_cdf, dd_dist. cbn [i_cdf]. unfold dd_cdf. rewrite quad_eq, (Rmin_left t b) by lra. rewrite (RInt_ext g (hm d m)); [unfold Rdiv; apply Rmult_comm|]. rewrite Rmin_left, Rmax_right by lra. intros u Hu. symmetry. apply E. lra.
    - eapply D_eq; [apply D_scal|rewrite (E x) by lra; unfold Rdiv; apply Rmult_comm]. unfold D. apply (is_derive_RInt g (RInt g a) a x); [|apply C; lra].
      exists (mkposreal e He). intros t Ht. unfold ball in Ht. cbn in Ht. unfold AbsRing_ball, abs, minus, plus, opp in Ht. cbn in Ht. apply Rabs_def2 in Ht. apply (RInt_correct g). apply (ex_RInt_continuous g). intros u Hu. apply C. rewrite Rmin_left in Hu by lra. lra.
  Qed.
  Lemma hm_pos m x : (forall t, a <= t <= b -> 0 <= dd_s d t) -> 0 < x -> 0 <= hm d m x.
  Proof.
    intros HP Hx. unfold hm. apply Rmult_le_pos; [left; now apply powerRZ_lt|]. destruct (Rlt_dec x a) as [H|H]; [rewrite b_out by (now left); lra|]. destruct (Rlt_dec b x) as [H1|H1]; [rewrite b_out by (now right); lra|]. apply HP. lra.
  Qed.
  Lemma cdf_mono m x y : (forall t, a <= t <= b -> 0 <= dd_s d t) -> 0 < dd_moment d m -> x <= y -> ind_cdf (dd_dist d) x m false <= ind_cdf (dd_dist d) y m false.
  Proof.
    intros HP HM Hxy. destruct b_facts as (A & B & _). assert (NN : forall u, a <= u -> 0 <= ind_cdf (dd_dist d) u m false).
    { intros u Hu. unfold ind_cdf, dd_dist. cbn [i_cdf]. unfold dd_cdf. apply Rmult_le_pos; [|left; now apply Rinv_0_lt_compat]. rewrite quad_eq. assert (a <= Rmin u b <= b) by (split; [apply Rmin_glb; lra|apply Rmin_r]). apply RInt_ge_0; [lra|apply b_int; lra|]. intros t Ht. apply hm_pos; auto. lra. }
    destruct (Rle_dec x a) as [Hx|Hx]; [rewrite (cdf_low m x Hx); destruct (Rle_dec y a) as [Hy|Hy]; [rewrite (cdf_low m y Hy); lra|apply NN; lra]|].
    unfold ind_cdf, dd_dist. cbn [i_cdf]. unfold dd_cdf. apply Rmult_le_compat_r; [left; now apply Rinv_0_lt_compat|]. rewrite !quad_eq. assert (X : a <= Rmin x b <= b) by (split; [apply Rmin_glb; lra|apply Rmin_r]). assert (Y : a <= Rmin y b <= b) by (split; [apply Rmin_glb; lra|apply Rmin_r]). assert (XY : Rmin x b <= Rmin y b) by (apply Rle_min_compat_r; lra).
    rewrite <- (RInt_Chasles (hm d m) a (Rmin x b) (Rmin y b)) by (apply b_int; lra). apply Rle_trans with (RInt (hm d m) a (Rmin x b) + 0); [rewrite Rplus_0_r; apply Rle_refl|]. apply Rplus_le_compat_l. apply RInt_ge_0; [lra|apply b_int; lra|]. intros t Ht. apply hm_pos; auto. lra.
  Qed.
End Built.

(** densities of every kind integrate to one over the range of the data; the density of the data's own kind is proportional to the
    data; the densities of two kinds differ by a power of the size *)
Theorem C100_density spline d : spline_ok spline -> built spline d ->
  (forall m, dd_moment d m <> 0 -> is_RInt (fun x => ind_pdf (dd_dist d) x m false) (first (dd_x d)) (final (dd_x d)) 1) /\
  (forall i, (i < length (dd_x d))%nat -> dd_moment d (dd_p d) <> 0 -> ind_pdf (dd_dist d) (nth i (dd_x d) 0) (dd_p d) false * dd_moment d (dd_p d) = nth i (dd_y d) 0) /\
  (forall m n x, 0 < x -> dd_moment d m <> 0 -> dd_moment d n <> 0 -> x ^ n * (ind_pdf (dd_dist d) x m false * dd_moment d m) = x ^ m * (ind_pdf (dd_dist d) x n false * dd_moment d n)).
Proof.
  intros SOK HB. destruct (b_facts spline d HB) as (A & B & I & N & L & SS0 & M). split; [|split].
  - intros m Hm. now apply (pdf_one spline).
  - intros i Hi Hm. assert (0 < nth i (dd_x d) 0). { destruct i as [|i]; [unfold first in A; lra|]. pose proof (I 0%nat (S i) ltac:(lia)). unfold first in A. lra. } rewrite (pdf_eq d) by auto. unfold hm. rewrite Z.sub_diag. cbn [powerRZ]. rewrite SS0. rewrite (sp_at _ SOK) by auto. field. exact Hm.
  - intros m n x Hx Hm Hn. rewrite !(pdf_eq d) by auto. unfold hm, Zminus. rewrite !powerRZ_add by lra. rewrite <- !pow_powerRZ. field. auto.
Qed.
Lemma powerRZ_neg1 x : powerRZ x (-1) = / x.
Proof. cbn [powerRZ]. change (Pos.to_nat 1) with 1%nat. now rewrite pow_1. Qed.
(** the given densities are those of the given kind: chains per length, mass per length, or mass per logarithm of the length *)
Theorem C100_kinds spline size pdf isint k sam M0 d i : spline_ok spline -> 0 < M0 -> data_init spline size pdf isint k sam M0 = Ok d -> (i < length (dd_x d))%nat ->
  let x := nth i (dd_x d) 0 in
  match k with
  | Number => dd_moment d 0 <> 0 -> nth i (dd_y d) 0 = dd_moment d 0 * ind_pdf (dd_dist d) x 0 false
  | Mass => dd_moment d 1 <> 0 -> nth i (dd_y d) 0 = dd_moment d 1 * ind_pdf (dd_dist d) x 1 false
  | Gpc => dd_moment d 1 <> 0 -> nth i (dd_y d) 0 = dd_moment d 1 * (x * ind_pdf (dd_dist d) x 1 false)
  end.
Proof.
  intros SOK HM E Hi x. assert (HB : built spline d) by (do 6 eexists; split; [exact E|exact HM]). destruct (b_facts spline d HB) as (A & B & I & N & L & SS0 & M). apply init_inv in E. cbv zeta in E. destruct E as (_ & _ & P & _).
  assert (X : 0 < x) by (unfold x; destruct i as [|i]; [unfold first in A; lra|]; pose proof (I 0%nat (S i) ltac:(lia)); unfold first in A; lra). assert (AT : dd_s d x = nth i (dd_y d) 0) by (rewrite SS0; apply (sp_at _ SOK); auto).
  destruct k; intros Hm; rewrite (pdf_eq d) by auto; unfold hm; rewrite P, AT; cbn [kind_order].
  - change (Z.of_nat 0 - Z.of_nat 0)%Z with 0%Z. cbn [powerRZ]. field. exact Hm.
  - change (Z.of_nat 1 - Z.of_nat 1)%Z with 0%Z. cbn [powerRZ]. field. exact Hm.
  - change (Z.of_nat 1 - Z.of_nat 2)%Z with (-1)%Z. rewrite powerRZ_neg1. field. split; [lra|exact Hm].
Qed.
(** the cumulative distribution: zero up to the first point, one from the last on, primitive of the density in between *)
Theorem C100_cdf spline d m : spline_ok spline -> built spline d -> dd_moment d m <> 0 ->
  (forall x, x <= first (dd_x d) -> ind_cdf (dd_dist d) x m false = 0) /\ (forall x, final (dd_x d) <= x -> ind_cdf (dd_dist d) x m false = 1) /\
  (forall x, first (dd_x d) < x < final (dd_x d) -> D (fun t => ind_cdf (dd_dist d) t m false) x (ind_pdf (dd_dist d) x m false)).
Proof.
  intros SOK HB Hm. split; [intros x H; now apply (cdf_low spline)|]. split; [intros x H; now apply (cdf_high spline)|intros x H; now apply (cdf_D spline)].
Qed.

(** ** Where the spline is not negative *)
Lemma hm_S d m x : 0 < x -> hm d (S m) x = x * hm d m x.
Proof.
  intros H. unfold hm. replace (Z.of_nat (S m) - Z.of_nat (dd_p d))%Z with (1 + (Z.of_nat m - Z.of_nat (dd_p d)))%Z by lia. rewrite powerRZ_add by lra. rewrite powerRZ_1. ring.
Qed.
Lemma mom_pos spline d m : spline_ok spline -> built spline d -> (forall t, first (dd_x d) <= t <= final (dd_x d) -> 0 <= dd_s d t) -> 0 < dd_moment d m.
Proof.
  intros SOK HB HP. destruct (b_facts spline d HB) as (A & B & I & N & L & SS0 & M). rewrite (mom_eq spline) by auto. set (a := first (dd_x d)) in *. set (b := final (dd_x d)) in *. destruct (b_cont spline SOK d HB m) as (g & C & E). fold a b in E.
  assert (Y : 0 < nth 0 (dd_y d) 0). { destruct HB as (size & pdf & isint & k & sam & M0 & EI & HM). destruct (init_inv _ _ _ _ _ _ _ _ EI) as (_ & _ & _ & _ & _ & _ & _ & _ & _ & _ & F & _). rewrite List.Forall_forall in F. apply F. apply nth_In. lia. }
  assert (GA : 0 < g a). { rewrite <- E by lra. unfold hm. apply Rmult_lt_0_compat; [apply powerRZ_lt; lra|]. rewrite SS0. unfold a, first. rewrite (sp_at _ SOK) by (auto; lia). exact Y. }
  assert (CA : continuous g a) by (apply C; lra). destruct (CA (fun v => 0 < v)) as (e & He).
  { exists (mkposreal _ GA). intros v Hv. unfold ball in Hv. cbn in Hv. unfold AbsRing_ball, abs, minus, plus, opp in Hv. cbn in Hv. apply Rabs_def2 in Hv. lra. }
  set (u := Rmin b (a + e / 2)). pose proof (cond_pos e) as EP. assert (U : a < u <= b) by (unfold u; split; [apply Rmin_glb_lt; lra|apply Rmin_l]). assert (U2 : u <= a + e / 2) by apply Rmin_r.
  rewrite <- (RInt_Chasles (hm d m) a u b) by (apply (b_int spline); auto; fold a b; lra). apply Rlt_le_trans with (RInt (hm d m) a u + 0); [rewrite Rplus_0_r|apply Rplus_le_compat_l].
  - rewrite (RInt_ext _ g); [|rewrite Rmin_left, Rmax_right by lra; intros x Hx; apply E; lra]. apply RInt_gt_0; [lra| |intros x Hx; apply C; lra]. intros x Hx. apply He. unfold ball. cbn. unfold AbsRing_ball, abs, minus, plus, opp. cbn. rewrite Rabs_right; lra.
  - apply RInt_ge_0; [lra|apply (b_int spline); auto; fold a b; lra|]. intros x Hx. apply (hm_pos spline SOK d HB); [exact HP|lra].
Qed.
Lemma lin3 spline d m p q r : spline_ok spline -> built spline d -> (forall t, first (dd_x d) <= t <= final (dd_x d) -> 0 <= dd_s d t) -> (forall t, first (dd_x d) <= t <= final (dd_x d) -> 0 <= p * t ^ 2 + q * t + r) ->
  0 <= p * dd_moment d (S (S m)) + q * dd_moment d (S m) + r * dd_moment d m.
Proof.
  intros SOK HB HP HQ. destruct (b_facts spline d HB) as (A & B & _). rewrite !(mom_eq spline) by auto. set (a := first (dd_x d)) in *. set (b := final (dd_x d)) in *.
  assert (EX : forall n, is_RInt (hm d n) a b (RInt (hm d n) a b)) by (intros n; apply (RInt_correct (hm d n) a b), (b_int spline); auto; fold a b; lra).
  assert (H : is_RInt (fun x => p * hm d (S (S m)) x + q * hm d (S m) x + r * hm d m x) a b (p * RInt (hm d (S (S m))) a b + q * RInt (hm d (S m)) a b + r * RInt (hm d m) a b)) by exact (is_RInt_plus _ _ a b _ _ (is_RInt_plus _ _ a b _ _ (is_RInt_scal _ a b p _ (EX (S (S m)))) (is_RInt_scal _ a b q _ (EX (S m)))) (is_RInt_scal _ a b r _ (EX m))).
  rewrite <- (is_RInt_unique _ _ _ _ H). apply RInt_ge_0; [lra|eexists; exact H|]. intros x Hx. rewrite !hm_S by lra. replace (p * (x * (x * hm d m x)) + q * (x * hm d m x) + r * hm d m x) with ((p * x ^ 2 + q * x + r) * hm d m x) by ring. apply Rmult_le_pos; [apply HQ; lra|]. apply (hm_pos spline SOK d HB); [exact HP|lra].
Qed.
Lemma mm_eq d n s : moment_mass (dd_dist d) n s = dd_moment d n * powerRZ (dd_M0 d) (Z.of_nat n - Z.of_nat s).
Proof. reflexivity. Qed.
Lemma chain_ratio d n : 0 < dd_M0 d -> 0 < dd_moment d n -> pydiv (moment_mass (dd_dist d) (S n) 1) (moment_mass (dd_dist d) n 0) = Ok (dd_moment d (S n) / dd_moment d n).
Proof.
  intros HM Hn. rewrite !mm_eq. replace (Z.of_nat (S n) - Z.of_nat 1)%Z with (Z.of_nat n) by lia. rewrite Z.sub_0_r. pose proof (powerRZ_lt (dd_M0 d) (Z.of_nat n) HM). rewrite pydiv_ok by (apply Rgt_not_eq; apply Rmult_lt_0_compat; lra). f_equal. field. split; lra.
Qed.
(** without negative values of the spline: every density and every moment is positive, the cumulative distributions increase, and the
    averages are ordered and lie within the data *)
Theorem C100_nonnegative spline d : spline_ok spline -> built spline d -> (forall t, first (dd_x d) <= t <= final (dd_x d) -> 0 <= dd_s d t) ->
  (forall m, 0 < dd_moment d m) /\ (forall m x, 0 < x -> 0 <= ind_pdf (dd_dist d) x m false) /\
  (forall m x y, x <= y -> 0 <= ind_cdf (dd_dist d) x m false <= ind_cdf (dd_dist d) y m false /\ ind_cdf (dd_dist d) y m false <= 1) /\
  exists n w z, av_DPn (moment_mass (dd_dist d)) = Ok n /\ av_DPw (moment_mass (dd_dist d)) = Ok w /\ av_DPz (moment_mass (dd_dist d)) = Ok z /\ first (dd_x d) <= n /\ n <= w /\ w <= z /\ z <= final (dd_x d).
Proof.
  intros SOK HB HP. destruct (b_facts spline d HB) as (A & B & _ & _ & _ & _ & HM). set (a := first (dd_x d)) in *. set (b := final (dd_x d)) in *.
  assert (MP : forall m, 0 < dd_moment d m) by (intros m; now apply (mom_pos spline)). split; [exact MP|]. split.
  - intros m x Hx. rewrite (pdf_eq d) by auto. apply Rmult_le_pos; [now apply (hm_pos spline SOK d HB)|left; apply Rinv_0_lt_compat, MP].
  - assert (MO : forall m x y, x <= y -> ind_cdf (dd_dist d) x m false <= ind_cdf (dd_dist d) y m false) by (intros m x y H; now apply (cdf_mono spline)). split.
    + intros m x y H. split; [split; [|now apply MO]|].
      * rewrite <- (cdf_low spline SOK d HB m (Rmin x a)) by apply Rmin_r. apply MO, Rmin_l.
      * rewrite <- (cdf_high spline d HB m (Rmax y b)) by (try apply Rmax_r; apply Rgt_not_eq, MP). apply MO, Rmax_l.
    + exists (dd_moment d 1 / dd_moment d 0), (dd_moment d 2 / dd_moment d 1), (dd_moment d 3 / dd_moment d 2). unfold av_DPn, av_DPw, av_DPz. rewrite !chain_ratio by auto.
      assert (CS : forall m, dd_moment d (S m) / dd_moment d m <= dd_moment d (S (S m)) / dd_moment d (S m)).
      { intros m. pose proof (MP m) as P0. pose proof (MP (S m)) as P1. pose proof (lin3 spline d m 1 (- 2 * (dd_moment d (S m) / dd_moment d m)) ((dd_moment d (S m) / dd_moment d m) ^ 2) SOK HB HP) as H. cbv beta in H. assert (H' : 0 <= 1 * dd_moment d (S (S m)) + - 2 * (dd_moment d (S m) / dd_moment d m) * dd_moment d (S m) + (dd_moment d (S m) / dd_moment d m) ^ 2 * dd_moment d m) by (apply H; intros t _; pose proof (pow2_ge_0 (t - dd_moment d (S m) / dd_moment d m)); nra). clear H.
        replace (1 * dd_moment d (S (S m)) + - 2 * (dd_moment d (S m) / dd_moment d m) * dd_moment d (S m) + (dd_moment d (S m) / dd_moment d m) ^ 2 * dd_moment d m) with (dd_moment d (S (S m)) - dd_moment d (S m) / dd_moment d m * dd_moment d (S m)) in H' by (field; lra). apply (proj1 (Rle_div_r _ _ _ P1)). lra. }
      repeat split; auto.
      * pose proof (lin3 spline d 0 0 1 (- a) SOK HB HP) as H. apply (proj1 (Rle_div_r _ _ _ (MP 0%nat))). cut (0 <= 0 * dd_moment d 2 + 1 * dd_moment d 1 + - a * dd_moment d 0); [lra|apply H]. intros t Ht. fold a b in Ht. lra.
      * pose proof (lin3 spline d 2 0 (-1) b SOK HB HP) as H. apply (proj2 (Rle_div_l _ _ _ (MP 2%nat))). cut (0 <= 0 * dd_moment d 4 + -1 * dd_moment d 3 + b * dd_moment d 2); [lra|apply H]. intros t Ht. fold a b in Ht. lra.
Qed.

(** ** The unit of the data *)
Lemma kept_scale c M0 sam size : 0 < c -> forall pdf, kept M0 sam size (map (fun v => c * v) pdf) = map (fun p => (fst p, c * snd p)) (kept M0 sam size pdf).
Proof.
  intros Hc. unfold kept. generalize (if sam then map (fun x => x / M0) size else size). clear size. induction l as [|x l IH]; intros [|y pdf]; cbn [combine map filter fst snd]; auto. rewrite IH. replace (Rltb 0 (c * y)) with (Rltb 0 y); [destruct (Rltb 0 y && Rleb 1 x); reflexivity|].
  destruct (Rltb 0 y) eqn:E; [apply Rltb_true in E; symmetry; apply Rltb_true; nra|apply Rltb_false in E; symmetry; apply Rltb_false; nra].
Qed.
Theorem C100_scale spline size pdf isint k sam M0 c d : spline_ok spline -> 0 < M0 -> 0 < c -> data_init spline size pdf isint k sam M0 = Ok d ->
  exists d', data_init spline size (map (fun v => c * v) pdf) isint k sam M0 = Ok d' /\ (forall m, dd_moment d' m = c * dd_moment d m) /\
  forall m x, dd_moment d m <> 0 -> 0 < x -> ind_pdf (dd_dist d') x m false = ind_pdf (dd_dist d) x m false /\ ind_cdf (dd_dist d') x m false = ind_cdf (dd_dist d) x m false.
Proof.
  intros SOK HM Hc E. pose proof E as E0. apply init_inv in E0. cbv zeta in E0. destruct E0 as (X & Y & P & SE & M & I & N & L & A & B & F & J).
  assert (HB : built spline d) by (exists size, pdf, isint, k, sam, M0; auto).
  assert (EX : exists d', data_init spline size (map (fun v => c * v) pdf) isint k sam M0 = Ok d').
  { apply C100_accepts. assert (AC : exists d, data_init spline size pdf isint k sam M0 = Ok d) by eauto. apply C100_accepts in AC. destruct AC as (A1 & A2 & A3 & A4). rewrite map_length, kept_scale, map_map, map_length by auto. auto. }
  destruct EX as (d' & E'). exists d'. split; [exact E'|]. pose proof E' as E0. apply init_inv in E0. cbv zeta in E0. rewrite kept_scale in E0 by auto. rewrite !map_map in E0. cbn [fst snd] in E0. destruct E0 as (X' & Y' & P' & SE' & M' & _).
  assert (HB' : built spline d') by (do 6 eexists; split; [exact E'|exact HM]).
  assert (XX : dd_x d' = dd_x d) by (rewrite X, X'; reflexivity). assert (SS : forall t, dd_s d' t = c * dd_s d t).
  { intros t. rewrite SE, SE'. rewrite <- X, <- (map_map snd (fun v => c * v)), <- Y. change (map (fun x : R * R => fst x) (kept M0 sam size pdf)) with (map fst (kept M0 sam size pdf)). rewrite <- X. now apply (sp_lin _ SOK). }
  assert (HH : forall m t, hm d' m t = c * hm d m t) by (intros m t; unfold hm; rewrite SS, P', P; ring).
  assert (SC : forall m u, first (dd_x d) <= u <= final (dd_x d) -> RInt (hm d' m) (first (dd_x d)) u = c * RInt (hm d m) (first (dd_x d)) u).
  { intros m u Hu. rewrite (RInt_ext (hm d' m) (fun t => scal c (hm d m t))) by (intros t _; apply HH). apply (RInt_scal (hm d m)). apply (b_int spline SOK d HB); lra. }
  assert (MM : forall m, dd_moment d' m = c * dd_moment d m) by (intros m; rewrite !(mom_eq spline) by auto; rewrite XX; apply SC; lra).
  split; [exact MM|]. intros m x Hm Hx. split; [rewrite !(pdf_eq _) by auto; rewrite HH, MM; field; lra|].
  destruct (Rle_dec x (first (dd_x d))) as [C|C]; [rewrite !(cdf_low spline SOK) by (auto; rewrite ?XX; auto); reflexivity|]. unfold ind_cdf, dd_dist. cbn [i_cdf]. unfold dd_cdf. rewrite !(quad_eq spline), MM by auto. rewrite XX. rewrite SC; [field; lra|]. split; [apply Rmin_glb; lra|apply Rmin_r].
Qed.

(** ** Positive data, negative density *)
Theorem C100_negative_refuted : exists x y, length x = 4%nat /\ List.Forall (fun v => 0 < v) y /\ incr x /\
  forall spline M0, spline_ok spline -> 0 < M0 -> exists d, data_init spline x y false Mass false M0 = Ok d /\ dd_x d = x /\ dd_y d = y /\
  forall i, (i < 4)%nat -> ind_pdf (dd_dist d) (nth i x 0) 1 false < 0.
Proof.
  exists [1; 2; 3; 100], [1; 2; 1; 1]. assert (IX : incr [1; 2; 3; 100]) by (apply increasing_iff; cbn [increasing]; rewrite !Rltb_t by lra; reflexivity). split; [reflexivity|]. split; [repeat constructor; lra|]. split; [exact IX|]. intros spline M0 SOK HM.
  assert (K : kept M0 false [1; 2; 3; 100] [1; 2; 1; 1] = [(1, 1); (2, 2); (3, 1); (100, 1)]) by (unfold kept; cbn [combine filter fst snd]; rewrite !(proj2 (Rleb_true _ _)), !Rltb_t by lra; reflexivity).
  assert (AC : exists d, data_init spline [1; 2; 3; 100] [1; 2; 1; 1] false Mass false M0 = Ok d) by (apply C100_accepts; rewrite K; cbn [map fst length]; auto).
  destruct AC as (d & E). exists d. split; [exact E|]. pose proof E as E0. apply init_inv in E0. cbv zeta in E0. rewrite K in E0. cbn [map fst snd] in E0. destruct E0 as (X & Y & P & SE & M & I & N & L & A & B & F & J). split; [exact X|]. split; [exact Y|].
  assert (HB : built spline d) by (do 6 eexists; split; [exact E|exact HM]).
  assert (LN : dd_moment d 1 < 0).
  { rewrite (mom_eq spline) by auto. rewrite X. unfold first, final. cbn [nth last]. destruct (sp_four _ SOK [1; 2; 3; 100] [1; 2; 1; 1] IX eq_refl eq_refl) as (p0 & p1 & p2 & p3 & HP). unfold first, final in HP. cbn [nth last] in HP.
    pose proof (fun i Hi => sp_at _ SOK [1; 2; 3; 100] [1; 2; 1; 1] i IX eq_refl ltac:(cbn; lia) Hi) as AT. pose proof (AT 0%nat ltac:(cbn; lia)) as T0. pose proof (AT 1%nat ltac:(cbn; lia)) as T1. pose proof (AT 2%nat ltac:(cbn; lia)) as T2. pose proof (AT 3%nat ltac:(cbn; lia)) as T3. cbn [nth] in T0, T1, T2, T3. rewrite HP in T0, T1, T2, T3 by lra. clear AT.
    rewrite (RInt_ext _ (fun t => p0 + p1 * t + p2 * t ^ 2 + p3 * t ^ 3)) by (rewrite Rmin_left, Rmax_right by lra; intros t Ht; unfold hm; rewrite P, SE; cbn [kind_order]; rewrite Z.sub_diag; cbn [powerRZ]; rewrite HP by lra; apply Rmult_1_l).
    rewrite (is_RInt_unique _ 1 100 (minus ((fun t => p0 * t + p1 * (t ^ 2 / 2) + p2 * (t ^ 3 / 3) + p3 * (t ^ 4 / 4)) 100) ((fun t => p0 * t + p1 * (t ^ 2 / 2) + p2 * (t ^ 3 / 3) + p3 * (t ^ 4 / 4)) 1))).
    - unfold minus, plus, opp. cbn. lra.
    - apply (is_RInt_derive (fun t => p0 * t + p1 * (t ^ 2 / 2) + p2 * (t ^ 3 / 3) + p3 * (t ^ 4 / 4))); intros t _; [auto_derive; [exact Logic.I|field]|]. apply (ex_derive_continuous (fun t => p0 + p1 * t + p2 * t ^ 2 + p3 * t ^ 3) t). auto_derive. exact Logic.I. }
  intros i Hi. pose proof (C100_density spline d SOK HB) as (_ & DD & _). rewrite P in DD. cbn [kind_order] in DD. specialize (DD i ltac:(rewrite X; cbn; lia) ltac:(lra)). rewrite X, Y in DD.
  assert (0 < nth i [1; 2; 1; 1] 0) by (destruct i as [|[|[|[|i]]]]; cbn; try lra; lia). set (q := ind_pdf (dd_dist d) (nth i [1; 2; 3; 100] 0) 1 false) in *. nra.
Qed.

(* ------------------------------------------------------------------ *)
(** * Random chain lengths                                             *)
(* ------------------------------------------------------------------ *)

Lemma rint_spec x : - (1 / 2) <= x - IZR (rint x) <= 1 / 2 /\ (Rabs (x - IZR (rint x)) = 1 / 2 -> Z.even (rint x) = true).
Proof.
  unfold rint. destruct (base_Int_part x) as (A & B). set (f := Int_part x) in *. assert (EV : forall z, Z.even (z + 1) = negb (Z.even z)) by (intros z; rewrite Z.even_add; destruct (Z.even z); reflexivity).
  destruct (Rltb (x - IZR f) (1 / 2)) eqn:E1; [apply Rltb_true in E1; split; [lra|rewrite Rabs_right; lra]|]. apply Rltb_false in E1. destruct (Rltb (1 / 2) (x - IZR f)) eqn:E2; [apply Rltb_true in E2; rewrite plus_IZR; split; [lra|rewrite Rabs_left; lra]|]. apply Rltb_false in E2.
  destruct (Z.even f) eqn:EE; [split; [lra|auto]|]. rewrite plus_IZR. split; [lra|]. intros _. rewrite EV, EE. reflexivity.
Qed.
(** the events of the rounded variate: at most n exactly up to n + 1/2 (excluded when n is odd) *)
Lemma rint_le x n : (rint x <= n)%Z <-> x < IZR n + 1 / 2 \/ (x = IZR n + 1 / 2 /\ Z.even n = true).
Proof.
  destruct (rint_spec x) as ((A & B) & C). split.
  - intros H. apply IZR_le in H. destruct (Rlt_dec x (IZR n + 1 / 2)); [now left|right]. assert (E : IZR (rint x) = IZR n) by lra. assert (x = IZR n + 1 / 2) by lra. split; [lra|]. apply eq_IZR in E. rewrite <- E. apply C. rewrite E. rewrite Rabs_right; lra.
  - intros H. destruct (Z.le_gt_cases (rint x) n) as [L|L]; [exact L|exfalso]. assert (L1 : (n + 1 <= rint x)%Z) by lia. apply IZR_le in L1. rewrite plus_IZR in L1. destruct H as [H|(H & E)]; [lra|]. assert (EQ : IZR (rint x) = IZR (n + 1)) by (rewrite plus_IZR; lra). apply eq_IZR in EQ. assert (Z.even (rint x) = true) by (apply C; rewrite EQ, plus_IZR; rewrite Rabs_left; lra). rewrite EQ, Z.even_add, E in H0. discriminate.
Qed.
(** lengths of the discrete families: at least one; and the mean of a Flory sample is DPn *)
Theorem C101_discrete DPn geometric poisson : 1 < DPn -> (forall p, (1 <= geometric p)%nat) ->
  (1 <= flory_random geometric (flory_a DPn))%Z /\ (1 <= poisson_random poisson (poisson_a DPn))%Z /\
  is_series (fun n => match flory_cdf (flory_a DPn) n 0 with Ok p => 1 - p | Err _ => 0 end) DPn.
Proof.
  intros H HG. split; [unfold flory_random; pose proof (HG (1 - flory_a DPn)); lia|]. split; [unfold poisson_random; lia|].
  apply is_series_ext with (fun n => flory_a DPn ^ n); [intros n; change (flory_a DPn ^ n = 1 - (1 - flory_a DPn ^ n) / 1); field|]. assert (Q : 0 < 1 / DPn < 1) by (split; [apply Rdiv_lt_0_compat; lra|apply (proj2 (Rlt_div_l 1 1 DPn ltac:(lra))); lra]). pose proof (is_series_geom (flory_a DPn) ltac:(unfold flory_a; rewrite Rabs_right; lra)) as G. replace (/ (1 - flory_a DPn)) with DPn in G by (unfold flory_a; field; lra). exact G.
Qed.
(** lengths of the continuous families: zero exactly when the variate does not exceed one half, which has a positive probability
    for all parameters *)
Theorem C101_zero_refuted DPn PDI : 1 <= DPn -> 1 < PDI ->
  (forall g, 0 <= g (logn_mu DPn PDI) (logn_sigma DPn PDI) -> (logn_random g (logn_mu DPn PDI) (logn_sigma DPn PDI) = 0%Z <-> g (logn_mu DPn PDI) (logn_sigma DPn PDI) <= 1 / 2)) /\
  (exists p, logn_cdf erf erfc (logn_mu DPn PDI) (logn_sigma DPn PDI) (1 / 2) 0 = Ok p /\ 0 < p) /\
  (forall g, 0 <= g (sz_k DPn PDI) (sz_theta DPn PDI) -> (sz_random g (sz_k DPn PDI) (sz_theta DPn PDI) = 0%Z <-> g (sz_k DPn PDI) (sz_theta DPn PDI) <= 1 / 2)) /\
  (forall gi gc, (forall k x, 0 < k -> 0 < x -> 0 < gi k x) -> exists p, sz_cdf gi gc (sz_k DPn PDI) (sz_theta DPn PDI) (1 / 2) 0 = Ok p /\ 0 < p) /\
  (forall gi gc, (forall x, 0 <= x -> gi 1 x = 1 - exp (- x)) -> sz_cdf gi gc (sz_k DPn 2) (sz_theta DPn 2) (1 / 2) 0 = Ok (1 - exp (- (1 / (2 * DPn))))).
Proof.
  intros HD HP. assert (Z : forall v, 0 <= v -> rint v = 0%Z <-> v <= 1 / 2).
  { intros v Hv. pose proof (rint_le v 0) as L. pose proof (rint_le v (-1)) as M. split.
    - intros E. rewrite E in L. destruct (proj1 L (Z.le_refl 0)) as [H|(H & _)]; lra.
    - intros H. assert (A : (rint v <= 0)%Z) by (apply L; destruct H as [H| ->]; [left; lra|right; split; [lra|reflexivity]]). assert (B : ~ (rint v <= -1)%Z) by (intros X; apply M in X; destruct X as [X|(X & _)]; lra). lia. }
  split; [intros g Hg; apply Z, Hg|]. split; [eexists; split; [reflexivity|]; pose proof (erf_bounds ((ln (1 / 2) - logn_mu DPn PDI) / (logn_sigma DPn PDI * sqrt 2))); lra|]. split; [intros g Hg; apply Z, Hg|]. split.
  - intros gi gc G. eexists. split; [reflexivity|]. apply G; [unfold sz_k; apply Rdiv_lt_0_compat; lra|unfold sz_theta; apply Rdiv_lt_0_compat; [lra|apply Rmult_lt_0_compat; lra]].
  - intros gi gc G. unfold sz_cdf, sz_k, sz_theta. replace (1 / (2 - 1)) with 1 by field. replace (1 / 2 / (DPn * (2 - 1))) with (1 / (2 * DPn)) by (field; lra). rewrite G; [reflexivity|]. left. apply Rdiv_lt_0_compat; lra.
Qed.
(** the law of the lengths, with the generators driven by a uniform number u (length at most k exactly when u does not exceed the
    cumulative probability): discrete families follow their cumulative distribution, the rounded ones the value at k + 1/2 *)
Theorem C101_law (DPn PDI : R) (geometric poisson : R -> R -> nat) (lognormal gamma : R -> R -> R -> R) gc gl gi (u : R) : 1 < DPn -> 1 < PDI ->
  (forall k, (geometric (1 / DPn)%R u <= k)%nat <-> u <= 1 - (1 - 1 / DPn) ^ k) -> (forall k, (poisson (DPn - 1)%R u <= k)%nat <-> u <= gc (INR k + 1) (DPn - 1)) ->
  (forall x, 0 < x -> (lognormal (ln (DPn / sqrt PDI)) (sqrt (ln PDI)) u <= x <-> exists p, logn_cdf erf erfc (ln (DPn / sqrt PDI)) (sqrt (ln PDI)) x 0 = Ok p /\ u <= p)) ->
  (forall x, 0 < x -> (gamma (1 / (PDI - 1)) (DPn * (PDI - 1)) u <= x <-> u <= gi (1 / (PDI - 1)) (x / (DPn * (PDI - 1))))) ->
  (forall k, (flory_random (fun p => geometric p u) (flory_a DPn) <= Z.of_nat k)%Z <-> exists p, flory_cdf (flory_a DPn) k 0 = Ok p /\ u <= p) /\
  (forall k, (1 <= k)%nat -> (poisson_random (fun a => poisson a u) (poisson_a DPn) <= Z.of_nat k)%Z <-> exists p, poisson_cdf gc gl (poisson_a DPn) (INR k) 0 = Ok p /\ u <= p) /\
  (forall k, Nat.even k = true -> (logn_random (fun mu s => lognormal mu s u) (logn_mu DPn PDI) (logn_sigma DPn PDI) <= Z.of_nat k)%Z <-> exists p, logn_cdf erf erfc (logn_mu DPn PDI) (logn_sigma DPn PDI) (INR k + 1 / 2) 0 = Ok p /\ u <= p) /\
  (forall k, Nat.even k = true -> (sz_random (fun a th => gamma a th u) (sz_k DPn PDI) (sz_theta DPn PDI) <= Z.of_nat k)%Z <-> exists p, sz_cdf gi gc (sz_k DPn PDI) (sz_theta DPn PDI) (INR k + 1 / 2) 0 = Ok p /\ u <= p).
Proof.
  intros HD HP HG HPo HL HGa. split; [|split; [|split]].
  - intros k. unfold flory_random. rewrite <- Nat2Z.inj_le. replace (1 - flory_a DPn) with (1 / DPn) by (unfold flory_a; ring). rewrite HG. change (1 - 1 / DPn) with (flory_a DPn). unfold flory_cdf, flory_moment. split; [intros H; eexists; split; [reflexivity|lra]|intros (p & E & H); injection E as <-; lra].
  - intros [|k] Hk; [lia|]. unfold poisson_random. assert (E : (Z.of_nat (poisson (poisson_a DPn) u) + 1 <= Z.of_nat (S k))%Z <-> (poisson (poisson_a DPn) u <= k)%nat) by lia. rewrite E. change (poisson_a DPn) with (DPn - 1). rewrite HPo. unfold poisson_cdf, poisson_moment. rewrite S_INR. split; [intros H; eexists; split; [reflexivity|lra]|intros (p & E' & H); injection E' as <-; lra].
  - intros k Hk. unfold logn_random. rewrite rint_le. unfold logn_mu, logn_sigma. rewrite <- HL by (pose proof (pos_INR k); lra). rewrite INR_IZR_INZ. assert (EV : Z.even (Z.of_nat k) = true) by (apply Z.even_spec; apply Nat.even_spec in Hk; destruct Hk as (m & ->); exists (Z.of_nat m); lia). split; [intros [H|(H & _)]; lra|]. intros [H|H]; [left; lra|right; split; [lra|exact EV]].
  - intros k Hk. unfold sz_random. rewrite rint_le. unfold sz_k, sz_theta. assert (EV : Z.even (Z.of_nat k) = true) by (apply Z.even_spec; apply Nat.even_spec in Hk; destruct Hk as (m & ->); exists (Z.of_nat m); lia). unfold sz_cdf. transitivity (gamma (1 / (PDI - 1)) (DPn * (PDI - 1)) u <= INR k + 1 / 2).
    + rewrite INR_IZR_INZ. split; [intros [H|(H & _)]; lra|]. intros [H|H]; [left; lra|right; split; [lra|exact EV]].
    + rewrite HGa by (pose proof (pos_INR k); lra). split; [intros H; eexists; split; [reflexivity|exact H]|intros (p & E' & H); injection E' as <-; exact H].
Qed.
(** with DPn = 2 and u = 1/2 the geometric variate is 1 *)
Example C101_law_example : let geometric := fun (_ _ : R) => 1%nat in (forall k, (geometric (1 / 2)%R (1 / 2)%R <= k)%nat <-> 1 / 2 <= 1 - (1 - 1 / 2) ^ k) /\ flory_random (fun p => geometric p (1 / 2)%R) (flory_a 2) = 1%Z.
Proof. cbv zeta. split; [|reflexivity]. intros [|k]; [split; [lia|cbn; lra]|]. split; [|lia]. intros _. cbn [pow]. assert (0 < (1 - 1 / 2) ^ k <= 1) by (split; [apply pow_lt; lra|]; pose proof (pow_incr (1 - 1 / 2) 1 k ltac:(lra)) as P; rewrite pow1 in P; exact P). lra. Qed.
(** the sampled lengths of a Schulz-Zimm distribution with PDI = 2 have a mean below DPn: sum over n of P(length > n) = P(variate > n + 1/2) *)
Lemma sinh_gt u : 0 < u -> 2 * u < exp u - exp (- u).
Proof.
  intros H. assert (G : forall t, D (fun x => exp x - exp (- x) - 2 * x) t (exp t + exp (- t) - 2)) by (intros t; unfold D; auto_derive; [exact Logic.I|ring]).
  assert (P : forall t, 0 < t -> 0 < exp t + exp (- t) - 2). { intros t Ht. pose proof (exp_pos t) as P1. assert (E : exp t * exp (- t) = 1) by (rewrite <- exp_plus; replace (t + - t) with 0 by ring; apply exp_0). assert (1 < exp t) by (rewrite <- exp_0; now apply exp_increasing). assert (0 < (exp t - 1) ^ 2) by (apply pow_lt; lra). nra. }
  destruct (MVT_gen (fun x => exp x - exp (- x) - 2 * x) 0 u (fun t => exp t + exp (- t) - 2)) as (c & Hc & E); [intros t _; apply G|intros t _; apply continuity_pt_filterlim; apply (ex_derive_continuous (fun x => exp x - exp (- x) - 2 * x)); eexists; apply G|]. rewrite Rmin_left, Rmax_right in Hc by lra. rewrite Ropp_0, exp_0 in E.
  destruct (Req_dec c 0) as [C0|C0].
  - assert (0 < u / 2) by lra. destruct (MVT_gen (fun x => exp x - exp (- x) - 2 * x) (u / 2) u (fun t => exp t + exp (- t) - 2)) as (c1 & Hc1 & E1); [intros t _; apply G|intros t _; apply continuity_pt_filterlim; apply (ex_derive_continuous (fun x => exp x - exp (- x) - 2 * x)); eexists; apply G|]. rewrite Rmin_left, Rmax_right in Hc1 by lra.
    destruct (MVT_gen (fun x => exp x - exp (- x) - 2 * x) 0 (u / 2) (fun t => exp t + exp (- t) - 2)) as (c2 & Hc2 & E2); [intros t _; apply G|intros t _; apply continuity_pt_filterlim; apply (ex_derive_continuous (fun x => exp x - exp (- x) - 2 * x)); eexists; apply G|]. rewrite Rmin_left, Rmax_right in Hc2 by lra. rewrite Ropp_0, exp_0 in E2. pose proof (P c1 ltac:(lra)).
    assert (0 <= exp c2 + exp (- c2) - 2) by (destruct (Req_dec c2 0) as [->|N]; [rewrite Ropp_0, exp_0; lra|left; apply P; lra]). nra.
  - pose proof (P c ltac:(lra)). nra.
Qed.
Lemma exp_pow n x : exp x ^ n = exp (INR n * x).
Proof. induction n as [|n IH]; [cbn [pow INR]; now rewrite Rmult_0_l, exp_0|]. rewrite S_INR. cbn [pow]. rewrite IH, <- exp_plus. f_equal. ring. Qed.
Theorem C101_mean_refuted DPn gi gc : 1 <= DPn -> (forall x, 0 <= x -> gi 1 x = 1 - exp (- x)) ->
  exists m, is_series (fun n => match sz_cdf gi gc (sz_k DPn 2) (sz_theta DPn 2) (INR n + 1 / 2) 0 with Ok p => 1 - p | Err _ => 0 end) m /\ m = / (exp (1 / (2 * DPn)) - exp (- (1 / (2 * DPn)))) /\ m < DPn.
Proof.
  intros HD G. set (u := 1 / (2 * DPn)). assert (U : 0 < u) by (apply Rdiv_lt_0_compat; lra). exists (/ (exp u - exp (- u))). pose proof (sinh_gt u U) as SH. split; [|split; [reflexivity|]].
  - apply is_series_ext with (fun n => exp (- u) * (exp (- (2 * u))) ^ n).
    + intros n. unfold sz_cdf, sz_k, sz_theta. replace (1 / (2 - 1)) with 1 by field. assert (N := pos_INR n). rewrite G by (apply Rmult_le_pos; [lra|left; apply Rinv_0_lt_compat; lra]). rewrite exp_pow, <- exp_plus. change (exp (- u + INR n * - (2 * u)) = 1 - (1 - exp (- ((INR n + 1 / 2) / (DPn * (2 - 1)))))). transitivity (exp (- ((INR n + 1 / 2) / (DPn * (2 - 1))))); [f_equal; unfold u; field; lra|ring].
    + replace (/ (exp u - exp (- u))) with (exp (- u) * / (1 - exp (- (2 * u)))).
      * apply (is_series_scal_l (exp (- u)) (fun n => exp (- (2 * u)) ^ n)). apply is_series_geom. rewrite Rabs_right by (left; apply exp_pos). rewrite <- exp_0. apply exp_increasing. lra.
      * assert (E : exp u * exp (- u) = 1) by (rewrite <- exp_plus; replace (u + - u) with 0 by ring; apply exp_0). replace (- (2 * u)) with (- u + - u) by ring. rewrite exp_plus. assert (exp (- u) < 1) by (rewrite <- exp_0; apply exp_increasing; lra). pose proof (exp_pos (- u)). pose proof (exp_pos u). assert (exp u = / exp (- u)) by (apply Rmult_eq_reg_r with (exp (- u)); [rewrite E; field; lra|lra]). rewrite H2. assert (0 < 1 - exp (- u) * exp (- u)) by nra. field; repeat split; lra.
  - replace DPn with (/ (2 * u)) by (unfold u; field; lra). apply Rinv_lt_contravar; [apply Rmult_lt_0_compat; lra|exact SH].
Qed.

(* ------------------------------------------------------------------ *)
(** * Default ranges                                                   *)
(* ------------------------------------------------------------------ *)

(** discrete families: the ends are the quantiles of the cumulative distribution of the class *)
Theorem C101_range DPn gc gl geom_ppf poisson_ppf :
  1 < DPn ->
  (forall q p, 0 < q < 1 -> 0 < p < 1 -> q <= 1 - (1 - p) ^ geom_ppf q p /\ forall m, (m < geom_ppf q p)%nat -> 1 - (1 - p) ^ m < q) ->
  (forall q a, 0 < q < 1 -> 0 < a -> q <= gc (INR (poisson_ppf q a) + 1) a /\ forall m, (m < poisson_ppf q a)%nat -> gc (INR m + 1) a < q) ->
  (exists l h cl ch, flory_range geom_ppf (flory_a DPn) = (INR l, INR h) /\ flory_cdf (flory_a DPn) l 0 = Ok cl /\ flory_cdf (flory_a DPn) h 0 = Ok ch /\ 1 / 10000 <= cl /\ 9999 / 10000 <= ch /\
     (forall m c, (m < l)%nat -> flory_cdf (flory_a DPn) m 0 = Ok c -> c < 1 / 10000) /\ (forall m c, (m < h)%nat -> flory_cdf (flory_a DPn) m 0 = Ok c -> c < 9999 / 10000)) /\
  (exists l h cl ch, poisson_range poisson_ppf (poisson_a DPn) = (INR l, INR h) /\ (1 <= l)%nat /\ poisson_cdf gc gl (poisson_a DPn) (INR l) 0 = Ok cl /\ poisson_cdf gc gl (poisson_a DPn) (INR h) 0 = Ok ch /\ 1 / 10000 <= cl /\ 9999 / 10000 <= ch /\
     (forall m c, (1 <= m < l)%nat -> poisson_cdf gc gl (poisson_a DPn) (INR m) 0 = Ok c -> c < 1 / 10000) /\ (forall m c, (1 <= m < h)%nat -> poisson_cdf gc gl (poisson_a DPn) (INR m) 0 = Ok c -> c < 9999 / 10000)).
Proof.
  intros H HG HPo. assert (Q : 0 < 1 / DPn < 1) by (split; [apply Rdiv_lt_0_compat; lra|apply (proj2 (Rlt_div_l 1 1 DPn ltac:(lra))); lra]). assert (FA : 0 < 1 - flory_a DPn < 1) by (unfold flory_a; lra). split.
  - destruct (HG ppf_lo (1 - flory_a DPn) ltac:(unfold ppf_lo; lra) FA) as (L1 & L2). destruct (HG ppf_hi (1 - flory_a DPn) ltac:(unfold ppf_hi; lra) FA) as (H1 & H2). replace (1 - (1 - flory_a DPn)) with (flory_a DPn) in L1, L2, H1, H2 by ring. unfold ppf_lo, ppf_hi in *.
    exists (geom_ppf (1 / 10000) (1 - flory_a DPn)), (geom_ppf (9999 / 10000) (1 - flory_a DPn)). do 2 eexists. split; [reflexivity|]. unfold flory_cdf, flory_moment. split; [reflexivity|]. split; [reflexivity|]. split; [lra|]. split; [lra|]. split; intros m c Hm E; injection E as <-; [pose proof (L2 m Hm)|pose proof (H2 m Hm)]; lra.
  - assert (PA : 0 < poisson_a DPn) by (unfold poisson_a; lra). destruct (HPo ppf_lo (poisson_a DPn) ltac:(unfold ppf_lo; lra) PA) as (L1 & L2). destruct (HPo ppf_hi (poisson_a DPn) ltac:(unfold ppf_hi; lra) PA) as (H1 & H2). unfold ppf_lo, ppf_hi in *.
    exists (S (poisson_ppf (1 / 10000) (poisson_a DPn))), (S (poisson_ppf (9999 / 10000) (poisson_a DPn))), (gc (INR (S (poisson_ppf (1 / 10000) (poisson_a DPn)))) (poisson_a DPn) / 1), (gc (INR (S (poisson_ppf (9999 / 10000) (poisson_a DPn)))) (poisson_a DPn) / 1). split; [unfold poisson_range, ppf_lo, ppf_hi; rewrite !S_INR; f_equal; ring|]. split; [lia|]. unfold poisson_cdf, poisson_moment. split; [reflexivity|]. split; [reflexivity|]. rewrite !S_INR. split; [lra|]. split; [lra|]. split; intros [|m] c Hm E; try lia; rewrite S_INR in E; injection E as <-; [pose proof (L2 m ltac:(lia))|pose proof (H2 m ltac:(lia))]; lra.
Qed.
(** continuous families: both ends are shifted by one from the quantiles *)
Definition quantile_of (cdf : R -> res R) (q : R -> R) : Prop := forall p, 0 < p < 1 -> 0 < q p /\ cdf (q p) = Ok p.
Lemma logn_cdf_lt mu sigma x y a b : 0 < sigma -> 0 < x -> x < y -> logn_cdf erf erfc mu sigma x 0 = Ok a -> logn_cdf erf erfc mu sigma y 0 = Ok b -> a < b.
Proof.
  intros Hs Hx Hxy E1 E2. injection E1 as <-. injection E2 as <-. pose proof (ln_increasing x y Hx Hxy). assert (P : 0 < sigma * sqrt 2) by (apply Rmult_lt_0_compat; [lra|apply sqrt_lt_R0; lra]). pose proof (erf_incr ((ln x - mu) / (sigma * sqrt 2)) ((ln y - mu) / (sigma * sqrt 2))). apply Rmult_lt_compat_r; [lra|]. apply Rplus_lt_compat_l. apply H0. apply Rmult_lt_compat_r; [now apply Rinv_0_lt_compat|lra].
Qed.
Theorem C101_shift DPn PDI ppf : 1 <= DPn -> 1 < PDI -> quantile_of (fun x => logn_cdf erf erfc (logn_mu DPn PDI) (logn_sigma DPn PDI) x 0) (fun p => ppf p (logn_sigma DPn PDI) (exp (logn_mu DPn PDI))) ->
  exists lo hi l h, logn_range ppf (logn_mu DPn PDI) (logn_sigma DPn PDI) = (lo, hi) /\
    logn_cdf erf erfc (logn_mu DPn PDI) (logn_sigma DPn PDI) (lo - 1) 0 = Ok (1 / 10000) /\ logn_cdf erf erfc (logn_mu DPn PDI) (logn_sigma DPn PDI) (hi - 1) 0 = Ok (9999 / 10000) /\
    logn_cdf erf erfc (logn_mu DPn PDI) (logn_sigma DPn PDI) lo 0 = Ok l /\ logn_cdf erf erfc (logn_mu DPn PDI) (logn_sigma DPn PDI) hi 0 = Ok h /\ 1 / 10000 < l /\ 9999 / 10000 < h.
Proof.
  intros HD HP Q. destruct (Q (1 / 10000) ltac:(lra)) as (L1 & L2). destruct (Q (9999 / 10000) ltac:(lra)) as (H1 & H2). cbv beta in *. set (s := logn_sigma DPn PDI) in *. set (mu := logn_mu DPn PDI) in *. assert (S0 : 0 < s) by (unfold s, logn_sigma; apply sqrt_lt_R0; rewrite <- ln_1; apply ln_increasing; lra).
  exists (1 + ppf (1 / 10000) s (exp mu)), (1 + ppf (9999 / 10000) s (exp mu)). do 2 eexists. split; [reflexivity|]. replace (1 + ppf (1 / 10000) s (exp mu) - 1) with (ppf (1 / 10000) s (exp mu)) by ring. replace (1 + ppf (9999 / 10000) s (exp mu) - 1) with (ppf (9999 / 10000) s (exp mu)) by ring. split; [exact L2|]. split; [exact H2|]. split; [reflexivity|]. split; [reflexivity|].
  split; [apply (logn_cdf_lt mu s (ppf (1 / 10000) s (exp mu)) (1 + ppf (1 / 10000) s (exp mu))); auto; lra|apply (logn_cdf_lt mu s (ppf (9999 / 10000) s (exp mu)) (1 + ppf (9999 / 10000) s (exp mu))); auto; lra].
Qed.
Theorem C101_shift_sz DPn PDI gi gc ppf : 1 <= DPn -> 1 < PDI -> (forall k x y, 0 < k -> 0 < x < y -> gi k x < gi k y) -> quantile_of (fun x => sz_cdf gi gc (sz_k DPn PDI) (sz_theta DPn PDI) x 0) (fun p => ppf p (sz_k DPn PDI) (sz_theta DPn PDI)) ->
  exists lo hi l h, sz_range ppf (sz_k DPn PDI) (sz_theta DPn PDI) = (lo, hi) /\
    sz_cdf gi gc (sz_k DPn PDI) (sz_theta DPn PDI) (lo - 1) 0 = Ok (1 / 10000) /\ sz_cdf gi gc (sz_k DPn PDI) (sz_theta DPn PDI) (hi - 1) 0 = Ok (9999 / 10000) /\
    sz_cdf gi gc (sz_k DPn PDI) (sz_theta DPn PDI) lo 0 = Ok l /\ sz_cdf gi gc (sz_k DPn PDI) (sz_theta DPn PDI) hi 0 = Ok h /\ 1 / 10000 < l /\ 9999 / 10000 < h.
Proof.
  intros HD HP HM Q. destruct (Q (1 / 10000) ltac:(lra)) as (L1 & L2). destruct (Q (9999 / 10000) ltac:(lra)) as (H1 & H2). cbv beta in *. set (k := sz_k DPn PDI) in *. set (th := sz_theta DPn PDI) in *. assert (K : 0 < k) by (unfold k, sz_k; apply Rdiv_lt_0_compat; lra). assert (T : 0 < th) by (unfold th, sz_theta; apply Rmult_lt_0_compat; lra).
  exists (1 + ppf (1 / 10000) k th), (1 + ppf (9999 / 10000) k th). do 2 eexists. split; [reflexivity|]. replace (1 + ppf (1 / 10000) k th - 1) with (ppf (1 / 10000) k th) by ring. replace (1 + ppf (9999 / 10000) k th - 1) with (ppf (9999 / 10000) k th) by ring. split; [exact L2|]. split; [exact H2|]. split; [reflexivity|]. split; [reflexivity|].
  assert (G : forall z, 0 < z -> gi k (z / th) < gi k ((1 + z) / th)) by (intros z Hz; apply HM; [exact K|]; split; [apply Rdiv_lt_0_compat; lra|apply Rmult_lt_compat_r; [now apply Rinv_0_lt_compat|lra]]).
  injection L2 as L2. injection H2 as H2. rewrite <- L2 at 1. rewrite <- H2 at 1. split; apply G; assumption.
Qed.
(** a narrow distribution: the default range lies above 99.99 % of the chains *)
Theorem C101_range_refuted : exists DPn PDI, 1 <= DPn /\ 1000001 / 1000000 <= PDI /\ forall ppf, quantile_of (fun x => logn_cdf erf erfc (logn_mu DPn PDI) (logn_sigma DPn PDI) x 0) (fun p => ppf p (logn_sigma DPn PDI) (exp (logn_mu DPn PDI))) ->
  exists c, logn_cdf erf erfc (logn_mu DPn PDI) (logn_sigma DPn PDI) (fst (logn_range ppf (logn_mu DPn PDI) (logn_sigma DPn PDI))) 0 = Ok c /\ 9999 / 10000 < c.
Proof.
  exists 10, (10001 / 10000). split; [lra|]. split; [lra|]. intros ppf Q. destruct (Q (1 / 10000) ltac:(lra)) as (L1 & L2). destruct (Q (9999 / 10000) ltac:(lra)) as (H1 & H2). cbv beta in *. set (s := logn_sigma 10 (10001 / 10000)) in *. set (mu := logn_mu 10 (10001 / 10000)) in *.
  assert (S0 : 0 < s) by (unfold s, logn_sigma; apply sqrt_lt_R0; rewrite <- ln_1; apply ln_increasing; lra).
  assert (S1 : s <= 1 / 100). { unfold s, logn_sigma. replace (1 / 100) with (sqrt ((1 / 100) ^ 2)) by (apply sqrt_pow2; lra). apply sqrt_le_1_alt. replace (10001 / 10000) with (1 + 1 / 10000) by field. pose proof (exp_ineq1_le (1 / 10000)) as EX. replace ((1 / 100) ^ 2) with (1 / 10000) by field. rewrite <- (ln_exp (1 / 10000)) at 2. apply ln_le; lra. }
  assert (W : sqrt 2 <= 15 / 10) by (replace (15 / 10) with (sqrt ((15 / 10) ^ 2)) by (apply sqrt_pow2; lra); apply sqrt_le_1_alt; lra). assert (W0 : 0 < sqrt 2) by (apply sqrt_lt_R0; lra).
  assert (E3 : 9998 / 10000 < erf 3). { pose proof (erfc_upper 3 ltac:(lra)) as E. unfold erfc in E. replace (- 3 ^ 2) with (- 9) in E by ring. assert (exp (- 9) <= 15 / 100000); [|lra]. apply Rle_trans with ((/ 27 * 10) ^ 9); [|cbn; lra]. replace (- 9) with (INR 9 * - (1)) by (cbn; lra). rewrite <- exp_pow. apply pow_incr. split; [left; apply exp_pos|]. rewrite exp_Ropp. replace (/ 27 * 10) with (/ (27 / 10)) by field. apply Rinv_le_contravar; [lra|]. apply exp_lower; unfold q6; lra. }
  assert (SP : 0 < s * sqrt 2 <= 15 / 1000) by (split; [now apply Rmult_lt_0_compat|]; replace (15 / 1000) with (1 / 100 * (15 / 10)) by field; apply Rmult_le_compat; lra).
  set (ql := ppf (1 / 10000) s (exp mu)) in *. set (qh := ppf (9999 / 10000) s (exp mu)) in *.
  assert (B : forall z, 0 < z -> (ln z - mu) / (s * sqrt 2) < 3 -> z < exp mu * (1 + 5 / 100)).
  { intros z Hz H. apply (proj1 (Rlt_div_l _ _ _ (proj1 SP))) in H. apply Rlt_le_trans with (exp (mu + 45 / 1000)). - rewrite <- (exp_ln z Hz). apply exp_increasing. lra. - rewrite exp_plus. apply Rmult_le_compat_l; [left; apply exp_pos|]. apply exp_upper; unfold q5; lra. }
  assert (C : forall z, 0 < z -> -3 < (ln z - mu) / (s * sqrt 2) -> exp mu * (1 - 46 / 1000) < z).
  { intros z Hz H. apply (proj2 (Rlt_div_r _ _ _ (proj1 SP))) in H. apply Rle_lt_trans with (exp (mu + - (45 / 1000))). - rewrite exp_plus. apply Rmult_le_compat_l; [left; apply exp_pos|]. pose proof (exp_ineq1_le (- (45 / 1000))). lra. - rewrite <- (exp_ln z Hz). apply exp_increasing. lra. }
  assert (LQ : exp mu * (1 - 46 / 1000) < ql). { apply C; [exact L1|]. injection L2 as L2. destruct (Rlt_dec (-3) ((ln ql - mu) / (s * sqrt 2))) as [X|X]; [exact X|exfalso]. assert (Y : erf ((ln ql - mu) / (s * sqrt 2)) <= erf (- 3)) by (destruct (Req_dec ((ln ql - mu) / (s * sqrt 2)) (- 3)) as [->|N]; [lra|left; apply erf_incr; lra]). pose proof (erf_opp 3) as EO. replace (- (3)) with (- 3) in EO by lra. lra. }
  assert (HQ : qh < exp mu * (1 + 5 / 100)). { apply B; [exact H1|]. injection H2 as H2. destruct (Rlt_dec ((ln qh - mu) / (s * sqrt 2)) 3) as [X|X]; [exact X|exfalso]. assert (Y : erf 3 <= erf ((ln qh - mu) / (s * sqrt 2))) by (destruct (Req_dec ((ln qh - mu) / (s * sqrt 2)) 3) as [->|N]; [lra|left; apply erf_incr; lra]). lra. }
  assert (M : exp mu <= 10). { unfold mu, logn_mu. assert (1 <= sqrt (10001 / 10000)) by (rewrite <- sqrt_1; apply sqrt_le_1_alt; lra). rewrite exp_ln by (apply Rdiv_lt_0_compat; lra). apply (proj2 (Rle_div_l 10 10 (sqrt (10001 / 10000)) ltac:(lra))). lra. }
  eexists. split; [reflexivity|]. unfold logn_range. cbn [fst]. apply (logn_cdf_lt mu s qh (1 + ql)); auto; lra.
Qed.

(* ------------------------------------------------------------------ *)
(** * fit                                                              *)
(* ------------------------------------------------------------------ *)

(** the starting lengths: strictly increasing, strictly inside the range of the data; equally spaced on a logarithmic scale *)
Theorem C102_start spline d dim : built spline d -> (1 <= dim)%nat ->
  (forall i, (i < dim)%nat -> first (dd_x d) < fit_DPn d dim i < final (dd_x d)) /\
  (forall i j, (i < j)%nat -> fit_DPn d dim i < fit_DPn d dim j) /\
  (forall i, fit_DPn d dim (S i) / fit_DPn d dim i = Rpower (final (dd_x d) / first (dd_x d)) (1 / (INR dim + 1))).
Proof.
  intros HB HD. destruct (b_facts spline d HB) as (A & B & _). set (a := first (dd_x d)) in *. set (b := final (dd_x d)) in *. assert (Q : 1 < b / a) by (apply (proj1 (Rlt_div_r 1 b a ltac:(lra))); lra). assert (N := lt_0_INR dim ltac:(lia)).
  assert (MI : forall i j, (i < j)%nat -> fit_DPn d dim i < fit_DPn d dim j). { intros i j H. unfold fit_DPn. fold a b. apply Rmult_lt_compat_l; [lra|]. apply Rpower_lt; [exact Q|]. apply lt_INR in H. apply Rmult_lt_compat_r; [apply Rinv_0_lt_compat; lra|lra]. }
  split; [|split; [exact MI|]].
  - intros i H. apply lt_INR in H. pose proof (pos_INR i). unfold fit_DPn. fold a b. split.
    + rewrite <- (Rmult_1_r a) at 1. apply Rmult_lt_compat_l; [lra|]. apply Rle_lt_trans with (Rpower (b / a) 0); [rewrite Rpower_O; lra|]. apply Rpower_lt; [exact Q|]. apply Rdiv_lt_0_compat; lra.
    + apply Rlt_le_trans with (a * Rpower (b / a) 1); [|rewrite Rpower_1 by lra; right; field; lra]. apply Rmult_lt_compat_l; [lra|]. apply Rpower_lt; [exact Q|]. apply (proj2 (Rlt_div_l (INR i + 1) 1 (INR dim + 1) ltac:(lra))). lra.
  - intros i. unfold fit_DPn. fold a b. rewrite S_INR. replace ((INR i + 1 + 1) / (INR dim + 1)) with ((INR i + 1) / (INR dim + 1) + 1 / (INR dim + 1)) by (field; lra). rewrite Rpower_plus. assert (P : 0 < Rpower (b / a) ((INR i + 1) / (INR dim + 1))) by apply exp_pos. field. split; lra.
Qed.

Lemma dotl_cons u a v x : dotl (u :: a) (v :: x) = u * v + dotl a x.
Proof. reflexivity. Qed.
Lemma dotl_map (f : nat -> R) x k : dotl (map f (seq k (length x))) x = lsum (map (fun j => f (k + j)%nat * nth j x 0) (seq 0 (length x))).
Proof.
  revert k. induction x as [|v x IH]; intros k; [reflexivity|]. cbn [length seq map]. rewrite dotl_cons, IH. cbn [lsum fold_right map]. change (fold_right Rplus 0) with lsum. rewrite <- seq_shift, map_map. f_equal; [rewrite Nat.add_0_r; reflexivity|]. f_equal. apply map_ext. intros j. rewrite Nat.add_succ_r. reflexivity.
Qed.
Lemma lsum_app l m : lsum (l ++ m) = lsum l + lsum m.
Proof. induction l as [|x l IH]; cbn [lsum fold_right app]; [change (fold_right Rplus 0) with lsum; ring|]. change (fold_right Rplus 0) with lsum. rewrite IH. ring. Qed.
Lemma lsum_zero l : (forall x, In x l -> x = 0) -> lsum l = 0.
Proof. induction l as [|x l IH]; intros H; [reflexivity|]. cbn [lsum fold_right]. change (fold_right Rplus 0) with lsum. rewrite IH by (intros y Hy; apply H; now right). rewrite (H x) by now left. ring. Qed.
Lemma lsum_one (f : nat -> R) k n c : (k <= c < k + n)%nat -> (forall j, j <> c -> f j = 0) -> lsum (map f (seq k n)) = f c.
Proof.
  revert k. induction n as [|n IH]; intros k H Z; [lia|]. cbn [seq map lsum fold_right]. change (fold_right Rplus 0) with lsum. destruct (Nat.eq_dec k c) as [->|N].
  - rewrite lsum_zero; [ring|]. intros y Hy. apply in_map_iff in Hy. destruct Hy as (j & <- & Hj). apply in_seq in Hj. apply Z. lia.
  - rewrite IH by (auto; lia). rewrite (Z k N). ring.
Qed.
Lemma lsum_plus (f g : nat -> R) l : lsum (map (fun j => f j + g j) l) = lsum (map f l) + lsum (map g l).
Proof. induction l as [|x l IH]; cbn [map lsum fold_right]; [ring|]. change (fold_right Rplus 0) with lsum. rewrite IH. ring. Qed.
(** the constraints of the optimiser: weights summing to one, non-decreasing lengths *)
Theorem C102_constraints (p2 : bool) dim x : (1 <= dim)%nat -> length x = (if p2 then 3 * dim else 2 * dim)%nat ->
  dotl (fit_eq_row dim (length x)) x = lsum (firstn dim x) /\
  forall i, (i + 1 < dim)%nat -> (dotl (fit_le_row dim (length x) i) x <= 0 <-> Rpower 10 (nth (dim + i) x 0) <= Rpower 10 (nth (dim + (i + 1)) x 0)).
Proof.
  intros HD HL. assert (L2 : (2 * dim <= length x)%nat) by (rewrite HL; destruct p2; lia). clear HL. split.
  - unfold fit_eq_row. rewrite dotl_map. replace (length x) with (dim + (length x - dim))%nat by lia. rewrite seq_app, map_app, lsum_app. rewrite (lsum_zero (map (fun j => (if Nat.ltb (0 + j) dim then 1 else 0) * nth j x 0) (seq (0 + dim) (length x - dim)))).
    + rewrite Rplus_0_r. f_equal. assert (G : forall n y, (n <= length y)%nat -> map (fun j => nth j y 0) (seq 0 n) = firstn n y). { clear. induction n as [|n IH]; intros [|v y] H; cbn [length] in H; try lia; auto. cbn [seq map firstn nth]. f_equal. rewrite <- seq_shift, map_map. rewrite <- (IH y) by lia. reflexivity. } rewrite <- G by lia. apply map_ext_in. intros j Hj. apply in_seq in Hj. cbn [Nat.add]. destruct (Nat.ltb_spec j dim); [ring|lia].
    + intros y Hy. apply in_map_iff in Hy. destruct Hy as (j & <- & Hj). apply in_seq in Hj. cbn [Nat.add]. destruct (Nat.ltb_spec j dim); [lia|ring].
  - intros i Hi. assert (E : dotl (fit_le_row dim (length x) i) x = nth (dim + i) x 0 - nth (dim + (i + 1)) x 0).
    { unfold fit_le_row. rewrite dotl_map. cbn [Nat.add]. rewrite (map_ext _ (fun j => (if Nat.eqb j (dim + i) then nth j x 0 else 0) + (if Nat.eqb j (dim + i + 1) then - nth j x 0 else 0))).
      - rewrite lsum_plus. rewrite (lsum_one _ 0 (length x) (dim + i)) by (first [lia|intros j N; destruct (Nat.eqb_spec j (dim + i)); [contradiction|reflexivity]]). rewrite (lsum_one _ 0 (length x) (dim + i + 1)) by (first [lia|intros j N; destruct (Nat.eqb_spec j (dim + i + 1)); [contradiction|reflexivity]]). rewrite !Nat.eqb_refl. rewrite Nat.add_assoc. ring.
      - intros j. destruct (Nat.eqb_spec j (dim + i)), (Nat.eqb_spec j (dim + i + 1)); try lia; ring. }
    rewrite E. split.
    + intros H. apply Rle_Rpower; lra.
    + intros H. destruct (Rle_dec (nth (dim + i) x 0) (nth (dim + (i + 1)) x 0)); [lra|exfalso]. pose proof (Rpower_lt 10 (nth (dim + (i + 1)) x 0) (nth (dim + i) x 0) ltac:(lra) ltac:(lra)). lra.
Qed.

Lemma assign_ok p2 dim x : forall n i, (forall j, (i <= j < i + n)%nat -> 0 <= nth (dim + j) x 0 /\ (p2 = true -> 1000001 / 1000000 <= nth (2 * dim + j) x 0)) ->
  fit_assign p2 dim x i n = Ok (map (fun j => mkComp (nth j x 0) (Rpower 10 (nth (dim + j) x 0)) (if p2 then Some (nth (2 * dim + j) x 0) else None)) (seq i n)).
Proof.
  induction n as [|n IH]; intros i H; [reflexivity|]. cbn [fit_assign seq map]. destruct (H i ltac:(lia)) as (H1 & H2). rewrite Rltb_f by (rewrite <- (Rpower_O 10) by lra; apply Rle_Rpower; lra). replace (p2 && Rltb (nth (2 * dim + i) x 0) (1000001 / 1000000)) with false by (destruct p2; [rewrite Rltb_f by (apply H2; reflexivity); reflexivity|reflexivity]). rewrite IH by (intros j Hj; apply H; lia). reflexivity.
Qed.
Lemma trace_last p2 dim x : forall trace c, fit_trace p2 dim c (trace ++ [x]) = (do _ <- fit_trace p2 dim c trace; fit_assign p2 dim x 0 dim).
Proof.
  induction trace as [|y r IH]; intros c; cbn [app fit_trace bind]; [destruct (fit_assign p2 dim x 0 dim); reflexivity|]. destruct (fit_assign p2 dim y 0 dim) as [c'|e]; cbn [bind]; [apply IH|reflexivity].
Qed.
Definition admissible (p2 : bool) (dim : nat) (x : list R) : Prop := forall j, (j < dim)%nat -> 0 <= nth (dim + j) x 0 /\ (p2 = true -> 1000001 / 1000000 <= nth (2 * dim + j) x 0).
Lemma trace_ok p2 dim : forall trace c, (forall y, In y trace -> admissible p2 dim y) -> exists c', fit_trace p2 dim c trace = Ok c'.
Proof.
  induction trace as [|y r IH]; intros c H; [eexists; reflexivity|]. cbn [fit_trace]. rewrite assign_ok by (intros j Hj; apply (H y); [now left|lia]). cbn [bind]. apply IH. intros z Hz. apply H. now right.
Qed.
(** what is returned: the parameters of the last point at which the objective was evaluated *)
Theorem C102_returned p2 d dim trace x : (1 <= dim <= 10)%nat -> (forall y, In y (trace ++ [x]) -> admissible p2 dim y) ->
  (exists c, fit p2 d dim (trace ++ [x]) true = Ok (Some c) /\ length c = dim /\ forall i, (i < dim)%nat -> nth i c (mkComp 0 0 None) = mkComp (nth i x 0) (Rpower 10 (nth (dim + i) x 0)) (if p2 then Some (nth (2 * dim + i) x 0) else None)) /\
  fit p2 d dim (trace ++ [x]) false = Ok None.
Proof.
  intros HD H. unfold fit. replace (Nat.leb 1 dim && Nat.leb dim 10) with true by (symmetry; apply andb_true_iff; split; apply Nat.leb_le; lia). cbn [negb]. rewrite trace_last. match goal with |- context [fit_trace p2 dim ?s trace] => destruct (trace_ok p2 dim trace s) as (c' & E); [intros y Hy; apply H, in_or_app; now left|] end. rewrite E. cbn [bind]. rewrite assign_ok by (intros j Hj; apply (H x); [apply in_or_app; right; now left|lia]). cbn [bind]. split; [|reflexivity]. eexists. split; [reflexivity|]. split; [now rewrite map_length, seq_length|].
  intros i Hi. assert (G : forall (F : nat -> comp) dv, nth i (map F (seq 0 dim)) dv = F i) by (intros F dv; rewrite (nth_indep _ dv (F 0%nat)) by (rewrite map_length, seq_length; lia); rewrite map_nth, seq_nth by lia; reflexivity). rewrite G. reflexivity.
Qed.
(** so an evaluation after the best point leaves other parameters in the result, and a larger misfit *)
Theorem C102_solution_refuted : exists trace sol, In sol trace /\ (forall y, In y trace -> admissible false 1 y) /\ forall d, exists c, fit false d 1 trace true = Ok (Some [c]) /\ c_DPn c = 1000 /\
  fit_assign false 1 sol 0 1 = Ok [mkComp 1 100 None] /\ forall misfit : list comp -> R, misfit [mkComp 1 100 None] < misfit [mkComp 1 1000 None] -> misfit [mkComp 1 100 None] < misfit [c].
Proof.
  assert (P : forall n, Rpower 10 (INR n) = 10 ^ n) by (intros n; apply Rpower_pow; lra). exists [[1; 2]; [1; 3]], [1; 2]. split; [now left|].
  assert (AD : forall y, In y [[1; 2]; [1; 3]] -> admissible false 1 y) by (intros y [<-|[<-|[]]] [|j] Hj; try lia; cbn; split; try lra; discriminate). split; [exact AD|]. intros d.
  assert (R3 : Rpower 10 3 = 1000) by (replace 3 with (INR 3) by (cbn; lra); rewrite P; cbn; lra). assert (R2 : Rpower 10 2 = 100) by (replace 2 with (INR 2) by (cbn; lra); rewrite P; cbn; lra).
  destruct (C102_returned false d 1 [[1; 2]] [1; 3] ltac:(lia) AD) as ((c & E & L & C) & _). specialize (C 0%nat ltac:(lia)). cbn [nth Nat.add Nat.mul] in C. rewrite R3 in C. destruct c as [|c0 [|c1 c]]; try discriminate L. cbn [nth] in C. exists c0. split; [exact E|]. split; [rewrite C; reflexivity|]. split; [rewrite assign_ok by (intros j Hj; apply (AD [1; 2]); [now left|lia]); cbn [seq map nth Nat.add Nat.mul]; rewrite R2; reflexivity|]. intros f H. rewrite C. exact H.
Qed.
(** the setters raise out of the optimiser when a trial point leaves the domain *)
Theorem C102_raises p2 d dim trace x : (1 <= dim <= 10)%nat -> (forall y, In y trace -> admissible p2 dim y) -> (exists j, (j < dim)%nat /\ (nth (dim + j) x 0 < 0 \/ (p2 = true /\ nth (2 * dim + j) x 0 < 1000001 / 1000000))) ->
  forall rest ok, fit p2 d dim (trace ++ x :: rest) ok = Err RangeError.
Proof.
  intros HD H (j & Hj & HX) rest ok. assert (A : forall n i, (i <= j < i + n)%nat -> fit_assign p2 dim x i n = Err RangeError).
  { induction n as [|n IH]; intros i Hi; [lia|]. cbn [fit_assign]. destruct (Rltb (Rpower 10 (nth (dim + i) x 0)) 1) eqn:E1; [reflexivity|]. apply Rltb_false in E1. destruct (p2 && Rltb (nth (2 * dim + i) x 0) (1000001 / 1000000)) eqn:E2; [reflexivity|]. destruct (Nat.eq_dec i j) as [->|N]; [exfalso|rewrite IH by lia; reflexivity]. destruct HX as [HX|(-> & HX)].
    - pose proof (Rpower_lt 10 _ 0 ltac:(lra) HX) as L. rewrite Rpower_O in L by lra. lra.
    - rewrite Rltb_t in E2 by exact HX. discriminate. }
  assert (T : forall tr c, (forall y, In y tr -> admissible p2 dim y) -> fit_trace p2 dim c (tr ++ x :: rest) = Err RangeError).
  { induction tr as [|y r IH]; intros c HT; cbn [app fit_trace]; [rewrite A by lia; reflexivity|]. rewrite assign_ok by (intros k Hk; apply (HT y); [now left|lia]). cbn [bind]. apply IH. intros z Hz. apply HT. now right. }
  unfold fit. replace (Nat.leb 1 dim && Nat.leb dim 10) with true by (symmetry; apply andb_true_iff; split; apply Nat.leb_le; lia). cbn [negb]. rewrite T by auto. reflexivity.
Qed.
(** points within the bounds given to the optimiser never raise; the starting point need not satisfy them *)
Definition in_bounds (b : list (R * R)) (x : list R) : Prop := forall j, (j < length b)%nat -> fst (nth j b (0, 0)) <= nth j x 0 <= snd (nth j b (0, 0)).
Lemma log10_pos x : 1 <= x -> 0 <= log10 x.
Proof. intros H. unfold log10. apply Rmult_le_pos; [rewrite <- ln_1; apply ln_le; lra|]. left. apply Rinv_0_lt_compat. rewrite <- ln_1. apply ln_increasing; lra. Qed.
Lemma log10_le x y : 0 < x -> x <= y -> log10 x <= log10 y.
Proof. intros H H'. unfold log10. apply Rmult_le_compat_r; [|apply ln_le; lra]. left. apply Rinv_0_lt_compat. rewrite <- ln_1. apply ln_increasing; lra. Qed.
Lemma log10_lt x y : 0 < x -> x < y -> log10 x < log10 y.
Proof. intros H H'. unfold log10. apply Rmult_lt_compat_r; [|apply ln_increasing; lra]. apply Rinv_0_lt_compat. rewrite <- ln_1. apply ln_increasing; lra. Qed.
Lemma nth_repeat {A} (v dv : A) n j : (j < n)%nat -> nth j (repeat v n) dv = v.
Proof. revert j. induction n as [|n IH]; intros [|j] H; try lia; cbn; auto. apply IH. lia. Qed.
Lemma nth_mid {A} (l m r : list A) dv j : (j < length m)%nat -> nth (length l + j) (l ++ m ++ r) dv = nth j m dv.
Proof. intros H. rewrite app_nth2 by lia. rewrite app_nth1 by lia. f_equal. lia. Qed.
Lemma bounds_parts (p2 : bool) d dim : length (fit_bounds p2 d dim) = (if p2 then 3 * dim else 2 * dim)%nat /\ (forall j, (j < dim)%nat -> nth j (fit_bounds p2 d dim) (0, 0) = (0, 1)) /\
  (forall j, (j < dim)%nat -> nth (dim + j) (fit_bounds p2 d dim) (0, 0) = (log10 3, log10 (final (dd_x d)))) /\ (p2 = true -> forall j, (j < dim)%nat -> nth (2 * dim + j) (fit_bounds p2 d dim) (0, 0) = (101 / 100, 5)).
Proof.
  unfold fit_bounds. split; [rewrite !app_length, !repeat_length; destruct p2; cbn [length]; rewrite ?repeat_length; lia|]. split; [intros j Hj; rewrite app_nth1 by (rewrite repeat_length; lia); now apply nth_repeat|]. split.
  - intros j Hj. pose proof (nth_mid (repeat (0, 1) dim) (repeat (log10 3, log10 (final (dd_x d))) dim) (if p2 then repeat (101 / 100, 5) dim else []) (0, 0) j ltac:(rewrite repeat_length; lia)) as E. rewrite repeat_length in E. rewrite E. now apply nth_repeat.
  - intros -> j Hj. rewrite !app_nth2 by (rewrite ?repeat_length; lia). rewrite !repeat_length. rewrite nth_repeat by lia. reflexivity.
Qed.
Theorem C102_bounds p2 d dim x : in_bounds (fit_bounds p2 d dim) x -> admissible p2 dim x.
Proof.
  intros H j Hj. destruct (bounds_parts p2 d dim) as (L & _ & B & C). assert (L2 : (dim + j < length (fit_bounds p2 d dim))%nat) by (rewrite L; destruct p2; lia). split.
  - specialize (H (dim + j)%nat L2). rewrite B in H by lia. cbn [fst snd] in H. pose proof (log10_pos 3 ltac:(lra)). lra.
  - intros ->. specialize (H (2 * dim + j)%nat ltac:(rewrite L; lia)). rewrite C in H by auto. cbn [fst snd] in H. lra.
Qed.
(** the starting point: evaluating the objective there assigns the starting components; it meets the constraints *)
Lemma log10_inv x : 0 < x -> Rpower 10 (log10 x) = x.
Proof. intros H. unfold log10, Rpower. assert (L : 0 < ln 10) by (rewrite <- ln_1; apply ln_increasing; lra). replace (ln x / ln 10 * ln 10) with (ln x) by (field; lra). now apply exp_ln. Qed.
Lemma x0_parts (p2 : bool) d dim : length (fit_x0 p2 d dim) = (if p2 then 3 * dim else 2 * dim)%nat /\ (forall j, (j < dim)%nat -> nth j (fit_x0 p2 d dim) 0 = 1 / INR dim) /\
  (forall j, (j < dim)%nat -> nth (dim + j) (fit_x0 p2 d dim) 0 = log10 (fit_DPn d dim j)) /\ (p2 = true -> forall j, (j < dim)%nat -> nth (2 * dim + j) (fit_x0 p2 d dim) 0 = 2).
Proof.
  unfold fit_x0. split; [rewrite !app_length, repeat_length, map_length, seq_length; destruct p2; cbn [length]; rewrite ?repeat_length; lia|]. split; [intros j Hj; rewrite app_nth1 by (rewrite repeat_length; lia); now apply nth_repeat|]. split.
  - intros j Hj. pose proof (nth_mid (repeat (1 / INR dim) dim) (map (fun i => log10 (fit_DPn d dim i)) (seq 0 dim)) (if p2 then repeat 2 dim else []) 0 j ltac:(rewrite map_length, seq_length; lia)) as E. rewrite repeat_length in E. rewrite E. rewrite (nth_indep _ 0 ((fun i => log10 (fit_DPn d dim i)) 0%nat)) by (rewrite map_length, seq_length; lia). rewrite (map_nth (fun i => log10 (fit_DPn d dim i))), seq_nth by lia. reflexivity.
  - intros -> j Hj. rewrite !app_nth2 by (rewrite ?repeat_length, ?map_length, ?seq_length; lia). rewrite repeat_length, map_length, seq_length. apply nth_repeat. lia.
Qed.
Theorem C102_start_point p2 spline d dim : built spline d -> (1 <= dim)%nat ->
  fit_assign p2 dim (fit_x0 p2 d dim) 0 dim = Ok (map (fun i => mkComp (1 / INR dim) (fit_DPn d dim i) (if p2 then Some 2 else None)) (seq 0 dim)) /\
  dotl (fit_eq_row dim (length (fit_x0 p2 d dim))) (fit_x0 p2 d dim) = 1 /\ (forall i, (i + 1 < dim)%nat -> dotl (fit_le_row dim (length (fit_x0 p2 d dim)) i) (fit_x0 p2 d dim) <= 0) /\
  (3 <= first (dd_x d) -> in_bounds (fit_bounds p2 d dim) (fit_x0 p2 d dim)).
Proof.
  intros HB HD. destruct (b_facts spline d HB) as (A & B & _). destruct (x0_parts p2 d dim) as (L & X1 & X2 & X3). destruct (C102_start spline d dim HB HD) as (S1 & S2 & _).
  assert (SP : forall i, (i < dim)%nat -> 1 < fit_DPn d dim i) by (intros i Hi; pose proof (S1 i Hi); lra). assert (ND : 1 <= INR dim) by (change 1 with (INR 1); apply le_INR; lia). split; [|split; [|split]].
  - rewrite assign_ok.
    + f_equal. apply map_ext_in. intros j Hj. apply in_seq in Hj. rewrite X1, X2 by lia. rewrite log10_inv by (pose proof (SP j ltac:(lia)); lra). destruct p2; [rewrite X3 by (auto; lia)|]; reflexivity.
    + intros j Hj. rewrite X2 by lia. split; [apply log10_pos; pose proof (SP j ltac:(lia)); lra|]. intros ->. rewrite X3 by (auto; lia). lra.
  - destruct (C102_constraints p2 dim (fit_x0 p2 d dim) HD L) as (E & _). rewrite E. unfold fit_x0. rewrite firstn_app, repeat_length, Nat.sub_diag. cbn [firstn]. rewrite app_nil_r. rewrite firstn_all2 by (rewrite repeat_length; lia). assert (G : forall n v, lsum (repeat v n) = INR n * v) by (intros n v; induction n as [|n IH]; [cbn; ring|]; rewrite S_INR; cbn [repeat lsum fold_right]; change (fold_right Rplus 0) with lsum; rewrite IH; ring). rewrite G. field. lra.
  - intros i Hi. destruct (C102_constraints p2 dim (fit_x0 p2 d dim) HD L) as (_ & E). apply E; [exact Hi|]. rewrite !X2 by lia. rewrite !log10_inv by (pose proof (SP i ltac:(lia)); pose proof (SP (i + 1)%nat ltac:(lia)); lra). left. apply S2. lia.
  - intros H3 j Hj. destruct (bounds_parts p2 d dim) as (LB & B1 & B2 & B3). rewrite LB in Hj. destruct (Nat.lt_ge_cases j dim) as [C1|C1]; [rewrite B1, X1 by lia; cbn [fst snd]; split; [left; apply Rdiv_lt_0_compat; lra|apply (proj2 (Rle_div_l 1 1 (INR dim) ltac:(lra))); lra]|]. destruct (Nat.lt_ge_cases j (2 * dim)) as [C2|C2].
    + replace j with (dim + (j - dim))%nat by lia. rewrite B2, X2 by lia. cbn [fst snd]. pose proof (S1 (j - dim)%nat ltac:(lia)). split; apply log10_le; lra.
    + destruct p2; [|lia]. replace j with (2 * dim + (j - 2 * dim))%nat by lia. rewrite B3, X3 by (auto; lia). cbn [fst snd]. lra.
Qed.
Theorem C102_start_refuted : exists x y, forall spline M0, spline_ok spline -> 0 < M0 -> exists d, data_init spline x y false Mass false M0 = Ok d /\ dd_x d = x /\ forall p2, ~ in_bounds (fit_bounds p2 d 1) (fit_x0 p2 d 1).
Proof.
  exists [1; 2; 3; 4], [1; 2; 2; 1]. intros spline M0 SOK HM. assert (IX : incr [1; 2; 3; 4]) by (apply increasing_iff; cbn [increasing]; rewrite !Rltb_t by lra; reflexivity).
  assert (K : kept M0 false [1; 2; 3; 4] [1; 2; 2; 1] = [(1, 1); (2, 2); (3, 2); (4, 1)]) by (unfold kept; cbn [combine filter fst snd]; rewrite !(proj2 (Rleb_true _ _)), !Rltb_t by lra; reflexivity).
  assert (AC : exists d, data_init spline [1; 2; 3; 4] [1; 2; 2; 1] false Mass false M0 = Ok d) by (apply C100_accepts; rewrite K; cbn [map fst length]; auto). destruct AC as (d & E). exists d. split; [exact E|]. apply init_inv in E. cbv zeta in E. rewrite K in E. cbn [map fst snd] in E. destruct E as (X & _). split; [exact X|].
  intros p2 H. destruct (bounds_parts p2 d 1) as (L & _ & B & _). specialize (H 1%nat ltac:(rewrite L; destruct p2; lia)). change 1%nat with (1 + 0)%nat in H. rewrite B in H by lia. unfold fit_x0, fit_DPn in H. cbn [repeat map seq app nth fst snd INR Nat.add] in H. rewrite X in H. unfold first, final in H. cbn [nth last] in H.
  assert (E2 : 1 * Rpower (4 / 1) ((0 + 1) / (1 + 1)) = 2) by (rewrite Rmult_1_l; replace (4 / 1) with (2 ^ 2) by field; rewrite <- Rpower_pow by lra; rewrite Rpower_mult; replace (INR 2 * ((0 + 1) / (1 + 1))) with 1 by (cbn; field); apply Rpower_1; lra). rewrite E2 in H. pose proof (log10_lt 2 3 ltac:(lra) ltac:(lra)). lra.
Qed.
(** one component: the weight does not matter *)
Theorem C102_one d w x m sam : w <> 0 -> moment_mass d 0 0 <> 0 -> moment_mass d 1 0 <> 0 -> moment_mass d m 0 <> 0 -> mix_cdf [(d, w)] x m sam = ind_cdf d x m sam.
Proof.
  intros Hw H0 H1 Hm. unfold mix_cdf, zipsum, molefrac, lsum. cbn [map combine fold_right]. assert (N : ind_Mn d <> 0) by (unfold ind_Mn; apply Rmult_integral_contrapositive_currified; [auto|now apply Rinv_neq_0_compat]). field. repeat split; auto.
Qed.

(* ------------------------------------------------------------------ *)
(** * Concrete cases                                                   *)
(* ------------------------------------------------------------------ *)

(** an interpolation that meets [spline_ok]: the interpolating polynomial within the range, zero outside *)
Fixpoint basis (xs : list R) (xi t : R) : R :=
  match xs with [] => 1 | x :: r => (if Req_EM_T x xi then 1 else (t - x) * / (xi - x)) * basis r xi t end.
Definition lagr (x y : list R) (t : R) : R := lsum (map (fun '(xi, yi) => yi * basis x xi t) (combine x y)).
Definition interp (x y : list R) (t : R) : R := if Rleb (first x) t && Rleb t (final x) then lagr x y t else 0.
Lemma basis_cont xs xi t : continuous (basis xs xi) t.
Proof.
  induction xs as [|x r IH]; [apply continuous_const|]. cbn [basis]. destruct (Req_EM_T x xi).
  - apply (continuous_ext (basis r xi)); [intros s; symmetry; apply Rmult_1_l|exact IH].
  - apply (continuous_mult (fun t => (t - x) * / (xi - x)) (basis r xi)); [|exact IH]. apply (ex_derive_continuous (fun t => (t - x) * / (xi - x))). auto_derive. exact Logic.I.
Qed.
Lemma lagr_cont x y t : continuous (lagr x y) t.
Proof.
  unfold lagr. generalize (combine x y). intros l. induction l as [|(a & b) l IH]; [apply continuous_const|]. cbn [map]. apply (continuous_plus (fun t => b * basis x a t) (fun t => lsum (map (fun '(xi, yi) => yi * basis x xi t) l))); [|exact IH]. apply (continuous_mult (fun _ => b) (basis x a)); [apply continuous_const|apply basis_cont].
Qed.
Lemma basis_self xs xi : basis xs xi xi = 1.
Proof. induction xs as [|x r IH]; [reflexivity|]. cbn [basis]. rewrite IH. destruct (Req_EM_T x xi); [ring|field; intros E; apply n; lra]. Qed.
Lemma basis_other xs xi t : In t xs -> t <> xi -> basis xs xi t = 0.
Proof. induction xs as [|x r IH]; intros H N; [destruct H|]. cbn [basis]. destruct H as [->|H]; [destruct (Req_EM_T t xi); [contradiction|ring]|rewrite IH by auto; ring]. Qed.
Lemma interp_ok : spline_ok interp.
Proof.
  assert (IN : forall x i, incr x -> (i < length x)%nat -> first x <= nth i x 0 <= final x). { intros x i I H. rewrite final_nth. unfold first. split; [destruct i; [lra|left; apply I; lia]|]. destruct (Nat.eq_dec i (length x - 1)) as [->|N]; [lra|left; apply I; lia]. }
  split.
  - intros x y I L _. exists (lagr x y). split; [intros t; apply lagr_cont|]. intros t Ht. unfold interp. rewrite !(proj2 (Rleb_true _ _)) by lra. reflexivity.
  - intros x y i I L _ Hi. unfold interp. pose proof (IN x i I Hi). rewrite !(proj2 (Rleb_true _ _)) by lra. cbn [andb]. unfold lagr.
    assert (G : forall k xs ys, length ys = length xs -> (forall j, (j < length xs)%nat -> nth j xs 0 = nth (k + j) x 0) -> (k + length xs <= length x)%nat -> lsum (map (fun '(xi, yi) => yi * basis x xi (nth i x 0)) (combine xs ys)) = if Nat.leb k i && Nat.ltb i (k + length xs) then nth (i - k) ys 0 else 0).
    { intros k xs. revert k. induction xs as [|a xs IH]; intros k [|b ys] E1 E2 E3; cbn [length] in *; try discriminate; cbn [combine map lsum fold_right].
      - destruct (Nat.leb_spec k i), (Nat.ltb_spec i (k + 0)); cbn; auto; lia.
      - change (fold_right Rplus 0) with lsum. rewrite (IH (S k) ys) by (try lia; intros j Hj; rewrite Nat.add_succ_comm; apply (E2 (S j)); lia). pose proof (E2 0%nat ltac:(lia)) as EA. cbn [nth] in EA. rewrite Nat.add_0_r in EA. rewrite EA. destruct (Nat.eq_dec k i) as [->|N].
        + rewrite basis_self. destruct (Nat.leb_spec (S i) i); [lia|]. destruct (Nat.leb_spec i i), (Nat.ltb_spec i (i + S (length xs))); try lia. cbn [andb]. rewrite Nat.sub_diag. cbn [nth]. ring.
        + assert (NE : nth i x 0 <> nth k x 0) by (destruct (Nat.lt_total i k) as [C|[C|C]]; [pose proof (I i k ltac:(lia)); lra|lia|pose proof (I k i ltac:(lia)); lra]). rewrite basis_other by (auto; apply nth_In; lia). rewrite Rmult_0_r, Rplus_0_l. destruct (Nat.leb_spec (S k) i), (Nat.leb_spec k i), (Nat.ltb_spec i (S k + length xs)), (Nat.ltb_spec i (k + S (length xs))); try lia; cbn [andb]; auto. replace (i - k)%nat with (S (i - S k)) by lia. reflexivity. }
    rewrite (G 0%nat x y) by (auto; lia). destruct (Nat.leb_spec 0 i), (Nat.ltb_spec i (0 + length x)); try lia. cbn [andb]. now rewrite Nat.sub_0_r.
  - intros x y t I L _ H. unfold interp. destruct H as [H|H]; [rewrite (proj2 (Rleb_false (first x) t)) by lra; reflexivity|rewrite (proj2 (Rleb_false t (final x))) by lra; now rewrite andb_false_r].
  - intros x y c t I L _. unfold interp. destruct (Rleb (first x) t && Rleb t (final x)); [|ring]. unfold lagr. generalize (basis x). intros B. clear I. revert y L. induction x as [|a x IH]; intros [|b y] L; try discriminate; cbn [map combine lsum fold_right]; [ring|]. change (fold_right Rplus 0) with lsum. rewrite IH by (injection L; auto). ring.
  - intros x y I L L4. destruct x as [|a [|b [|c [|d [|? ?]]]]]; try discriminate. destruct y as [|y0 [|y1 [|y2 [|y3 [|? ?]]]]]; try discriminate. pose proof (I 0%nat 1%nat ltac:(cbn; lia)) as I1. pose proof (I 1%nat 2%nat ltac:(cbn; lia)) as I2. pose proof (I 2%nat 3%nat ltac:(cbn; lia)) as I3. cbn [nth] in I1, I2, I3. unfold interp, first, final. cbn [nth last].
    set (k0 := y0 * (/ (a - b) * / (a - c) * / (a - d))). set (k1 := y1 * (/ (b - a) * / (b - c) * / (b - d))). set (k2 := y2 * (/ (c - a) * / (c - b) * / (c - d))). set (k3 := y3 * (/ (d - a) * / (d - b) * / (d - c))).
    exists (- (k0 * b * c * d + k1 * a * c * d + k2 * a * b * d + k3 * a * b * c)), (k0 * (b * c + b * d + c * d) + k1 * (a * c + a * d + c * d) + k2 * (a * b + a * d + b * d) + k3 * (a * b + a * c + b * c)), (- (k0 * (b + c + d) + k1 * (a + c + d) + k2 * (a + b + d) + k3 * (a + b + c))), (k0 + k1 + k2 + k3).
    intros t Ht. rewrite !(proj2 (Rleb_true _ _)) by lra. cbn [andb]. unfold lagr. cbn [combine map lsum fold_right basis]. repeat match goal with |- context [Req_EM_T ?u ?v] => destruct (Req_EM_T u v); try lra end. unfold k0, k1, k2, k3. ring.
Qed.
(** mass data 1, 2, 2, 1 at the lengths 1, 2, 3, 4: the cubic is 5x/2 - x^2/2 - 1, the mass 21/4, and the density 8/21 at length 2 *)
Example C100_example M0 : 0 < M0 -> exists d, data_init interp [1; 2; 3; 4] [1; 2; 2; 1] false Mass false M0 = Ok d /\ built interp d /\ dd_moment d 1 = 21 / 4 /\ ind_pdf (dd_dist d) 2 1 false = 8 / 21 /\ (forall t, 1 <= t <= 4 -> 0 <= dd_s d t) /\
  fit_DPn d 1 0 = 2 /\ exists n, av_DPn (moment_mass (dd_dist d)) = Ok n /\ 1 <= n <= 4.
Proof.
  intros HM. pose proof interp_ok as SOK. assert (IX : incr [1; 2; 3; 4]) by (apply increasing_iff; cbn [increasing]; rewrite !Rltb_t by lra; reflexivity).
  assert (K : kept M0 false [1; 2; 3; 4] [1; 2; 2; 1] = [(1, 1); (2, 2); (3, 2); (4, 1)]) by (unfold kept; cbn [combine filter fst snd]; rewrite !(proj2 (Rleb_true _ _)), !Rltb_t by lra; reflexivity).
  assert (AC : exists d, data_init interp [1; 2; 3; 4] [1; 2; 2; 1] false Mass false M0 = Ok d) by (apply C100_accepts; rewrite K; cbn [map fst length]; auto). destruct AC as (d & E). exists d. split; [exact E|]. assert (HB : built interp d) by (do 6 eexists; split; [exact E|exact HM]). split; [exact HB|].
  apply init_inv in E. cbv zeta in E. rewrite K in E. cbn [map fst snd] in E. destruct E as (X & Y & P & SE & M & _).
  assert (SP : forall t, 1 <= t <= 4 -> dd_s d t = -1 + 5 / 2 * t - 1 / 2 * t ^ 2).
  { intros t Ht. rewrite SE. destruct (sp_four _ SOK [1; 2; 3; 4] [1; 2; 2; 1] IX eq_refl eq_refl) as (p0 & p1 & p2 & p3 & HP). unfold first, final in HP. cbn [nth last] in HP. pose proof (fun i Hi => sp_at _ SOK [1; 2; 3; 4] [1; 2; 2; 1] i IX eq_refl ltac:(cbn; lia) Hi) as AT. pose proof (AT 0%nat ltac:(cbn; lia)) as T0. pose proof (AT 1%nat ltac:(cbn; lia)) as T1. pose proof (AT 2%nat ltac:(cbn; lia)) as T2. pose proof (AT 3%nat ltac:(cbn; lia)) as T3. cbn [nth] in T0, T1, T2, T3. rewrite HP in T0, T1, T2, T3 by lra. rewrite HP by lra. replace p3 with 0 by lra. replace p2 with (- (1 / 2)) by lra. replace p1 with (5 / 2) by lra. replace p0 with (-1) by lra. ring. }
  assert (NN : forall t, 1 <= t <= 4 -> 0 <= dd_s d t) by (intros t Ht; rewrite SP by auto; nra).
  assert (MO : dd_moment d 1 = 21 / 4).
  { rewrite (mom_eq interp) by auto. rewrite X. unfold first, final. cbn [nth last]. rewrite (RInt_ext _ (fun t => -1 + 5 / 2 * t - 1 / 2 * t ^ 2)) by (rewrite Rmin_left, Rmax_right by lra; intros t Ht; unfold hm; rewrite P; cbn [kind_order]; rewrite Z.sub_diag; cbn [powerRZ]; rewrite SP by lra; apply Rmult_1_l).
    rewrite (is_RInt_unique _ 1 4 (minus ((fun t => - t + 5 / 4 * t ^ 2 - 1 / 6 * t ^ 3) 4) ((fun t => - t + 5 / 4 * t ^ 2 - 1 / 6 * t ^ 3) 1))); [unfold minus, plus, opp; cbn; lra|]. apply (is_RInt_derive (fun t => - t + 5 / 4 * t ^ 2 - 1 / 6 * t ^ 3)); intros t _; [auto_derive; [exact Logic.I|field]|]. apply (ex_derive_continuous (fun t => -1 + 5 / 2 * t - 1 / 2 * t ^ 2) t). auto_derive. exact Logic.I. }
  split; [exact MO|]. split; [rewrite (pdf_eq d) by lra; rewrite MO; unfold hm; rewrite P; cbn [kind_order]; rewrite Z.sub_diag; cbn [powerRZ]; rewrite SP by lra; lra|]. split; [exact NN|]. split.
  - unfold fit_DPn. rewrite X. unfold first, final. cbn [nth last INR]. rewrite Rmult_1_l. replace (4 / 1) with (2 ^ 2) by field. rewrite <- Rpower_pow by lra. rewrite Rpower_mult. replace (INR 2 * ((0 + 1) / (1 + 1))) with 1 by (cbn; field). apply Rpower_1; lra.
  - destruct (C100_nonnegative interp d SOK HB ltac:(rewrite X; exact NN)) as (_ & _ & _ & n & w & z & E1 & _ & _ & B1 & B2 & B3 & B4). rewrite X in B1, B4. unfold first, final in B1, B4. cbn [nth last] in B1, B4. exists n. split; [exact E1|lra].
Qed.
(** DPn = 1: the variate 0.4 gives a chain of length zero; 2.5 and 3.5 round to 2 and 4 *)
Example C101_example : rint (4 / 10) = 0%Z /\ rint (5 / 2) = 2%Z /\ rint (7 / 2) = 4%Z.
Proof.
  assert (G : forall x n, x < IZR n + 1 / 2 \/ (x = IZR n + 1 / 2 /\ Z.even n = true) -> ~ (x < IZR (n - 1) + 1 / 2 \/ (x = IZR (n - 1) + 1 / 2 /\ Z.even (n - 1) = true)) -> rint x = n) by (intros x n H1 H2; apply rint_le in H1; assert (~ (rint x <= n - 1)%Z) by (intros H; apply H2, rint_le, H); lia).
  split; [|split]; apply G; cbn [Z.sub Z.add Z.opp Z.pos_sub Pos.pred_double Z.even]; try (left; lra); try (right; split; [lra|reflexivity]); intros [H|(H & H')]; try lra; try discriminate.
Qed.
(** two components: starting point, evaluation, result *)
Example C102_example : fit false (mkDD [1; 10; 100; 1000] [1; 1; 1; 1] 1 (fun _ => 0) 1) 2 [[1 / 4; 3 / 4; 1; 2]] true = Ok (Some [mkComp (1 / 4) 10 None; mkComp (3 / 4) 100 None]) /\
  fit_DPn (mkDD [1; 10; 100; 1000] [1; 1; 1; 1] 1 (fun _ => 0) 1) 2 0 = 10.
Proof.
  assert (P : forall n, Rpower 10 (INR n) = 10 ^ n) by (intros n; apply Rpower_pow; lra). split.
  - unfold fit. cbn [Nat.leb andb negb fit_trace]. rewrite assign_ok by (intros [|[|j]] Hj; cbn [nth Nat.add Nat.mul]; try lia; split; try lra; discriminate). cbn [seq map bind nth Nat.add Nat.mul]. replace (Rpower 10 1) with 10 by (symmetry; apply Rpower_1; lra). replace (Rpower 10 2) with 100 by (replace 2 with (INR 2) by (cbn; lra); rewrite P; cbn; lra). reflexivity.
  - unfold fit_DPn, first, final. cbn [dd_x nth last INR]. rewrite Rmult_1_l. replace (1000 / 1) with (10 ^ 3) by field. rewrite <- Rpower_pow by lra. rewrite Rpower_mult. replace (INR 3 * ((0 + 1) / (1 + 1 + 1))) with 1 by (cbn; field). apply Rpower_1; lra.
Qed.

Print Assumptions C100_accepts. Print Assumptions C100_density. Print Assumptions C100_kinds. Print Assumptions C100_cdf. Print Assumptions C100_nonnegative. Print Assumptions C100_scale. Print Assumptions C100_negative_refuted. Print Assumptions C101_zero_refuted. Print Assumptions C101_law. Print Assumptions C101_shift_sz. Print Assumptions C102_start_point. Print Assumptions C101_mean_refuted. Print Assumptions C101_range. Print Assumptions C101_range_refuted. Print Assumptions C102_returned. Print Assumptions C102_constraints.
