(** Reactivity-ratio fit: fit_copo_data. *)
From Coq Require Import Reals Lra Lia List Bool Arith FunctionalExtensionality.
From Coquelicot Require Import Rcomplements.
From Verif Require Import Prelude RootsModel DiffModel CopoModel CopoDataModel JcrModel CopoProps CopoDataProps FitModel DriftProps.
Import ListNotations.
Open Scope R_scope.

(** the optimiser: a reported success lies within the bounds and carries the value of the objective; an exception of the objective at
    an admissible starting point is passed on *)
Definition opt_spec (opt : opt_t) : Prop :=
  (forall g guess b r v, opt g guess b = FOk (true, r, v) -> (fst (fst b) <= fst r <= snd (fst b)) /\ (fst (snd b) <= snd r <= snd (snd b)) /\ g r = FOk v) /\
  (forall g guess b e, fst (fst b) <= fst guess <= snd (fst b) -> fst (snd b) <= snd guess <= snd (snd b) -> g guess = FErr e -> opt g guess b = FErr e).

(** rejections, in their order *)
Theorem C105_rejects ivp opt inv odr Fq tq eigh Ff fx Fx guess m alpha lin ex np rtol :
  let fit := fit_copo_data ivp opt inv odr Fq tq eigh Ff fx Fx guess m alpha lin ex np rtol in
  let n := (list_sum (map (fun d => length (dff_pts d)) Ff) + list_sum (map (fun d => length (ddr_pts d)) fx) + list_sum (map (fun d => length (ddr_pts d)) Fx))%nat in
  ((n < 2)%nat -> fit = FErr FitError) /\ ((2 <= n)%nat -> m = ODR -> fx <> [] \/ Fx <> [] -> fit = FErr FitError) /\ ((2 <= n)%nat -> m = OtherMethod -> fit = FErr (Raised ValueError)).
Proof.
  cbv zeta. unfold fit_copo_data. fold (n_data Ff fx Fx). split; [|split].
  - intros H. apply Nat.ltb_lt in H. now rewrite H.
  - intros H -> HN. apply Nat.ltb_ge in H. rewrite H. replace (Nat.ltb 0 (length fx) || Nat.ltb 0 (length Fx)) with true; [reflexivity|]. symmetry. apply orb_true_iff. destruct HN as [HN|HN]; [left; destruct fx|right; destruct Fx]; try congruence; reflexivity.
  - intros H ->. apply Nat.ltb_ge in H. rewrite H. reflexivity.
Qed.

(** inversion of a successful fit *)
Lemma fit_inv ivp opt inv odr Fq tq eigh Ff fx Fx guess m alpha lin ex np rtol f : fit_copo_data ivp opt inv odr Fq tq eigh Ff fx Fx guess m alpha lin ex np rtol = FOk f ->
  (2 <= n_data Ff fx Fx)%nat /\ exists sse,
  match m with NLLS => fit_NLLS ivp opt inv Ff fx Fx guess (n_data Ff fx Fx) = FOk (ft_r f, ft_cov f, sse) | ODR => fx = [] /\ Fx = [] /\ fit_ODR odr Ff guess = FOk (ft_r f, ft_cov f, sse) | OtherMethod => False end /\
  match ft_cov f with
  | None => ft_se f = (NaN, NaN) /\ ft_ci f = (NaN, NaN) /\ ft_linear f = None /\ ft_exact f = None
  | Some C => ((2 < n_data Ff fx Fx)%nat -> ft_se f = (np_sqrt (m_at C 0 0), np_sqrt (m_at C 1 1)) /\ ft_ci f = (fl_times (np_sqrt (m_at C 0 0)) (tq (1 - alpha / 2) (n_data Ff fx Fx - 2)%nat), fl_times (np_sqrt (m_at C 1 1)) (tq (1 - alpha / 2) (n_data Ff fx Fx - 2)%nat))) /\
      (if lin then exists e, confidence_ellipse Fq tq eigh 2 (ft_r f) 2 2 (m_at C) (n_data Ff fx Fx) alpha true = Ok e /\ ft_linear f = Some e else ft_linear f = None) /\
      (if ex then exists g, confidence_region Fq sse 2 (ft_r f) (n_data Ff fx Fx) alpha (width_of (fst (ft_ci f))) np rtol = Ok g /\ ft_exact f = Some g else ft_exact f = None)
  end.
Proof.
  unfold fit_copo_data. cbv zeta. set (n := n_data Ff fx Fx). destruct (Nat.ltb n 2) eqn:En; [discriminate|]. apply Nat.ltb_ge in En. intros H. split; [exact En|].
  assert (G : forall r cov sse, (fdo s <- FOk (r, cov, sse); let '(r, cov, sse) := s in
    let se := match cov with Some C => if Nat.ltb 2 n then (np_sqrt (m_at C 0 0), np_sqrt (m_at C 1 1)) else (NaN, NaN) | None => (NaN, NaN) end in
    let ci := (fl_times (fst se) (tq (1 - alpha / 2) (n - 2)%nat), fl_times (snd se) (tq (1 - alpha / 2) (n - 2)%nat)) in
    fdo l <- match cov with Some C => if lin then fdo e <- lift (confidence_ellipse Fq tq eigh 2 r 2 2 (m_at C) n alpha true); FOk (Some e) else FOk None | None => FOk None end;
    fdo x <- match cov with Some _ => if ex then fdo g <- lift (confidence_region Fq sse 2 r n alpha (width_of (fst ci)) np rtol); FOk (Some g) else FOk None | None => FOk None end;
    FOk (mkFit r se ci cov l x)) = FOk f -> ft_r f = r /\ ft_cov f = cov /\ match cov with
  | None => ft_se f = (NaN, NaN) /\ ft_ci f = (NaN, NaN) /\ ft_linear f = None /\ ft_exact f = None
  | Some C => ((2 < n)%nat -> ft_se f = (np_sqrt (m_at C 0 0), np_sqrt (m_at C 1 1)) /\ ft_ci f = (fl_times (np_sqrt (m_at C 0 0)) (tq (1 - alpha / 2) (n - 2)%nat), fl_times (np_sqrt (m_at C 1 1)) (tq (1 - alpha / 2) (n - 2)%nat))) /\
      (if lin then exists e, confidence_ellipse Fq tq eigh 2 r 2 2 (m_at C) n alpha true = Ok e /\ ft_linear f = Some e else ft_linear f = None) /\
      (if ex then exists g, confidence_region Fq sse 2 r n alpha (width_of (fst (ft_ci f))) np rtol = Ok g /\ ft_exact f = Some g else ft_exact f = None)
  end).
  { intros r cov sse E. cbn [fbind] in E. destruct cov as [C|].
    - destruct lin; [destruct (confidence_ellipse Fq tq eigh 2 r 2 2 (m_at C) n alpha true) as [e|] eqn:EE; cbn [lift fbind] in E; [|discriminate]|cbn [fbind] in E].
      + destruct ex; [destruct (confidence_region _ _ _ _ _ _ _ _ _) as [g|] eqn:EG in E; cbn [lift fbind] in E; [|discriminate]|cbn [fbind] in E]; injection E as <-; cbn [ft_r ft_cov ft_se ft_ci ft_linear ft_exact].
        * split; [reflexivity|]. split; [reflexivity|]. split; [intros Hn; apply Nat.ltb_lt in Hn; rewrite Hn; split; reflexivity|]. split; [exists e; split; [first [exact EE|reflexivity]|reflexivity]|]. exists g. split; [first [exact EG|reflexivity]|reflexivity].
        * split; [reflexivity|]. split; [reflexivity|]. split; [intros Hn; apply Nat.ltb_lt in Hn; rewrite Hn; split; reflexivity|]. split; [exists e; split; [first [exact EE|reflexivity]|reflexivity]|reflexivity].
      + destruct ex; [destruct (confidence_region _ _ _ _ _ _ _ _ _) as [g|] eqn:EG in E; cbn [lift fbind] in E; [|discriminate]|cbn [fbind] in E]; injection E as <-; cbn [ft_r ft_cov ft_se ft_ci ft_linear ft_exact].
        * split; [reflexivity|]. split; [reflexivity|]. split; [intros Hn; apply Nat.ltb_lt in Hn; rewrite Hn; split; reflexivity|]. split; [reflexivity|]. exists g. split; [first [exact EG|reflexivity]|reflexivity].
        * split; [reflexivity|]. split; [reflexivity|]. split; [intros Hn; apply Nat.ltb_lt in Hn; rewrite Hn; split; reflexivity|]. split; reflexivity.
    - cbn [fbind] in E. injection E as <-. cbn. repeat split. }
  destruct m.
  - cbn [orb] in H. destruct (fit_NLLS ivp opt inv Ff fx Fx guess n) as [((r, cov), sse)|] eqn:E; [|discriminate]. destruct (G r cov sse H) as (G1 & G2 & G3). exists sse. rewrite G1, G2. split; [reflexivity|exact G3].
  - destruct (Nat.ltb 0 (length fx) || Nat.ltb 0 (length Fx)) eqn:EO; [discriminate|]. apply orb_false_iff in EO. destruct EO as (E1 & E2). destruct (fit_ODR odr Ff guess) as [((r, cov), sse)|] eqn:E; [|discriminate]. destruct (G r cov sse H) as (G1 & G2 & G3). exists sse. rewrite G1, G2. split; [|exact G3]. split; [destruct fx; [reflexivity|discriminate]|]. split; [destruct Fx; [reflexivity|discriminate]|reflexivity].
  - discriminate.
Qed.

Lemma nlls_inv ivp opt inv Ff fx Fx guess n r cov sse : fit_NLLS ivp opt inv Ff fx Fx guess n = FOk (r, cov, sse) ->
  exists v, opt (sse_all ivp Ff fx Fx (1 / 10 ^ 4) (1 / 10 ^ 4)) guess ((1 / 10 ^ 3, 10 ^ 2), (1 / 10 ^ 3, 10 ^ 2)) = FOk (true, r, v) /\ fit_cov inv (total (sse_all ivp Ff fx Fx (1 / 10 ^ 4) (1 / 10 ^ 4))) r v n = Ok cov /\ sse = total (sse_all ivp Ff fx Fx (1 / 10 ^ 5) (1 / 10 ^ 4)).
Proof.
  unfold fit_NLLS. cbv zeta. intros H. destruct (opt _ _ _) as [((b, r'), v)|]; cbn [fbind] in H; [|discriminate]. destruct b; [|discriminate]. match type of H with fbind ?a _ = _ => destruct a; cbn [fbind] in H; [|discriminate] end. destruct (fit_cov _ _ _ _ _) as [c|] eqn:E; cbn [lift fbind] in H; [|discriminate]. injection H as <- <- <-. exists v. auto.
Qed.

(** the estimate of the least-squares method lies in [1e-3, 100]^2, is positive with every point of the difference quotients, and
    the composition is defined there for every feed *)
Theorem C105_estimate ivp opt inv odr Fq tq eigh Ff fx Fx guess alpha lin ex np rtol f : opt_spec opt ->
  fit_copo_data ivp opt inv odr Fq tq eigh Ff fx Fx guess NLLS alpha lin ex np rtol = FOk f ->
  (1 / 1000 <= fst (ft_r f) <= 100 /\ 1 / 1000 <= snd (ft_r f) <= 100) /\
  (forall q, In q (hess_points (ft_r f) (1 / 10 ^ 4)) -> 0 < fst q /\ 0 < snd q /\ forall f1, 0 <= f1 <= 1 -> exists F, inst_copolymer_binary f1 (fst q) (snd q) = Fin F /\ F1r (fst q) (snd q) f1 = F /\ 0 <= F <= 1).
Proof.
  intros HO H. destruct (fit_inv _ _ _ _ _ _ _ _ _ _ _ _ _ _ _ _ _ _ H) as (_ & sse & E & _). destruct (nlls_inv _ _ _ _ _ _ _ _ _ _ _ E) as (v & EO & _). destruct (proj1 HO _ _ _ _ _ EO) as (B1 & B2 & _). cbn [fst snd] in B1, B2. destruct (ft_r f) as (r1, r2). cbn [fst snd] in *. split; [lra|].
  intros q Hq. assert (P : 0 < fst q /\ 0 < snd q). { unfold hess_points in Hq. rewrite !Rabs_right in Hq by lra. cbn [In] in Hq. repeat (destruct Hq as [<-|Hq]; [cbn [fst snd]; lra|]). destruct Hq. }
  split; [tauto|]. split; [tauto|]. intros f1 Hf. assert (A : admissible f1 (fst q) (snd q)) by (repeat split; try lra; intros (A1 & A2); lra). destruct (C28_range f1 (fst q) (snd q) A) as (F & EF & B & _). exists F. split; [exact EF|]. split; [unfold F1r; now rewrite EF|exact B].
Qed.

(** two data points: no errors, no confidence region *)
Theorem C105_two ivp opt inv odr Fq tq eigh Ff fx Fx guess m alpha lin ex np rtol f : n_data Ff fx Fx = 2%nat ->
  fit_copo_data ivp opt inv odr Fq tq eigh Ff fx Fx guess m alpha lin ex np rtol = FOk f ->
  ft_cov f = None /\ ft_se f = (NaN, NaN) /\ ft_ci f = (NaN, NaN) /\ ft_linear f = None /\ ft_exact f = None.
Proof.
  intros HN H. destruct (fit_inv _ _ _ _ _ _ _ _ _ _ _ _ _ _ _ _ _ _ H) as (_ & sse & E & R). assert (C : ft_cov f = None).
  { destruct m; [| |destruct E].
    - destruct (nlls_inv _ _ _ _ _ _ _ _ _ _ _ E) as (v & _ & EC & _). rewrite HN in EC. unfold fit_cov in EC. cbn in EC. now injection EC as <-.
    - destruct E as (-> & -> & E). unfold fit_ODR in E. cbv zeta in E. destruct (od_ok _); [|discriminate]. injection E as _ E _. rewrite <- E. unfold n_data in HN. cbn [map list_sum fold_right] in HN. assert (L : length (odr_points Ff) = 2%nat) by (rewrite <- HN; unfold odr_points; rewrite flat_map_concat_map; clear; induction Ff as [|d l IH]; [reflexivity|]; cbn [map concat list_sum fold_right]; rewrite app_length, map_length; unfold list_sum in *; lia). now rewrite L. }
  rewrite C in R. split; [exact C|exact R].
Qed.

(** three or more: standard errors, intervals, and the agreement with the error bars of the ellipse *)
Theorem C105_intervals ivp opt inv odr Fq tq eigh Ff fx Fx guess m alpha lin ex np rtol f : (3 <= n_data Ff fx Fx)%nat ->
  fit_copo_data ivp opt inv odr Fq tq eigh Ff fx Fx guess m alpha lin ex np rtol = FOk f ->
  exists a b c d, ft_cov f = Some (a, b, c, d) /\
    (0 <= a -> 0 <= d -> ft_se f = (Fin (sqrt a), Fin (sqrt d)) /\ ft_ci f = (Fin (sqrt a * tq (1 - alpha / 2) (n_data Ff fx Fx - 2)%nat), Fin (sqrt d * tq (1 - alpha / 2) (n_data Ff fx Fx - 2)%nat))) /\
    (a < 0 -> fst (ft_se f) = NaN /\ fst (ft_ci f) = NaN) /\
    (lin = true -> 1 / 1000 <= alpha <= 9 / 10 /\ exists e, ft_linear f = Some e /\ el_center e = ft_r f /\ (0 <= a -> 0 <= d -> exists u v, el_ci e = Some (u, v) /\ ft_ci f = (Fin u, Fin v))) /\ (lin = false -> ft_linear f = None).
Proof.
  intros HN H. destruct (fit_inv _ _ _ _ _ _ _ _ _ _ _ _ _ _ _ _ _ _ H) as (_ & sse & E & R). assert (C : exists M, ft_cov f = Some M).
  { destruct m; [| |destruct E].
    - destruct (nlls_inv _ _ _ _ _ _ _ _ _ _ _ E) as (v & _ & EC & _). unfold fit_cov in EC. assert (L : (2 <? n_data Ff fx Fx)%nat = true) by (apply Nat.ltb_lt; lia). rewrite L in EC. cbv zeta in EC. destruct (inv _) as [(((x & y) & z) & w)|]; cbn [bind] in EC; [|discriminate]. injection EC as <-. eexists. reflexivity.
    - destruct E as (-> & -> & E). unfold fit_ODR in E. cbv zeta in E. destruct (od_ok _); [|discriminate]. injection E as _ E _. rewrite <- E. unfold n_data in HN. cbn [map list_sum fold_right] in HN. assert (L : (3 <= length (odr_points Ff))%nat) by (apply (Nat.le_trans _ _ _ HN); apply Nat.eq_le_incl; unfold odr_points; rewrite flat_map_concat_map; clear; induction Ff as [|d l IH]; [reflexivity|]; cbn [map concat list_sum fold_right]; rewrite app_length, map_length; unfold list_sum in *; lia). assert (L' : (2 <? length (odr_points Ff))%nat = true) by (apply Nat.ltb_lt; lia). rewrite L'. eexists. reflexivity. }
  destruct C as ((((a & b) & c) & d) & C). rewrite C in R. destruct R as (R1 & R2 & R3). specialize (R1 ltac:(lia)). destruct R1 as (S1 & S2). cbn [m_at] in S1, S2. exists a, b, c, d. split; [exact C|].
  assert (SQ : forall x, 0 <= x -> np_sqrt x = Fin (sqrt x)) by (intros x Hx; unfold np_sqrt; replace (Rltb x 0) with false by (symmetry; now apply Rltb_false); reflexivity).
  assert (CI : 0 <= a -> 0 <= d -> ft_ci f = (Fin (sqrt a * tq (1 - alpha / 2) (n_data Ff fx Fx - 2)%nat), Fin (sqrt d * tq (1 - alpha / 2) (n_data Ff fx Fx - 2)%nat))) by (intros Ha Hd; rewrite S2, !SQ by assumption; reflexivity).
  split; [intros Ha Hd; split; [rewrite S1, !SQ by assumption; reflexivity|now apply CI]|]. split; [intros Ha; rewrite S1, S2; unfold np_sqrt; replace (Rltb a 0) with true by (symmetry; now apply Rltb_true); split; reflexivity|]. split.
  - intros ->. destruct R2 as (e & EE & EL). unfold confidence_ellipse in EE. cbn [Nat.eqb negb andb] in EE. destruct (Rleb (1 / 1000) alpha) eqn:A1; destruct (Rleb alpha (90 / 100)) eqn:A2; cbn [andb negb] in EE; try discriminate. destruct (Nat.leb 3 (n_data Ff fx Fx)) eqn:EN; cbn [negb] in EE; [|discriminate]. rdec. split; [lra|]. exists e. split; [exact EL|]. injection EE as <-. cbn [el_center el_ci]. split; [reflexivity|]. intros Ha Hd. do 2 eexists. split; [reflexivity|]. rewrite (CI Ha Hd). cbn [m_at]. reflexivity.
  - intros ->. exact R2.
Qed.

(** covariance of the least-squares method: twice the residual variance times the inverse of the difference Hessian *)
Theorem C105_covariance ivp opt inv odr Fq tq eigh Ff fx Fx guess alpha lin ex np rtol f : opt_spec opt -> inv_spec inv -> (3 <= n_data Ff fx Fx)%nat ->
  fit_copo_data ivp opt inv odr Fq tq eigh Ff fx Fx guess NLLS alpha lin ex np rtol = FOk f ->
  let sse := sse_all ivp Ff fx Fx (1 / 10 ^ 4) (1 / 10 ^ 4) in let H := hessian2_centered (total sse) (ft_r f) (1 / 10 ^ 4) in
  (let '(a, b, c, d) := H in a * d - b * c <> 0) ->
  exists C v, ft_cov f = Some C /\ sse (ft_r f) = FOk v /\ mmul H C = (2 * v / (INR (n_data Ff fx Fx) - 2), 0, 0, 2 * v / (INR (n_data Ff fx Fx) - 2)).
Proof.
  intros HO HI HN H. cbv zeta. intros HD. destruct (fit_inv _ _ _ _ _ _ _ _ _ _ _ _ _ _ _ _ _ _ H) as (_ & sse & E & _). destruct (nlls_inv _ _ _ _ _ _ _ _ _ _ _ E) as (v & EO & EC & _). destruct (proj1 HO _ _ _ _ _ EO) as (_ & _ & EV). unfold fit_cov in EC. assert (L : (2 <? n_data Ff fx Fx)%nat = true) by (apply Nat.ltb_lt; lia). rewrite L in EC. cbv zeta in EC.
  destruct (hessian2_centered _ _ _) as (((a & b) & c) & d). destruct (HI a b c d HD) as ((((x & y) & z) & w) & EI & EM). rewrite EI in EC. cbn [bind] in EC. injection EC as EC. eexists. exists v. split; [symmetry; exact EC|]. split; [exact EV|]. cbn [mmul] in EM |- *. injection EM as M1 M2 M3 M4. set (s := v / (INR (n_data Ff fx Fx) - 2)). replace (2 * v / (INR (n_data Ff fx Fx) - 2)) with (2 * s) by (unfold s, Rdiv; ring).
  f_equal; [f_equal; [f_equal|]|].
  - transitivity ((a * x + b * z) * (2 * s)); [ring|]. rewrite M1. ring.
  - transitivity ((a * y + b * w) * (2 * s)); [ring|]. rewrite M2. ring.
  - transitivity ((c * x + d * z) * (2 * s)); [ring|]. rewrite M3. ring.
  - transitivity ((c * y + d * w) * (2 * s)); [ring|]. rewrite M4. ring.
Qed.

(** a common factor of all weights: the objective is multiplied, the covariance does not change *)
Theorem C105_weight_scale inv (k : R) (sse : R * R -> R) r v n : inv_spec inv -> 0 < k -> (3 <= n)%nat -> (let '(a, b, c, d) := hessian2_centered sse r (1 / 10 ^ 4) in a * d - b * c <> 0) ->
  exists C, fit_cov inv sse r v n = Ok (Some C) /\ fit_cov inv (fun q => k * sse q) r (k * v) n = Ok (Some C).
Proof.
  intros HI HK HN HD. unfold fit_cov. assert (L : (2 <? n)%nat = true) by (apply Nat.ltb_lt; lia). rewrite L. cbv zeta. assert (E : hessian2_centered (fun q => k * sse q) r (1 / 10 ^ 4) = mscale k (hessian2_centered sse r (1 / 10 ^ 4))).
  { unfold hessian2_centered. destruct r as (r1, r2). cbv zeta. cbn [mscale]. f_equal; [f_equal; [f_equal|]|]; unfold Rdiv; ring. }
  rewrite E. destruct (hessian2_centered sse r (1 / 10 ^ 4)) as (((a & b) & c) & d). destruct (HI a b c d HD) as ((((x & y) & z) & w) & EI & EM). cbn [mscale].
  assert (HD' : k * a * (k * d) - k * b * (k * c) <> 0) by (replace (k * a * (k * d) - k * b * (k * c)) with (k * k * (a * d - b * c)) by ring; apply Rmult_integral_contrapositive_currified; [nra|exact HD]).
  destruct (HI _ _ _ _ HD') as ((((x' & y') & z') & w') & EI' & EM'). rewrite EI, EI'. cbn [bind]. eexists. split; [reflexivity|]. cbn [mmul] in EM, EM'. injection EM as M1 M2 M3 M4. injection EM' as N1 N2 N3 N4.
  assert (U : forall p q u t, a * p + b * q = u -> c * p + d * q = t -> (a * d - b * c) * p = d * u - b * t /\ (a * d - b * c) * q = a * t - c * u) by (intros p q u t <- <-; split; ring).
  assert (EQ : forall p p', (a * d - b * c) * p = (a * d - b * c) * p' -> p = p') by (intros p p' G; now apply (Rmult_eq_reg_l (a * d - b * c))).
  destruct (U x z 1 0 M1 M3) as (X1 & Z1). destruct (U y w 0 1 M2 M4) as (Y1 & W1). destruct (U (k * x') (k * z') 1 0) as (X2 & Z2); [rewrite <- N1; ring|rewrite <- N3; ring|]. destruct (U (k * y') (k * w') 0 1) as (Y2 & W2); [rewrite <- N2; ring|rewrite <- N4; ring|].
  assert (A1 : x = k * x') by (apply EQ; lra). assert (A2 : y = k * y') by (apply EQ; lra). assert (A3 : z = k * z') by (apply EQ; lra). assert (A4 : w = k * w') by (apply EQ; lra). rewrite A1, A2, A3, A4. f_equal. f_equal. f_equal; [f_equal; [f_equal|]|]; unfold Rdiv; ring.
Qed.

(** exchanging the monomers in F(f) data exchanges the reactivity ratios in the objective *)
Definition swap_Ff (d : dFf) : dFf := mkDFf (map (fun p => let '(f, F, sf, sF) := p in (1 - f, 1 - F, sf, sF)) (dff_pts d)) (dff_w d).
Theorem C105_swap d r1 r2 : 0 < r1 -> 0 < r2 -> (forall p, In p (dff_pts d) -> 0 <= fst (fst (fst p)) <= 1) -> sse_Ff (swap_Ff d) (r2, r1) = sse_Ff d (r1, r2).
Proof.
  intros H1 H2 HP. unfold sse_Ff, swap_Ff. cbn [dff_pts dff_w fst snd]. f_equal. f_equal. rewrite map_map. apply map_ext_in. intros (((f & F) & sf) & sF) Hp. pose proof (HP _ Hp) as B. cbn [fst] in B. assert (A : admissible f r1 r2) by (repeat split; try lra; intros (A1 & A2); lra). destruct (C28_relabel f r1 r2 A) as (G & G' & E & E' & S0). unfold F1r. rewrite E, E'. replace (1 - F - G') with (- (F - G)) by lra. unfold Rsqr, Rdiv. ring.
Qed.

(** scales and weights: multiplying the scales of a data set by c and its weight by c^2 changes nothing *)
Lemma rsum_scale c (l : list R) : rsum_list (map (Rmult c) l) = c * rsum_list l.
Proof. induction l as [|a l IH]; cbn; [ring|rewrite IH; ring]. Qed.
Lemma combine_map_l {A B C} (g : A -> B) (l : list A) (m : list C) : combine (map g l) m = map (fun q => (g (fst q), snd q)) (combine l m).
Proof. revert m. induction l as [|a l IH]; intros [|b m]; cbn; [reflexivity..|]. now rewrite IH. Qed.
Theorem C105_scale ivp atol rtol c r : c <> 0 ->
  (forall d, sse_Ff (mkDFf (map (fun p => let '(f, F, a, b) := p in (f, F, a, c * b)) (dff_pts d)) (c ^ 2 * dff_w d)) r = sse_Ff d r) /\
  (forall d, sse_fx ivp atol rtol (mkDDr (ddr_f10 d) (map (fun p => let '(x, v, s) := p in (x, v, c * s)) (ddr_pts d)) (c ^ 2 * ddr_w d)) r = sse_fx ivp atol rtol d r) /\
  (forall d, sse_Fx ivp atol rtol (mkDDr (ddr_f10 d) (map (fun p => let '(x, v, s) := p in (x, v, c * s)) (ddr_pts d)) (c ^ 2 * ddr_w d)) r = sse_Fx ivp atol rtol d r).
Proof.
  intros HC.
  assert (Q : forall u s, c ^ 2 * Rsqr (u / (c * s)) = Rsqr (u / s)).
  { intros u s. unfold Rsqr, Rdiv. destruct (Req_dec s 0) as [-> |HS]; [rewrite Rmult_0_r, Rinv_0; ring|field; auto]. }
  split; [|split]; intros d.
  - unfold sse_Ff. cbn [dff_pts dff_w]. rewrite (Rmult_comm (c ^ 2)), Rmult_assoc. f_equal. rewrite <- rsum_scale, !map_map. f_equal. apply map_ext. intros (((f & F) & a) & b). apply Q.
  - unfold sse_fx. cbn [ddr_pts ddr_f10 ddr_w]. rewrite map_map. replace (map (fun p => fst (fst (let '(x, v, s) := p in (x, v, c * s)))) (ddr_pts d)) with (map (fun p : R * R * R => fst (fst p)) (ddr_pts d)) by (apply map_ext; intros ((x & v) & s); reflexivity).
    destruct (monomer_drift_binary _ _ _ _ _ _ _) as [o|e]; cbn [fbind]; [|reflexivity]. f_equal. rewrite (Rmult_comm (c ^ 2)), Rmult_assoc. f_equal. rewrite <- rsum_scale, combine_map_l, !map_map. f_equal. apply map_ext. intros (((x & v) & s) & e). apply Q.
  - unfold sse_Fx. cbn [ddr_pts ddr_f10 ddr_w]. rewrite map_map. replace (map (fun p => fst (fst (let '(x, v, s) := p in (x, v, c * s)))) (ddr_pts d)) with (map (fun p : R * R * R => fst (fst p)) (ddr_pts d)) by (apply map_ext; intros ((x & v) & s); reflexivity).
    destruct (monomer_drift_binary _ _ _ _ _ _ _) as [o|e]; cbn [fbind]; [|reflexivity]. f_equal. rewrite (Rmult_comm (c ^ 2)), Rmult_assoc. f_equal. rewrite <- rsum_scale, combine_map_l, !map_map. f_equal. apply map_ext. intros (((x & v) & s) & e). apply Q.
Qed.
(** the sum of a data set is nonnegative, and zero exactly when the prediction reproduces every value: the composition for F(f), the
    computed drift for f(x), and for F(x) the balance f0 = x F + (1 - x) f up to the guard 1e-10 *)
Lemma ws_zero {A} (g : A -> R) w (l : list A) : 0 < w -> 0 <= w * rsum_list (map (fun a => Rsqr (g a)) l) /\ (w * rsum_list (map (fun a => Rsqr (g a)) l) = 0 <-> forall a, In a l -> g a = 0).
Proof.
  intros HW. assert (N : forall a, In a (map (fun a => Rsqr (g a)) l) -> 0 <= a) by (intros a Ha; apply in_map_iff in Ha; destruct Ha as (b & <- & _); apply Rle_0_sqr). pose proof (rsum_nonneg _ N) as P. split; [apply Rmult_le_pos; lra|]. split.
  - intros Z a Ha. apply Rsqr_0_uniq. assert (Z' : rsum_list (map (fun a => Rsqr (g a)) l) = 0) by (apply Rmult_integral in Z; destruct Z as [Z|Z]; lra). apply (rsum_zero _ N Z'). apply in_map_iff. now exists a.
  - intros H. rewrite rsum_all_zero; [ring|]. intros a Ha. apply in_map_iff in Ha. destruct Ha as (b & <- & Hb). rewrite (H b Hb). apply Rsqr_0.
Qed.
Theorem C105_zero ivp atol rtol r1 r2 : 
  (forall d, 0 < dff_w d -> (forall p, In p (dff_pts d) -> snd p <> 0) ->
     0 <= sse_Ff d (r1, r2) /\ (sse_Ff d (r1, r2) = 0 <-> forall f F a b, In (f, F, a, b) (dff_pts d) -> F = F1r r1 r2 f)) /\
  (forall d ys, 0 < ddr_w d -> (forall p, In p (ddr_pts d) -> snd p <> 0) -> monomer_drift_binary ivp [ddr_f10 d] (map (fun p => fst (fst p)) (ddr_pts d)) r1 r2 atol rtol = FOk (Row ys) ->
     (exists v, sse_fx ivp atol rtol d (r1, r2) = FOk v /\ 0 <= v /\ (v = 0 <-> forall x f s y, In ((x, f, s), y) (combine (ddr_pts d) ys) -> f = y)) /\
     (exists v, sse_Fx ivp atol rtol d (r1, r2) = FOk v /\ 0 <= v /\ (v = 0 <-> forall x F s y, In ((x, F, s), y) (combine (ddr_pts d) ys) -> F = y + (ddr_f10 d - y) / (x + 1 / 10 ^ 10)))).
Proof.
  assert (Z : forall u s, s <> 0 -> (u / s = 0 <-> u = 0)) by (intros u s HS; split; [intros H; replace u with (u / s * s) by (field; exact HS); rewrite H; ring|intros ->; unfold Rdiv; ring]).
  split.
  - intros d HW HS. unfold sse_Ff. cbn [fst snd].
    replace (map (fun p => let '(f, F, _, s) := p in Rsqr ((F - F1r r1 r2 f) / s)) (dff_pts d)) with (map (fun p => Rsqr (let '(f, F, _, s) := p in (F - F1r r1 r2 f) / s)) (dff_pts d)) by (apply map_ext; intros (((f & F) & a) & b); reflexivity).
    destruct (ws_zero (fun p => let '(f, F, _, s) := p in (F - F1r r1 r2 f) / s) (dff_w d) (dff_pts d) HW) as (P & I). split; [exact P|]. rewrite I. split.
    + intros H f F a b Hp. pose proof (H _ Hp) as E. cbn in E. apply Z in E; [lra|exact (HS _ Hp)].
    + intros H (((f & F) & a) & b) Hp. apply Z; [exact (HS _ Hp)|]. rewrite (H _ _ _ _ Hp). ring.
  - intros d ys HW HS E. split.
    + unfold sse_fx. cbn [fst snd]. rewrite E. cbn [fbind row_of]. eexists. split; [reflexivity|].
      replace (map (fun q => let '((_, f1, s), e) := q in Rsqr ((f1 - e) / s)) (combine (ddr_pts d) ys)) with (map (fun q => Rsqr (let '((_, f1, s), e) := q in (f1 - e) / s)) (combine (ddr_pts d) ys)) by (apply map_ext; intros (((f & F) & a) & b); reflexivity).
      destruct (ws_zero (fun q => let '((_, f1, s), e) := q in (f1 - e) / s) (ddr_w d) (combine (ddr_pts d) ys) HW) as (P & I). split; [exact P|]. rewrite I. split.
      * intros H x f s y Hp. pose proof (H _ Hp) as E'. cbn in E'. apply Z in E'; [lra|exact (HS _ (in_combine_l _ _ _ _ Hp))].
      * intros H (((x & f) & s) & y) Hp. apply Z; [exact (HS _ (in_combine_l _ _ _ _ Hp))|]. rewrite (H _ _ _ _ Hp). ring.
    + unfold sse_Fx. cbn [fst snd]. rewrite E. cbn [fbind row_of]. eexists. split; [reflexivity|].
      replace (map (fun q => let '((x, F1, s), e) := q in Rsqr ((F1 - F1_cum (ddr_f10 d) x e) / s)) (combine (ddr_pts d) ys)) with (map (fun q => Rsqr (let '((x, F1, s), e) := q in (F1 - F1_cum (ddr_f10 d) x e) / s)) (combine (ddr_pts d) ys)) by (apply map_ext; intros (((f & F) & a) & b); reflexivity).
      destruct (ws_zero (fun q => let '((x, F1, s), e) := q in (F1 - F1_cum (ddr_f10 d) x e) / s) (ddr_w d) (combine (ddr_pts d) ys) HW) as (P & I). split; [exact P|]. rewrite I. split.
      * intros H x f s y Hp. pose proof (H _ Hp) as E'. cbn in E'. apply Z in E'; [unfold F1_cum in E'; lra|exact (HS _ (in_combine_l _ _ _ _ Hp))].
      * intros H (((x & f) & s) & y) Hp. apply Z; [exact (HS _ (in_combine_l _ _ _ _ Hp))|]. rewrite (H _ _ _ _ Hp). unfold F1_cum. ring.
Qed.
(** cumulative composition: x F + (1 - x) f = f0 at every conversion; the coded value differs by a relative 1e-10/(x + 1e-10) *)
Theorem C105_cumulative f10 x f F : 0 < x -> x * F + (1 - x) * f = f10 -> F1_cum f10 x f - F = (f - F) * (1 / 10 ^ 10 / (x + 1 / 10 ^ 10)) /\ (0 <= f <= 1 -> 0 <= F <= 1 -> Rabs (F1_cum f10 x f - F) <= 1 / 10 ^ 10 / x).
Proof.
  intros HX HB. assert (E : F1_cum f10 x f - F = (f - F) * (1 / 10 ^ 10 / (x + 1 / 10 ^ 10))) by (unfold F1_cum; rewrite <- HB; field; lra). split; [exact E|]. intros Hf HF. rewrite E, Rabs_mult. assert (D : 0 <= 1 / 10 ^ 10 / (x + 1 / 10 ^ 10) <= 1 / 10 ^ 10 / x).
  { split; [left; apply Rdiv_lt_0_compat; lra|]. unfold Rdiv at 1 3. apply Rmult_le_compat_l; [lra|]. apply Rinv_le_contravar; lra. }
  rewrite (Rabs_right (1 / 10 ^ 10 / (x + 1 / 10 ^ 10))) by lra. assert (Rabs (f - F) <= 1) by (apply Rabs_le; lra). pose proof (Rabs_pos (f - F)). nra.
Qed.
(** finding: at zero conversion the prediction is the feed, not the composition of the first polymer: the exact value there is penalised,
    whatever the solver *)
Theorem C105_zero_conversion_refuted : exists d r1 r2, 0 < r1 /\ 0 < r2 /\ ddr_pts d = [(0, F1r r1 r2 (ddr_f10 d), 1)] /\ ddr_w d = 1 /\ 0 <= ddr_f10 d <= 1 /\
  forall ivp atol rtol v, ivp_spec ivp -> sse_Fx ivp atol rtol d (r1, r2) = FOk v -> 0 < v.
Proof.
  exists (mkDDr (1 / 2) [(0, F1r 2 (1 / 2) (1 / 2), 1)] 1), 2, (1 / 2). split; [lra|]. split; [lra|]. split; [reflexivity|]. split; [reflexivity|]. cbn [ddr_f10]. split; [lra|]. intros ivp atol rtol v HS H. unfold sse_Fx in H. cbn [ddr_pts ddr_f10 ddr_w map fst snd] in H. destruct (monomer_drift_binary ivp [1 / 2] [0] 2 (1 / 2) atol rtol) as [o|] eqn:E; cbn [fbind] in H; [|discriminate]. destruct (C104_values _ _ _ _ _ _ _ _ HS E) as (ys & EY & _ & HV). destruct o as [w|ws]; [|destruct HV as (HV & _); cbn in HV; lia]. destruct HV as (_ & L & HV). cbn [length] in L. destruct w as [|a [|]]; try discriminate. specialize (HV 0%nat ltac:(cbn; lia)). cbn [nth] in HV. destruct (HS _ _ _ _ _ _ EY) as (_ & ST). specialize (ST 0%nat ltac:(cbn; lia)). cbn [nth] in ST. rewrite ST, Rmax_right in HV by lra. injection H as <-. cbn [row_of combine map rsum_list]. rewrite HV. replace (F1r 2 (1 / 2) (1 / 2)) with (2 / 3) by (unfold F1r; rewrite C28_case; reflexivity). unfold F1_cum, Rsqr. lra.
Qed.

(** finding: data taken on the pure monomers only do not determine the ratios; the fit fails with a singular matrix instead of a fit error *)
Theorem C105_pure_refuted : exists Ff, n_data Ff [] [] = 3%nat /\ forall ivp opt inv odr Fq tq eigh guess alpha lin ex np rtol r v, opt_spec opt -> inv (0, 0, 0, 0) = Err LinAlgError ->
  opt (sse_all ivp Ff [] [] (1 / 10 ^ 4) (1 / 10 ^ 4)) guess ((1 / 10 ^ 3, 10 ^ 2), (1 / 10 ^ 3, 10 ^ 2)) = FOk (true, r, v) ->
  fit_copo_data ivp opt inv odr Fq tq eigh Ff [] [] guess NLLS alpha lin ex np rtol = FErr (Raised LinAlgError).
Proof.
  set (d := mkDFf [(0, 0, 1, 1); (1, 1, 1, 1); (1, 1, 1, 1)] 1). exists [d]. split; [reflexivity|]. intros ivp opt inv odr Fq tq eigh guess alpha lin ex np rtol r v HO HI EO. destruct (proj1 HO _ _ _ _ _ EO) as (B1 & B2 & _). cbn [fst snd] in B1, B2.
  assert (Z : forall q, 0 < fst q -> 0 < snd q -> sse_all ivp [d] [] [] (1 / 10 ^ 4) (1 / 10 ^ 4) q = FOk 0).
  { intros q Q1 Q2. unfold sse_all. cbn [map app fsum fbind]. unfold sse_Ff, d. cbn [dff_pts dff_w map rsum_list fst snd]. destruct (F1r_ends (fst q) (snd q) Q1 Q2) as (E1 & E0). rewrite E1, E0. f_equal. unfold Rsqr. lra. }
  assert (P : forall q, In q (hess_points r (1 / 10 ^ 4)) -> 0 < fst q /\ 0 < snd q) by (intros q Hq; destruct r as (r1, r2); cbn [fst snd] in *; unfold hess_points in Hq; rewrite !Rabs_right in Hq by lra; cbn [In] in Hq; repeat (destruct Hq as [<-|Hq]; [cbn [fst snd]; lra|]); destruct Hq).
  assert (T : forall q, In q (hess_points r (1 / 10 ^ 4)) -> total (sse_all ivp [d] [] [] (1 / 10 ^ 4) (1 / 10 ^ 4)) q = 0) by (intros q Hq; unfold total; now rewrite Z by (now apply P)).
  assert (H0 : hessian2_centered (total (sse_all ivp [d] [] [] (1 / 10 ^ 4) (1 / 10 ^ 4))) r (1 / 10 ^ 4) = (0, 0, 0, 0)).
  { destruct r as (r1, r2). unfold hessian2_centered. destruct (Req_EM_T (1 / 10 ^ 4) 0) as [X|_]; [lra|]. cbv zeta. unfold hess_points in T. cbn [In] in T. rewrite !T by tauto. f_equal; [f_equal; [f_equal|]|]; unfold Rdiv; ring. }
  unfold fit_copo_data. cbn [n_data map dff_pts d length list_sum fold_right Nat.add Nat.ltb Nat.leb orb]. unfold fit_NLLS. cbv zeta. fold d. rewrite EO. cbn [fbind]. cbn [Nat.ltb Nat.leb].
  assert (S0 : exists w, fsum (map (sse_all ivp [d] [] [] (1 / 10 ^ 4) (1 / 10 ^ 4)) (hess_points r (1 / 10 ^ 4))) = FOk w).
  { assert (G : forall l, (forall q, In q l -> 0 < fst q /\ 0 < snd q) -> exists w, fsum (map (sse_all ivp [d] [] [] (1 / 10 ^ 4) (1 / 10 ^ 4)) l) = FOk w) by (induction l as [|q l IH]; intros HL; [exists 0; reflexivity|]; destruct (IH ltac:(intros q' Hq'; apply HL; now right)) as (w & Ew); exists (0 + w); cbn [map fsum]; rewrite Z by (apply HL; now left); cbn [fbind]; rewrite Ew; reflexivity). now apply G. }
  destruct S0 as (w & Ew). rewrite Ew. cbn [fbind]. unfold fit_cov. cbn [Nat.ltb Nat.leb]. cbv zeta. rewrite H0, HI. reflexivity.
Qed.

(** finding: without a confidence region the significance level is not checked, and the intervals can be negative *)
Theorem C105_alpha_refuted : exists odr Ff f, forall ivp opt inv Fq eigh tq np rtol, (forall p k, tq p k = p - 1 / 2) ->
  fit_copo_data ivp opt inv odr Fq tq eigh Ff [] [] (1, 1) ODR (3 / 2) false false np rtol = FOk f /\ exists c, ft_ci f = (Fin c, Fin c) /\ c < 0.
Proof.
  exists (fun _ g => mkOdr true g [1 / 2; 1 / 3; 1 / 4] (1, 0, 0, 1) 1), [mkDFf [(1 / 2, 1 / 2, 1, 1); (1 / 3, 1 / 2, 1, 1); (1 / 4, 1 / 2, 1, 1)] 1].
  exists (mkFit (1, 1) (Fin (sqrt (1 * 1)), Fin (sqrt (1 * 1))) (Fin (sqrt (1 * 1) * (1 - 3 / 2 / 2 - 1 / 2)), Fin (sqrt (1 * 1) * (1 - 3 / 2 / 2 - 1 / 2))) (Some (mscale 1 (1, 0, 0, 1))) None None).
  intros ivp opt inv Fq eigh tq np rtol HT. split.
  - unfold fit_copo_data. cbn [n_data map dff_pts length list_sum fold_right Nat.add Nat.ltb Nat.leb orb]. unfold fit_ODR, odr_points. cbn [dff_pts dff_w flat_map map app od_ok od_beta od_var od_cov length Nat.ltb Nat.leb fbind mscale m_at fst snd Nat.sub]. unfold np_sqrt. replace (Rltb (1 * 1) 0) with false by (symmetry; apply Rltb_false; lra). cbn [fl_times fst snd]. rewrite !HT. reflexivity.
  - eexists. split; [reflexivity|]. cbn [ft_ci]. rewrite Rmult_1_l, sqrt_1. lra.
Qed.

(** finding: drift data whose conversions are not in increasing order cannot be fitted *)
Theorem C105_unsorted_refuted : exists fx, n_data [] fx [] = 2%nat /\ forall ivp opt inv odr Fq tq eigh alpha lin ex np rtol, opt_spec opt -> fit_copo_data ivp opt inv odr Fq tq eigh [] fx [] (1, 1) NLLS alpha lin ex np rtol = FErr (Raised ValueError).
Proof.
  exists [mkDDr (1 / 2) [(1 / 2, 1 / 2, 1); (1 / 4, 1 / 2, 1)] 1]. split; [reflexivity|]. intros ivp opt inv odr Fq tq eigh alpha lin ex np rtol HO. unfold fit_copo_data. cbn [n_data map ddr_pts length list_sum fold_right Nat.add Nat.ltb Nat.leb orb]. unfold fit_NLLS. cbv zeta. rewrite (proj2 HO _ (1, 1) _ (Raised ValueError)); [reflexivity|cbn [fst snd]; lra|cbn [fst snd]; lra|].
  unfold sse_all. cbn [map app fsum]. unfold sse_fx. cbn [ddr_pts ddr_f10 map fst snd]. rewrite (proj1 (C104_rejects ivp [1 / 2] (1 / 2) [1 / 4] 1 1 (1 / 10 ^ 4) (1 / 10 ^ 4))); [reflexivity|pose proof (proj1 (lmax_ge [1 / 4] (1 / 2))); lra|]. left. cbn [increasing]. lra.
Qed.

(** the objective of noise-free F(f) data, and its value at the generating ratios *)
Definition noise_free (Ff : list dFf) (r : R * R) : Prop := forall d p, In d Ff -> In p (dff_pts d) -> snd (fst (fst p)) = F1r (fst r) (snd r) (fst (fst (fst p))).
Lemma noise_free_zero ivp Ff r a t : noise_free Ff r -> sse_all ivp Ff [] [] a t r = FOk 0.
Proof.
  intros H. unfold sse_all. cbn [map]. rewrite !app_nil_r. assert (G : forall d, In d Ff -> sse_Ff d r = 0).
  { intros d Hd. unfold sse_Ff. rewrite (rsum_all_zero (map _ (dff_pts d))); [ring|]. intros q Hq. apply in_map_iff in Hq. destruct Hq as ((((f & F) & sf) & sF) & <- & Hp). pose proof (H d _ Hd Hp) as E. cbn [fst snd] in E. rewrite E. unfold Rsqr, Rdiv. ring. }
  induction Ff as [|d l IH]; [reflexivity|]. cbn [map fsum fbind]. rewrite G by now left. rewrite IH; [cbn [fbind]; f_equal; ring|intros d' p Hd' Hp; apply (H d' p); [now right|exact Hp]|intros d' Hd'; apply G; now right].
Qed.
(** a fit that reproduces the data exactly never returns when the exact region is asked for *)
Theorem C105_exact_raises ivp opt inv odr Fq tq eigh Ff guess alpha lin np rtol r : opt_spec opt -> noise_free Ff r -> (3 <= n_data Ff [] [])%nat ->
  (forall f, fit_copo_data ivp opt inv odr Fq tq eigh Ff [] [] guess NLLS alpha lin true np rtol = FOk f -> ft_r f <> r).
Proof.
  intros HO HN H3 f H E. destruct (fit_inv _ _ _ _ _ _ _ _ _ _ _ _ _ _ _ _ _ _ H) as (_ & sse & EN & R). destruct (nlls_inv _ _ _ _ _ _ _ _ _ _ _ EN) as (v & _ & EC & ES). unfold fit_cov in EC. assert (L : (2 <? n_data Ff [] [])%nat = true) by (apply Nat.ltb_lt; lia). rewrite L in EC. cbv zeta in EC. destruct (inv _) as [(((x & y) & z) & w)|]; cbn [bind] in EC; [|discriminate]. injection EC as EC. rewrite <- EC in R. destruct R as (_ & _ & g & EG & _). unfold confidence_region in EG. destruct (negb (Nat.eqb 2 2)); [discriminate|]. destruct (negb (_ && _)); [discriminate|]. destruct (negb (Nat.leb 3 _)); [discriminate|]. destruct (negb (_ && _)); [discriminate|]. destruct (negb (_ && _)); [discriminate|].
  rewrite ES, E in EG. unfold total in EG. rewrite (noise_free_zero ivp Ff r _ _ HN) in EG. rewrite Rabs_R0 in EG. replace (Rltb 0 eps) with true in EG by (symmetry; apply Rltb_true; unfold eps; apply Rinv_0_lt_compat, pow_lt; lra). discriminate.
Qed.
(** the bounds of the optimiser: noise-free data of a pair outside [1e-3, 100]^2 are never fitted by that pair *)
Theorem C105_bounds_refuted : exists Ff r, 0 < fst r /\ 0 < snd r /\ noise_free Ff r /\ n_data Ff [] [] = 3%nat /\ forall ivp opt inv odr Fq tq eigh guess alpha lin ex np rtol f, opt_spec opt ->
  fit_copo_data ivp opt inv odr Fq tq eigh Ff [] [] guess NLLS alpha lin ex np rtol = FOk f -> ft_r f <> r.
Proof.
  exists [mkDFf (map (fun f => (f, F1r 200 1 f, 1, 1)) [1 / 4; 1 / 2; 3 / 4]) 1], (200, 1). cbn [fst snd]. split; [lra|]. split; [lra|]. split; [intros d p [<-|[]] Hp; cbn [dff_pts] in Hp; apply in_map_iff in Hp; destruct Hp as (f & <- & _); reflexivity|]. split; [reflexivity|]. intros ivp opt inv odr Fq tq eigh guess alpha lin ex np rtol f HO H E. destruct (C105_estimate _ _ _ _ _ _ _ _ _ _ _ _ _ _ _ _ _ HO H) as (B & _). rewrite E in B. cbn [fst snd] in B. lra.
Qed.
(** orthogonal distances: the estimate and the rescaled covariance of the routine, and a nonnegative objective for the exact region *)
Theorem C105_odr ivp opt inv odr Fq tq eigh Ff fx Fx guess alpha lin ex np rtol f : (3 <= n_data Ff fx Fx)%nat ->
  fit_copo_data ivp opt inv odr Fq tq eigh Ff fx Fx guess ODR alpha lin ex np rtol = FOk f ->
  fx = [] /\ Fx = [] /\ exists pts, length pts = n_data Ff [] [] /\ (forall f1 F1 s1 sF, In (f1, F1, s1, sF) pts <-> exists d a b, In d Ff /\ In (f1, F1, a, b) (dff_pts d) /\ s1 = a / (dff_w d + 1 / 10 ^ 10) /\ sF = b / (dff_w d + 1 / 10 ^ 10)) /\
    ft_r f = od_beta (odr pts guess) /\ ft_cov f = Some (mscale (od_var (odr pts guess)) (od_cov (odr pts guess))) /\ forall plus r, 0 <= sse_odr pts plus r.
Proof.
  intros HN H. destruct (fit_inv _ _ _ _ _ _ _ _ _ _ _ _ _ _ _ _ _ _ H) as (_ & sse & (-> & -> & E) & _). split; [reflexivity|]. split; [reflexivity|]. exists (odr_points Ff).
  assert (L : length (odr_points Ff) = n_data Ff [] []) by (unfold n_data, odr_points; cbn [map list_sum fold_right]; rewrite !Nat.add_0_r, flat_map_concat_map; clear; induction Ff as [|d l IH]; [reflexivity|]; cbn [map concat list_sum fold_right]; rewrite app_length, map_length; unfold list_sum in *; lia).
  split; [exact L|]. split; [|split; [|split]].
  - intros f1 F1 s1 sF. unfold odr_points. rewrite in_flat_map. split.
    + intros (d & Hd & Hp). apply in_map_iff in Hp. destruct Hp as ((((f' & F') & a) & b) & Eq & Hp). injection Eq as <- <- <- <-. exists d, a, b. auto.
    + intros (d & a & b & Hd & Hp & -> & ->). exists d. split; [exact Hd|]. apply in_map_iff. exists (f1, F1, a, b). split; [reflexivity|exact Hp].
  - unfold fit_ODR in E. cbv zeta in E. destruct (od_ok _); [|discriminate]. injection E as E _ _. now rewrite <- E.
  - unfold fit_ODR in E. cbv zeta in E. destruct (od_ok _); [|discriminate]. injection E as _ E _. rewrite <- E. assert (L' : (2 <? length (odr_points Ff))%nat = true) by (apply Nat.ltb_lt; lia). now rewrite L'.
  - intros plus r. unfold sse_odr. apply Rplus_le_le_0_compat; apply rsum_nonneg; intros a Ha; apply in_map_iff in Ha; destruct Ha as (((((f' & F') & sf) & sF) & u) & <- & _); apply Rle_0_sqr.
Qed.

(** an error delta of the objective changes the second differences by at most delta / h0^2, and that much is reached: with the step
    1e-4 (1 + r) and the tolerance 1e-4 of the integration this is 2500 at r = 1 *)
Theorem C105_noise (sse : R * R -> R) r1 r2 delta : 0 < delta -> let h0 := 1 / 10 ^ 4 * (1 + Rabs r1) in
  (forall sse', (forall q, Rabs (sse' q - sse q) <= delta) -> Rabs (fst (fst (fst (hessian2_centered sse' (r1, r2) (1 / 10 ^ 4)))) - fst (fst (fst (hessian2_centered sse (r1, r2) (1 / 10 ^ 4))))) <= delta / h0 ^ 2) /\
  exists sse', (forall q, Rabs (sse' q - sse q) <= delta) /\ fst (fst (fst (hessian2_centered sse' (r1, r2) (1 / 10 ^ 4)))) = fst (fst (fst (hessian2_centered sse (r1, r2) (1 / 10 ^ 4)))) + delta / h0 ^ 2.
Proof.
  intros HD. cbv zeta. unfold hessian2_centered. destruct (Req_EM_T (1 / 10 ^ 4) 0) as [X|_]; [lra|]. cbv zeta. cbn [fst]. pose proof (Rabs_pos r1) as P. set (h0 := 1 / 10 ^ 4 * (1 + Rabs r1)). assert (H0 : 0 < h0) by (unfold h0; nra). assert (H2 : 0 < h0 ^ 2) by (apply pow_lt; exact H0). split.
  - intros sse' HS. replace (_ - _) with (((sse' (r1 + 2 * h0, r2) - sse (r1 + 2 * h0, r2)) - 2 * (sse' (r1, r2) - sse (r1, r2)) + (sse' (r1 - 2 * h0, r2) - sse (r1 - 2 * h0, r2))) / (4 * h0 ^ 2)) by (field; lra).
    pose proof (HS (r1 + 2 * h0, r2)) as A. pose proof (HS (r1, r2)) as B. pose proof (HS (r1 - 2 * h0, r2)) as C. apply Rabs_le_between in A, B, C. unfold Rdiv. rewrite Rabs_mult, (Rabs_right (/ (4 * h0 ^ 2))) by (apply Rle_ge; left; apply Rinv_0_lt_compat; lra). replace (delta * / h0 ^ 2) with (4 * delta * / (4 * h0 ^ 2)) by (field; lra). apply Rmult_le_compat_r; [left; apply Rinv_0_lt_compat; lra|]. apply Rabs_le. lra.
  - exists (fun q => sse q + (if Req_EM_T (fst q) r1 then - delta else delta)). split.
    + intros q. destruct (Req_EM_T (fst q) r1); apply Rabs_le; lra.
    + cbn [fst]. destruct (Req_EM_T (r1 + 2 * h0) r1); [lra|]. destruct (Req_EM_T r1 r1); [|tauto]. destruct (Req_EM_T (r1 - 2 * h0) r1); [lra|]. field. lra.
Qed.
(** an optimiser that meets the specification: it returns its starting point *)
Definition opt_start : opt_t := fun g guess b =>
  if Rleb (fst (fst b)) (fst guess) && Rleb (fst guess) (snd (fst b)) && Rleb (fst (snd b)) (snd guess) && Rleb (snd guess) (snd (snd b)) then fdo v <- g guess; FOk (true, guess, v) else FErr FitError.
Lemma opt_start_spec : opt_spec opt_start.
Proof.
  split.
  - intros g guess b r v H. unfold opt_start in H. destruct (_ && _) eqn:E in H; [|discriminate]. rewrite !andb_true_iff, !Rleb_true in E. destruct (g guess) as [w|] eqn:EG; cbn [fbind] in H; [|discriminate]. injection H as <- <-. split; [lra|]. split; [lra|exact EG].
  - intros g guess b e H1 H2 E. unfold opt_start. replace (_ && _) with true by (symmetry; rewrite !andb_true_iff, !Rleb_true; lra). rewrite E. reflexivity.
Qed.
(** three noise-free points of r1 = r2 = 1: the difference Hessian is regular *)
Definition three : list dFf := [mkDFf [(1 / 3, 1 / 3, 1, 1); (1 / 2, 1 / 2, 1, 1); (2 / 3, 2 / 3, 1, 1)] 1].
Definition S3 (u v : R) : R := ((4 * v - 2 * u - 2) / (3 * (u + 4 + 4 * v))) ^ 2 + ((v - u) / (2 * (u + v + 2))) ^ 2 + ((2 * v + 2 - 4 * u) / (3 * (4 * u + 4 + v))) ^ 2.
Lemma three_sse ivp a t u v : 0 < u -> 0 < v -> sse_all ivp three [] [] a t (u, v) = FOk (S3 u v).
Proof.
  intros HU HV. unfold sse_all, three. cbn [map app fsum fbind]. f_equal. unfold sse_Ff. cbn [dff_pts dff_w map rsum_list fst snd].
  assert (G : forall f, 0 < f < 1 -> F1r u v f = F1val f u v) by (intros f Hf; unfold F1r; rewrite inst_val; [reflexivity|]; repeat split; try lra; intros (A1 & A2); lra).
  rewrite !G by lra. unfold F1val, S3, Rsqr. field. repeat split; lra.
Qed.
Lemma three_regular ivp : exists a b d, hessian2_centered (total (sse_all ivp three [] [] (1 / 10 ^ 4) (1 / 10 ^ 4))) (1, 1) (1 / 10 ^ 4) = (a, b, b, d) /\ a * d - b * b <> 0.
Proof.
  unfold hessian2_centered. destruct (Req_EM_T (1 / 10 ^ 4) 0) as [X|_]; [lra|]. cbv zeta. rewrite Rabs_R1. do 3 eexists. split; [reflexivity|]. unfold total. rewrite !three_sse by lra.
  match goal with |- ?a * ?d - ?b * ?b <> 0 => assert (A : 8 / 100 < a) by (unfold S3; lra); assert (D : 8 / 100 < d) by (unfold S3; lra); assert (B : - (79 / 1000) < b < 0) by (unfold S3; lra); set (x := a) in *; set (y := d) in *; set (z := b) in * end. nra.
Qed.
(** the objective of the orthogonal distances: each point contributes the squares of both scaled distances to the curve, at its adjusted
    abscissa; it vanishes exactly when every point is on the curve and was not moved *)
Theorem C105_odr_objective pts plus r1 r2 : length plus = length pts -> (forall p, In p pts -> snd p <> 0 /\ snd (fst p) <> 0) ->
  (forall f F sf sF u, sse_odr ((f, F, sf, sF) :: pts) (u :: plus) (r1, r2) = ((F - F1r r1 r2 u) / sF) ^ 2 + ((f - u) / sf) ^ 2 + sse_odr pts plus (r1, r2)) /\
  (sse_odr pts plus (r1, r2) = 0 <-> forall f F sf sF u, In ((f, F, sf, sF), u) (combine pts plus) -> u = f /\ F = F1r r1 r2 f).
Proof.
  intros HL HS. split; [intros; unfold sse_odr, Rsqr; cbn; ring|].
  set (g1 := fun q : R * R * R * R * R => let '((_, F, _, sF), u) := q in (F - F1r r1 r2 u) / sF). set (g2 := fun q : R * R * R * R * R => let '((f, _, sf, _), u) := q in (f - u) / sf).
  assert (E : sse_odr pts plus (r1, r2) = 1 * rsum_list (map (fun a => Rsqr (g1 a)) (combine pts plus)) + 1 * rsum_list (map (fun a => Rsqr (g2 a)) (combine pts plus))).
  { unfold sse_odr. rewrite !Rmult_1_l. cbn [fst snd]. f_equal; f_equal; apply map_ext; intros ((((f & F) & a) & b) & u); reflexivity. }
  rewrite E. destruct (ws_zero g1 1 (combine pts plus) Rlt_0_1) as (P1 & Z1). destruct (ws_zero g2 1 (combine pts plus) Rlt_0_1) as (P2 & Z2).
  assert (Z : forall u s, s <> 0 -> (u / s = 0 <-> u = 0)) by (intros u s HS'; split; [intros H; replace u with (u / s * s) by (field; exact HS'); rewrite H; ring|intros ->; unfold Rdiv; ring]).
  split.
  - intros H f F sf sF u I. specialize (proj1 Z1 ltac:(lra) _ I) as A1. specialize (proj1 Z2 ltac:(lra) _ I) as A2. unfold g1 in A1. unfold g2 in A2. apply in_combine_l in I. destruct (HS _ I) as (S1 & S2). cbn in S1, S2.
    apply Z in A1; [|auto]. apply Z in A2; [|auto]. assert (u = f) by lra. subst u. split; [auto|lra].
  - intros H. rewrite (proj2 Z1), (proj2 Z2); [ring| |]; intros ((((f & F) & a) & b) & u) I; destruct (H _ _ _ _ _ I) as (-> & ->); unfold g1, g2, Rdiv; ring.
Qed.
(** two points: the optimum is reported without evaluating anything for the covariance, so nothing can go wrong there *)
Theorem C105_two_success ivp opt inv Ff fx Fx guess r v : opt (sse_all ivp Ff fx Fx (1 / 10 ^ 4) (1 / 10 ^ 4)) guess ((1 / 10 ^ 3, 10 ^ 2), (1 / 10 ^ 3, 10 ^ 2)) = FOk (true, r, v) ->
  exists sse, fit_NLLS ivp opt inv Ff fx Fx guess 2 = FOk (r, None, sse).
Proof. intros E. unfold fit_NLLS. cbv zeta. rewrite E. cbn. eauto. Qed.
(** finding: noise-free data with the exact region: the fit raises after having found the ratios *)
Theorem C105_exact_refuted : exists opt, opt_spec opt /\ forall ivp odr Fq tq eigh,
  fit_copo_data ivp opt inv2 odr Fq tq eigh three [] [] (1, 1) NLLS (5 / 100) false true 200 (1 / 100) = FErr (Raised ValueError) /\
  exists f, fit_copo_data ivp opt inv2 odr Fq tq eigh three [] [] (1, 1) NLLS (5 / 100) true false 200 (1 / 100) = FOk f /\ ft_r f = (1, 1) /\ ft_ci f = (Fin 0, Fin 0).
Proof.
  exists opt_start. split; [apply opt_start_spec|]. intros ivp odr Fq tq eigh. destruct (three_regular ivp) as (a & b & d & EH & HD).
  assert (Z : forall a t, sse_all ivp three [] [] a t (1, 1) = FOk 0) by (intros; rewrite three_sse by lra; unfold S3; f_equal; field).
  assert (EN : exists M, fit_NLLS ivp opt_start inv2 three [] [] (1, 1) 3 = FOk ((1, 1), Some M, total (sse_all ivp three [] [] (1 / 10 ^ 5) (1 / 10 ^ 4))) /\ M = (0, 0, 0, 0)).
  { unfold fit_NLLS. cbv zeta. unfold opt_start. cbn [fst snd]. replace (_ && _) with true by (symmetry; rewrite !andb_true_iff, !Rleb_true; lra). rewrite Z. cbn [fbind Nat.ltb Nat.leb]. unfold hess_points. rewrite Rabs_R1. cbn [map fsum]. rewrite !three_sse by lra. cbn [fbind]. unfold fit_cov. cbn [Nat.ltb Nat.leb]. cbv zeta. rewrite EH. unfold inv2. cbv zeta. destruct (Req_EM_T (a * d - b * b) 0); [tauto|]. cbn [bind lift fbind]. eexists. split; [reflexivity|]. f_equal; [f_equal; [f_equal|]|]; unfold Rdiv; ring. }
  destruct EN as (M & EN & ->). split.
  - unfold fit_copo_data. change (n_data three [] []) with 3%nat. cbv zeta. cbn [Nat.ltb Nat.leb orb]. rewrite EN. cbn [fbind Nat.sub m_at fst snd]. unfold confidence_region. cbn [Nat.eqb negb]. replace (Rleb (1 / 1000) (5 / 100)) with true by (symmetry; apply Rleb_true; lra). replace (Rleb (5 / 100) (99 / 100)) with true by (symmetry; apply Rleb_true; lra). replace (Nat.leb 1 200) with true by reflexivity. replace (Nat.leb 200 500) with true by reflexivity. replace (Rleb (1 / 10 ^ 4) (1 / 100)) with true by (symmetry; apply Rleb_true; lra). replace (Rleb (1 / 100) (1 / 10)) with true by (symmetry; apply Rleb_true; lra). cbn [andb negb Nat.leb]. unfold total. rewrite Z, Rabs_R0. replace (Rltb 0 eps) with true by (symmetry; apply Rltb_true; unfold eps; apply Rinv_0_lt_compat, pow_lt; lra). reflexivity.
  - unfold fit_copo_data. change (n_data three [] []) with 3%nat. cbv zeta. cbn [Nat.ltb Nat.leb orb]. rewrite EN. cbn [fbind Nat.sub m_at fst snd]. unfold confidence_ellipse. cbn [Nat.eqb negb andb Nat.leb]. replace (Rleb (1 / 1000) (5 / 100)) with true by (symmetry; apply Rleb_true; lra). replace (Rleb (5 / 100) (90 / 100)) with true by (symmetry; apply Rleb_true; lra). cbn [andb negb lift fbind]. eexists. split; [reflexivity|]. cbn [ft_r ft_ci]. split; [reflexivity|]. unfold np_sqrt. replace (Rltb 0 0) with false by (symmetry; apply Rltb_false; lra). cbn [fl_times fst snd]. rewrite sqrt_0, Rmult_0_l. reflexivity.
Qed.
Print Assumptions C105_rejects. Print Assumptions C105_estimate. Print Assumptions C105_two. Print Assumptions C105_intervals. Print Assumptions C105_covariance. Print Assumptions C105_weight_scale. Print Assumptions C105_swap. Print Assumptions C105_scale. Print Assumptions C105_zero. Print Assumptions C105_cumulative. Print Assumptions C105_zero_conversion_refuted. Print Assumptions C105_pure_refuted. Print Assumptions C105_alpha_refuted. Print Assumptions C105_unsorted_refuted. Print Assumptions C105_exact_raises. Print Assumptions C105_odr. Print Assumptions C105_noise. Print Assumptions C105_exact_refuted. Print Assumptions C105_bounds_refuted.
