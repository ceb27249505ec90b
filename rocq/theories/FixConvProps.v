(** C113: convergence of the fixed-point iterations. *)
From Coq Require Import Reals Lra Lia List Bool Arith.
From Verif Require Import Prelude RootsModel RootsProofs DiffModel DiffProofs FixModel FixProofs FixProps.
Import ListNotations.
Open Scope R_scope.

(** distance of two vectors of length N in the scaled maximum norm, at most E *)
Definition within (N : nat) (s : vec) (x r : vec) (E : R) : Prop := forall i, (i < N)%nat -> Rabs (s i * (x i - r i)) <= E.

(** Bounded Wegstein iteration on a map which contracts towards [r] with factor [L].  If every
    admitted acceleration factor keeps the step contracting (factor [lam] below one), the iteration
    succeeds as soon as (1 + L) lam^n E0 <= tolx, and the result is within tolx / (1 - L) of the fixed
    point.  Bounds 0, 0 are direct substitution. *)
Theorem C113_wegstein N g x0 s tolx wait qmin qmax maxiter nan r L lam E0 n : (1 <= N)%nat -> qmin <= qmax -> 0 <= L <= lam -> lam < 1 -> 0 <= E0 ->
  (forall x E, within N s x r E -> within N s (g x) r (L * E)) ->
  (forall q, qmin <= q <= qmax -> Rabs q + Rabs (1 - q) * L <= lam) ->
  within N s x0 r E0 -> (1 + L) * lam ^ n * E0 <= tolx -> (n < maxiter)%nat ->
  exists T v, fixpoint_wegstein N g x0 (Some s) tolx wait qmin qmax maxiter nan = (T, Ok v) /\ v_success v = true /\
    within N s (v_x v) r (tolx / (1 - L)) /\ within N s (v_x v) r E0 /\
    forall k, (k < length T)%nat -> within N s (nth k T nan) r (lam ^ k * E0).
Proof.
  intros HN Hq HL HL1 HE C HQ W0 Hn Hmax.
  destruct (C07_wegstein_result N g x0 s tolx wait qmin qmax maxiter nan HN ltac:(lia)) as (T & v & E & LT & _ & NI & T0 & TX & FX & SU & FA).
  pose proof (C07_wegstein_steps N g x0 s tolx wait qmin qmax maxiter nan T v Hq E) as ST. cbv zeta in ST.
  assert (lam0 : 0 <= lam) by lra.
  assert (IT : forall k, (k < length T)%nat -> within N s (nth k T nan) r (lam ^ k * E0)).
  { induction k as [|k IH]; intros Hk. { rewrite T0, pow_O, Rmult_1_l. exact W0. }
    specialize (IH ltac:(lia)). destruct (ST k Hk) as (S1 & S2). assert (P0 : 0 <= lam ^ k * E0) by (apply Rmult_le_pos; [now apply pow_le|exact HE]).
    pose proof (C _ _ IH) as G. destruct (lt_dec k (Nat.max wait 1)) as [Hw|Hw].
    - rewrite (S1 Hw). intros i Hi. eapply Rle_trans; [apply (G i Hi)|]. cbn [pow]. rewrite Rmult_assoc. apply Rmult_le_compat_r; [exact P0|lra].
    - intros i Hi. destruct (S2 ltac:(lia) i) as (q & Bq & Eq & _). rewrite Eq. specialize (IH i Hi). specialize (G i Hi).
      replace (s i * (q * nth k T nan i + (1 - q) * g (nth k T nan) i - r i)) with (q * (s i * (nth k T nan i - r i)) + (1 - q) * (s i * (g (nth k T nan) i - r i))) by ring.
      eapply Rle_trans; [apply Rabs_triang|]. rewrite !Rabs_mult with (x := q), !Rabs_mult with (x := 1 - q). cbn [pow]. rewrite Rmult_assoc.
      specialize (HQ q Bq). pose proof (Rabs_pos q). pose proof (Rabs_pos (1 - q)).
      eapply Rle_trans with (Rabs q * (lam ^ k * E0) + Rabs (1 - q) * (L * (lam ^ k * E0))).
      { apply Rplus_le_compat; apply Rmult_le_compat_l; auto. }
      replace (Rabs q * (lam ^ k * E0) + Rabs (1 - q) * (L * (lam ^ k * E0))) with ((Rabs q + Rabs (1 - q) * L) * (lam ^ k * E0)) by ring. now apply Rmult_le_compat_r. }
  assert (XR : within N s (v_x v) r (lam ^ (v_niter v - 1) * E0)) by (rewrite <- TX; apply IT; lia).
  assert (P1 : forall k, lam ^ k <= 1) by (intros k; pose proof (pow_incr lam 1 k ltac:(lra)) as H; rewrite pow1 in H; exact H).
  assert (RES : forall i E, (i < N)%nat -> within N s (v_x v) r E -> Rabs (s i * v_f v i) <= (1 + L) * E).
  { intros i E' Hi W. rewrite (FX i). replace (s i * (g (v_x v) i - v_x v i)) with (s i * (g (v_x v) i - r i) - s i * (v_x v i - r i)) by ring.
    eapply Rle_trans; [apply Rabs_triang|]. rewrite Rabs_Ropp. pose proof (C _ _ W i Hi). pose proof (W i Hi). lra. }
  assert (SUC : v_success v = true).
  { destruct (v_success v) eqn:ES; [reflexivity|]. exfalso. assert (NE : v_niter v = maxiter) by (apply FA; reflexivity). enough (false = true) by discriminate. apply SU. intros i Hi.
    eapply Rle_trans; [apply (RES i _ Hi XR)|]. eapply Rle_trans; [|exact Hn]. rewrite <- Rmult_assoc. apply Rmult_le_compat_r; [exact HE|]. apply Rmult_le_compat_l; [lra|].
    rewrite NE. replace (maxiter - 1)%nat with (n + (maxiter - 1 - n))%nat by lia. rewrite pow_add. rewrite <- (Rmult_1_r (lam ^ n)) at 2. apply Rmult_le_compat_l; [now apply pow_le|apply P1]. }
  exists T, v. split; [exact E|]. split; [exact SUC|]. split; [|split; [|exact IT]].
  - (* E <= tolx + L E for the largest component *)
    pose proof (proj1 SU SUC) as RB. set (M := norm_inf N (fun i => s i * (v_x v i - r i))).
    assert (WM : within N s (v_x v) r M). { intros i Hi. refine (proj1 (norm_le_iff N (fun i => s i * (v_x v i - r i)) M ltac:(lia)) _ i Hi). unfold M. lra. }
    assert (BM : M <= tolx + L * M). { unfold M at 1. apply (proj2 (norm_le_iff N _ _ ltac:(lia))). intros i Hi. specialize (RB i Hi). rewrite FX in RB. pose proof (C _ _ WM i Hi) as G.
      replace (s i * (v_x v i - r i)) with (- (s i * (g (v_x v) i - v_x v i)) + s i * (g (v_x v) i - r i)) by ring. eapply Rle_trans; [apply Rabs_triang|]. rewrite Rabs_Ropp. lra. }
    intros i Hi. eapply Rle_trans; [apply (WM i Hi)|]. apply Rmult_le_reg_r with (1 - L); [lra|]. unfold Rdiv. rewrite Rmult_assoc, Rinv_l by lra. lra.
  - intros i Hi. eapply Rle_trans; [apply (XR i Hi)|]. rewrite <- (Rmult_1_l E0) at 2. apply Rmult_le_compat_r; [exact HE|apply P1].
Qed.

(** * A contraction on which the accelerated iterations run in circles *)
(** the positive half of the map: slope 0, then (1 + sqrt 5)/4, then 1/2 *)
Definition halfmap (x : R) : R := (1 + sqrt 5) / 4 * Rmax (x - 1) 0 - ((1 + sqrt 5) / 4 - 1 / 2) * Rmax (x - (2 + sqrt 5)) 0.
Definition cmap (x : R) : R := halfmap x - halfmap (- x).
Lemma s5 : sqrt 5 * sqrt 5 = 5 /\ 223 / 100 <= sqrt 5 <= 224 / 100.
Proof. assert (Q : sqrt 5 * sqrt 5 = 5) by (apply sqrt_sqrt; lra). pose proof (sqrt_pos 5). split; [exact Q|]. split; nra. Qed.
Lemma half_mono x y : x <= y -> 0 <= halfmap y - halfmap x <= (1 + sqrt 5) / 4 * (Rmax y 0 - Rmax x 0).
Proof.
  destruct s5 as (_ & B). intros H. unfold halfmap. set (t := sqrt 5) in *.
  assert (A1 : 0 <= Rmax (y - 1) 0 - Rmax (x - 1) 0 <= Rmax y 0 - Rmax x 0) by (unfold Rmax; repeat destruct Rle_dec; lra).
  assert (A2 : 0 <= Rmax (y - (2 + t)) 0 - Rmax (x - (2 + t)) 0 <= Rmax (y - 1) 0 - Rmax (x - 1) 0) by (unfold Rmax; repeat destruct Rle_dec; lra).
  set (a := Rmax (y - 1) 0 - Rmax (x - 1) 0) in *. set (b := Rmax (y - (2 + t)) 0 - Rmax (x - (2 + t)) 0) in *.
  replace ((1 + t) / 4 * Rmax (y - 1) 0 - ((1 + t) / 4 - 1 / 2) * Rmax (y - (2 + t)) 0 - ((1 + t) / 4 * Rmax (x - 1) 0 - ((1 + t) / 4 - 1 / 2) * Rmax (x - (2 + t)) 0)) with ((1 + t) / 4 * a - ((1 + t) / 4 - 1 / 2) * b) by (unfold a, b; ring).
  assert (0 <= ((1 + t) / 4 - 1 / 2) * b) by (apply Rmult_le_pos; lra). assert (((1 + t) / 4 - 1 / 2) * b <= ((1 + t) / 4 - 1 / 2) * a) by (apply Rmult_le_compat_l; lra).
  assert ((1 + t) / 4 * a <= (1 + t) / 4 * (Rmax y 0 - Rmax x 0)) by (apply Rmult_le_compat_l; lra). lra.
Qed.
Lemma cmap_lip x y : Rabs (cmap x - cmap y) <= (1 + sqrt 5) / 4 * Rabs (x - y).
Proof.
  assert (W : forall x y, x <= y -> 0 <= cmap y - cmap x <= (1 + sqrt 5) / 4 * (y - x)).
  { clear. intros x y H. pose proof (half_mono x y H). pose proof (half_mono (- y) (- x) ltac:(lra)). unfold cmap.
    replace ((1 + sqrt 5) / 4 * (y - x)) with ((1 + sqrt 5) / 4 * (Rmax y 0 - Rmax x 0) + (1 + sqrt 5) / 4 * (Rmax (- x) 0 - Rmax (- y) 0)). { lra. }
    rewrite <- Rmult_plus_distr_l. f_equal. unfold Rmax; repeat destruct Rle_dec; lra. }
  destruct (Rle_dec x y) as [H|H].
  - pose proof (W x y H). rewrite !Rabs_left1 by lra. lra.
  - pose proof (W y x ltac:(lra)). rewrite !Rabs_pos_eq by lra. lra.
Qed.
Lemma cmap_odd x : cmap (- x) = - cmap x. Proof. unfold cmap. rewrite Ropp_involutive. ring. Qed.
Lemma cmap_vals : let b := 2 + sqrt 5 in cmap 0 = 0 /\ cmap 1 = 0 /\ cmap b = (3 + sqrt 5) / 2 /\ cmap (2 * b - 1) = b.
Proof.
  destruct s5 as (Q & B). unfold cmap, halfmap. set (t := sqrt 5) in *. cbv zeta.
  repeat split; unfold Rmax; repeat (destruct Rle_dec; try lra); nra.
Qed.

Lemma q_in s : 0 <= s <= 5 / 6 -> weg_q (-5) 0 s = s / (s - 1).
Proof.
  intros H. unfold weg_q. destruct (Req_EM_T s 1) as [E|_]; [lra|].
  assert (-5 <= s / (s - 1)) by (apply Rmult_le_reg_r with (1 - s); [lra|]; replace (s / (s - 1) * (1 - s)) with (- s) by (field; lra); lra).
  assert (s / (s - 1) <= 0) by (apply Rmult_le_reg_r with (1 - s); [lra|]; replace (s / (s - 1) * (1 - s)) with (- s) by (field; lra); lra).
  rewrite Rmax_left, Rmin_left; lra.
Qed.
(** the next point from two consecutive ones *)
Definition wnext (xm x : R) : R := let q := weg_q (-5) 0 (weg_s (x - xm) (cmap x - cmap xm)) in q * x + (1 - q) * cmap x.
Lemma wstep xm x s : eps < Rabs (x - xm) -> cmap x - cmap xm = s * (x - xm) -> 0 <= s <= 5 / 6 -> wnext xm x = (s * x - cmap x) / (s - 1).
Proof.
  intros H E Hs. unfold wnext, weg_s. rewrite (proj2 (Rltb_true _ _) H). assert (x - xm <> 0) by (intros Z; rewrite Z, Rabs_R0 in H; unfold eps in H; assert (0 < / 2 ^ 52) by (apply Rinv_0_lt_compat; apply pow_lt; lra); lra).
  replace ((cmap x - cmap xm) / (x - xm)) with s by (rewrite E; field; auto). rewrite q_in by exact Hs. field. lra.
Qed.
(** the four consecutive pairs of the cycle, and the first pair *)
Definition pairs : list (R * R) := let b := 2 + sqrt 5 in [(- b, -1); (-1, b); (b, 1); (1, - b); (- (2 * b - 1), - b)].
Lemma cycle p : In p pairs -> In (snd p, wnext (fst p) (snd p)) pairs /\ Rabs (cmap (snd p) - snd p) >= 1 /\ eps < Rabs (snd p - fst p) /\ wnext (fst p) (snd p) * (cmap (snd p) - cmap (fst p) - (snd p - fst p)) = snd p * (cmap (snd p) - cmap (fst p)) - cmap (snd p) * (snd p - fst p).
Proof.
  destruct s5 as (Q & B). destruct cmap_vals as (V0 & V1 & Vb & Vi). pose proof eps_small as ES. unfold pairs. cbv zeta. set (t := sqrt 5) in *.
  assert (N1 : cmap (-1) = 0) by (replace (-1) with (- (1)) by ring; rewrite cmap_odd, V1; ring). assert (Nb : cmap (- (2 + t)) = - ((3 + t) / 2)) by (rewrite cmap_odd, Vb; reflexivity).
  assert (Ni : cmap (- (2 * (2 + t) - 1)) = - (2 + t)) by (rewrite cmap_odd, Vi; reflexivity).
  assert (ab : forall a : R, 1 <= a -> Rabs a >= 1 /\ Rabs (- a) >= 1 /\ eps < Rabs a /\ eps < Rabs (- a)) by (intros a Ha; rewrite Rabs_Ropp, Rabs_pos_eq by lra; lra).
  intros [<-|[<-|[<-|[<-|[<-|[]]]]]]; cbn [fst snd].
  - assert (D : eps < Rabs (-1 - - (2 + t))) by (replace (-1 - - (2 + t)) with (1 + t) by ring; apply ab; lra).
    assert (W : wnext (- (2 + t)) (-1) = 2 + t) by (rewrite (wstep _ _ ((1 + t) / 4)) by (auto; try rewrite N1, Nb; nra); rewrite N1; apply Rmult_eq_reg_r with ((1 + t) / 4 - 1); [|lra]; unfold Rdiv at 1; rewrite Rmult_assoc, Rinv_l by lra; nra).
    rewrite W, N1, Nb. split; [right; now left|]. split; [replace (0 - -1) with 1 by ring; apply ab; lra|]. split; [exact D|nra].
  - assert (D : eps < Rabs (2 + t - -1)) by (apply ab; lra).
    assert (W : wnext (-1) (2 + t) = 1) by (rewrite (wstep _ _ (1 / 2)) by (auto; try rewrite N1, Vb; lra); rewrite Vb; field).
    rewrite W, N1, Vb. split; [right; right; now left|]. split; [replace ((3 + t) / 2 - (2 + t)) with (- ((1 + t) / 2)) by field; apply ab; lra|]. split; [exact D|nra].
  - assert (D : eps < Rabs (1 - (2 + t))) by (replace (1 - (2 + t)) with (- (1 + t)) by ring; apply ab; lra).
    assert (W : wnext (2 + t) 1 = - (2 + t)) by (rewrite (wstep _ _ ((1 + t) / 4)) by (auto; try rewrite V1, Vb; nra); rewrite V1; apply Rmult_eq_reg_r with ((1 + t) / 4 - 1); [|lra]; unfold Rdiv at 1; rewrite Rmult_assoc, Rinv_l by lra; nra).
    rewrite W, V1, Vb. split; [right; right; right; now left|]. split; [replace (0 - 1) with (- (1)) by ring; apply ab; lra|]. split; [exact D|nra].
  - assert (D : eps < Rabs (- (2 + t) - 1)) by (replace (- (2 + t) - 1) with (- (3 + t)) by ring; apply ab; lra).
    assert (W : wnext 1 (- (2 + t)) = -1) by (rewrite (wstep _ _ (1 / 2)) by (auto; try rewrite V1, Nb; lra); rewrite Nb; field).
    rewrite W, V1, Nb. split; [now left|]. split; [replace (- ((3 + t) / 2) - - (2 + t)) with ((1 + t) / 2) by field; apply ab; lra|]. split; [exact D|nra].
  - assert (D : eps < Rabs (- (2 + t) - - (2 * (2 + t) - 1))) by (replace (- (2 + t) - - (2 * (2 + t) - 1)) with (1 + t) by ring; apply ab; lra).
    assert (W : wnext (- (2 * (2 + t) - 1)) (- (2 + t)) = -1) by (rewrite (wstep _ _ (1 / 2)) by (auto; try rewrite Nb, Ni; lra); rewrite Nb; field).
    rewrite W, Nb, Ni. split; [now left|]. split; [replace (- ((3 + t) / 2) - - (2 + t)) with ((1 + t) / 2) by field; apply ab; lra|]. split; [exact D|nra].
Qed.
Definition cvec (x : vec) : vec := fun i => cmap (x i).
Lemma res_big s tolx x p : In p pairs -> x 0%nat = snd p -> tolx < s 0%nat -> Rleb (norm_inf 1 (fun i => s i * (cvec x i - x i))) tolx = false.
Proof.
  intros Hp Hx Hs. apply Rleb_false. apply Rnot_le_lt. intros H. pose proof (proj1 (norm_le_iff 1 _ _ ltac:(lia)) H 0%nat ltac:(lia)) as R. cbn beta in R. unfold cvec in R. rewrite Hx in R.
  destruct (cycle p Hp) as (_ & G & _). rewrite Rabs_mult in R. destruct (Rle_dec (s 0%nat) 0) as [Z|Z].
  - pose proof (Rmult_le_pos _ _ (Rabs_pos (s 0%nat)) (Rabs_pos (cmap (snd p) - snd p))). lra.
  - rewrite (Rabs_pos_eq (s 0%nat)) in R by lra. assert (s 0%nat * 1 <= s 0%nat * Rabs (cmap (snd p) - snd p)) by (apply Rmult_le_compat_l; lra). lra.
Qed.
Lemma weg_cycle s tolx n : forall k x xm gxm tr p, tolx < s 0%nat -> (1 <= k)%nat -> In p pairs -> x 0%nat = snd p -> xm 0%nat = fst p -> gxm 0%nat = cmap (fst p) ->
  exists T v, weg_loop 1 cvec s tolx 1 (-5) 0 (S n) k x xm gxm tr = (T, Ok v) /\ v_success v = false.
Proof.
  induction n as [|n IH]; intros k x xm gxm tr p Hs Hk Hp Hx Hxm Hg; cbn [weg_loop]; rewrite (res_big s tolx x p) by assumption.
  - eexists _, _. split; reflexivity.
  - replace (k <? 1)%nat with false by (symmetry; apply Nat.ltb_ge; lia). cbn [weg_loop] in IH. apply (IH (S k)) with (p := (snd p, wnext (fst p) (snd p))); [exact Hs|lia|apply cycle; exact Hp| |exact Hx|].
    + cbn [snd]. unfold wnext, cvec. now rewrite Hx, Hxm, Hg.
    + cbn [fst]. unfold cvec. now rewrite Hx.
Qed.
Lemma sclx_default x : x <> 0 -> scalex 1 (fun _ => x) 0%nat = / Rabs x.
Proof.
  intros H. unfold scalex, min_nonzero. cbn. destruct (Req_EM_T x 0) as [Z|_]; [easy|].
  rewrite ?(Rmax_right 0 (Rabs x)) by apply Rabs_pos. try (destruct (Req_EM_T x 0) as [Z|_]; [easy|]). replace (Rabs x / Rabs x) with 1 by (field; now apply Rabs_no_R0). rewrite ln_1. replace (0 / ln 10) with 0 by (unfold Rdiv; ring).
  rewrite (proj2 (Rleb_false 1 0)) by lra. unfold Rdiv. ring.
Qed.

(** Finding.  There is a contraction of the line (factor below one) on which fixpoint_wegstein with its
    default settings visits the same four points for ever, whatever the number of iterations, although
    direct substitution converges.  The cycle does not involve the bounds of the acceleration
    factor. *)
Theorem C113_wegstein_refuted : exists (h : R -> R) L x0, 0 <= L < 1 /\ (forall x y, Rabs (h x - h y) <= L * Rabs (x - y)) /\ h 0 = 0 /\
  (forall n nan, (1 <= n)%nat -> exists T v, fixpoint_wegstein 1 (fun x i => h (x i)) (fun _ => x0) None (1 / 10 ^ 6) 1 (-5) 0 n nan = (T, Ok v) /\ v_success v = false) /\
  (exists n0, forall n nan, (n0 <= n)%nat -> exists T v, fixpoint_wegstein 1 (fun x i => h (x i)) (fun _ => x0) None (1 / 10 ^ 6) 1 0 0 n nan = (T, Ok v) /\ v_success v = true).
Proof.
  destruct s5 as (Q & B). set (b := 2 + sqrt 5). exists cmap, ((1 + sqrt 5) / 4), (- (2 * b - 1)). destruct cmap_vals as (V0 & V1 & Vb & Vi). fold b in Vb, Vi.
  assert (SC : scalex 1 (fun _ => - (2 * b - 1)) 0%nat = / (2 * b - 1)) by (rewrite sclx_default by (unfold b; lra); rewrite Rabs_Ropp, Rabs_pos_eq by (unfold b; lra); reflexivity).
  assert (SP : 1 / 8 < / (2 * b - 1) < 1) by (split; [apply Rmult_lt_reg_r with (2 * b - 1)|apply Rmult_lt_reg_r with (2 * b - 1)]; try (unfold b; lra); rewrite Rinv_l by (unfold b; lra); unfold b; lra).
  split; [lra|]. split; [apply cmap_lip|]. split; [exact V0|]. split.
  - intros n nan Hn. unfold fixpoint_wegstein. destruct n as [|n]; [lia|]. change (Nat.max 1 1) with 1%nat. cbn [weg_loop]. fold (cvec (fun _ => - (2 * b - 1))).
    set (s := scalex 1 (fun _ => - (2 * b - 1))) in *. change (fun (x : vec) (i : nat) => cmap (x i)) with cvec.
    assert (RB : Rleb (norm_inf 1 (fun i => s i * (cmap (- (2 * b - 1)) - - (2 * b - 1)))) (1 / 10 ^ 6) = false).
    { apply Rleb_false. apply Rnot_le_lt. intros H. pose proof (proj1 (norm_le_iff 1 _ _ ltac:(lia)) H 0%nat ltac:(lia)) as R. cbn beta in R. rewrite cmap_odd, Vi, SC in R.
      rewrite Rabs_pos_eq in R. { assert (1 / 8 * 1 <= / (2 * b - 1) * (- b - - (2 * b - 1))) by (apply Rmult_le_compat; unfold b in *; lra). lra. }
      apply Rmult_le_pos; unfold b in *; lra. }
    rewrite RB. destruct n as [|n]; [eexists _, _; split; reflexivity|]. cbn [Nat.ltb Nat.leb].
    apply (weg_cycle s (1 / 10 ^ 6) n 1 _ _ _ _ (- (2 * b - 1), - b)); [rewrite SC; lra|lia|unfold pairs; fold b; cbv zeta; right; right; right; right; now left| |reflexivity|reflexivity].
    change (cmap (- (2 * b - 1)) = - b). rewrite cmap_odd, Vi. reflexivity.
  - set (L := (1 + sqrt 5) / 4) in *. set (E0 := Rabs (/ (2 * b - 1) * - (2 * b - 1))).
    assert (HL : 0 <= L < 1) by (unfold L; lra). assert (EE : E0 = 1) by (unfold E0; rewrite Rabs_left1; [field; unfold b; lra|]; assert (0 < / (2 * b - 1) * (2 * b - 1)) by (rewrite Rinv_l; unfold b; lra); lra).
    destruct (pow_lt_1_zero L ltac:(rewrite Rabs_pos_eq; lra) (1 / 10 ^ 6 / 2) ltac:(lra)) as (n1 & Hn1). exists (S n1). intros n nan Hn.
    pose proof (Hn1 n1 ltac:(lia)) as P. rewrite Rabs_pos_eq in P by (apply pow_le; lra).
    unfold fixpoint_wegstein at 1. change (match @None vec with Some s => s | None => scalex 1 (fun _ => - (2 * b - 1)) end) with (scalex 1 (fun _ => - (2 * b - 1))).
    destruct (C113_wegstein 1 (fun x i => cmap (x i)) (fun _ => - (2 * b - 1)) (scalex 1 (fun _ => - (2 * b - 1))) (1 / 10 ^ 6) 1 0 0 n nan (fun _ => 0) L L 1 n1) as (T & v & E & SU & _); try lia; try lra.
    + intros x E W i Hi. assert (i = 0)%nat as -> by lia. specialize (W 0%nat ltac:(lia)). rewrite SC in *. rewrite Rabs_mult in *. pose proof (cmap_lip (x 0%nat) 0) as CL. fold L in CL. rewrite V0 in CL.
      eapply Rle_trans; [apply Rmult_le_compat_l; [apply Rabs_pos|exact CL]|]. replace (Rabs (/ (2 * b - 1)) * (L * Rabs (x 0%nat - 0))) with (L * (Rabs (/ (2 * b - 1)) * Rabs (x 0%nat - 0))) by ring. apply Rmult_le_compat_l; lra.
    + intros q Hq. replace q with 0 by lra. rewrite Rabs_R0, Rminus_0_r, Rabs_R1. lra.
    + intros i Hi. assert (i = 0)%nat as -> by lia. rewrite SC, Rminus_0_r. fold E0. lra.
    + rewrite Rmult_1_r. assert ((1 + L) * L ^ n1 <= 2 * L ^ n1) by (apply Rmult_le_compat_r; [apply pow_le; lra|lra]). lra.
    + exists T, v. split; [exact E|exact SU].
Qed.

Lemma and_cycle s tolx orc n : (forall k cols f, cols 0%nat 0%nat <> 0 -> exists gam, orc k 1%nat cols f = LsGamma gam /\ gam 0%nat * cols 0%nat 0%nat = f 0%nat) ->
  forall k x gx fx dG dF tr p, tolx < s 0%nat -> (1 <= k)%nat -> In p pairs -> x 0%nat = snd p -> gx 0%nat = cmap (fst p) -> fx 0%nat = cmap (fst p) - fst p ->
  exists T v, and_loop 1 1 cvec s tolx orc (S n) k x gx fx dG dF tr = (T, Ok v) /\ v_success v = false.
Proof.
  intros HO. induction n as [|n IH]; intros k x gx fx dG dF tr p Hs Hk Hp Hx Hg Hf; cbn [and_loop]; rewrite (res_big s tolx x p) by assumption;
    replace (Nat.min 1 k) with 1%nat by lia; destruct (cycle p Hp) as (C1 & C2 & C3 & C4);
    (destruct (HO k (fun j => shift_in 1 dF (fun i => - fx i + (cvec x i - x i)) (1 - 1 + j)%nat) (fun i => cvec x i - x i)) as (gam & EG & GV);
      [cbn; rewrite Hf; unfold cvec; rewrite Hx; intros Z;
       destruct p as (u, v); cbn [fst snd] in *; assert (ZZ : cmap v - cmap u = v - u) by lra; pose proof (cmap_lip v u) as CL; rewrite ZZ in CL; destruct s5 as (_ & B); pose proof (Rabs_pos (v - u)); pose proof eps_small; assert (0 < Rabs (v - u)) by (unfold eps in C3; assert (0 < / 2 ^ 52) by (apply Rinv_0_lt_compat; apply pow_lt; lra); lra); nra|]);
    rewrite EG.
  - eexists _, _. split; reflexivity.
  - cbn in GV. rewrite Hf in GV. unfold cvec in GV. rewrite Hx in GV. cbn [and_loop] in IH. apply (IH (S k)) with (p := (snd p, wnext (fst p) (snd p))); [exact Hs|lia|exact C1| | |].
    + cbn [snd sumn]. unfold cvec. cbn. rewrite Hx, Hg. destruct p as (u, v). cbn [fst snd] in *. set (w := wnext u v) in *. set (G := gam 0%nat) in *.
      assert (NZ : cmap v - cmap u - (v - u) <> 0). { intros Z. assert (Z2 : G * (- (cmap u - u) + (cmap v - v)) = 0) by (replace (- (cmap u - u) + (cmap v - v)) with (cmap v - cmap u - (v - u)) by ring; rewrite Z; ring). rewrite Z2 in GV. rewrite <- GV, Rabs_R0 in C2. lra. }
      apply Rmult_eq_reg_r with (cmap v - cmap u - (v - u)); [|exact NZ]. rewrite C4.
      replace ((cmap v - (0 + G * (- cmap u + cmap v))) * (cmap v - cmap u - (v - u))) with (cmap v * (cmap v - cmap u - (v - u)) - (cmap v - cmap u) * (G * (- (cmap u - u) + (cmap v - v)))) by ring. rewrite GV. ring.
    + cbn [fst]. unfold cvec. now rewrite Hx.
    + cbn [fst]. unfold cvec. now rewrite Hx.
Qed.

(** The same contraction makes fixpoint_anderson with one stored difference run in circles, for
    every exact solution of the least-squares problems. *)
Theorem C113_anderson_refuted : exists (h : R -> R) L x0, 0 <= L < 1 /\ (forall x y, Rabs (h x - h y) <= L * Rabs (x - y)) /\ h 0 = 0 /\
  forall orc, (forall k cols f, cols 0%nat 0%nat <> 0 -> exists gam, orc k 1%nat cols f = LsGamma gam /\ gam 0%nat * cols 0%nat 0%nat = f 0%nat) ->
  forall n, (2 <= n)%nat -> exists T v, fixpoint_anderson 1 (fun x i => h (x i)) (fun _ => x0) 1 None (1 / 10 ^ 6) n orc = (T, Ok v) /\ v_success v = false.
Proof.
  destruct s5 as (Q & B). set (b := 2 + sqrt 5). exists cmap, ((1 + sqrt 5) / 4), (- (2 * b - 1)). destruct cmap_vals as (V0 & V1 & Vb & Vi). fold b in Vb, Vi.
  assert (SC : scalex 1 (fun _ => - (2 * b - 1)) 0%nat = / (2 * b - 1)) by (rewrite sclx_default by (unfold b; lra); rewrite Rabs_Ropp, Rabs_pos_eq by (unfold b; lra); reflexivity).
  assert (SP : 1 / 8 < / (2 * b - 1) < 1) by (split; [apply Rmult_lt_reg_r with (2 * b - 1)|apply Rmult_lt_reg_r with (2 * b - 1)]; try (unfold b; lra); rewrite Rinv_l by (unfold b; lra); unfold b; lra).
  split; [lra|]. split; [apply cmap_lip|]. split; [exact V0|].
  intros orc HO n Hn. unfold fixpoint_anderson. set (s := scalex 1 (fun _ => - (2 * b - 1))) in *. change (Nat.max 1 1) with 1%nat. change (fun (x : vec) (i : nat) => cmap (x i)) with cvec.
  assert (RB : Rleb (norm_inf 1 (fun i => s i * (cmap (- (2 * b - 1)) - - (2 * b - 1)))) (/ 100 * (1 / 10 ^ 6)) = false).
  { apply Rleb_false. apply Rnot_le_lt. intros H. pose proof (proj1 (norm_le_iff 1 _ _ ltac:(lia)) H 0%nat ltac:(lia)) as R. cbn beta in R. rewrite cmap_odd, Vi, SC in R.
    rewrite Rabs_pos_eq in R. { assert (1 / 8 * 1 <= / (2 * b - 1) * (- b - - (2 * b - 1))) by (apply Rmult_le_compat; unfold b in *; lra). lra. }
    apply Rmult_le_pos; unfold b in *; lra. }
  rewrite RB. destruct n as [|[|n]]; try lia. change (S (S n) - 1)%nat with (S n).
  apply (and_cycle s (1 / 10 ^ 6) orc n HO 1 _ _ _ _ _ _ (- (2 * b - 1), - b)); [rewrite SC; lra|lia|unfold pairs; fold b; cbv zeta; right; right; right; right; now left| |reflexivity|reflexivity].
  change (cmap (- (2 * b - 1)) = - b). rewrite cmap_odd, Vi. reflexivity.
Qed.

Lemma pairs_far p : In p pairs -> 3 <= Rabs (snd p - fst p) /\ Rabs (fst p) <= 8 /\ Rabs (snd p) <= 8.
Proof. destruct s5 as (_ & B). unfold pairs. cbv zeta. intros [<-|[<-|[<-|[<-|[<-|[]]]]]]; cbn [fst snd]; unfold Rabs; repeat destruct Rcase_abs; lra. Qed.
Lemma cmap_bound x : Rabs (x - cmap x) <= 2 * Rabs x /\ forall y, x < y -> (y - cmap y) - (x - cmap x) >= 19 / 100 * (y - x).
Proof.
  destruct s5 as (_ & B). destruct cmap_vals as (V0 & _). split.
  - pose proof (cmap_lip x 0) as C. rewrite V0, !Rminus_0_r in C. pose proof (Rabs_pos x). assert ((1 + sqrt 5) / 4 * Rabs x <= 1 * Rabs x) by (apply Rmult_le_compat_r; lra).
    eapply Rle_trans; [apply Rabs_triang|]. rewrite Rabs_Ropp. lra.
  - intros y H. pose proof (cmap_lip y x) as C. rewrite (Rabs_pos_eq (y - x)) in C by lra. pose proof (Rle_abs (cmap y - cmap x)). assert ((1 + sqrt 5) / 4 * (y - x) <= 81 / 100 * (y - x)) by (apply Rmult_le_compat_r; lra). lra.
Qed.
Lemma secant_cycle tolx tolf n : tolx < 1 -> tolf < 1 -> forall k p f2 x2 tr, In p pairs ->
  exists T v, secant_loop (fun x => x - cmap x) tolx tolf n (S k) (fst p) (fst p - cmap (fst p)) (snd p) (snd p - cmap (snd p)) x2 f2 tr = (T, Ok v) /\ rr_success v = false.
Proof.
  intros Tx Tf. pose proof eps_small as ES. assert (EP : 0 < eps) by (unfold eps; apply Rinv_0_lt_compat; apply pow_lt; lra).
  induction n as [|n IH]; intros k p f2 x2 tr Hp; cbn [secant_loop Nat.eqb]. { eexists _, _. split; reflexivity. }
  destruct (cycle p Hp) as (C1 & C2 & C3 & C4). destruct (cycle _ C1) as (_ & D2 & _). destruct (pairs_far p Hp) as (F1 & F2 & F3). destruct (pairs_far _ C1) as (G1 & _). cbn [fst snd] in *.
  destruct p as (u, v). cbn [fst snd] in *. set (w := wnext u v) in *.
  assert (DF : 57 / 100 <= Rabs (v - cmap v - (u - cmap u))).
  { destruct (Rtotal_order u v) as [H|[H|H]].
    - pose proof (proj2 (cmap_bound u) v H). rewrite (Rabs_pos_eq (v - u)) in F1 by lra. rewrite Rabs_pos_eq; lra.
    - rewrite H, Rminus_eq_0, Rabs_R0 in F1. lra.
    - pose proof (proj2 (cmap_bound v) u H). rewrite (Rabs_left1 (v - u)) in F1 by lra. rewrite Rabs_left1; lra. }
  destruct (Rleb (Rabs (v - cmap v - (u - cmap u))) _) eqn:E1.
  { eexists _, _. split; reflexivity. }
  assert (NZ : v - cmap v - (u - cmap u) <> 0) by (intros Z; rewrite Z, Rabs_R0 in DF; lra).
  assert (NX : v - (v - cmap v) * (v - u) / (v - cmap v - (u - cmap u)) = w).
  { apply Rmult_eq_reg_r with (cmap v - cmap u - (v - u)); [|intros Z; apply NZ; lra]. rewrite C4. field. exact NZ. }
  rewrite NX. rewrite (proj2 (Rleb_false (Rabs (w - v)) tolx)) by lra. replace (Rabs (w - cmap w)) with (Rabs (cmap w - w)) by apply Rabs_minus_sym. rewrite (proj2 (Rleb_false (Rabs (cmap w - w)) tolf)) by lra.
  replace (S k + 1)%nat with (S (S k)) by lia. apply (IH (S k) (v, w)). exact C1.
Qed.

(** The secant method itself: for a strictly increasing function with slopes between 0.19 and 1 it
    never reaches the tolerances from two particular guesses, however many iterations are allowed. *)
Theorem C113_secant_refuted : exists (f : R -> R) x0 x1, f 0 = 0 /\ (forall x y, x < y -> 19 / 100 * (y - x) <= f y - f x <= y - x) /\
  forall tolx tolf n, tolx < 1 -> tolf < 1 -> (1 <= n)%nat -> exists T v, root_secant f x0 x1 tolx tolf n = (T, Ok v) /\ rr_success v = false.
Proof.
  destruct s5 as (Q & B). destruct cmap_vals as (V0 & V1 & Vb & _). exists (fun x => x - cmap x), (- (2 + sqrt 5)), (-1). split; [rewrite V0; ring|]. split.
  - intros x y H. pose proof (proj2 (cmap_bound x) y H). pose proof (half_mono x y ltac:(lra)). pose proof (half_mono (- y) (- x) ltac:(lra)). unfold cmap in *. lra.
  - intros tolx tolf n Tx Tf Hn. unfold root_secant.
    assert (P0 : In (- (2 + sqrt 5), -1) pairs) by (now left). assert (P3 : In (1, - (2 + sqrt 5)) pairs) by (unfold pairs; cbv zeta; do 3 right; now left).
    destruct (cycle _ P3) as (_ & R0 & _). destruct (cycle _ P0) as (_ & R1 & _). cbn [fst snd] in *.
    rewrite (Rabs_minus_sym (- (2 + sqrt 5))), (Rabs_minus_sym (-1)). rewrite (proj2 (Rleb_false _ tolf)) by lra. rewrite (proj2 (Rleb_false _ tolf)) by lra.
    destruct n as [|n]; [lia|]. cbn [secant_loop]. pose proof eps_small as ES. assert (EP : 0 < eps) by (unfold eps; apply Rinv_0_lt_compat; apply pow_lt; lra).
    destruct (Rleb _ _) eqn:E1. { eexists _, _. split; reflexivity. }
    destruct (cycle _ P0) as (C1 & C2 & C3 & C4). destruct (cycle _ C1) as (_ & D2 & _). destruct (pairs_far _ C1) as (G1 & _). cbn [fst snd] in *. set (u := - (2 + sqrt 5)) in *. set (w := wnext u (-1)) in *.
    pose proof (proj2 (cmap_bound u) (-1) ltac:(unfold u; lra)) as MB. assert (UM : u <= -4) by (unfold u; lra).
    assert (NX : -1 - (-1 - cmap (-1)) * (-1 - u) / (-1 - cmap (-1) - (u - cmap u)) = w).
    { apply Rmult_eq_reg_r with (cmap (-1) - cmap u - (-1 - u)); [|intros Z; lra]. rewrite C4. field. lra. }
    rewrite NX. rewrite (proj2 (Rleb_false (Rabs (w - -1)) tolx)) by lra. replace (Rabs (w - cmap w)) with (Rabs (cmap w - w)) by apply Rabs_minus_sym. rewrite (proj2 (Rleb_false (Rabs (cmap w - w)) tolf)) by lra.
    apply (secant_cycle tolx tolf n Tx Tf 0 (-1, w)). exact C1.
Qed.

(** The map x/2 + 1 with bounds -1/5 and 0. *)
Example C113_fix_case : forall nan, exists T v, fixpoint_wegstein 1 (fun x i => x i / 2 + 1) (fun _ => 0) (Some (fun _ => 1)) (1 / 10) 1 (-1 / 5) 0 20 nan = (T, Ok v) /\ v_success v = true /\ Rabs (v_x v 0%nat - 2) <= 1 / 5.
Proof.
  intros nan. destruct (C113_wegstein 1 (fun x i => x i / 2 + 1) (fun _ => 0) (fun _ => 1) (1 / 10) 1 (-1 / 5) 0 20 nan (fun _ => 2) (1 / 2) (4 / 5) 2 19) as (T & v & E & S & W & _); try lia; try lra.
  - intros x E W i Hi. specialize (W i Hi). rewrite Rmult_1_l in *. replace (x i / 2 + 1 - 2) with (1 / 2 * (x i - 2)) by field. rewrite Rabs_mult, (Rabs_pos_eq (1 / 2)) by lra. lra.
  - intros q Hq. rewrite (Rabs_left1 q), (Rabs_pos_eq (1 - q)) by lra. lra.
  - intros i Hi. rewrite Rmult_1_l, Rabs_left1 by lra. lra.
  - exists T, v. split; [exact E|]. split; [exact S|]. specialize (W 0%nat ltac:(lia)). rewrite Rmult_1_l in W. lra.
Qed.

Print Assumptions C113_wegstein.
Print Assumptions C113_wegstein_refuted.
Print Assumptions C113_anderson_refuted.
Print Assumptions C113_secant_refuted.
