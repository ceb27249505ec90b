(** Final statements: Wegstein (C07) and Anderson (C08) fixed-point solvers. *)
From Coq Require Import Reals Lra Lia List Bool Arith FunctionalExtensionality.
From Verif Require Import Prelude RootsModel RootsProofs DiffModel DiffProofs FixModel FixProofs.
Import ListNotations.
Open Scope R_scope.

(* ------------------------------------------------------------------ *)
(** ** C07 *)
(* ------------------------------------------------------------------ *)

(** For every map, dimension, start, scaling, tolerance, wait and bounds, a
    result is returned; its f is g(x)-x; success means exactly that every scaled
    residual is within tolx; g was evaluated niter <= maxiter times, the last
    time at the returned x, and without success all maxiter evaluations were
    used. *)
Theorem C07_wegstein_result : forall N g x0 sclx tolx wait qmin qmax maxiter nan,
  (1 <= N)%nat -> (1 <= maxiter)%nat ->
  exists T r,
    fixpoint_wegstein N g x0 (Some sclx) tolx wait qmin qmax maxiter nan = (T, Ok r) /\
    length T = v_niter r /\ v_nfeval r = v_niter r /\ (1 <= v_niter r <= maxiter)%nat /\
    nth 0 T nan = x0 /\
    nth (v_niter r - 1) T nan = v_x r /\
    (forall i, v_f r i = g (v_x r) i - v_x r i) /\
    (v_success r = true <-> forall i, (i < N)%nat -> Rabs (sclx i * v_f r i) <= tolx) /\
    (v_success r = false -> v_niter r = maxiter).
Proof.
  intros N g x0 sclx tolx wait qmin qmax maxiter nan HN Hmax.
  destruct maxiter as [|n]; [lia|]. unfold fixpoint_wegstein.
  destruct (weg_loop_spec N g sclx tolx (Nat.max wait 1) qmin qmax ltac:(lia) n 0 x0 nan nan [])
    as (T & r & E & (T' & ET) & R1 & R2 & R3 & R4 & R5 & R6 & R7 & R8).
  - easy.
  - lia.
  - intros j Hj. simpl in Hj. lia.
  - exists T, r. split; [exact E|]. split; auto. split; auto. split; [lia|].
    split; [now rewrite ET|]. split.
    { rewrite <- R4. apply nth_indep. lia. }
    split; [now rewrite R5|]. split; [|intros; rewrite R7 by auto; lia].
    rewrite R6. apply norm_le_iff. lia.
Qed.

(** The acceleration: the first max(wait,1) steps are direct substitutions; every
    later step is x <- q x + (1-q) g(x) with q in [qmin,qmax] for each component,
    q being the secant value s/(s-1) whenever that value lies within the bounds
    (and |dx| > eps). *)
Theorem C07_wegstein_steps : forall N g x0 sclx tolx wait qmin qmax maxiter nan T r,
  qmin <= qmax ->
  fixpoint_wegstein N g x0 (Some sclx) tolx wait qmin qmax maxiter nan = (T, Ok r) ->
  forall k, (S k < length T)%nat ->
    let x j := nth j T nan in
    ((k < Nat.max wait 1)%nat -> x (S k) = g (x k)) /\
    ((Nat.max wait 1 <= k)%nat -> forall i,
       exists q, qmin <= q <= qmax /\
         x (S k) i = q * x k i + (1 - q) * g (x k) i /\
         let s := (g (x k) i - g (x (k - 1)%nat) i) / (x k i - x (k - 1)%nat i) in
         (eps < Rabs (x k i - x (k - 1)%nat i) -> s <> 1 -> qmin <= s / (s - 1) <= qmax ->
          q = s / (s - 1)) /\
         (eps < Rabs (x k i - x (k - 1)%nat i) -> s <> 1 -> s / (s - 1) < qmin -> q = qmin) /\
         (eps < Rabs (x k i - x (k - 1)%nat i) -> s <> 1 -> qmax < s / (s - 1) -> q = qmax)).
Proof.
  intros N g x0 sclx tolx wait qmin qmax maxiter nan T r Hq Hrun k Hk x.
  destruct maxiter as [|n].
  { unfold fixpoint_wegstein in Hrun. cbn in Hrun. discriminate. }
  unfold fixpoint_wegstein in Hrun.
  destruct (weg_loop_spec N g sclx tolx (Nat.max wait 1) qmin qmax ltac:(lia) n 0 x0 nan nan [])
    as (T2 & r2 & E & (T' & ET) & R1 & R2 & R3 & R4 & R5 & R6 & R7 & R8).
  - easy.
  - lia.
  - intros j Hj. simpl in Hj. lia.
  - rewrite E in Hrun. injection Hrun as -> ->.
    destruct (R8 k Hk) as (A1 & A2 & _).
    assert (X : forall j, (j < length T)%nat -> nth j T vz = x j).
    { intros j Hj. apply nth_indep; auto. }
    rewrite !X in A1, A2 by lia.
    split; [exact A1|]. intros Hw i. specialize (A2 Hw i). cbv zeta in A2.
    rewrite X in A2 by lia.
    eexists. split; [|split; [exact A2|]].
    + now apply weg_q_bounds.
    + cbv zeta. unfold weg_s.
      assert (D : forall b : Prop, b -> b) by auto.
      set (dx := x k i - x (k - 1)%nat i). set (dg := g (x k) i - g (x (k - 1)%nat) i).
      split; [|split]; intros He Hs Hb;
        (assert (Rltb eps (Rabs dx) = true) as -> by now apply Rltb_true).
      * now apply weg_q_in.
      * unfold weg_q. destruct (Req_EM_T (dg / dx) 1); [easy|].
        unfold Rmin, Rmax. repeat destruct Rle_dec; lra.
      * unfold weg_q. destruct (Req_EM_T (dg / dx) 1); [easy|].
        unfold Rmin, Rmax. repeat destruct Rle_dec; lra.
Qed.

(** Componentwise affine maps: with acceleration factors a/(a-1) inside the
    bounds, the exact fixed point is found by the third evaluation at the
    latest. *)
Theorem C07_wegstein_affine : forall N a b x0 sclx tolx qmin qmax maxiter nan,
  let g (x : vec) : vec := fun i => a i * x i + b i in
  (1 <= N)%nat -> (3 <= maxiter)%nat -> 0 <= tolx ->
  (forall i, (i < N)%nat ->
     g x0 i = x0 i \/
     (eps < Rabs (g x0 i - x0 i) /\ a i <> 1 /\ qmin <= a i / (a i - 1) <= qmax)) ->
  exists T r,
    fixpoint_wegstein N g x0 (Some sclx) tolx 1 qmin qmax maxiter nan = (T, Ok r) /\
    v_success r = true /\ (v_niter r <= 3)%nat /\
    (v_niter r = 3%nat -> forall i, (i < N)%nat -> g (v_x r) i = v_x r i).
Proof.
  intros N a b x0 sclx tolx qmin qmax maxiter nan g HN Hmax Ht Hyp.
  destruct maxiter as [|[|[|n]]]; try lia.
  unfold fixpoint_wegstein. change (Nat.max 1 1) with 1%nat.
  destruct (weg_loop_spec N g sclx tolx 1 qmin qmax ltac:(lia) (S (S n)) 0 x0 nan nan [])
    as (T & r & E & (T' & ET) & R1 & R2 & R3 & R4 & R5 & R6 & R7 & R8).
  - easy.
  - lia.
  - intros j Hj. simpl in Hj. lia.
  - exists T, r. split; [exact E|].
    assert (T0 : nth 0 T vz = x0) by now rewrite ET.
    assert (F : (3 <= length T)%nat -> forall i, (i < N)%nat -> g (nth 2 T vz) i = nth 2 T vz i).
    { intros HL i Hi.
      destruct (R8 0%nat ltac:(lia)) as (A1 & _ & _). specialize (A1 ltac:(lia)).
      destruct (R8 1%nat ltac:(lia)) as (_ & A2 & _). specialize (A2 ltac:(lia) i).
      cbv zeta in A2. change (1 - 1)%nat with 0%nat in A2. rewrite A1, T0 in A2.
      unfold g at 1. rewrite A2.
      destruct (Hyp i Hi) as [Hf | [He [Ha Hb]]].
      - set (q := weg_q _ _ _). clearbody q.
        assert (G2 : g (g x0) i = x0 i).
        { unfold g at 1. rewrite Hf. exact Hf. }
        rewrite G2, Hf. unfold g in Hf. nra.
      - assert (Hs : weg_s (g x0 i - x0 i) (g (g x0) i - g x0 i) = a i).
        { unfold weg_s. assert (Rltb eps (Rabs (g x0 i - x0 i)) = true) as -> by now apply Rltb_true.
          assert (g x0 i - x0 i <> 0).
          { intros Z. rewrite Z, Rabs_R0 in He. pose proof eps_pos. lra. }
          replace (g (g x0) i - g x0 i) with (a i * (g x0 i - x0 i)) by (unfold g; ring).
          field. auto. }
        rewrite Hs, weg_q_in by auto. unfold g. field. lra. }
    assert (S3 : (3 <= length T)%nat -> norm_inf N (fun i => sclx i * (g (nth 2 T vz) i - nth 2 T vz i)) <= tolx).
    { intros HL. apply norm_le_iff; [lia|]. intros i Hi. rewrite (F HL i Hi).
      replace (sclx i * (nth 2 T vz i - nth 2 T vz i)) with 0 by ring. rewrite Rabs_R0. auto. }
    assert (L3 : (v_niter r <= 3)%nat).
    { destruct (le_lt_dec (v_niter r) 3); auto. exfalso.
      destruct (R8 2%nat ltac:(lia)) as (_ & _ & A3). apply A3, S3. lia. }
    split; [|split; auto].
    + destruct (v_success r) eqn:Es; auto. exfalso.
      specialize (R7 eq_refl). assert (v_niter r = 3%nat) by lia.
      assert (false = true); [|easy]. apply R6. rewrite R5.
      rewrite H in R4. change (3 - 1)%nat with 2%nat in R4. rewrite <- R4. apply S3. lia.
    + intros H3. rewrite H3 in R4. change (3 - 1)%nat with 2%nat in R4.
      rewrite <- R4. apply F. lia.
Qed.

(** Concrete run: g(x) = x/2 + 1 from 0 (N = 1): points 0, 1, 2 and success. *)
Example C07_case : exists T r,
  fixpoint_wegstein 1 (fun x i => / 2 * x i + 1) (fun _ => 0) (Some (fun _ => 1)) 0
    1 (-5) 0 10 (fun _ => 0) = (T, Ok r) /\
  v_success r = true /\ (v_niter r <= 3)%nat.
Proof.
  destruct (C07_wegstein_affine 1 (fun _ => / 2) (fun _ => 1) (fun _ => 0) (fun _ => 1) 0 (-5) 0 10
              (fun _ => 0)) as (T & r & H1 & H2 & H3 & _); try lia; try lra.
  - intros i _. right. split; [|split].
    + rewrite Rabs_pos_eq by lra. pose proof eps_small. lra.
    + lra.
    + lra.
  - exists T, r. auto.
Qed.

(** maxiter = 0 raises UnboundLocalError (k and fx are never bound). *)
Theorem C07_wegstein_maxiter0 : forall N g x0 s tolx wait qmin qmax nan,
  fixpoint_wegstein N g x0 s tolx wait qmin qmax 0 nan = ([], Err UnboundLocalError).
Proof. intros. unfold fixpoint_wegstein. destruct s; reflexivity. Qed.

(* ------------------------------------------------------------------ *)
(** ** C08 *)
(* ------------------------------------------------------------------ *)

(** For every map, dimension, start, memory m, scaling, tolerance and every
    behaviour of the least-squares step (including failures), with maxiter >= 2:
    a result is returned, f = g(x) - x, success means the scaled residual is
    within tolx, and g is evaluated nfeval <= maxiter times. *)
Theorem C08_anderson_result_partial : forall N g x0 m sclx tolx maxiter orc,
  (1 <= N)%nat -> (2 <= maxiter)%nat -> 0 <= tolx ->
  exists T r,
    fixpoint_anderson N g x0 m (Some sclx) tolx maxiter orc = (T, Ok r) /\
    length T = v_nfeval r /\ (1 <= v_nfeval r <= maxiter)%nat /\
    nth (v_nfeval r - 1) T x0 = v_x r /\
    (forall i, v_f r i = g (v_x r) i - v_x r i) /\
    (v_success r = true <-> forall i, (i < N)%nat ->
        Rabs (sclx i * v_f r i) <= (if Nat.eqb (v_niter r) 0 then / 100 * tolx else tolx)) /\
    (v_success r = false -> v_niter r = maxiter \/ v_msg r = FMsgQR \/ v_msg r = FMsgLsq).
Proof.
  intros N g x0 m sclx tolx maxiter orc HN Hmax Ht.
  destruct maxiter as [|[|n]]; try lia. unfold fixpoint_anderson.
  destruct (Rleb _ _) eqn:E0.
  - do 2 eexists. split; [reflexivity|]. cbn.
    apply Rleb_true in E0.
    split; [easy|]. split; [lia|]. split; [easy|]. split; [easy|]. split; [|easy].
    split; auto. intros _. apply (proj1 (norm_le_iff N _ _ ltac:(lia)) E0).
  - change (S (S n) - 1)%nat with (S n).
    destruct (and_loop_spec N (Nat.max m 1) g sclx tolx orc ltac:(lia) n 1 (g x0) (g x0)
                (fun i => g x0 i - x0 i) (fun _ _ => 0) (fun _ _ => 0) [x0])
      as (T & r & E & (T' & ET) & R1 & R2 & R3 & R4 & R5 & R6 & R7 & R8).
    + lia.
    + easy.
    + easy.
    + easy.
    + lia.
    + intros j Hj1 Hj. simpl in Hj. lia.
    + exists T, r. split; [exact E|]. split; [congruence|]. split; [lia|].
      split. { rewrite R2, <- R4. apply nth_indep. lia. }
      split; [now rewrite R5|]. split.
      * destruct (Nat.eqb_spec (v_niter r) 0); [lia|].
        rewrite R6. apply norm_le_iff. lia.
      * intros Hs. destruct (R7 Hs) as [R|R]; [left; lia|auto].
Qed.

(** Full property: a result for every maxiter >= 1.  Refuted: with maxiter = 1
    the loop is empty and the return statement raises UnboundLocalError. *)
Theorem C08_anderson_maxiter1_refuted : exists N g x0 m sclx tolx,
  (1 <= N)%nat /\ 0 <= tolx /\
  forall orc, snd (fixpoint_anderson N g x0 m (Some sclx) tolx 1 orc) = Err UnboundLocalError.
Proof.
  exists 1%nat, (fun x i => x i + 1), (fun _ => 0), 1%nat, (fun _ => 1), 0.
  split; [lia|]. split; [lra|]. intros orc. unfold fixpoint_anderson.
  destruct (Rleb _ _) eqn:E; [|reflexivity].
  apply Rleb_true in E. pose proof (proj1 (norm_le_iff 1 _ _ ltac:(lia)) E) as Q. clear E; rename Q into E.
  specialize (E 0%nat ltac:(lia)). rewrite Rabs_pos_eq in E by lra. lra.
Qed.

(** Every later iterate is g(x_k) minus the gamma-weighted sum of the last mk
    differences of g, gamma being what the least-squares step returned for the
    matching differences of the residual. *)
Theorem C08_anderson_steps : forall N g x0 m sclx tolx maxiter orc T r,
  fixpoint_anderson N g x0 m (Some sclx) tolx maxiter orc = (T, Ok r) ->
  (1 < length T -> nth 1 T x0 = g x0)%nat /\
  forall k, (1 <= k)%nat -> (S k < length T)%nat ->
    let x j := nth j T x0 in
    let mk := Nat.min (Nat.max m 1) k in
    exists gamma cols,
      (forall j i, (j < mk)%nat ->
         cols j i = (g (x (k - mk + j + 1)%nat) i - x (k - mk + j + 1)%nat i)
                    - (g (x (k - mk + j)%nat) i - x (k - mk + j)%nat i)) /\
      orc k mk cols (fun i => g (x k) i - x k i) = LsGamma gamma /\
      forall i, x (S k) i = g (x k) i - sumn mk (fun j => gamma j *
                   (g (x (k - mk + j + 1)%nat) i - g (x (k - mk + j)%nat) i)).
Proof.
  intros N g x0 m sclx tolx maxiter orc T r Hrun.
  unfold fixpoint_anderson in Hrun.
  destruct (Rleb _ _) eqn:E0.
  { injection Hrun as <- <-. cbn [length]. split; [lia|]. intros; lia. }
  destruct (maxiter - 1)%nat as [|n] eqn:En; [cbn in Hrun; discriminate|].
  destruct (and_loop_spec N (Nat.max m 1) g sclx tolx orc ltac:(lia) n 1 (g x0) (g x0)
                (fun i => g x0 i - x0 i) (fun _ _ => 0) (fun _ _ => 0) [x0])
      as (T2 & r2 & E & (T' & ET) & R1 & R2 & R3 & R4 & R5 & R6 & R7 & R8);
    try lia; try easy.
  { intros j Hj1 Hj. simpl in Hj. lia. }
  rewrite E in Hrun. injection Hrun as -> ->.
  split. { intros _. now rewrite ET. }
  intros k Hk1 Hk x mk.
  destruct (R8 k Hk1 Hk) as (_ & gam & A1 & A2). fold mk in A1, A2.
  assert (X : forall j, (j < length T)%nat -> nth j T vz = x j).
  { intros j Hj. apply nth_indep; auto. }
  assert (Hmk : (1 <= mk <= k)%nat) by (unfold mk; lia).
  eexists gam, _. split; [|split].
  2:{ change (fun i => g (x k) i - x k i) with (res_ g (x k)). rewrite <- (X k) by lia. exact A1. }
  - intros j i Hj. unfold dcol, res_. rewrite !X by lia.
    destruct (Nat.ltb_spec j mk); [easy|lia].
  - intros i. specialize (A2 i). rewrite !X in A2 by lia. rewrite A2. f_equal.
    apply sumn_ext; intros j Hj. unfold dcol. rewrite !X by lia. easy.
Qed.

(** Affine maps of any dimension: if the least-squares step at iteration k has
    zero residual (which exact least squares achieves as soon as the stored
    residual differences span the residual), the next iterate is an exact fixed
    point and the solver stops there with success. *)
Theorem C08_anderson_affine : forall N A b x0 m sclx tolx maxiter orc T r k,
  let g (x : vec) : vec := fun i => b i + sumn N (fun j => A i j * x j) in
  (1 <= N)%nat -> 0 <= tolx ->
  fixpoint_anderson N g x0 m (Some sclx) tolx maxiter orc = (T, Ok r) ->
  (1 <= k)%nat -> (S k < length T)%nat ->
  (forall mk cols f gamma, orc k mk cols f = LsGamma gamma ->
     forall i, (i < N)%nat -> sumn mk (fun j => gamma j * cols j i) = f i) ->
  v_success r = true /\ length T = S (S k) /\
  forall i, (i < N)%nat -> g (v_x r) i = v_x r i.
Proof.
  intros N A b x0 m sclx tolx maxiter orc T r k g HN Ht Hrun Hk1 Hk Horc.
  destruct (C08_anderson_steps N g x0 m sclx tolx maxiter orc T r Hrun) as [_ St].
  specialize (St k Hk1 Hk). cbv zeta in St.
  set (mk := Nat.min (Nat.max m 1) k) in *.
  destruct St as (gam & cols & Hcols & Ho & Hx).
  set (x := fun j => nth j T x0) in *.
  assert (Z := Horc _ _ _ _ Ho).
  set (xb := fun i => x k i - sumn mk (fun j => gam j * (x (k - mk + j + 1)%nat i - x (k - mk + j)%nat i))).
  assert (G : forall i, g xb i = x (S k) i).
  { intros i. unfold x at 1. rewrite Hx. fold (x k). unfold g, xb.
    rewrite (sumn_ext N _ (fun j => A i j * x k j
        - sumn mk (fun l => A i j * (gam l * (x (k - mk + l + 1)%nat j - x (k - mk + l)%nat j))))).
    2:{ intros j Hj. rewrite sumn_scal. ring. }
    rewrite sumn_minus, (sumn_swap N mk).
    rewrite (sumn_ext mk _ (fun j => gam j *
      (b i + sumn N (fun j0 => A i j0 * x (k - mk + j + 1)%nat j0) -
       (b i + sumn N (fun j0 => A i j0 * x (k - mk + j)%nat j0))))).
    - unfold x. ring.
    - intros l Hl.
      rewrite (sumn_ext N _ (fun j => gam l * (A i j * x (k - mk + l + 1)%nat j
                                       - A i j * x (k - mk + l)%nat j))) by (intros; ring).
      rewrite sumn_scal, sumn_minus. ring. }
  assert (Fx : forall i, (i < N)%nat -> xb i = x (S k) i).
  { intros i Hi. rewrite <- G. specialize (Z i Hi).
    rewrite (sumn_ext mk _ (fun j => gam j * (g (x (k - mk + j + 1)%nat) i - g (x (k - mk + j)%nat) i)
        - gam j * (x (k - mk + j + 1)%nat i - x (k - mk + j)%nat i))) in Z.
    2:{ intros j Hj. rewrite Hcols by auto. fold (x (k - mk + j + 1)%nat) (x (k - mk + j)%nat). ring. }
    rewrite sumn_minus in Z. fold (x k) in Z.
    rewrite G. change (x (S k) i) with (nth (S k) T x0 i). rewrite Hx. fold (x k). unfold xb.
    change (fun j => gam j * (g (nth (k - mk + j + 1) T x0) i - g (nth (k - mk + j) T x0) i))
      with (fun j => gam j * (g (x (k - mk + j + 1)%nat) i - g (x (k - mk + j)%nat) i)).
    lra. }
  assert (FP : forall i, (i < N)%nat -> g (x (S k)) i = x (S k) i).
  { intros i Hi. rewrite <- (G i). unfold g. f_equal. apply sumn_ext. intros j Hj.
    now rewrite Fx. }
  assert (Nrm : norm_inf N (fun i => sclx i * (g (x (S k)) i - x (S k) i)) <= tolx).
  { apply norm_le_iff; [lia|]. intros i Hi. rewrite FP by auto.
    replace (sclx i * (x (S k) i - x (S k) i)) with 0 by ring. now rewrite Rabs_R0. }
  (* identify the end of the trace *)
  unfold fixpoint_anderson in Hrun.
  destruct (Rleb _ _) eqn:E0.
  { injection Hrun as <- <-. cbn [length] in Hk. lia. }
  destruct (maxiter - 1)%nat as [|n] eqn:En; [cbn in Hrun; discriminate|].
  destruct (and_loop_spec N (Nat.max m 1) g sclx tolx orc ltac:(lia) n 1 (g x0) (g x0)
                (fun i => g x0 i - x0 i) (fun _ _ => 0) (fun _ _ => 0) [x0])
      as (T2 & r2 & E & (T' & ET) & R1 & R2 & R3 & R4 & R5 & R6 & R7 & R8);
    try lia; try easy.
  { intros j Hj1 Hj. simpl in Hj. lia. }
  rewrite E in Hrun. injection Hrun as -> ->.
  assert (X : forall j, (j < length T)%nat -> nth j T vz = x j).
  { intros j Hj. apply nth_indep; auto. }
  assert (L : length T = S (S k)).
  { destruct (Nat.eq_dec (length T) (S (S k))); auto. exfalso.
    destruct (R8 (S k) ltac:(lia) ltac:(lia)) as [A0 _]. apply A0.
    rewrite X by lia. exact Nrm. }
  assert (Ex : v_x r = x (S k)).
  { rewrite <- R4, <- R1, L. rewrite X by lia. f_equal. }
  split; [|split; auto].
  - apply R6. rewrite R5, Ex. exact Nrm.
  - rewrite Ex. exact FP.
Qed.

(** Concrete case: N = 1, g(x) = x/2 + 1, exact scalar least squares. *)
Example C08_case : exists T r,
  fixpoint_anderson 1 (fun x i => 1 + sumn 1 (fun j => / 2 * x j)) (fun _ => 0) 1
    (Some (fun _ => 1)) 0 5
    (fun _ _ cols f => LsGamma (fun _ => f O / cols O O)) = (T, Ok r) /\
  v_success r = true /\ v_x r O = 2.
Proof.
  destruct (C08_anderson_result_partial 1 (fun x i => 1 + sumn 1 (fun j => / 2 * x j))
    (fun _ => 0) 1 (fun _ => 1) 0 5 (fun _ _ cols f => LsGamma (fun _ => f O / cols O O)))
    as (T & r & H & _); try lia; try lra.
  exists T, r. split; [exact H|].
  unfold fixpoint_anderson in H. destruct (Rleb _ _) eqn:E.
  { apply Rleb_true in E. pose proof (proj1 (norm_le_iff 1 _ _ ltac:(lia)) E) as Q. clear E; rename Q into E.
    specialize (E 0%nat ltac:(lia)). simpl in E. rewrite Rabs_pos_eq in E by lra. lra. }
  change (5 - 1)%nat with 4%nat in H. cbn [and_loop] in H.
  destruct (Rleb _ _) eqn:E1 in H.
  { apply Rleb_true in E1. pose proof (proj1 (norm_le_iff 1 _ _ ltac:(lia)) E1) as Q. clear E1; rename Q into E1.
    specialize (E1 0%nat ltac:(lia)). simpl in E1. rewrite Rabs_pos_eq in E1 by lra. lra. }
  match type of H with context [Rleb ?a ?b] => destruct (Rleb a b) eqn:E2 in H end.
  - injection H as _ <-. cbn. split; [easy|]. unfold shift_in. cbn. field; lra.
  - exfalso. apply Rleb_false in E2. revert E2. apply Rle_not_lt.
    apply norm_le_iff; [lia|]. intros i Hi. assert (i = O) as -> by lia.
    cbv beta. match goal with |- Rabs ?v <= _ => assert (Ez : v = 0) end.
    { unfold shift_in. cbn. field. }
    rewrite Ez, Rabs_R0. lra.
Qed.

Print Assumptions C07_wegstein_result.
Print Assumptions C07_wegstein_steps.
Print Assumptions C07_wegstein_affine.
Print Assumptions C08_anderson_result_partial.
Print Assumptions C08_anderson_steps.
Print Assumptions C08_anderson_affine.
