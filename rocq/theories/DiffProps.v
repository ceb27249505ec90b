(** Final statements: numerical derivatives (C10-C12) and fixed-step ODE
    integration (C13, C14). *)
From Coq Require Import Reals Lra Lia List Bool Arith ZArith.
From Coquelicot Require Import Coquelicot.
From Verif Require Import Prelude RootsModel RootsProofs DiffModel DiffProofs.
Open Scope R_scope.

(* ------------------------------------------------------------------ *)
(** ** C10 *)
(* ------------------------------------------------------------------ *)

(** Centered differences: exact derivative of every quadratic, for every step
    (0 selects the default step) and every point; the value is exact for every
    affine function and off by c h^2 (scaled step) otherwise. *)
Theorem C10_centered_exact : forall a b c x h,
  let r := derivative_centered (fun t => a + b * t + c * t ^ 2) x h in
  fst r = b + 2 * c * x /\
  (c = 0 -> snd r = a + b * x).
Proof.
  intros a b c x h. unfold derivative_centered. cbv zeta. cbn [fst snd].
  pose proof (step_neq0 h x) as Hn.
  set (k := (if Req_EM_T h 0 then cbrt (3 * eps) else h) * (1 + Rabs x)) in *.
  clearbody k. split.
  - field. auto.
  - intros ->. field.
Qed.

Example C10_case : fst (derivative_centered (fun t => 1 + 2 * t + 3 * t ^ 2) (-1) (1/2)) = -4.
Proof.
  rewrite (proj1 (C10_centered_exact 1 2 3 (-1) (1/2))). lra.
Qed.

(** Centered differences on a cubic: the error is exactly d h^2 with the step
    scaled by 1+|x| (so exactness cannot go beyond degree 2). *)
Theorem C10_centered_cubic_error : forall a b c d x h,
  h <> 0 ->
  fst (derivative_centered (fun t => a + b * t + c * t ^ 2 + d * t ^ 3) x h)
  = b + 2 * c * x + 3 * d * x ^ 2 + d * (h * (1 + Rabs x)) ^ 2.
Proof.
  intros a b c d x h Hh. unfold derivative_centered. cbv zeta. cbn [fst].
  pose proof (step_neq0 h x) as Hn.
  destruct (Req_EM_T h 0); [easy|].
  set (k := h * (1 + Rabs x)) in *. clearbody k. field. auto.
Qed.

(** Complex step on every real polynomial of degree <= 3 evaluated in complex
    arithmetic: exact derivative up to degree 2, error -d eps^2 for the cubic
    term. *)
Theorem C10_complex_exact : forall a b c d x : R,
  let f (z : C) : C :=
    (RtoC a + RtoC b * z + RtoC c * (z * z) + RtoC d * (z * (z * z)))%C in
  let r := derivative_complex (fun u v => fst (f (u, v))) (fun u v => snd (f (u, v))) x in
  fst r = b + 2 * c * x + 3 * d * x ^ 2 - d * eps ^ 2 /\
  (d = 0 -> fst r = b + 2 * c * x) /\
  Rabs (snd r - (a + b * x + c * x ^ 2 + d * x ^ 3)) = Rabs (c + 3 * d * x) * eps ^ 2.
Proof.
  intros a b c d x f r.
  pose proof eps_pos as He.
  assert (E : fst r = b + 2 * c * x + 3 * d * x ^ 2 - d * eps ^ 2).
  { unfold r, derivative_complex, f. cbn. field. lra. }
  split; [exact E|]. split; [intros Hd; rewrite E, Hd; ring|].
  unfold r, derivative_complex, f. cbn.
  rewrite <- (Rabs_pos_eq (eps * (eps * 1))) by nra.
  rewrite <- Rabs_mult, <- Rabs_Ropp. f_equal. ring.
Qed.

Example C10_complex_case :
  fst (derivative_complex (fun u v => fst ((u, v) * (u, v))%C)
                          (fun u v => snd ((u, v) * (u, v))%C) 3) = 6.
Proof. unfold derivative_complex. cbn. pose proof eps_pos. field. lra. Qed.

(** Forward Jacobian: exact for every affine map of every dimension, whatever
    the nonzero scaling, the number of digits, the uninitialised memory, and
    whether or not f(x) is passed in. *)
Theorem C10_jacobian_affine : forall N M (A : nat -> nat -> R) (b x sclx : nat -> R) fxo nd J0,
  let f v := fun r => b r + sumn N (fun j => A r j * v j) in
  (fxo = None \/ exists v, fxo = Some v /\ forall r, (r < M)%nat -> v r = f x r) ->
  (forall i, (i < N)%nat -> sclx i <> 0) ->
  forall r c, (r < M)%nat -> (c < N)%nat ->
    jacobian_forward N f x fxo sclx nd J0 r c = A r c.
Proof.
  intros N M A b x sclx fxo nd J0 f Hfx Hs r c Hr Hc.
  rewrite jacobian_spec by auto. cbv zeta.
  pose proof (jstep_pos x sclx (sqrt (noise nd)) c
                (sqrt_lt_R0 _ (noise_pos nd)) (Hs c Hc)) as Hp.
  set (h := jstep x sclx (sqrt (noise nd)) c) in *.
  assert (E : match fxo with Some v => v | None => f x end r = f x r).
  { destruct Hfx as [-> | [v [-> Hv]]]; auto. }
  rewrite E. unfold f. rewrite sumn_upd by auto. field. lra.
Qed.

Example C10_jacobian_case :
  let f (v : nat -> R) := fun r : nat => 1 + sumn 2 (fun j => INR (r + 2 * j) * v j) in
  jacobian_forward 2 f (fun _ => 0) None (fun _ => 1) None (fun _ _ => 99) 1 1 = 3.
Proof.
  cbv zeta.
  rewrite (C10_jacobian_affine 2 2 (fun r j => INR (r + 2 * j)) (fun _ => 1)
             (fun _ => 0) (fun _ => 1) None None (fun _ _ => 99));
    try lia; [simpl; lra|now left|intros; lra].
Qed.

(** Every column is the forward difference quotient along that coordinate of
    the *unperturbed* point, for every function: the work vector is restored. *)
Theorem C10_jacobian_columns : forall N f x sclx nd J0 r c,
  (c < N)%nat -> (forall i, (i < N)%nat -> sclx i <> 0) ->
  exists h, h = sqrt (noise nd) * Rmax (Rabs (x c)) (Rabs (1 / sclx c)) /\ 0 < h /\
    jacobian_forward N f x None sclx nd J0 r c =
    (f (fun j => if Nat.eq_dec j c then x j + h else x j) r - f x r) / h.
Proof.
  intros N f x sclx nd J0 r c Hc Hs.
  exists (jstep x sclx (sqrt (noise nd)) c). split; [easy|].
  split; [apply jstep_pos; auto; apply sqrt_lt_R0, noise_pos|].
  rewrite jacobian_spec by auto. cbv zeta.
  replace (upd x c (x c + jstep x sclx (sqrt (noise nd)) c)) with
    (fun j => if Nat.eq_dec j c then x j + jstep x sclx (sqrt (noise nd)) c else x j); [easy|].
  apply FunctionalExtensionality.functional_extensionality; intros j. unfold upd.
  destruct (Nat.eq_dec j c) as [->|]; easy.
Qed.

(* ------------------------------------------------------------------ *)
(** ** C11 *)
(* ------------------------------------------------------------------ *)

(** hessian_forward: symmetric for every function, and the work vector ends
    equal to the input. *)
Theorem C11_forward_symmetric : forall N f x fxo sclx nd h_ fh_ H0 i j,
  (i < N)%nat -> (j < N)%nat ->
  hessian_forward N f x fxo sclx nd h_ fh_ H0 i j =
  hessian_forward N f x fxo sclx nd h_ fh_ H0 j i /\
  fst (hessian_forward_st N f x fxo sclx nd h_ fh_ H0) = x.
Proof.
  intros N f x fxo sclx nd h_ fh_ H0 i j Hi Hj. unfold hessian_forward.
  pose proof (hessian_spec N f x fxo sclx nd h_ fh_ H0) as HS. cbv zeta in HS.
  destruct (hessian_forward_st N f x fxo sclx nd h_ fh_ H0) as [xh H]. cbn [fst snd].
  destruct HS as [-> [_ Ho]]. split; [|easy].
  destruct (Nat.lt_trichotomy i j) as [L|[->|L]]; auto.
  - symmetry. apply Ho; auto.
  - apply Ho; auto.
Qed.

(** hessian_forward: exact on every quadratic function, any dimension. *)
Theorem C11_forward_exact : forall N a b A x fxo sclx nd h_ fh_ H0,
  let f v := a + sumn N (fun i => b i * v i)
             + / 2 * sumn N (fun i => sumn N (fun j => A i j * v i * v j)) in
  (forall i j, (i < N)%nat -> (j < N)%nat -> A i j = A j i) ->
  (fxo = None \/ fxo = Some (f x)) ->
  (forall i, (i < N)%nat -> sclx i <> 0) ->
  forall i j, (i < N)%nat -> (j < N)%nat ->
    hessian_forward N f x fxo sclx nd h_ fh_ H0 i j = A i j.
Proof.
  intros N a b A x fxo sclx nd h_ fh_ H0 f Hsym Hfx Hs.
  change f with (quadf N a b A) in *. clear f.
  unfold hessian_forward.
  pose proof (hessian_spec N (quadf N a b A) x fxo sclx nd h_ fh_ H0) as HS. cbv zeta in HS.
  assert (E0 : match fxo with Some v => v | None => quadf N a b A x end = quadf N a b A x).
  { destruct Hfx as [-> | ->]; auto. }
  rewrite E0 in HS.
  assert (Hp : forall i, (i < N)%nat -> 0 < jstep x sclx (cbrt (noise nd)) i).
  { intros i Hi. apply jstep_pos; auto. apply cbrt_pos. }
  set (h := jstep x sclx (cbrt (noise nd))) in *.
  destruct (hessian_forward_st N (quadf N a b A) x fxo sclx nd h_ fh_ H0) as [xh H].
  cbn [snd]. destruct HS as [_ [Hd Ho]].
  assert (Hoff : forall i j, (i < j)%nat -> (j < N)%nat -> H i j = A i j /\ H j i = A i j).
  { intros i j Hij Hj. destruct (Ho i j Hij Hj) as [E1 E2]. rewrite E2, E1.
    assert (E3 : quadf N a b A (upd (upd x i (x i + h i)) j (x j + h j)) =
                 quadf N a b A (upd x i (x i + h i))
                 + h j * (b j + (sumn N (fun k => A j k * x k) + A j i * h i))
                 + / 2 * A j j * h j ^ 2).
    { replace (x j + h j) with ((upd x i (x i + h i)) j + h j)
        by (rewrite upd_other by lia; ring).
      rewrite quadf_upd by auto. rewrite (lin_upd N (A j)) by lia.
      replace (x i + h i - x i) with (h i) by ring. ring. }
    rewrite E3. rewrite (quadf_upd N a b A x j (h j)) by auto.
    rewrite (Hsym j i) by lia.
    pose proof (Hp i ltac:(lia)). pose proof (Hp j ltac:(lia)).
    split; field; split; lra. }
  intros i j Hi Hj.
  destruct (Nat.lt_trichotomy i j) as [L|[->|L]].
  - apply Hoff; auto.
  - rewrite Hd by auto. rewrite !quadf_upd by auto. pose proof (Hp j Hj). field. lra.
  - rewrite (Hsym i j) by auto. apply Hoff; auto.
Qed.

Example C11_case :
  let A (i j : nat) := if Nat.eqb i j then 2 else 1 in
  let f (v : nat -> R) := 0 + sumn 3 (fun i => 0 * v i)
             + / 2 * sumn 3 (fun i => sumn 3 (fun j => A i j * v i * v j)) in
  hessian_forward 3 f (fun i => INR i) None (fun _ => 1) (Some 8%nat)
    (fun _ => 7) (fun _ => 7) (fun _ _ => 7) 2 1 = 1.
Proof.
  cbv zeta.
  rewrite (C11_forward_exact 3 0 (fun _ => 0) (fun i j => if Nat.eqb i j then 2 else 1)
             (fun i => INR i) None (fun _ => 1) (Some 8%nat)); auto.
  intros i j _ _. rewrite Nat.eqb_sym. easy.
Qed.

(** hessian2_centered: symmetric for every function, exact on every bivariate
    polynomial of degree <= 3 (more than the quadratics). *)
Theorem C11_centered_symmetric : forall f x h,
  let '(_, H01, H10, _) := hessian2_centered f x h in H01 = H10.
Proof. intros f [x0 x1] h. reflexivity. Qed.

Theorem C11_centered_exact : forall a b0 b1 c00 c01 c11 d000 d001 d011 d111 x0 x1 h,
  hessian2_centered (fun p => let '(u, v) := p in
      a + b0 * u + b1 * v + / 2 * c00 * u ^ 2 + c01 * u * v + / 2 * c11 * v ^ 2
      + / 6 * d000 * u ^ 3 + / 2 * d001 * u ^ 2 * v + / 2 * d011 * u * v ^ 2
      + / 6 * d111 * v ^ 3) (x0, x1) h
  = (c00 + d000 * x0 + d001 * x1, c01 + d001 * x0 + d011 * x1,
     c01 + d001 * x0 + d011 * x1, c11 + d011 * x0 + d111 * x1).
Proof.
  intros. unfold hessian2_centered. cbv zeta.
  pose proof (step_neq0 h x0) as Hn0. pose proof (step_neq0 h x1) as Hn1.
  set (k0 := (if Req_EM_T h 0 then cbrt (3 * eps) else h) * (1 + Rabs x0)) in *.
  set (k1 := (if Req_EM_T h 0 then cbrt (3 * eps) else h) * (1 + Rabs x1)) in *.
  clearbody k0 k1.
  f_equal; [f_equal; [f_equal|]|]; field; auto.
Qed.

Example C11_centered_case :
  hessian2_centered (fun p => let '(u, v) := p in u ^ 2 + u * v) (1, 2) 0 = (2, 1, 1, 0).
Proof.
  pose proof (C11_centered_exact 0 0 0 2 1 0 0 0 0 0 1 2 0) as H.
  unfold hessian2_centered in *.
  transitivity (2 + 0 * 1 + 0 * 2, 1 + 0 * 1 + 0 * 2, 1 + 0 * 1 + 0 * 2, 0 + 0 * 1 + 0 * 2).
  - rewrite <- H. f_equal; [f_equal; [f_equal|]|]; f_equal; field.
  - f_equal; [f_equal; [f_equal|]|]; ring.
Qed.

(* ------------------------------------------------------------------ *)
(** ** C12 *)
(* ------------------------------------------------------------------ *)

(** scalex: all factors are positive; nonzero entries are scaled to magnitude
    at most 1; with a span of a factor 10 or more every nonzero entry is scaled
    to exactly 1, otherwise all share 1/max|x| and stay above 0.1; zero entries
    get ten times the largest of the individual factors. *)
Theorem C12_scalex : forall N x i, (i < N)%nat ->
  0 < scalex N x i /\
  ((forall j, (j < N)%nat -> x j = 0) -> scalex N x i = 1) /\
  (x i <> 0 ->
     exists xmax xmin,
       (forall j, (j < N)%nat -> Rabs (x j) <= xmax) /\
       (exists j, (j < N)%nat /\ Rabs (x j) = xmax) /\
       (forall j, (j < N)%nat -> x j <> 0 -> xmin <= Rabs (x j)) /\
       (exists j, (j < N)%nat /\ x j <> 0 /\ Rabs (x j) = xmin) /\
       scalex N x i * Rabs (x i) <= 1 /\
       (10 * xmin <= xmax -> scalex N x i * Rabs (x i) = 1) /\
       (xmax < 10 * xmin ->
          scalex N x i = 1 / xmax /\ 1 / 10 < scalex N x i * Rabs (x i))) /\
  (x i = 0 ->
     forall j, (j < N)%nat -> x j <> 0 ->
       10 / Rabs (x j) <= scalex N x i /\
       10 * scalex N x j <= scalex N x i).
Proof.
  intros N x i Hi.
  destruct (min_nonzero N x) as [m|] eqn:Em.
  - pose proof Em as Em'.
    apply min_nonzero_some in Em'. destruct Em' as [Hm [Hle [i0 [Hi0 [Hx0 Ei0]]]]].
    set (M := maxn N (fun i => Rabs (x i))).
    assert (HM : forall j, (j < N)%nat -> Rabs (x j) <= M).
    { intros j Hj. apply (maxn_ge N (fun i => Rabs (x i)) j Hj). }
    assert (HmM : m <= M) by (rewrite Ei0; apply HM; auto).
    assert (HM0 : 0 < M) by lra.
    assert (HMex : exists j, (j < N)%nat /\ Rabs (x j) = M).
    { unfold M. clear - Hi HM0. subst M. revert HM0.
      assert (G : forall n, (n <= N)%nat -> 0 < maxn n (fun i => Rabs (x i)) ->
                 exists j, (j < N)%nat /\ Rabs (x j) = maxn n (fun i => Rabs (x i))).
      { induction n as [|n IH]; simpl; intros Hn Hp; [lra|].
        unfold Rmax in *. destruct (Rle_dec (maxn n (fun i => Rabs (x i))) (Rabs (x n))).
        - exists n. split; [lia|easy].
        - apply IH; [lia|auto]. }
      intros. apply G; auto. }
    unfold scalex. rewrite Em. cbv zeta. fold M.
    assert (Hw : Rleb 1 (ln (M / m) / ln 10) = true <-> 10 * m <= M).
    { rewrite Rleb_true. apply log10_ge1; auto. }
    split; [|split; [|split]].
    + destruct (Req_EM_T (x i) 0) as [E|E].
      * apply Rdiv_lt_0_compat; lra.
      * destruct (Rleb _ _); apply Rdiv_lt_0_compat; try lra. now apply Rabs_pos_lt.
    + intros Hz. exfalso. apply Hx0, Hz; auto.
    + intros Hxi. exists M, m.
      destruct (Req_EM_T (x i) 0) as [E|E]; [easy|].
      assert (P : 0 < Rabs (x i)) by now apply Rabs_pos_lt.
      assert (PM : Rabs (x i) <= M) by auto.
      split; auto. split; auto. split; auto. split; [exists i0; auto|].
      assert (B : 1 / M * Rabs (x i) <= 1).
      { apply (Rmult_le_reg_l M); auto. replace (M * (1 / M * Rabs (x i))) with (Rabs (x i)) by (field; lra). lra. }
      split; [|split].
      * destruct (Rleb _ _); auto. right. field. lra.
      * intros HH. apply Hw in HH. rewrite HH. field. lra.
      * intros HH. destruct (Rleb _ _) eqn:Ew; [pose proof (proj1 Hw eq_refl); lra|].
        split; auto.
        apply (Rmult_lt_reg_l M); auto.
        replace (M * (1 / M * Rabs (x i))) with (Rabs (x i)) by (field; lra).
        pose proof (Hle i Hi Hxi). lra.
    + intros Hxi j Hj Hxj.
      destruct (Req_EM_T (x i) 0) as [E|E]; [|easy].
      assert (P : 0 < Rabs (x j)) by now apply Rabs_pos_lt.
      pose proof (Hle j Hj Hxj) as L.
      assert (A : / Rabs (x j) <= / m) by (apply Rinv_le_contravar; lra).
      assert (A' : / M <= / m) by (apply Rinv_le_contravar; lra).
      split; [unfold Rdiv; lra|].
      destruct (Req_EM_T (x j) 0); [easy|].
      destruct (Rleb _ _); unfold Rdiv; lra.
  - unfold scalex. rewrite Em. rewrite min_nonzero_none in Em.
    split; [lra|]. split; auto. split.
    + intros Hx. exfalso. auto.
    + intros _ j Hj Hxj. exfalso. auto.
Qed.

Example C12_case : scalex 2 (fun i => match i with O => 4 | _ => 8 end) 0 = 1 / 8.
Proof.
  set (x := fun i => match i with O => 4 | _ => 8 end).
  destruct (C12_scalex 2 x 0 ltac:(lia)) as [_ [_ [H _]]].
  assert (x 0%nat <> 0) by (unfold x; lra).
  destruct (H H0) as (xM & xm & H1 & (j & Hj & Ej) & H3 & (k & Hk & Hxk & Ek) & _ & _ & H6).
  assert (xM = 8).
  { pose proof (H1 1%nat ltac:(lia)) as A. unfold x in A. rewrite (Rabs_pos_eq 8) in A by lra.
    rewrite <- Ej in *. unfold x in *. destruct j; rewrite Rabs_pos_eq in * by lra; lra. }
  assert (4 <= xm).
  { rewrite <- Ek. unfold x. destruct k; rewrite Rabs_pos_eq by lra; lra. }
  rewrite H2 in *. apply H6. lra.
Qed.

(* ------------------------------------------------------------------ *)
(** ** C13 *)
(* ------------------------------------------------------------------ *)

(** The one-step formulas, for every valid order and every h <> 0 of the
    direction of the interval: n full steps of length h followed by one step of
    the remaining length hf, |hf| < |h|, ending exactly at tf. *)
Theorem C13_covers_interval : forall f t0 tf y0 h order step,
  (order = 1%Z /\ step = (fun t y h => y + h * f t y)
   \/ order = 2%Z /\ step = (fun t y h => y + h * f (t + h / 2) (y + h / 2 * f t y))
   \/ order = 4%Z /\ step = (fun t y h =>
        let k1 := f t y in
        let k2 := f (t + h / 2) (y + h / 2 * k1) in
        let k3 := f (t + h / 2) (y + h / 2 * k2) in
        let k4 := f (t + h) (y + h * k3) in
        y + h / 6 * (k1 + 2 * k2 + 2 * k3 + k4))) ->
  0 < h -> t0 <= tf ->
  exists (n : nat) hf (y : nat -> R),
    0 <= hf < h /\ t0 + INR n * h + hf = tf /\
    y O = y0 /\
    (forall k, (k < n)%nat -> y (S k) = step (t0 + INR k * h) (y k) h) /\
    ode_rk f t0 tf y0 h order = Ok (step (t0 + INR n * h) (y n) hf).
Proof.
  intros f t0 tf y0 h order step Hst Hh Ht.
  assert (Hq : 0 <= (tf - t0) / h).
  { apply Rmult_le_pos; [lra|]. left. now apply Rinv_0_lt_compat. }
  assert (G : forall st, (forall t y h, st t y h = step t y h) ->
     exists (n : nat) hf (y : nat -> R),
       0 <= hf < h /\ t0 + INR n * h + hf = tf /\ y O = y0 /\
       (forall k, (k < n)%nat -> y (S k) = step (t0 + INR k * h) (y k) h) /\
       integrate st t0 tf y0 h = step (t0 + INR n * h) (y n) hf).
  { intros st Est. destruct (integrate_spec st t0 tf y0 h ltac:(lra) Hq) as (n & hf & Hn & E & I).
    exists n, hf, (fun k => snd (Nat.iter k (fun p => (fst p + h, st (fst p) (snd p) h)) (t0, y0))).
    assert (F : forall k, fst (Nat.iter k (fun p => (fst p + h, st (fst p) (snd p) h)) (t0, y0))
              = t0 + INR k * h).
    { induction k as [|k IH]; [simpl; ring|].
      rewrite iter_S. cbn [fst]. rewrite IH, S_INR. ring. }
    assert (B : INR n * h <= tf - t0 < (INR n + 1) * h).
    { destruct Hn as [Hn1 Hn2].
      apply (Rmult_le_compat_r h) in Hn1; [|lra].
      apply (Rmult_lt_compat_r h) in Hn2; [|lra].
      unfold Rdiv in Hn1, Hn2. rewrite Rmult_assoc, Rinv_l in Hn1, Hn2 by lra. lra. }
    split; [lra|]. split; auto. split; [easy|]. split.
    - intros k Hk. rewrite iter_S. cbn [snd]. rewrite Est, F. easy.
    - rewrite I, Est. easy. }
  unfold ode_rk. destruct (Req_EM_T h 0); [lra|].
  destruct Hst as [[-> ->]|[[-> ->]|[-> ->]]]; cbn [Z.eqb orb Pos.eqb].
  - destruct (G (step_rk1 f)) as (n1 & hf & y & H1 & H2 & H3 & H4 & H5).
    { intros; unfold step_rk1; ring. }
    exists n1, hf, y. repeat (split; auto). now rewrite H5.
  - destruct (G (step_rk2 f)) as (n1 & hf & y & H1 & H2 & H3 & H4 & H5).
    { intros t y h'; unfold step_rk2.
      replace (f t y * h' / 2) with (h' / 2 * f t y) by field. ring. }
    exists n1, hf, y. repeat (split; auto). now rewrite H5.
  - destruct (G (step_rk4 f)) as (n1 & hf & y & H1 & H2 & H3 & H4 & H5).
    { intros t y h'; unfold step_rk4. cbv zeta.
      replace (f t y * h' / 2) with (h' / 2 * f t y) by field.
      replace (f (t + h' / 2) (y + h' / 2 * f t y) * h' / 2)
        with (h' / 2 * f (t + h' / 2) (y + h' / 2 * f t y)) by field.
      set (k3 := f (t + h' / 2) (y + h' / 2 * f (t + h' / 2) (y + h' / 2 * f t y))).
      replace (k3 * h') with (h' * k3) by ring. field. }
    exists n1, hf, y. repeat (split; auto). now rewrite H5.
Qed.

(** Exactness on the design class: y' = polynomial in t of degree 0, 1, 3, for
    every step of the direction of integration (forwards or backwards). *)
Theorem C13_exact_polynomial : forall t0 tf y0 h a b c d,
  h <> 0 -> 0 <= (tf - t0) / h ->
  ode_rk (fun _ _ => a) t0 tf y0 h 1 = Ok (y0 + a * (tf - t0)) /\
  ode_rk (fun t _ => a + b * t) t0 tf y0 h 2
    = Ok (y0 + a * (tf - t0) + b * (tf ^ 2 - t0 ^ 2) / 2) /\
  ode_rk (fun t _ => a + b * t + c * t ^ 2 + d * t ^ 3) t0 tf y0 h 4
    = Ok (y0 + a * (tf - t0) + b * (tf ^ 2 - t0 ^ 2) / 2 + c * (tf ^ 3 - t0 ^ 3) / 3
          + d * (tf ^ 4 - t0 ^ 4) / 4).
Proof.
  intros t0 tf y0 h a b c d Hh Hq.
  unfold ode_rk. destruct (Req_EM_T h 0); [easy|]. cbn [Z.eqb Pos.eqb].
  split; [|split]; f_equal.
  - apply (integrate_exact _ (fun t => y0 + a * (t - t0))); auto.
    + intros; unfold step_rk1; ring.
    + ring.
  - apply (integrate_exact _ (fun t => y0 + a * (t - t0) + b * (t ^ 2 - t0 ^ 2) / 2)); auto.
    + intros; unfold step_rk2; field.
    + field.
  - apply (integrate_exact _ (fun t => y0 + a * (t - t0) + b * (t ^ 2 - t0 ^ 2) / 2
             + c * (t ^ 3 - t0 ^ 3) / 3 + d * (t ^ 4 - t0 ^ 4) / 4)); auto.
    + intros; unfold step_rk4; field.
    + field.
Qed.

Example C13_case : ode_rk (fun t _ => 4 * t ^ 3) 0 2 1 (3/4) 4 = Ok 17.
Proof.
  pose proof (proj2 (proj2 (C13_exact_polynomial 0 2 1 (3/4) 0 0 0 4 ltac:(lra) ltac:(lra)))) as H.
  transitivity (ode_rk (fun t _ => 0 + 0 * t + 0 * t ^ 2 + 4 * t ^ 3) 0 2 1 (3/4) 4).
  - f_equal. apply FunctionalExtensionality.functional_extensionality; intros t.
    apply FunctionalExtensionality.functional_extensionality; intros _. ring.
  - rewrite H. f_equal. field.
Qed.

(** y' = lam y: growth by the exponential series truncated after the nominal
    order, per step. *)
Theorem C13_exponential_factor : forall t0 tf y0 h lam,
  0 < h -> t0 <= tf ->
  exists (n : nat) hf, 0 <= hf < h /\ t0 + INR n * h + hf = tf /\
    let P1 z := 1 + z in
    let P2 z := 1 + z + z ^ 2 / 2 in
    let P4 z := 1 + z + z ^ 2 / 2 + z ^ 3 / 6 + z ^ 4 / 24 in
    ode_rk (fun _ y => lam * y) t0 tf y0 h 1 = Ok (P1 (lam * h) ^ n * P1 (lam * hf) * y0) /\
    ode_rk (fun _ y => lam * y) t0 tf y0 h 2 = Ok (P2 (lam * h) ^ n * P2 (lam * hf) * y0) /\
    ode_rk (fun _ y => lam * y) t0 tf y0 h 4 = Ok (P4 (lam * h) ^ n * P4 (lam * hf) * y0).
Proof.
  intros t0 tf y0 h lam Hh Ht.
  assert (Hq : 0 <= (tf - t0) / h).
  { apply Rmult_le_pos; [lra|]. left. now apply Rinv_0_lt_compat. }
  destruct (nsteps_pos t0 tf h ltac:(lra) Hq) as [n [En Hn]].
  assert (B : INR n * h <= tf - t0 < (INR n + 1) * h).
  { destruct Hn as [Hn1 Hn2].
    apply (Rmult_le_compat_r h) in Hn1; [|lra].
    apply (Rmult_lt_compat_r h) in Hn2; [|lra].
    unfold Rdiv in Hn1, Hn2. rewrite Rmult_assoc, Rinv_l in Hn1, Hn2 by lra. lra. }
  assert (G : forall st (P : R -> R), (forall t y h, st t y h = P h * y) ->
     integrate st t0 tf y0 h = P h ^ n * P (tf - t0 - INR n * h) * y0).
  { intros st P HP.
    unfold integrate. rewrite En, Nat2Z.id, rk_loop_iter, <- INR_IZR_INZ.
    rewrite HP.
    assert (Q : forall m, snd (Nat.iter m (fun p => (fst p + h, st (fst p) (snd p) h)) (t0, y0))
               = P h ^ m * y0).
    { induction m as [|m IH]; [simpl; ring|].
      rewrite iter_S. cbn [snd]. rewrite HP, IH. simpl; ring. }
    rewrite Q. ring. }
  exists n, (tf - t0 - INR n * h). split; [lra|]. split; [ring|]. cbv zeta.
  unfold ode_rk. destruct (Req_EM_T h 0); [lra|]. cbn [Z.eqb Pos.eqb].
  split; [|split]; f_equal.
  - apply (G _ (fun h => 1 + lam * h)). intros; unfold step_rk1; ring.
  - apply (G _ (fun h => 1 + lam * h + (lam * h) ^ 2 / 2)).
    intros; unfold step_rk2; field.
  - apply (G _ (fun h => 1 + lam * h + (lam * h) ^ 2 / 2 + (lam * h) ^ 3 / 6 + (lam * h) ^ 4 / 24)).
    intros; unfold step_rk4; field.
Qed.

(** Any other order is rejected. *)
Theorem C13_other_orders : forall f t0 tf y0 h order,
  order <> 1%Z -> order <> 2%Z -> order <> 4%Z -> ode_rk f t0 tf y0 h order = Err ValueError.
Proof.
  intros. unfold ode_rk.
  destruct (Z.eqb_spec order 1), (Z.eqb_spec order 2), (Z.eqb_spec order 4); try easy.
  now destruct (Req_EM_T h 0).
Qed.

(* ------------------------------------------------------------------ *)
(** ** C14 *)
(* ------------------------------------------------------------------ *)

(** Full property: for every tf < t0 and h > 0, ode_rk raises or, for
    y' = a constant, returns y0 + a (tf - t0).  Refuted: the loop is skipped
    and a *forward* step of length in [0,h) is returned silently. *)
Theorem C14_backward_refuted : exists a t0 tf y0 h,
  tf < t0 /\ 0 < h /\
  exists y, ode_rk (fun _ _ => a) t0 tf y0 h 1 = Ok y /\
            y = y0 + a * (1 / 2) /\ y0 + a * (tf - t0) = y0 - a * (3 / 2).
Proof.
  exists 1, (3/2), 0, 0, 1. split; [lra|]. split; [lra|].
  exists (1/2).
  assert (F : floorZ ((0 - 3 / 2) / 1) = (-2)%Z).
  { unfold floorZ. assert (up ((0 - 3 / 2) / 1) = (-1)%Z); [|lia].
    symmetry. apply tech_up; simpl; lra. }
  split; [|split; lra].
  unfold ode_rk. destruct (Req_EM_T 1 0); [lra|]. cbn [Z.eqb Pos.eqb].
  unfold integrate. rewrite F. cbn [Z.to_nat rk_loop]. unfold step_rk1. f_equal. simpl. lra.
Qed.

(** What the code computes for every tf < t0, h > 0 and right-hand side that
    does not depend on y: a single forward step from t0, of length hf in [0,h). *)
Theorem C14_backward_actual : forall f t0 tf y0 h,
  tf < t0 -> 0 < h ->
  exists hf, 0 <= hf < h /\ ode_rk f t0 tf y0 h 1 = Ok (y0 + hf * f t0 y0).
Proof.
  intros f t0 tf y0 h Ht Hh.
  unfold ode_rk. destruct (Req_EM_T h 0); [lra|]. cbn [Z.eqb Pos.eqb].
  destruct (floorZ_spec ((tf - t0) / h)) as [H1 H2].
  assert (Hq : (tf - t0) / h < 0).
  { apply (Rmult_lt_reg_r h); auto. unfold Rdiv. rewrite Rmult_assoc, Rinv_l by lra. lra. }
  set (m := floorZ ((tf - t0) / h)) in *.
  assert (Hn : (m < 0)%Z) by (apply lt_IZR; simpl; lra).
  assert (B : IZR m * h <= tf - t0 < (IZR m + 1) * h).
  { apply (Rmult_le_compat_r h) in H1; [|lra].
    apply (Rmult_lt_compat_r h) in H2; [|lra].
    unfold Rdiv in H1, H2. rewrite Rmult_assoc, Rinv_l in H1, H2 by lra. lra. }
  exists (tf - t0 - IZR m * h). split; [lra|].
  unfold integrate. fold m. replace (Z.to_nat m) with O by lia. cbn [rk_loop].
  unfold step_rk1. f_equal. ring.
Qed.

(** With a negative step the backward integration is exact. *)
Theorem C14_backward_negative_step_partial : forall a t0 tf y0 h,
  tf < t0 -> h < 0 ->
  ode_rk (fun _ _ => a) t0 tf y0 h 1 = Ok (y0 + a * (tf - t0)).
Proof.
  intros a t0 tf y0 h Ht Hh.
  apply (C13_exact_polynomial t0 tf y0 h a 0 0 0); [lra|].
  replace ((tf - t0) / h) with ((t0 - tf) * / (- h)) by (field; lra).
  apply Rmult_le_pos; [lra|]. left. apply Rinv_0_lt_compat. lra.
Qed.

Example C14_case : ode_rk (fun _ _ => 2) 3 1 5 (-3/4) 1 = Ok 1.
Proof. rewrite C14_backward_negative_step_partial by lra. f_equal. lra. Qed.

Print Assumptions C10_centered_exact.
Print Assumptions C10_complex_exact.
Print Assumptions C10_jacobian_affine.
Print Assumptions C11_forward_exact.
Print Assumptions C11_centered_exact.
Print Assumptions C12_scalex.
Print Assumptions C13_covers_interval.
Print Assumptions C13_exact_polynomial.
Print Assumptions C13_exponential_factor.
Print Assumptions C14_backward_refuted.
