(** Numeric bounds of closed real expressions by fixed-point interval arithmetic.  An interval with scale [s]
    encloses [x] when [lo <= x * s <= hi].  [exp] is computed from its Taylor polynomials after halving the
    argument, [ln] from the series of artanh after taking square roots (lemmas of NumBounds and LnBounds).
    This file models no code of the package; it proves the numeric examples of other files. *)
From Coq Require Import Reals Lra Lia ZArith List.
From Coquelicot Require Import Coquelicot.
From Verif Require Import Prelude Deriv NumBounds LnBounds.
Open Scope R_scope.

Record iv := mkIv { lo : Z; hi : Z }.
Definition enc (s : Z) (i : iv) (x : R) : Prop := IZR (lo i) <= x * IZR s <= IZR (hi i).
Definition cdiv (a b : Z) : Z := (- (- a / b))%Z.
Lemma fdiv_le a b : (0 < b)%Z -> IZR (a / b) <= IZR a / IZR b.
Proof.
  intros H. pose proof (Z.mul_div_le a b H) as L. apply IZR_le in L. rewrite mult_IZR in L. pose proof (IZR_lt 0 b H). apply (Rmult_le_reg_r (IZR b)); [auto|].
  replace (IZR a / IZR b * IZR b) with (IZR a) by (field; lra). lra.
Qed.
Lemma cdiv_ge a b : (0 < b)%Z -> IZR a / IZR b <= IZR (cdiv a b).
Proof. intros H. unfold cdiv. rewrite opp_IZR. pose proof (fdiv_le (- a) b H) as L. rewrite opp_IZR in L. pose proof (IZR_lt 0 b H). replace (- IZR a / IZR b) with (- (IZR a / IZR b)) in L by (field; lra). lra. Qed.

Definition cstI (s z : Z) : iv := mkIv (z * s) (z * s).
Definition addI (i j : iv) : iv := mkIv (lo i + lo j) (hi i + hi j).
Definition oppI (i : iv) : iv := mkIv (- hi i) (- lo i).
Definition min4 (a b c d : Z) : Z := Z.min (Z.min a b) (Z.min c d).
Definition max4 (a b c d : Z) : Z := Z.max (Z.max a b) (Z.max c d).
Definition mul4 (s : Z) (i j : iv) : iv :=
  let a := (lo i * lo j)%Z in let b := (lo i * hi j)%Z in let c := (hi i * lo j)%Z in let d := (hi i * hi j)%Z in
  mkIv (min4 a b c d / s) (cdiv (max4 a b c d) s).
(** division by the scale is a shift when the scale is a power of two; products of non-negative intervals need
    two multiplications only *)
Definition sdiv (s a : Z) : Z := let p := Z.log2 s in if (Z.shiftl 1 p =? s)%Z then Z.shiftr a p else (a / s)%Z.
Definition mulI (s : Z) (i j : iv) : iv :=
  if ((0 <=? lo i) && (0 <=? lo j))%Z%bool then mkIv (sdiv s (lo i * lo j)) (- sdiv s (- (hi i * hi j)))
  else let a := (lo i * lo j)%Z in let b := (lo i * hi j)%Z in let c := (hi i * lo j)%Z in let d := (hi i * hi j)%Z in
  mkIv (sdiv s (min4 a b c d)) (- sdiv s (- max4 a b c d)).
Definition invI (s : Z) (i : iv) : option iv :=
  if (0 <? lo i)%Z then Some (mkIv (s * s / hi i) (cdiv (s * s) (lo i)))
  else if (hi i <? 0)%Z then Some (mkIv (- cdiv (s * s) (- hi i)) (- (s * s / - lo i)))
  else None.
Definition divnI (i : iv) (n : Z) : iv := mkIv (lo i / n) (cdiv (hi i) n).
Fixpoint powI (s : Z) (i : iv) (n : nat) : iv := match n with O => cstI s 1 | S n => mulI s i (powI s i n) end.
Definition sqrtI (s : Z) (i : iv) : option iv :=
  if (0 <=? lo i)%Z then Some (mkIv (Z.sqrt (lo i * s)) (Z.sqrt (hi i * s) + 1)) else None.

Lemma cstI_ok s z : enc s (cstI s z) (IZR z). Proof. unfold enc, cstI. cbn. rewrite mult_IZR. lra. Qed.
Lemma addI_ok s i j x y : enc s i x -> enc s j y -> enc s (addI i j) (x + y).
Proof. unfold enc, addI. cbn. rewrite !plus_IZR. lra. Qed.
Lemma oppI_ok s i x : enc s i x -> enc s (oppI i) (- x). Proof. unfold enc, oppI. cbn. rewrite !opp_IZR. lra. Qed.
Lemma mul_hull a b c d x y : a <= x <= b -> c <= y <= d -> Rmin (Rmin (a * c) (a * d)) (Rmin (b * c) (b * d)) <= x * y <= Rmax (Rmax (a * c) (a * d)) (Rmax (b * c) (b * d)).
Proof.
  intros (H1 & H2) (H3 & H4).
  assert (L1 : Rmin (a * c) (a * d) <= a * y). { destruct (Rle_dec 0 a); [apply Rle_trans with (a * c); [apply Rmin_l|nra]|apply Rle_trans with (a * d); [apply Rmin_r|nra]]. }
  assert (L2 : Rmin (b * c) (b * d) <= b * y). { destruct (Rle_dec 0 b); [apply Rle_trans with (b * c); [apply Rmin_l|nra]|apply Rle_trans with (b * d); [apply Rmin_r|nra]]. }
  assert (U1 : a * y <= Rmax (a * c) (a * d)). { destruct (Rle_dec 0 a); [apply Rle_trans with (a * d); [nra|apply Rmax_r]|apply Rle_trans with (a * c); [nra|apply Rmax_l]]. }
  assert (U2 : b * y <= Rmax (b * c) (b * d)). { destruct (Rle_dec 0 b); [apply Rle_trans with (b * d); [nra|apply Rmax_r]|apply Rle_trans with (b * c); [nra|apply Rmax_l]]. }
  set (m1 := Rmin (a * c) (a * d)) in *. set (m2 := Rmin (b * c) (b * d)) in *. set (n1 := Rmax (a * c) (a * d)) in *. set (n2 := Rmax (b * c) (b * d)) in *. pose proof (Rmin_l m1 m2). pose proof (Rmin_r m1 m2). pose proof (Rmax_l n1 n2). pose proof (Rmax_r n1 n2).
  destruct (Rle_dec 0 y); split; nra.
Qed.
Lemma IZR_min a b : IZR (Z.min a b) = Rmin (IZR a) (IZR b).
Proof. destruct (Z_le_dec a b) as [H|H]; [rewrite Z.min_l, Rmin_left; auto; now apply IZR_le|rewrite Z.min_r, Rmin_right; auto; try lia; apply IZR_le; lia]. Qed.
Lemma IZR_max a b : IZR (Z.max a b) = Rmax (IZR a) (IZR b).
Proof. destruct (Z_le_dec a b) as [H|H]; [rewrite Z.max_r, Rmax_right; auto; now apply IZR_le|rewrite Z.max_l, Rmax_left; auto; try lia; apply IZR_le; lia]. Qed.
Lemma mul4_ok s i j x y : (0 < s)%Z -> enc s i x -> enc s j y -> enc s (mul4 s i j) (x * y).
Proof.
  intros S Hx Hy. pose proof (mul_hull _ _ _ _ _ _ Hx Hy) as H. unfold enc, mul4. cbn [lo hi]. pose proof (IZR_lt 0 s S) as SP. unfold min4, max4.
  pose proof (fdiv_le (Z.min (Z.min (lo i * lo j) (lo i * hi j)) (Z.min (hi i * lo j) (hi i * hi j))) s S) as F. pose proof (cdiv_ge (Z.max (Z.max (lo i * lo j) (lo i * hi j)) (Z.max (hi i * lo j) (hi i * hi j))) s S) as C.
  rewrite !IZR_min, !mult_IZR in F. rewrite !IZR_max, !mult_IZR in C. set (u := x * IZR s) in *. assert (E : x * y * IZR s = x * IZR s * (y * IZR s) / IZR s) by (field; lra). rewrite E. fold u. clear E.
  assert (G : forall p q, p <= q -> p / IZR s <= q / IZR s) by (intros p q Q; unfold Rdiv; apply Rmult_le_compat_r; [left; now apply Rinv_0_lt_compat|auto]). destruct H as (H1 & H2). apply G in H1. apply G in H2. lra.
Qed.
Lemma sdiv_eq s a : (0 < s)%Z -> sdiv s a = (a / s)%Z.
Proof.
  intros S. unfold sdiv. cbv zeta. destruct (Z.eqb_spec (Z.shiftl 1 (Z.log2 s)) s) as [E|E]; [|reflexivity]. pose proof (Z.log2_nonneg s) as L. rewrite Z.shiftr_div_pow2 by auto. rewrite Z.shiftl_mul_pow2, Z.mul_1_l in E by auto. now rewrite E.
Qed.
Lemma mulI_ok s i j x y : (0 < s)%Z -> enc s i x -> enc s j y -> enc s (mulI s i j) (x * y).
Proof.
  intros S Hx Hy. pose proof (mul4_ok s i j x y S Hx Hy) as M. unfold mulI. rewrite !sdiv_eq by auto. destruct (Z.leb_spec 0 (lo i)) as [A|A]; [|exact M]. destruct (Z.leb_spec 0 (lo j)) as [B|B]; [|exact M]. cbn [andb].
  assert (A' : (lo i <= hi i)%Z) by (apply le_IZR; destruct Hx; lra). assert (B' : (lo j <= hi j)%Z) by (apply le_IZR; destruct Hy; lra).
  unfold mul4 in M. cbv zeta in M. replace (min4 (lo i * lo j) (lo i * hi j) (hi i * lo j) (hi i * hi j)) with (lo i * lo j)%Z in M by (unfold min4; nia). replace (max4 (lo i * lo j) (lo i * hi j) (hi i * lo j) (hi i * hi j)) with (hi i * hi j)%Z in M by (unfold max4; nia). exact M.
Qed.
Lemma inv_pos s i x : (0 < s)%Z -> (0 < lo i)%Z -> enc s i x -> 0 < x /\ enc s (mkIv (s * s / hi i) (cdiv (s * s) (lo i))) (/ x).
Proof.
  intros S L (H1 & H2). pose proof (IZR_lt 0 s S) as SP. pose proof (IZR_lt 0 _ L) as LP. assert (X : 0 < x). { apply (Rmult_lt_reg_r (IZR s)); [auto|]. lra. } split; [auto|].
  assert (HP : (0 < hi i)%Z) by (apply lt_IZR; lra). pose proof (fdiv_le (s * s) (hi i) HP) as F. pose proof (cdiv_ge (s * s) (lo i) L) as C. rewrite mult_IZR in F, C. unfold enc. cbn [lo hi]. assert (E : / x * IZR s = IZR s * IZR s / (x * IZR s)) by (field; lra). rewrite E.
  assert (0 < IZR s * IZR s) by (now apply Rmult_lt_0_compat). assert (I1 : / IZR (hi i) <= / (x * IZR s)) by (apply Rinv_le_contravar; lra). assert (I2 : / (x * IZR s) <= / IZR (lo i)) by (apply Rinv_le_contravar; lra). unfold Rdiv in *. split; [apply Rle_trans with (1 := F)|apply Rle_trans with (2 := C)]; apply Rmult_le_compat_l; lra.
Qed.
Lemma invI_ok s i x j : (0 < s)%Z -> enc s i x -> invI s i = Some j -> x <> 0 /\ enc s j (/ x).
Proof.
  intros S H. unfold invI. destruct (Z.ltb_spec 0 (lo i)) as [L|L].
  - intros [= <-]. destruct (inv_pos s i x S L H) as (P & Q). split; [lra|auto].
  - destruct (Z.ltb_spec (hi i) 0) as [M|M]; [|discriminate]. intros [= <-]. destruct (inv_pos s (oppI i) (- x) S ltac:(cbn; lia) (oppI_ok _ _ _ H)) as (P & Q). split; [lra|]. unfold enc in *. cbn in *. rewrite !opp_IZR. rewrite Rinv_opp in Q. lra.
Qed.
Lemma divnI_ok s i x n : (0 < n)%Z -> enc s i x -> enc s (divnI i n) (x / IZR n).
Proof.
  intros N (H1 & H2). pose proof (IZR_lt 0 n N) as NP. unfold enc, divnI. cbn. pose proof (fdiv_le (lo i) n N) as F. pose proof (cdiv_ge (hi i) n N) as C. replace (x / IZR n * IZR s) with (x * IZR s / IZR n) by (field; lra).
  assert (G : forall p q, p <= q -> p / IZR n <= q / IZR n) by (intros p q Q; unfold Rdiv; apply Rmult_le_compat_r; [left; now apply Rinv_0_lt_compat|auto]). apply G in H1. apply G in H2. lra.
Qed.
Lemma powI_ok s i x n : (0 < s)%Z -> enc s i x -> enc s (powI s i n) (x ^ n).
Proof. intros S H. induction n as [|n IH]; [apply cstI_ok|]. cbn [powI pow]. now apply mulI_ok. Qed.
Lemma sqrtI_ok s i x j : (0 < s)%Z -> enc s i x -> sqrtI s i = Some j -> 0 <= x /\ enc s j (sqrt x).
Proof.
  intros S (H1 & H2). unfold sqrtI. destruct (Z.leb_spec 0 (lo i)) as [L|L]; [|discriminate]. intros [= <-]. pose proof (IZR_lt 0 s S) as SP. pose proof (IZR_le 0 _ L) as LP.
  assert (X : 0 <= x). { apply (Rmult_le_reg_r (IZR s)); [auto|]. lra. } split; [auto|]. unfold enc. cbn [lo hi].
  assert (E : sqrt x * IZR s = sqrt (x * IZR s * IZR s)). { rewrite Rmult_assoc, sqrt_mult; [|auto|nra]. now rewrite sqrt_square by lra. } rewrite E. clear E.
  assert (HP : (0 <= hi i)%Z) by (apply le_IZR; lra). destruct (Z.sqrt_spec (lo i * s) ltac:(nia)) as (A & _). destruct (Z.sqrt_spec (hi i * s) ltac:(nia)) as (_ & B). apply IZR_le in A. apply IZR_lt in B. rewrite !mult_IZR in A, B. rewrite succ_IZR in B. rewrite plus_IZR.
  pose proof (IZR_le 0 _ (Z.sqrt_nonneg (lo i * s))) as N1. pose proof (IZR_le 0 _ (Z.sqrt_nonneg (hi i * s))) as N2. split.
  - rewrite <- (sqrt_square (IZR (Z.sqrt (lo i * s)))) by auto. apply sqrt_le_1_alt. apply Rle_trans with (1 := A). apply Rmult_le_compat_r; lra.
  - rewrite <- (sqrt_square (IZR (Z.sqrt (hi i * s)) + 1)) by lra. apply sqrt_le_1_alt. apply Rle_trans with (IZR (hi i) * IZR s); [apply Rmult_le_compat_r; lra|lra].
Qed.

(** exp of a point [a / s] *)
Definition horn (s : Z) (u : iv) (n : Z) (a : iv) : iv := addI (cstI s 1) (oppI (divnI (mulI s u a) n)).
Lemma horn_ok s u x n a y : (0 < s)%Z -> (0 < n)%Z -> enc s u x -> enc s a y -> enc s (horn s u n a) (1 - x * y / IZR n).
Proof. intros S N U A. unfold horn, Rminus. apply (addI_ok s _ _ 1); [apply (cstI_ok s 1)|]. apply oppI_ok. apply divnI_ok; [auto|]. now apply mulI_ok. Qed.
Definition q5I (s : Z) (u : iv) : iv := horn s u 1 (horn s u 2 (horn s u 3 (horn s u 4 (horn s u 5 (cstI s 1))))).
Lemma q5I_ok s u x : (0 < s)%Z -> enc s u x -> enc s (q5I s u) (q5 x).
Proof.
  intros S H. unfold q5I. replace (q5 x) with (1 - x * (1 - x * (1 - x * (1 - x * (1 - x * 1 / 5) / 4) / 3) / 2) / 1) by (unfold q5; field).
  repeat (apply horn_ok; [auto|reflexivity|auto|]). apply (cstI_ok s 1).
Qed.
Definition q6I (s : Z) (u : iv) : iv := horn s u 1 (horn s u 2 (horn s u 3 (horn s u 4 (horn s u 5 (horn s u 6 (cstI s 1)))))).
Lemma q6I_ok s u x : (0 < s)%Z -> enc s u x -> enc s (q6I s u) (q6 x).
Proof.
  intros S H. unfold q6I. replace (q6 x) with (1 - x * (1 - x * (1 - x * (1 - x * (1 - x * (1 - x * 1 / 6) / 5) / 4) / 3) / 2) / 1) by (unfold q6; field).
  repeat (apply horn_ok; [auto|reflexivity|auto|]). apply (cstI_ok s 1).
Qed.
Fixpoint sqk (s : Z) (i : iv) (k : nat) : iv := match k with O => i | S k => sqk s (mulI s i i) k end.
Lemma sqk_ok s i x k : (0 < s)%Z -> enc s i x -> enc s (sqk s i k) (x ^ (2 ^ k)).
Proof.
  intros S. revert i x. induction k as [|k IH]; intros i x H; [cbn; now rewrite Rmult_1_r|]. cbn [sqk]. replace (x ^ (2 ^ Datatypes.S k)) with ((x * x) ^ (2 ^ k)); [apply IH; now apply mulI_ok|].
  rewrite <- Rpow_mult_distr at 1 || idtac. cbn [Nat.pow]. rewrite pow_mult. f_equal. cbn. ring.
Qed.
Definition expNI (s : Z) (k : nat) (i : iv) : option iv :=
  let u := divnI i (2 ^ Z.of_nat k) in
  match invI s (q6I s u), invI s (q5I s u) with
  | Some l, Some h => if (0 <? lo (q5I s u))%Z then Some (sqk s (mkIv (lo l) (hi h)) k) else None
  | _, _ => None
  end.
Lemma expNI_ok s k i x j : (0 < s)%Z -> 0 <= x -> enc s i x -> expNI s k i = Some j -> enc s j (exp x).
Proof.
  intros S X H. unfold expNI. set (u := divnI i (2 ^ Z.of_nat k)). assert (K : (0 < 2 ^ Z.of_nat k)%Z) by (apply Z.pow_pos_nonneg; lia). pose proof (divnI_ok s i x _ K H) as U. fold u in U.
  destruct (invI s (q6I s u)) as [l|] eqn:E6; [|discriminate]. destruct (invI s (q5I s u)) as [h|] eqn:E5; [|discriminate]. destruct (Z.ltb_spec 0 (lo (q5I s u))) as [P|P]; [|discriminate]. intros [= <-].
  set (y := x / IZR (2 ^ Z.of_nat k)) in *. pose proof (IZR_lt 0 _ K) as KP. assert (Y : 0 <= y) by (apply Rmult_le_pos; [auto|left; now apply Rinv_0_lt_compat]).
  destruct (invI_ok _ _ _ _ S (q6I_ok s u y S U) E6) as (N6 & I6). destruct (invI_ok _ _ _ _ S (q5I_ok s u y S U) E5) as (N5 & I5). destruct (inv_pos s _ _ S P (q5I_ok s u y S U)) as (P5 & _).
  pose proof (IZR_lt 0 s S) as SP. assert (EY : enc s (mkIv (lo l) (hi h)) (exp y)).
  { pose proof (exp_q5 y Y) as A. pose proof (exp_q6 y Y) as B. pose proof (exp_pos y) as EP. assert (P6 : 0 < q6 y) by nra.
    assert (A' : exp y <= / q5 y) by (apply (Rmult_le_reg_r (q5 y)); [auto|]; rewrite Rinv_l by lra; lra). assert (B' : / q6 y <= exp y) by (apply (Rmult_le_reg_r (q6 y)); [auto|]; rewrite Rinv_l by lra; lra).
    destruct I6 as (I6 & _). destruct I5 as (_ & I5). unfold enc. cbn [lo hi]. split; [apply Rle_trans with (1 := I6)|apply Rle_trans with (2 := I5)]; apply Rmult_le_compat_r; lra. }
  pose proof (sqk_ok s _ _ k S EY) as F. rewrite <- exp_mult_pow in F. replace (INR (2 ^ k) * y) with x in F; [exact F|]. unfold y. rewrite pow_INR. rewrite <- (pow_IZR 2 k). replace (INR 2) with 2 by reflexivity. field. apply pow_nonzero. lra.
Qed.
Definition expI (s : Z) (k : nat) (i : iv) : option iv :=
  if (0 <=? lo i)%Z then expNI s k i
  else if (hi i <=? 0)%Z then match expNI s k (oppI i) with Some j => invI s j | None => None end
  else match expNI s k (mkIv 0 (- lo i)), expNI s k (mkIv 0 (hi i)) with
       | Some a, Some b => match invI s a with Some c => Some (mkIv (lo c) (hi b)) | None => None end
       | _, _ => None
       end.
Lemma expI_ok s k i x j : (0 < s)%Z -> enc s i x -> expI s k i = Some j -> enc s j (exp x).
Proof.
  intros S H. pose proof (IZR_lt 0 s S) as SP. unfold expI. destruct (Z.leb_spec 0 (lo i)) as [A|A].
  - apply expNI_ok; auto. destruct H as (H & _). apply (Rmult_le_reg_r (IZR s)); [auto|]. apply (IZR_le 0) in A. lra.
  - destruct (Z.leb_spec (hi i) 0) as [B|B].
    + destruct (expNI s k (oppI i)) as [m|] eqn:E; [|discriminate]. intros Q. assert (M : enc s m (exp (- x))). { apply (expNI_ok s k (oppI i)); auto; [|now apply oppI_ok]. destruct H as (_ & H). apply (Rmult_le_reg_r (IZR s)); [auto|]. apply (IZR_le _ 0) in B. lra. }
      destruct (invI_ok _ _ _ _ S M Q) as (_ & R). now rewrite <- exp_Ropp, Ropp_involutive in R.
    + destruct (expNI s k (mkIv 0 (- lo i))) as [a|] eqn:EA; [|discriminate]. destruct (expNI s k (mkIv 0 (hi i))) as [b|] eqn:EB; [|discriminate]. destruct (invI s a) as [c|] eqn:EC; [|discriminate]. intros [= <-].
      destruct H as (H1 & H2). apply IZR_lt in A. apply IZR_lt in B.
      assert (MA : enc s a (exp (Rmax 0 (- x)))). { apply (expNI_ok s k (mkIv 0 (- lo i))); auto; [apply Rmax_l|]. unfold enc. cbn [lo hi]. rewrite opp_IZR. unfold Rmax. destruct (Rle_dec 0 (- x)); split; try lra. apply Rmult_le_pos; lra. }
      assert (MB : enc s b (exp (Rmax 0 x))). { apply (expNI_ok s k (mkIv 0 (hi i))); auto; [apply Rmax_l|]. unfold enc. cbn [lo hi]. unfold Rmax. destruct (Rle_dec 0 x); split; try lra. apply Rmult_le_pos; lra. }
      destruct (invI_ok _ _ _ _ S MA EC) as (_ & R). rewrite <- exp_Ropp in R. destruct R as (R & _). destruct MB as (_ & MB). unfold enc. cbn [lo hi].
      assert (EM : forall p q, p <= q -> exp p * IZR s <= exp q * IZR s) by (intros p q [W| ->]; [apply Rmult_le_compat_r; [lra|]; left; now apply exp_increasing|lra]).
      split; [apply Rle_trans with (1 := R)|apply Rle_trans with (2 := MB)]; apply EM; unfold Rmax; [destruct (Rle_dec 0 (- x))|destruct (Rle_dec 0 x)]; lra.
Qed.

(** ln of a point *)
Fixpoint sqrtk (s : Z) (i : iv) (k : nat) : option iv := match k with O => Some i | S k => match sqrtI s i with Some j => sqrtk s j k | None => None end end.
Lemma sqrtk_ok s k : forall i x j, (0 < s)%Z -> 1 <= x -> enc s i x -> sqrtk s i k = Some j -> exists z, 1 <= z /\ enc s j z /\ ln x = 2 ^ k * ln z.
Proof.
  induction k as [|k IH]; intros i x j S X H E; cbn [sqrtk] in E.
  - injection E as <-. exists x. split; [auto|]. split; [auto|]. cbn. lra.
  - destruct (sqrtI s i) as [m|] eqn:M; [|discriminate]. destruct (sqrtI_ok _ _ _ _ S H M) as (_ & Q). assert (X' : 1 <= sqrt x) by (rewrite <- sqrt_1; apply sqrt_le_1_alt; lra).
    destruct (IH m (sqrt x) j S X' Q E) as (z & Z1 & Z2 & Z3). exists z. split; [auto|]. split; [auto|]. replace (2 ^ Datatypes.S k * ln z) with (2 * (2 ^ k * ln z)) by (cbn; ring). rewrite <- Z3.
    rewrite <- (sqrt_sqrt x) at 1 by lra. rewrite ln_mult by lra. ring.
Qed.
Definition at6I (s : Z) (t : iv) : iv :=
  let q := mulI s t t in
  let h n a := addI (divnI (cstI s 1) n) (mulI s q a) in
  mulI s (mulI s (cstI s 2) t) (h 1 (h 3 (h 5 (h 7 (h 9 (divnI (cstI s 1) 11))))))%Z.
Lemma at6I_ok s t x : (0 < s)%Z -> enc s t x -> enc s (at6I s t) (at6 x).
Proof.
  intros S H. unfold at6I. cbv zeta. replace (at6 x) with (2 * x * (1 / 1 + x * x * (1 / 3 + x * x * (1 / 5 + x * x * (1 / 7 + x * x * (1 / 9 + x * x * (1 / 11))))))) by (unfold at6; field).
  assert (Q : enc s (mulI s t t) (x * x)) by now apply mulI_ok. assert (C : forall n, (0 < n)%Z -> enc s (divnI (cstI s 1) n) (1 / IZR n)) by (intros n N; apply divnI_ok; [auto|apply (cstI_ok s 1)]).
  apply mulI_ok; [auto|apply mulI_ok; [auto|apply (cstI_ok s 2)|auto]|]. repeat (apply addI_ok; [now apply C|]; apply mulI_ok; [auto|exact Q|]). now apply C.
Qed.
Definition pow13 (s : Z) (t : iv) : iv := let a := mulI s t t in let b := mulI s a a in mulI s (mulI s (mulI s b b) b) t.
Lemma pow13_ok s t x : (0 < s)%Z -> enc s t x -> enc s (pow13 s t) (x ^ 13).
Proof.
  intros S H. unfold pow13. cbv zeta. replace (x ^ 13) with (x * x * (x * x) * (x * x * (x * x)) * (x * x * (x * x)) * x) by ring. repeat (apply mulI_ok; [auto| |]); auto.
Qed.
Definition ln_ge1 (s : Z) (k : nat) (i : iv) : option iv :=
  match sqrtk s i k with
  | None => None
  | Some z =>
    match invI s (addI z (cstI s 1)) with
    | None => None
    | Some d =>
      let t := mulI s (addI z (cstI s (-1))) d in
      match invI s (mulI s (cstI s 13) (addI (cstI s 1) (oppI (powI s t 2%nat)))) with
      | None => None
      | Some c =>
        let a := at6I s t in
        let h := addI a (mulI s (mulI s (cstI s 2) (pow13 s t)) c) in
        let m := (2 ^ Z.of_nat k)%Z in
        Some (mkIv (lo a * m) (hi h * m))
      end
    end
  end.
Lemma ln_ge1_ok s k i x j : (0 < s)%Z -> 1 <= x -> enc s i x -> ln_ge1 s k i = Some j -> enc s j (ln x).
Proof.
  intros S X H. unfold ln_ge1. destruct (sqrtk s i k) as [zi|] eqn:Z; [|discriminate]. destruct (sqrtk_ok s k i x zi S X H Z) as (z & Z1 & Z2 & ->).
  destruct (invI s (addI zi (cstI s 1))) as [d|] eqn:Dq; [|discriminate]. destruct (invI_ok s _ (z + 1) d S (addI_ok s _ _ _ _ Z2 (cstI_ok s 1)) Dq) as (_ & DI).
  set (t := mulI s (addI zi (cstI s (-1))) d). assert (T : enc s t ((z - 1) / (z + 1))) by (apply mulI_ok; [auto|apply (addI_ok s _ _ z (-1)); [auto|apply (cstI_ok s (-1))]|exact DI]). set (tr := (z - 1) / (z + 1)) in *.
  destruct (invI s (mulI s (cstI s 13) (addI (cstI s 1) (oppI (powI s t 2))))) as [c|] eqn:C; [|discriminate].
  assert (CC : enc s (mulI s (cstI s 13) (addI (cstI s 1) (oppI (powI s t 2)))) (13 * (1 - tr ^ 2))) by (apply mulI_ok; [auto|apply (cstI_ok s 13)|apply (addI_ok s _ _ 1 (- tr ^ 2)); [apply (cstI_ok s 1)|apply oppI_ok; now apply powI_ok]]).
  destruct (invI_ok s _ _ c S CC C) as (_ & CI). intros HJ. apply (f_equal (fun r => match r with Some x => x | None => i end)) in HJ. cbv beta iota zeta in HJ. rewrite <- HJ. clear HJ.
  pose proof (at6I_ok s t tr S T) as A. assert (Hh : enc s (addI (at6I s t) (mulI s (mulI s (cstI s 2) (pow13 s t)) c)) (at6 tr + 2 * tr ^ 13 / (13 * (1 - tr ^ 2)))) by (apply addI_ok; [auto|]; apply mulI_ok; [auto| |exact CI]; apply mulI_ok; [auto|apply (cstI_ok s 2)|now apply pow13_ok]).
  destruct (ln_bracket z _ _ Z1 (Rle_refl _) (Rle_refl _)) as (B1 & B2). fold tr in B1, B2. destruct A as (A & _). destruct Hh as (_ & Hh). unfold enc. cbn [lo hi]. rewrite !mult_IZR, <- !pow_IZR.
  pose proof (IZR_lt 0 s S) as SP. assert (K : 0 < 2 ^ k) by (apply pow_lt; lra). replace (2 ^ k * ln z * IZR s) with (ln z * IZR s * 2 ^ k) by ring.
  split; (apply Rmult_le_compat_r; [lra|]); [apply Rle_trans with (1 := A)|apply Rle_trans with (2 := Hh)]; apply Rmult_le_compat_r; lra.
Qed.
Definition lnI (s : Z) (k : nat) (i : iv) : option iv :=
  if (s <=? lo i)%Z then ln_ge1 s k i
  else match invI s i with
       | Some r => if (s <=? lo r)%Z then match ln_ge1 s k r with Some j => Some (oppI j) | None => None end
                   else if (0 <? lo i)%Z then
                     match ln_ge1 s k (mkIv s (Z.max s (hi r))), ln_ge1 s k (mkIv s (Z.max s (hi i))) with
                     | Some a, Some b => Some (mkIv (- hi a) (hi b)) | _, _ => None end
                   else None
       | None => None
       end.
Lemma lnI_ok s k i x j : (0 < s)%Z -> enc s i x -> lnI s k i = Some j -> enc s j (ln x).
Proof.
  intros S H. pose proof (IZR_lt 0 s S) as SP. unfold lnI.
  assert (G : forall i x, enc s i x -> (s <= lo i)%Z -> 1 <= x). { intros i0 x0 (A & _) B. apply IZR_le in B. apply (Rmult_le_reg_r (IZR s)); [auto|]. lra. }
  destruct (Z.leb_spec s (lo i)) as [A|A].
  - apply ln_ge1_ok; auto. now apply (G i).
  - destruct (invI s i) as [r|] eqn:R; [|discriminate]. destruct (invI_ok s i x r S H R) as (NZ & RX). destruct (Z.leb_spec s (lo r)) as [B|B].
    + pose proof (G r (/ x) RX B) as X1. destruct (ln_ge1 s k r) as [m|] eqn:M; [|discriminate]. intros [= <-]. assert (0 < x). { destruct (Rlt_dec 0 x); [auto|]. exfalso. assert (/ x <= 0); [|lra]. destruct (Rlt_dec x 0); [left; now apply Rinv_lt_0_compat|lra]. }
      replace (ln x) with (- ln (/ x)) by (rewrite ln_Rinv by auto; ring). apply oppI_ok. now apply (ln_ge1_ok s k r).
    + destruct (Z.ltb_spec 0 (lo i)) as [P|P]; [|discriminate]. destruct (ln_ge1 s k (mkIv s (Z.max s (hi r)))) as [a|] eqn:EA; [|discriminate]. destruct (ln_ge1 s k (mkIv s (Z.max s (hi i)))) as [b|] eqn:EB; [|discriminate]. intros [= <-].
      apply IZR_lt in P. assert (X : 0 < x) by (destruct H as (H & _); apply (Rmult_lt_reg_r (IZR s)); [auto|]; lra).
      assert (CL : forall i y, enc s i y -> enc s (mkIv s (Z.max s (hi i))) (Rmax 1 y)). { intros i0 y (_ & Y). unfold enc. cbn [lo hi]. rewrite IZR_max. pose proof (Rmax_l (IZR s) (IZR (hi i0))). pose proof (Rmax_r (IZR s) (IZR (hi i0))). set (w := Rmax (IZR s) (IZR (hi i0))) in *. clearbody w. unfold Rmax. destruct (Rle_dec 1 y) as [Y1|Y1]; split; try lra. pose proof (Rmult_le_compat_r (IZR s) 1 y ltac:(lra) Y1). lra. }
      pose proof (ln_ge1_ok s k _ _ _ S (Rmax_l 1 (/ x)) (CL _ _ RX) EA) as (_ & QA). pose proof (ln_ge1_ok s k _ _ _ S (Rmax_l 1 x) (CL _ _ H) EB) as (_ & QB). unfold enc. cbn [lo hi]. rewrite opp_IZR.
      assert (EM : forall p q, 0 < p -> p <= q -> ln p * IZR s <= ln q * IZR s) by (intros p q W0 [W| ->]; [apply Rmult_le_compat_r; [lra|]; left; now apply ln_increasing|lra]).
      split.
      * pose proof (EM (/ x) (Rmax 1 (/ x)) ltac:(now apply Rinv_0_lt_compat) (Rmax_r _ _)) as E. rewrite ln_Rinv in E by auto. lra.
      * apply Rle_trans with (2 := QB). apply EM; [auto|apply Rmax_r].
Qed.

(** PI *)
Lemma PI_tight : 31415926535 / 10000000000 <= PI <= 31415926536 / 10000000000.
Proof.
  destruct (PI_2_3_7_ineq 6) as (L & U).
  cbn [sum_f_R0 Nat.mul Nat.add] in L, U. unfold tg_alt, PI_2_3_7_tg, Ratan_seq in L, U. cbn [Nat.mul Nat.add] in L, U. cbn [pow] in L, U.
  repeat match type of L with context [INR ?n] => let z := eval cbv in (Z.of_nat n) in replace (INR n) with (IZR z) in L by (rewrite INR_IZR_INZ; reflexivity) end.
  repeat match type of U with context [INR ?n] => let z := eval cbv in (Z.of_nat n) in replace (INR n) with (IZR z) in U by (rewrite INR_IZR_INZ; reflexivity) end.
  split; lra.
Qed.

(** ** Expressions *)
Inductive expr :=
| Ecst (z : Z) | Epi | Eadd (a b : expr) | Esub (a b : expr) | Emul (a b : expr) | Ediv (a b : expr) | Eopp (a : expr) | Einv (a : expr)
| Epow (a : expr) (n : nat) | Eexp (a : expr) | Eln (a : expr) | Esqrt (a : expr).
Fixpoint den (e : expr) : R :=
  match e with
  | Ecst z => IZR z | Epi => PI | Eadd a b => den a + den b | Esub a b => den a - den b | Emul a b => den a * den b | Ediv a b => den a / den b
  | Eopp a => - den a | Einv a => / den a | Epow a n => den a ^ n | Eexp a => exp (den a) | Eln a => ln (den a) | Esqrt a => sqrt (den a)
  end.
Definition obind {A B} (o : option A) (f : A -> option B) : option B := match o with Some x => f x | None => None end.
Fixpoint ev (s : Z) (k : nat) (e : expr) : option iv :=
  match e with
  | Ecst z => Some (cstI s z)
  | Epi => Some (divnI (mkIv (31415926535 * s) (31415926536 * s)) 10000000000)
  | Eadd a b => obind (ev s k a) (fun i => obind (ev s k b) (fun j => Some (addI i j)))
  | Esub a b => obind (ev s k a) (fun i => obind (ev s k b) (fun j => Some (addI i (oppI j))))
  | Emul a b => obind (ev s k a) (fun i => obind (ev s k b) (fun j => Some (mulI s i j)))
  | Ediv a b => obind (ev s k a) (fun i => obind (ev s k b) (fun j => obind (invI s j) (fun m => Some (mulI s i m))))
  | Eopp a => obind (ev s k a) (fun i => Some (oppI i))
  | Einv a => obind (ev s k a) (fun i => invI s i)
  | Epow a n => obind (ev s k a) (fun i => Some (powI s i n))
  | Eexp a => obind (ev s k a) (fun i => expI s k i)
  | Eln a => obind (ev s k a) (fun i => lnI s k i)
  | Esqrt a => obind (ev s k a) (fun i => sqrtI s i)
  end.
Lemma ev_ok s k e : (0 < s)%Z -> forall i, ev s k e = Some i -> enc s i (den e).
Proof.
  intros S. induction e as [z| |a IHa b IHb|a IHa b IHb|a IHa b IHb|a IHa b IHb|a IHa|a IHa|a IHa n|a IHa|a IHa|a IHa]; intros i; cbn [ev den].
  - intros [= <-]. apply cstI_ok.
  - intros H. apply (f_equal (fun r => match r with Some x => x | None => i end)) in H. cbv beta iota in H. rewrite <- H. replace PI with (PI * 10000000000 / 10000000000) by field. apply divnI_ok; [reflexivity|]. unfold enc. cbn [lo hi]. rewrite !mult_IZR. pose proof PI_tight. pose proof (IZR_lt 0 s S). nra.
  - destruct (ev s k a) as [u|]; [|discriminate]. destruct (ev s k b) as [v|]; [|discriminate]. intros [= <-]. now apply addI_ok; [apply IHa|apply IHb].
  - destruct (ev s k a) as [u|]; [|discriminate]. destruct (ev s k b) as [v|]; [|discriminate]. intros [= <-]. unfold Rminus. apply (addI_ok s u (oppI v)); [now apply IHa|apply oppI_ok; now apply IHb].
  - destruct (ev s k a) as [u|]; [|discriminate]. destruct (ev s k b) as [v|]; [|discriminate]. intros [= <-]. apply (mulI_ok s u v); [auto|now apply IHa|now apply IHb].
  - destruct (ev s k a) as [u|]; [|discriminate]. destruct (ev s k b) as [v|]; [|discriminate]. cbn [obind]. destruct (invI s v) as [m|] eqn:M; [|discriminate]. intros [= <-]. unfold Rdiv. apply (mulI_ok s u m); [auto|now apply IHa|]. now apply (invI_ok s v (den b) m S (IHb _ eq_refl)).
  - destruct (ev s k a) as [u|]; [|discriminate]. intros [= <-]. apply oppI_ok. now apply IHa.
  - destruct (ev s k a) as [u|]; [|discriminate]. cbn [obind]. intros H. now apply (invI_ok s u (den a) i S (IHa _ eq_refl)).
  - destruct (ev s k a) as [u|]; [|discriminate]. cbn [obind]. intros [= <-]. apply powI_ok; [auto|]. now apply IHa.
  - destruct (ev s k a) as [u|]; [|discriminate]. cbn [obind]. intros H. now apply (expI_ok s k u (den a) i S (IHa _ eq_refl)).
  - destruct (ev s k a) as [u|]; [|discriminate]. cbn [obind]. intros H. now apply (lnI_ok s k u (den a) i S (IHa _ eq_refl)).
  - destruct (ev s k a) as [u|]; [|discriminate]. cbn [obind]. intros H. now apply (sqrtI_ok s u (den a) i S (IHa _ eq_refl)).
Qed.
Definition check_pos (p : Z) (k : nat) (e : expr) : bool := match ev (2 ^ p) k e with Some i => (0 <? lo i)%Z | None => false end.
Lemma check_pos_ok p k e : (0 <=? p)%Z = true -> check_pos p k e = true -> 0 < den e.
Proof.
  intros P. apply Z.leb_le in P. assert (S : (0 < 2 ^ p)%Z) by (apply Z.pow_pos_nonneg; lia). unfold check_pos. destruct (ev (2 ^ p) k e) as [i|] eqn:E; [|discriminate]. intros H. apply Z.ltb_lt in H. destruct (ev_ok _ _ _ S _ E) as (L & _). apply IZR_lt in H. apply (Rmult_lt_reg_r (IZR (2 ^ p))); [now apply (IZR_lt 0)|]. lra.
Qed.
(** both bounds by one evaluation *)
Definition check_in (p : Z) (k : nat) (a e b : expr) : bool :=
  match ev (2 ^ p) k a, ev (2 ^ p) k e, ev (2 ^ p) k b with Some i, Some j, Some m => ((hi i <? lo j) && (hi j <? lo m))%Z%bool | _, _, _ => false end.
Lemma check_in_ok p k a e b : (0 <=? p)%Z = true -> check_in p k a e b = true -> den a < den e < den b.
Proof.
  intros P. apply Z.leb_le in P. assert (S : (0 < 2 ^ p)%Z) by (apply Z.pow_pos_nonneg; lia). pose proof (IZR_lt 0 _ S) as SP. unfold check_in. destruct (ev (2 ^ p) k a) as [i|] eqn:A; [|discriminate]. destruct (ev (2 ^ p) k e) as [j|] eqn:E; [|discriminate]. destruct (ev (2 ^ p) k b) as [m|] eqn:B; [|discriminate].
  intros H. apply andb_prop in H. destruct H as (H1 & H2). apply Z.ltb_lt in H1, H2. apply IZR_lt in H1, H2. destruct (ev_ok _ _ _ S _ A) as (_ & QA). destruct (ev_ok _ _ _ S _ E) as (QE1 & QE2). destruct (ev_ok _ _ _ S _ B) as (QB & _). split; apply (Rmult_lt_reg_r (IZR (2 ^ p))); auto; lra.
Qed.
Ltac reify e :=
  lazymatch e with
  | PI => constr:(Epi)
  | ?a + ?b => let x := reify a in let y := reify b in constr:(Eadd x y)
  | ?a - ?b => let x := reify a in let y := reify b in constr:(Esub x y)
  | ?a * ?b => let x := reify a in let y := reify b in constr:(Emul x y)
  | ?a / ?b => let x := reify a in let y := reify b in constr:(Ediv x y)
  | - ?a => let x := reify a in constr:(Eopp x)
  | / ?a => let x := reify a in constr:(Einv x)
  | ?a ^ ?n => let x := reify a in constr:(Epow x n)
  | exp ?a => let x := reify a in constr:(Eexp x)
  | ln ?a => let x := reify a in constr:(Eln x)
  | sqrt ?a => let x := reify a in constr:(Esqrt x)
  | Rpower ?a ?b => let x := reify a in let y := reify b in constr:(Eexp (Emul y (Eln x)))
  | IZR ?z => constr:(Ecst z)
  end.
(** [iv_num p k] proves a strict or large inequality between closed expressions, or a conjunction of two *)
Ltac iv_one p k :=
  lazymatch goal with
  | |- ?a < ?b => apply Rminus_gt_0_lt; unfold Rgt; let e := reify (b - a) in change (0 < den e); apply (check_pos_ok p k); [reflexivity|vm_compute; reflexivity]
  | |- ?a <= ?b => apply Rlt_le; iv_one p k
  end.
Lemma lt2_le2 a x b : a < x < b -> a <= x <= b. Proof. lra. Qed.
Ltac iv_num p k := lazymatch goal with
  | |- ?a <= ?x <= ?b => apply lt2_le2; iv_num p k
  | |- ?a < ?x < ?b => let e1 := reify a in let e2 := reify x in let e3 := reify b in change (den e1 < den e2 < den e3); apply (check_in_ok p k); [reflexivity|vm_compute; reflexivity]
  | |- _ /\ _ => split; iv_num p k | _ => iv_one p k end.
Example iv_1 : 271828 / 100000 < exp 1 < 271829 / 100000. Proof. iv_num 60%Z 6%nat. Qed.
Example iv_2 : 230258 / 100000 < ln 10 < 230259 / 100000. Proof. iv_num 60%Z 6%nat. Qed.
Example iv_3 : 329 / 100 < Rpower (5 / 2) (13 / 10) < 33 / 10. Proof. iv_num 60%Z 6%nat. Qed.
Example iv_4 : 22 < exp PI < 24. Proof. iv_num 60%Z 6%nat. Qed.
