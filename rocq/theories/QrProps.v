(** C96, C98: every square matrix has the factorisation asked of scipy.linalg.qr, every factorisation can be
    updated, and every symmetric 2x2 matrix has both eigenvector conventions met in C98. *)
From Coq Require Import Reals Lra Lia List Bool Arith Psatz.
From Verif Require Import Prelude RootsModel DiffModel FixModel PolyModel VecModel Deriv QnLinModel QnLinProps.
Open Scope R_scope.

Lemma sum_delta N i (f : nat -> R) : (i < N)%nat -> sumn N (fun k => delta i k * f k) = f i. Proof. apply sumn_delta_l. Qed.
Lemma gram_mul N A B i j : (forall a b, (a < N)%nat -> (b < N)%nat -> sumn N (fun k => A k a * A k b) = delta a b) ->
  sumn N (fun k => mmul N A B k i * mmul N A B k j) = sumn N (fun a => B a i * B a j).
Proof.
  intros HA. unfold mmul.
  rewrite (sumn_ext N _ (fun k => sumn N (fun a => sumn N (fun b => B a i * B b j * (A k a * A k b))))).
  2:{ intros k Hk. rewrite <- sumn_scal_r. apply sumn_ext. intros a Ha. rewrite <- sumn_scal. apply sumn_ext. intros b Hb. ring. }
  rewrite sumn_swap. apply sumn_ext. intros a Ha. rewrite sumn_swap.
  rewrite (sumn_ext N _ (fun b => delta a b * (B a i * B b j))).
  - now rewrite (sum_delta N a (fun b => B a i * B b j)).
  - intros b Hb. rewrite sumn_scal, HA by auto. ring.
Qed.
Definition tr (A : nat -> nat -> R) : nat -> nat -> R := fun i j => A j i.
Lemma mmul_tr N A B i j : mmul N A B i j = mmul N (tr B) (tr A) j i.
Proof. unfold mmul, tr. apply sumn_ext. intros. ring. Qed.
Lemma orth_mul N A B : orthogonal N A -> orthogonal N B -> orthogonal N (mmul N A B).
Proof.
  intros (A1 & A2) (B1 & B2). split; intros i j Hi Hj.
  - rewrite gram_mul by auto. auto.
  - rewrite (sumn_ext N _ (fun k => mmul N (tr B) (tr A) k i * mmul N (tr B) (tr A) k j)) by (intros; now rewrite !(mmul_tr N A B)).
    rewrite gram_mul by (intros; unfold tr; auto). unfold tr. auto.
Qed.
Lemma mmul_assoc N A B C i j : mmul N (mmul N A B) C i j = mmul N A (mmul N B C) i j.
Proof. exact (mmul_vec N A B (fun k => C k j) i). Qed.
Lemma mmul_ext N A B C i j : (forall k, (k < N)%nat -> B k j = C k j) -> mmul N A B i j = mmul N A C i j.
Proof. intros E. unfold mmul. apply sumn_ext. intros k Hk. now rewrite E. Qed.
Lemma orth_id N : orthogonal N delta.
Proof. split; intros i j Hi Hj; [rewrite (sumn_ext N _ (fun k => delta i k * delta k j)) by (intros; now rewrite (delta_sym i))|rewrite (sumn_ext N _ (fun k => delta i k * delta k j)) by (intros; now rewrite (delta_sym j))]; now rewrite (sum_delta N i (fun k => delta k j)). Qed.

(** a reflection that maps x onto the first axis *)
Definition hh (n : nat) (x : nat -> R) : nat -> nat -> R :=
  let t := sumn n (fun k => x (S k) * x (S k)) in
  if Rlt_dec 0 t then
    let al := sqrt (x O * x O + t) in let v := fun k => x k - al * delta 0 k in let c := al * (al - x O) in
    fun i j => delta i j - v i * v j / c
  else delta.
Lemma sumsq_nonneg n (x : nat -> R) : 0 <= sumn n (fun k => x k * x k).
Proof. induction n as [|n IH]; cbn [sumn]; [lra|]. pose proof (Rle_0_sqr (x n)). unfold Rsqr in *. lra. Qed.
Lemma sumsq_zero n (x : nat -> R) : sumn n (fun k => x k * x k) <= 0 -> forall k, (k < n)%nat -> x k = 0.
Proof.
  induction n as [|n IH]; intros H k Hk; [lia|]. cbn [sumn] in H. pose proof (sumsq_nonneg n x) as P. pose proof (Rle_0_sqr (x n)) as Q. unfold Rsqr in Q.
  destruct (Nat.eq_dec k n) as [-> |]; [|apply IH; [lra|lia]]. assert (Z : x n * x n = 0) by lra. apply Rmult_integral in Z. tauto.
Qed.
Lemma reflector n x : let H := hh n x in orthogonal (S n) H /\ (forall i j, H i j = H j i) /\ forall i, (0 < i)%nat -> (i < S n)%nat -> matvec (S n) H x i = 0.
Proof.
  cbv zeta. set (N := S n). unfold hh. set (t := sumn n (fun k => x (S k) * x (S k))). destruct (Rlt_dec 0 t) as [T0|T0].
  - set (s := x 0%nat * x 0%nat + t). assert (St : sumn N (fun k => x k * x k) = s) by (unfold s, N; now rewrite sumn_S_first).
    set (al := sqrt s). assert (S0 : 0 < s) by (pose proof (Rle_0_sqr (x 0%nat)); unfold Rsqr, s in *; lra). assert (AA : al * al = s) by (apply sqrt_sqrt; lra). assert (A0 : 0 < al) by now apply sqrt_lt_R0.
    set (v := fun k : nat => x k - al * delta 0 k). set (c := al * (al - x 0%nat)).
    assert (C0 : 0 < c) by (unfold c; apply Rmult_lt_0_compat; auto; assert (x 0%nat * x 0%nat < al * al) by (rewrite AA; unfold s; lra); nra).
    assert (D00 : delta 0 0 = 1) by apply delta_eq.
    assert (VX : sumn N (fun k => v k * x k) = c).
    { rewrite (sumn_ext N _ (fun k => x k * x k + (- al) * (delta 0 k * x k))) by (intros; unfold v; ring). rewrite sumn_plus, sumn_scal, (sum_delta N 0 x), St by (unfold N; lia). unfold c. lra. }
    assert (VV : sumn N (fun k => v k * v k) = 2 * c).
    { rewrite (sumn_ext N _ (fun k => v k * x k + (- al) * (delta 0 k * v k))) by (intros; unfold v; ring). rewrite sumn_plus, sumn_scal, (sum_delta N 0 v), VX by (unfold N; lia). unfold v at 1. rewrite D00. unfold c. lra. }
    set (H := fun i j : nat => delta i j - v i * v j / c).
    assert (HS : forall i j, H i j = H j i) by (intros; unfold H; rewrite delta_sym; unfold Rdiv; ring).
    assert (HH : forall i j, (i < N)%nat -> (j < N)%nat -> sumn N (fun k => H i k * H j k) = delta i j).
    { intros i j Hi Hj. rewrite (sumn_ext N _ (fun k => delta i k * delta j k + (- (v j / c)) * (delta i k * v k) + (- (v i / c)) * (delta j k * v k) + (v i * v j / (c * c)) * (v k * v k))) by (intros; unfold H; field; lra).
      rewrite !sumn_plus, !sumn_scal, (sum_delta N i v), (sum_delta N j v), VV, (sum_delta N i (fun k => delta j k)) by auto. rewrite (delta_sym j i). field. lra. }
    split; [|split; [exact HS|]].
    + split; intros i j Hi Hj; [|now apply HH]. rewrite (sumn_ext N _ (fun k => H i k * H j k)) by (intros k Hk; now rewrite (HS i k), (HS j k)). now apply HH.
    + intros i Hi HN. change (matvec N H x i = 0). unfold matvec. rewrite (sumn_ext N _ (fun k => delta i k * x k + (- (v i / c)) * (v k * x k))) by (intros; unfold H; field; lra).
      rewrite sumn_plus, sumn_scal, (sum_delta N i x), VX by auto. unfold v. rewrite delta_neq by lia. field. lra.
  - split; [apply orth_id|]. split; [apply delta_sym|]. intros i Hi HN. unfold matvec. rewrite (sum_delta N i x) by auto. destruct i as [|i]; [lia|].
    apply (sumsq_zero n (fun k => x (S k))); [fold t; lra|unfold N in HN; lia].
Qed.

Definition blk (Q : nat -> nat -> R) : nat -> nat -> R := fun i j => match i, j with O, O => 1 | S i, S j => Q i j | _, _ => 0 end.
Lemma delta_S i j : delta (S i) (S j) = delta i j.
Proof. unfold delta. destruct (Nat.eq_dec i j), (Nat.eq_dec (S i) (S j)); try lia; reflexivity. Qed.
Lemma orth_blk n Q : orthogonal n Q -> orthogonal (S n) (blk Q).
Proof.
  intros (A & B). split; intros i j Hi Hj; rewrite sumn_S_first;
  (destruct i as [|i], j as [|j]; cbn [blk];
   [rewrite (sumn_ext n _ (fun _ => 0)) by (intros; cbn [blk]; ring); rewrite sumn_zero, delta_eq; ring
   |rewrite (sumn_ext n _ (fun _ => 0)) by (intros; cbn [blk]; ring); rewrite sumn_zero, delta_neq by lia; ring
   |rewrite (sumn_ext n _ (fun _ => 0)) by (intros; cbn [blk]; ring); rewrite sumn_zero, delta_neq by lia; ring
   |]); rewrite delta_S.
  - rewrite A by lia. ring.
  - rewrite B by lia. ring.
Qed.

(** a factorisation by reflections *)
Fixpoint qr (N : nat) (J : nat -> nat -> R) : (nat -> nat -> R) * (nat -> nat -> R) :=
  match N with
  | O => (delta, delta)
  | S n => let H := hh n (fun k => J k O) in let K := mmul (S n) H J in
           let QR := qr n (fun i j => K (S i) (S j)) in
           (mmul (S n) H (blk (fst QR)), fun i j => match i, j with O, j => K O j | S i, O => 0 | S i, S j => snd QR i j end)
  end.
(** scipy.linalg.qr: every matrix has a factorisation *)
Theorem C96_qr_exists N : forall J, is_qr N (fst (qr N J)) (snd (qr N J)) J.
Proof.
  induction N as [|n IH]; intros J.
  - split; [apply orth_id|]. split; intros i j; lia.
  - cbn [qr]. destruct (reflector n (fun k => J k 0%nat)) as (OH & HS & HZ). set (H := hh n (fun k => J k 0%nat)) in *.
    set (K := mmul (S n) H J). specialize (IH (fun i j => K (S i) (S j))). destruct (qr n (fun i j => K (S i) (S j))) as [Q Rm]. cbn [fst snd] in *. destruct IH as (OQ & UR & E).
    set (R' := fun i j : nat => match i, j with O, j => K O j | S i, O => 0 | S i, S j => Rm i j end).
    assert (K0 : forall i, (0 < i)%nat -> (i < S n)%nat -> K i 0%nat = 0) by (intros i Hi HN; apply HZ; auto).
    assert (EK : forall i j, (i < S n)%nat -> (j < S n)%nat -> mmul (S n) (blk Q) R' i j = K i j).
    { intros i j Hi Hj. unfold mmul. rewrite sumn_S_first. destruct i as [|i].
      - cbn [blk R']. rewrite (sumn_ext n _ (fun _ => 0)) by (intros; cbn [blk]; ring). rewrite sumn_zero. unfold R'. ring.
      - destruct j as [|j]; cbn [blk].
        + rewrite (sumn_ext n _ (fun _ => 0)) by (intros; unfold R'; cbn [blk]; ring). rewrite sumn_zero, K0 by lia. ring.
        + rewrite <- (E i j) by lia. unfold mmul, R'. ring. }
    split; [apply orth_mul; auto; now apply orth_blk|]. split.
    + intros i j Hji Hi. destruct i as [|i]; [lia|]. destruct j as [|j]; [reflexivity|]. apply UR; lia.
    + intros i j Hi Hj. rewrite mmul_assoc. rewrite (mmul_ext (S n) H _ K) by (intros; now apply EK). unfold K. rewrite <- mmul_assoc.
      transitivity (sumn (S n) (fun k => delta i k * J k j)); [|now rewrite (sum_delta (S n) i (fun k => J k j))].
      unfold mmul at 1. apply sumn_ext. intros k Hk. f_equal. unfold mmul. rewrite <- (proj2 OH i k Hi Hk). apply sumn_ext. intros a Ha. now rewrite (HS a k).
Qed.
(** scipy.linalg.qr_update can meet the specification used in C96 and keep the factors orthogonal and triangular *)
Definition quQ (N : nat) (Q Rm : nat -> nat -> R) (u v : nat -> R) := qr N (fun i j => mmul N Q Rm i j + u i * v j).
Theorem C96_update_orthogonal N : qr_update_spec N (quQ N) /\
  forall Q Rm u v, orthogonal N (fst (quQ N Q Rm u v)) /\ upper N (snd (quQ N Q Rm u v)).
Proof.
  split.
  - intros Q Rm u v. pose proof (C96_qr_exists N (fun i j => mmul N Q Rm i j + u i * v j)) as (_ & _ & E). fold (quQ N Q Rm u v) in E. destruct (quQ N Q Rm u v) as [Q' R']. exact E.
  - intros Q Rm u v. pose proof (C96_qr_exists N (fun i j => mmul N Q Rm i j + u i * v j)) as (O & U & _). split; auto.
Qed.
(** the first column (3, 4) is turned onto (5, 0) *)
Example C96_qr_case : snd (qr 2 (fun i j => match i, j with O, O => 3 | 1%nat, O => 4 | _, _ => 1 end)) 0%nat 0%nat = 5.
Proof.
  cbn [qr snd]. unfold mmul, hh. cbn [sumn]. destruct (Rlt_dec 0 (0 + 4 * 4)); [|lra]. replace (3 * 3 + (0 + 4 * 4)) with (5 * 5) by ring. rewrite sqrt_square by lra.
  unfold delta. cbn [Nat.eq_dec]. destruct (Nat.eq_dec 0 0); [|lia]. destruct (Nat.eq_dec 0 1); [lia|]. field.
Qed.

From Verif Require Import JcrModel JcrProps.
(** ** np.linalg.eigh: for every symmetric matrix both a reflection and a rotation are admissible results *)
Theorem C98_eigh_exists V : V 0%nat 1%nat = V 1%nat 0%nat ->
  (exists e, eigh_spec V e /\ eg_v e 0%nat 0%nat * eg_v e 1%nat 1%nat - eg_v e 0%nat 1%nat * eg_v e 1%nat 0%nat = -1) /\
  (exists e, eigh_spec V e /\ eg_v e 0%nat 0%nat * eg_v e 1%nat 1%nat - eg_v e 0%nat 1%nat * eg_v e 1%nat 0%nat = 1).
Proof.
  intros HV. set (a := V 0%nat 0%nat). set (b := V 0%nat 1%nat). set (d := V 1%nat 1%nat).
  assert (U : exists x y w0 w1, x ^ 2 + y ^ 2 = 1 /\ w0 <= w1 /\ a * x + b * y = w0 * x /\ b * x + d * y = w0 * y /\ a * y - b * x = w1 * y /\ b * y - d * x = - (w1 * x)).
  { destruct (Req_EM_T b 0) as [B0|B0].
    - rewrite B0. destruct (Rle_dec a d); [exists 1, 0, a, d|exists 0, 1, d, a]; repeat split; lra.
    - set (q := (a - d) * (a - d) + 4 * (b * b)). assert (Q0 : 0 < q) by (unfold q; pose proof (Rle_0_sqr (a - d)); pose proof (Rsqr_pos_lt _ B0); unfold Rsqr in *; lra).
      set (D := sqrt q). assert (D0 : 0 < D) by now apply sqrt_lt_R0. assert (DD : D * D = q) by (apply sqrt_sqrt; lra).
      set (w0 := (a + d - D) / 2). set (w1 := (a + d + D) / 2). set (y0 := w0 - a). set (n2 := b * b + y0 * y0).
      assert (N0 : 0 < n2) by (unfold n2; pose proof (Rle_0_sqr y0); pose proof (Rsqr_pos_lt _ B0); unfold Rsqr in *; lra).
      set (n := sqrt n2). assert (P0 : 0 < n) by now apply sqrt_lt_R0. assert (NN : n * n = n2) by (apply sqrt_sqrt; lra).
      assert (E0 : b * b + d * y0 = w0 * y0) by (unfold y0, w0; assert (4 * (b * b) = D * D - (a - d) * (a - d)) by (rewrite DD; unfold q; ring); lra).
      assert (E1 : a * y0 - b * b = w1 * y0) by (unfold y0, w1, w0 in *; lra).
      assert (W : w0 + w1 = a + d) by (unfold w0, w1; lra).
      exists (b / n), (y0 / n), w0, w1. split; [|split; [unfold w0, w1; lra|]].
      + transitivity (n2 / (n * n)); [unfold n2; field; lra|]. rewrite NN. field. lra.
      + repeat split; apply (Rmult_eq_reg_r n); try lra; unfold Rdiv.
        * replace ((a * (b * / n) + b * (y0 * / n)) * n) with (a * b + b * y0) by (field; lra). replace (w0 * (b * / n) * n) with (w0 * b) by (field; lra). unfold y0. ring.
        * replace ((b * (b * / n) + d * (y0 * / n)) * n) with (b * b + d * y0) by (field; lra). replace (w0 * (y0 * / n) * n) with (w0 * y0) by (field; lra). lra.
        * replace ((a * (y0 * / n) - b * (b * / n)) * n) with (a * y0 - b * b) by (field; lra). replace (w1 * (y0 * / n) * n) with (w1 * y0) by (field; lra). lra.
        * replace ((b * (y0 * / n) - d * (b * / n)) * n) with (b * (y0 - d)) by (field; lra). replace (- (w1 * (b * / n)) * n) with (b * (- w1)) by (field; lra). f_equal. unfold y0. lra. }
  destruct U as (x & y & w0 & w1 & N & L & A1 & A2 & B1 & B2).
  split; [exists (mkEig w0 w1 (fun i j => match i, j with O, O => x | S _, O => y | O, S _ => y | S _, S _ => - x end))|exists (mkEig w0 w1 (fun i j => match i, j with O, O => x | S _, O => y | O, S _ => - y | S _, S _ => x end))];
  (split; [unfold eigh_spec; cbn [eg_v eg_w0 eg_w1]; repeat split; try lra; intros [|[|i]] Hi; try lia; cbv iota; rewrite <- ?HV; fold a b d; lra|cbn [eg_v]; lra]).
Qed.
(** hence the reflection needed by C98_ellipse is always available *)
Example C98_eigh_case : exists e, eigh_spec (fun i j => match i, j with O, O => 41 / 25 | 1%nat, 1%nat => 34 / 25 | _, _ => - (12 / 25) end) e /\ eg_v e 0%nat 1%nat = eg_v e 1%nat 0%nat.
Proof. destruct (C98_eigh_exists (fun i j => match i, j with O, O => 41 / 25 | 1%nat, 1%nat => 34 / 25 | _, _ => - (12 / 25) end) eq_refl) as ((e & S & D) & _). exists e. split; [exact S|exact (C98_reflection _ _ S D)]. Qed.
Print Assumptions C96_qr_exists. Print Assumptions C96_update_orthogonal. Print Assumptions C98_eigh_exists.
