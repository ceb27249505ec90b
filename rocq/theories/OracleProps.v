(** The specifications asked of library routines can be met: triangular and Cholesky solvers and the QR update
    of every order (C96), and the gamma functions (C20, C66). *)
From Coq Require Import Reals Lra Lia List Bool Arith Psatz.
From Coquelicot Require Import Coquelicot.
From Verif Require Import Prelude Deriv RootsModel DiffModel FixModel CopoMultiModel LinAlg VecModel QnLinModel QnLinProps.
Open Scope R_scope.

(** ** Triangular systems *)
Definition triN (N : nat) (Rm : nat -> nat -> R) (b : nat -> R) : nat -> R := match gauss N Rm b with Ok x => x | Err _ => fun _ => 0 end.
Lemma upper_nonsingular N Rm : upper N Rm -> (forall i, (i < N)%nat -> Rm i i <> 0) -> nonsingular N Rm.
Proof.
  intros HU HD y H. assert (K : forall m i, (i < N)%nat -> (N <= i + m)%nat -> y i = 0).
  { induction m as [|m IH]; intros i Hi Hm; [lia|].
    assert (E : sumn N (fun j => Rm i j * y j) = Rm i i * y i).
    { rewrite (sumn_ext N _ (fun j => if Nat.eqb j i then Rm i i * y i else 0)).
      - clear - Hi. induction N as [|N IHN]; [lia|]. cbn [sumn]. destruct (Nat.eq_dec i N) as [-> |].
        + rewrite Nat.eqb_refl. rewrite (sumn_ext N _ (fun _ => 0)); [rewrite sumn_zero; ring|]. intros j Hj. destruct (Nat.eqb_spec j N); [lia|reflexivity].
        + rewrite IHN by lia. destruct (Nat.eqb_spec N i); [lia|]. ring.
      - intros j Hj. destruct (Nat.eqb_spec j i) as [-> |Hn]; [reflexivity|]. destruct (lt_dec j i); [rewrite (HU i j) by lia; ring|rewrite (IH j) by lia; ring]. }
    rewrite H in E by auto. symmetry in E. apply Rmult_integral in E. destruct E as [E|E]; auto. exfalso. now apply (HD i). }
  intros i Hi. apply (K N); lia.
Qed.
Theorem C96_tri_exists N : tri_spec N (triN N).
Proof.
  intros Rm b HU HD i Hi. unfold triN, matvec. destruct (solve_spec_gauss N Rm b) as (S1 & S2).
  destruct (S2 (upper_nonsingular N Rm HU HD)) as (x & E). rewrite E. now apply S1.
Qed.

(** ** Cholesky factorisation *)
Definition schur (H : nat -> nat -> R) : nat -> nat -> R := fun i j => H (S i) (S j) - H (S i) 0%nat * H 0%nat (S j) / H 0%nat 0%nat.
Fixpoint chol (N : nat) (H : nat -> nat -> R) : option (nat -> nat -> R) :=
  match N with
  | O => Some (fun _ _ => 0)
  | S n => if Rlt_dec 0 (H 0%nat 0%nat) then
             match chol n (schur H) with
             | Some C => Some (fun i j => match i, j with O, _ => H 0%nat j / sqrt (H 0%nat 0%nat) | S i, S j => C i j | S _, O => 0 end)
             | None => None
             end
           else None
  end.
Definition symm (N : nat) (H : nat -> nat -> R) : Prop := forall i j, (i < N)%nat -> (j < N)%nat -> H i j = H j i.
Definition symmb (N : nat) (H : nat -> nat -> R) : bool := forallb (fun i => forallb (fun j => if Req_EM_T (H i j) (H j i) then true else false) (seq 0 N)) (seq 0 N).
Lemma symmb_ok N H : symmb N H = true <-> symm N H.
Proof.
  unfold symmb, symm. split.
  - intros E i j Hi Hj. rewrite forallb_forall in E. specialize (E i ltac:(apply in_seq; lia)). rewrite forallb_forall in E. specialize (E j ltac:(apply in_seq; lia)). destruct (Req_EM_T (H i j) (H j i)); [auto|discriminate].
  - intros E. apply forallb_forall. intros i Hi. apply forallb_forall. intros j Hj. apply in_seq in Hi, Hj. destruct (Req_EM_T (H i j) (H j i)) as [|n]; auto. exfalso. apply n. apply E; lia.
Qed.
Lemma schur_symm n H : symm (S n) H -> symm n (schur H).
Proof. intros HS i j Hi Hj. unfold schur. rewrite (HS (S i) (S j)), (HS (S i) 0%nat), (HS 0%nat (S j)) by lia. unfold Rdiv. ring. Qed.
(** completing the square *)
Lemma quad_schur n H v : symm (S n) H -> H 0%nat 0%nat <> 0 ->
  dot (S n) v (matvec (S n) H v) = H 0%nat 0%nat * (v 0%nat + sumn n (fun j => H 0%nat (S j) * v (S j)) / H 0%nat 0%nat) ^ 2
    + dot n (fun i => v (S i)) (matvec n (schur H) (fun i => v (S i))).
Proof.
  intros HS H0. unfold dot. rewrite sumn_S_first. unfold matvec at 1. rewrite sumn_S_first. set (s := sumn n (fun j => H 0%nat (S j) * v (S j))).
  assert (E1 : sumn n (fun i => v (S i) * matvec (S n) H v (S i)) = s * v 0%nat + sumn n (fun i => v (S i) * sumn n (fun j => H (S i) (S j) * v (S j)))).
  { unfold s. rewrite <- sumn_scal_r, <- sumn_plus. apply sumn_ext. intros i Hi. unfold matvec. rewrite sumn_S_first, (HS (S i) 0%nat) by lia. ring. }
  rewrite E1.
  assert (E2 : sumn n (fun i => v (S i) * matvec n (schur H) (fun i => v (S i)) i) = sumn n (fun i => v (S i) * sumn n (fun j => H (S i) (S j) * v (S j))) - s * s / H 0%nat 0%nat).
  { transitivity (sumn n (fun i => v (S i) * sumn n (fun j => H (S i) (S j) * v (S j)) + (- (s / H 0%nat 0%nat)) * (H 0%nat (S i) * v (S i)))).
    - apply sumn_ext. intros i Hi. unfold matvec, schur. rewrite (sumn_ext n _ (fun j => H (S i) (S j) * v (S j) + (- (H (S i) 0%nat / H 0%nat 0%nat)) * (H 0%nat (S j) * v (S j)))) by (intros; field; auto).
      rewrite sumn_plus, sumn_scal. fold s. rewrite (HS (S i) 0%nat) by lia. field. auto.
    - rewrite sumn_plus, sumn_scal. fold s. field. auto. }
  rewrite E2. field. auto.
Qed.
Lemma posdef_schur n H : posdef (S n) H <-> symm (S n) H /\ 0 < H 0%nat 0%nat /\ posdef n (schur H).
Proof.
  split.
  - intros (HS & HP). assert (P0 : 0 < H 0%nat 0%nat).
    { specialize (HP (fun i => match i with O => 1 | _ => 0 end)). unfold dot, matvec in HP. rewrite sumn_S_first in HP.
      rewrite (sumn_ext n _ (fun _ => 0)) in HP by (intros; ring). rewrite sumn_zero, sumn_S_first in HP. rewrite (sumn_ext n _ (fun _ => 0)) in HP by (intros; ring). rewrite sumn_zero in HP.
      assert (0 < 1 * (H 0%nat 0%nat * 1 + 0) + 0); [|lra]. apply HP. exists 0%nat. split; [lia|lra]. }
    split; [exact HS|]. split; [exact P0|]. split; [now apply schur_symm|]. intros w (i & Hi & Hw).
    set (v := fun k => match k with O => - (sumn n (fun j => H 0%nat (S j) * w j) / H 0%nat 0%nat) | S k => w k end).
    specialize (HP v). rewrite quad_schur in HP by (auto; lra). change (fun i0 => v (S i0)) with w in HP.
    replace (v 0%nat + sumn n (fun j => H 0%nat (S j) * v (S j)) / H 0%nat 0%nat) with 0 in HP by (unfold v; cbv iota; ring).
    assert (0 < H 0%nat 0%nat * 0 ^ 2 + dot n w (matvec n (schur H) w)); [|lra]. apply HP. exists (S i). split; [lia|exact Hw].
  - intros (HS & P0 & (_ & HP)). split; [exact HS|]. intros v (i & Hi & Hv). rewrite quad_schur by (auto; lra).
    set (t := v 0%nat + _). assert (0 <= H 0%nat 0%nat * t ^ 2) by (pose proof (pow2_ge_0 t); nra).
    destruct (Classical_Prop.classic (exists k, (k < n)%nat /\ v (S k) <> 0)) as [E|E].
    + specialize (HP (fun k => v (S k)) E). lra.
    + assert (Z : forall k, (k < n)%nat -> v (S k) = 0) by (intros k Hk; apply Classical_Prop.NNPP; intros N; apply E; eauto).
      assert (V0 : v 0%nat <> 0) by (destruct i as [|i]; auto; exfalso; apply Hv; apply Z; lia).
      assert (T0 : t = v 0%nat) by (unfold t; rewrite (sumn_ext n _ (fun _ => 0)) by (intros k Hk; rewrite Z by auto; ring); rewrite sumn_zero; unfold Rdiv; ring).
      assert (Q : dot n (fun k => v (S k)) (matvec n (schur H) (fun k => v (S k))) = 0) by (unfold dot; rewrite (sumn_ext n _ (fun _ => 0)) by (intros k Hk; rewrite Z by auto; ring); apply sumn_zero).
      rewrite Q, T0. assert (0 < v 0%nat ^ 2) by (pose proof (Rsqr_pos_lt _ V0) as W; unfold Rsqr in W; lra). nra.
Qed.
Lemma chol_some N : forall H, symm N H -> posdef N H -> exists C, chol N H = Some C.
Proof.
  induction N as [|n IH]; intros H HS HP; cbn [chol]; [eauto|]. apply posdef_schur in HP. destruct HP as (_ & P0 & HP). destruct (Rlt_dec 0 (H 0%nat 0%nat)); [|tauto].
  destruct (IH (schur H) (schur_symm n H HS) HP) as (C & ->). eauto.
Qed.
Lemma chol_posdef N : forall H C, symm N H -> chol N H = Some C -> posdef N H.
Proof.
  induction N as [|n IH]; intros H C HS HC.
  - split; [exact HS|]. intros v (i & Hi & _). lia.
  - cbn [chol] in HC. destruct (Rlt_dec 0 (H 0%nat 0%nat)) as [P0|]; [|discriminate]. destruct (chol n (schur H)) as [C'|] eqn:E; [|discriminate].
    apply posdef_schur. split; [exact HS|]. split; [exact P0|]. apply (IH _ C'); auto. now apply schur_symm.
Qed.
Lemma chol_factor N : forall H C, symm N H -> chol N H = Some C -> is_cho N C H.
Proof.
  induction N as [|n IH]; intros H C HS HC.
  - split; intros; lia.
  - cbn [chol] in HC. destruct (Rlt_dec 0 (H 0%nat 0%nat)) as [P0|]; [|discriminate]. destruct (chol n (schur H)) as [C'|] eqn:E; [|discriminate]. injection HC as <-.
    destruct (IH (schur H) C' (schur_symm n H HS) E) as (D1 & D2).
    assert (Q0 : 0 < sqrt (H 0%nat 0%nat)) by now apply sqrt_lt_R0. assert (QQ : sqrt (H 0%nat 0%nat) * sqrt (H 0%nat 0%nat) = H 0%nat 0%nat) by (apply sqrt_sqrt; lra).
    split.
    + intros [|i] Hi; [now apply Rdiv_lt_0_compat|apply D1; lia].
    + intros i j Hi Hj. rewrite sumn_S_first. unfold triu at 1 2. cbn [Nat.leb].
      assert (EE : H 0%nat i / sqrt (H 0%nat 0%nat) * (H 0%nat j / sqrt (H 0%nat 0%nat)) = H 0%nat i * H 0%nat j / H 0%nat 0%nat).
      { transitivity (H 0%nat i * H 0%nat j / (sqrt (H 0%nat 0%nat) * sqrt (H 0%nat 0%nat))); [field; lra|now rewrite QQ]. }
      rewrite EE. clear EE.
      destruct i as [|i].
      { rewrite (sumn_ext n _ (fun _ => 0)) by (intros k Hk; unfold triu; cbn [Nat.leb]; ring). rewrite sumn_zero. field. lra. }
      destruct j as [|j].
      { rewrite (sumn_ext n _ (fun _ => 0)) by (intros k Hk; unfold triu; cbn [Nat.leb]; ring). rewrite sumn_zero, (HS (S i) 0%nat) by lia. field. lra. }
      rewrite (sumn_ext n _ (fun k => triu C' k i * triu C' k j)) by (intros k Hk; unfold triu; cbn [Nat.leb]; reflexivity).
      rewrite D2 by lia. unfold schur. rewrite (HS (S i) 0%nat) by lia. field. lra.
Qed.
Definition choN (N : nat) (H : nat -> nat -> R) : option (nat -> nat -> R) := if symmb N H then chol N H else None.
Definition chosolveN (N : nat) (C : nat -> nat -> R) (b : nat -> R) : nat -> R :=
  match gauss N (fun i j => sumn N (fun k => triu C k i * triu C k j)) b with Ok x => x | Err _ => fun _ => 0 end.
Lemma posdef_nonsingular N H : posdef N H -> nonsingular N H.
Proof.
  intros (_ & HP) y E i Hi. apply Classical_Prop.NNPP. intros Hn. assert (P : 0 < dot N y (matvec N H y)) by (apply HP; eauto).
  unfold dot in P. rewrite (sumn_ext N _ (fun _ => 0)) in P by (intros k Hk; unfold matvec; rewrite E by auto; ring). rewrite sumn_zero in P. lra.
Qed.
Theorem C96_cho_exists N : cho_spec N (choN N) (chosolveN N).
Proof.
  split; [|split].
  - intros H HP. pose proof (proj1 HP) as HS. unfold choN. rewrite (proj2 (symmb_ok N H) HS). destruct (chol_some N H HS HP) as (C & E). exists C. split; [exact E|now apply chol_factor].
  - intros H HN. unfold choN. destruct (symmb N H) eqn:E; auto. apply symmb_ok in E. destruct (chol N H) as [C|] eqn:EC; auto. exfalso. apply HN. now apply (chol_posdef N H C).
  - intros H C b HC i Hi. unfold choN in HC. destruct (symmb N H) eqn:E; [|discriminate]. apply symmb_ok in E. pose proof (chol_posdef N H C E HC) as HP. destruct (chol_factor N H C E HC) as (_ & F).
    unfold chosolveN. set (G := fun i j => sumn N (fun k => triu C k i * triu C k j)). destruct (solve_spec_gauss N G b) as (S1 & S2).
    assert (NS : nonsingular N G). { intros y Y. apply (posdef_nonsingular N H HP). intros k Hk. rewrite <- (Y k Hk). apply sumn_ext. intros j Hj. unfold G. now rewrite F. }
    destruct (S2 NS) as (x & Ex). rewrite Ex. rewrite <- (S1 x Ex i Hi). unfold matvec. apply sumn_ext. intros j Hj. unfold G. now rewrite F.
Qed.
(** the factor of ((4, 2), (2, 2)) is ((2, 1), (0, 1)) *)
Example C96_cho_case : exists C, choN 2 (fun i j => match i, j with O, O => 4 | _, _ => 2 end) = Some C /\ C 0%nat 0%nat = 2 /\ C 0%nat 1%nat = 1 /\ C 1%nat 1%nat = 1.
Proof.
  set (H := fun i j : nat => match i, j with O, O => 4 | _, _ => 2 end). unfold choN. rewrite (proj2 (symmb_ok 2 H)).
  2:{ intros [|[|i]] [|[|j]]; reflexivity. }
  assert (S4 : sqrt 4 = 2) by (replace 4 with (2 * 2) by ring; apply sqrt_square; lra).
  cbn [chol]. unfold schur, H. destruct (Rlt_dec 0 4); [|lra]. destruct (Rlt_dec 0 (2 - 2 * 2 / 4)); [|lra].
  eexists. split; [reflexivity|]. cbv beta iota. rewrite S4. replace (2 - 2 * 2 / 4) with 1 by field. rewrite sqrt_1. repeat split; field.
Qed.

(** ** QR update *)
Definition quN (N : nat) (Q Rm : nat -> nat -> R) (u v : nat -> R) : (nat -> nat -> R) * (nat -> nat -> R) :=
  (fun i j => if Nat.eqb i j then 1 else 0, fun i j => mmul N Q Rm i j + u i * v j).
Theorem C96_update_exists N : qr_update_spec N (quN N).
Proof.
  intros Q Rm u v. unfold quN. intros i j Hi Hj. unfold mmul at 1.
  rewrite (sumn_ext N _ (fun k => if Nat.eqb k i then mmul N Q Rm i j + u i * v j else 0)).
  - set (c := mmul N Q Rm i j + u i * v j). clearbody c. clear - Hi. induction N as [|N IHN]; [lia|]. cbn [sumn]. destruct (Nat.eq_dec i N) as [-> |].
    + rewrite Nat.eqb_refl. rewrite (sumn_ext N _ (fun _ => 0)); [rewrite sumn_zero; ring|]. intros j Hj. destruct (Nat.eqb_spec j N); [lia|reflexivity].
    + rewrite IHN by lia. destruct (Nat.eqb_spec N i); [lia|]. ring.
  - intros k Hk. rewrite (Nat.eqb_sym i k). destruct (Nat.eqb_spec k i) as [-> |]; ring.
Qed.

From Verif Require Import DistModel DistFamProps.
(** ** Gamma functions *)
Lemma up_INR n : up (INR (S n)) = (Z.of_nat n + 2)%Z.
Proof. symmetry. apply tech_up; rewrite S_INR, plus_IZR, <- INR_IZR_INZ; lra. Qed.
Lemma up_nat n : Z.to_nat (up (INR (S n)) - 2) = n.
Proof. rewrite up_INR. lia. Qed.
Theorem C20_gamma_exists : exists g q, gammaln_spec g /\ gammaincc_spec q.
Proof.
  exists (fun x => ln (INR (fact (Z.to_nat (up x - 2))))), (fun s a => exp (- a) * sumn (S (Z.to_nat (up s - 2))) (fun j => a ^ j / INR (fact j))).
  split; [intros n|intros n a Ha]; cbv beta; now rewrite up_nat.
Qed.
Theorem C66_gamma_exists k : 0 < k -> exists gamma inc incc, gammainc_spec gamma inc incc k.
Proof.
  intros Hk. set (gamma := fun s : R => if Req_EM_T s k then 1 else k).
  assert (G1 : gamma k = 1) by (unfold gamma; destruct (Req_EM_T k k); [reflexivity|lra]).
  assert (G2 : gamma (1 + k) = k) by (unfold gamma; destruct (Req_EM_T (1 + k) k); [lra|reflexivity]).
  set (h := fun s t : R => Rpower t (s - 1) * exp (- t) / gamma s).
  exists gamma, (fun s x => RInt (h s) 1 x), (fun s x => 1 - RInt (h s) 1 x).
  split; [lra|]. split; [rewrite G1, G2; ring|]. split; [|reflexivity].
  intros s x Hs Hx. assert (G0 : gamma s <> 0) by (destruct Hs as [-> | ->]; lra).
  assert (C : forall t, 0 < t -> continuous (h s) t).
  { intros t Ht. apply (ex_derive_continuous (h s)). unfold h, Rpower. auto_derive. lra. }
  apply (is_derive_RInt (h s) (fun x => RInt (h s) 1 x) 1 x).
  - exists (mkposreal (x / 2) ltac:(lra)). intros y Hy. apply (@RInt_correct R_CompleteNormedModule). apply (@ex_RInt_continuous R_CompleteNormedModule).
    intros t Ht. apply C. unfold ball in Hy. cbn in Hy. unfold AbsRing_ball, abs, minus, plus, opp in Hy. cbn in Hy. apply Rabs_def2 in Hy.
    assert (0 < Rmin 1 y) by (apply Rmin_glb_lt; lra). lra.
  - now apply C.
Qed.
Print Assumptions C96_tri_exists. Print Assumptions C96_cho_exists. Print Assumptions C96_update_exists. Print Assumptions C20_gamma_exists. Print Assumptions C66_gamma_exists.
