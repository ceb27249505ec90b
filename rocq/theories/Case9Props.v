(** Concrete cases for the distribution, reaction, viscosity and parameter-fitting theorems
    (C51-C89): each shows inputs that meet the hypotheses of the theorem it is named after, and
    what the theorem then says. *)
From Coq Require Import Reals Lra Lia List Bool Arith Psatz String Permutation.
From Coquelicot Require Import Coquelicot.
From Verif Require Import Prelude.
Import ListNotations.
Close Scope string_scope.
Open Scope R_scope.

Section Heap.
From Verif Require Import AcmModel AcmHeapProps AcmMoreProps.

(** One 2 x 2 array with 0.4 in both off-diagonal places. *)
Definition hp1 : heap := mkHeap (fun _ => mkArr (2, 2)%nat (fun i j => if Nat.eqb i j then 0 else 2 / 5)) 1.
Lemma hp1_in i j : 0 <= dat hp1 0 i j <= 2 / 5.
Proof. unfold dat, hp1; cbn [h_arr a_dat]. destruct (Nat.eqb i j); lra. Qed.
Lemma hp1_av l : args_valid hp1 (map (fun b : bool => if b then Some 0%nat else None) l).
Proof. intros p I. apply in_map_iff in I. destruct I as ([|] & E & _); [injection E as <-; cbn; lia|discriminate]. Qed.
Lemma hp1_sq l : given_sq 2 hp1 (map (fun b : bool => if b then Some 0%nat else None) l).
Proof. intros p I. reflexivity. Qed.
Ltac rab := pose proof hp1_in; cbn [map nth arg_val]; rewrite ?Rabs_R0; repeat split; try lra; try (rewrite Rabs_right; [|apply Rle_ge, hp1_in]; eapply Rle_trans; [apply hp1_in|lra]); try apply hp1_in.

Lemma wilson_built : exists refs h', Wilson_init 2 [Some 0%nat; None; None; None] hp1 = Ok (refs, h').
Proof.
  apply (C51_Wilson_accepts 2 [Some 0%nat; None; None; None] hp1 eq_refl (hp1_av [true; false; false; false])).
  split; [exact (hp1_sq [true; false; false; false])|]. intros i j _ _. rab.
Qed.
Example C51_Wilson_case : exists refs h', Wilson_init 2 [Some 0%nat; None; None; None] hp1 = Ok (refs, h') /\
  Wilson_form 0%nat (map (dat h') refs) 300 0%nat 0%nat = 1.
Proof.
  destruct wilson_built as (refs & h' & E). exists refs, h'. split; [exact E|].
  exact (proj1 (C51_Wilson 2 [Some 0%nat; None; None; None] hp1 refs h' 300 eq_refl (hp1_av [true; false; false; false]) E) 0%nat).
Qed.
Lemma fh_built : exists refs h', FH_init 2 [Some 0%nat; None; None; None; None] hp1 = Ok (refs, h').
Proof.
  apply (C51_FH_accepts 2 [Some 0%nat; None; None; None; None] hp1 eq_refl (hp1_av [true; false; false; false; false])).
  split; [exact (hp1_sq [true; false; false; false; false])|]. intros i j _ _. split; [rab|].
  intros [|[|[|[|[|k]]]]] Hk; try lia; cbn [nth arg_val]; rewrite Rabs_R0; lra.
Qed.
Example C51_FH_case : exists refs h', FH_init 2 [Some 0%nat; None; None; None; None] hp1 = Ok (refs, h') /\
  forall i, FH_form 0%nat (map (dat h') refs) 300 i i = 0.
Proof.
  destruct fh_built as (refs & h' & E). exists refs, h'. split; [exact E|].
  exact (proj1 (C51_FH 2 [Some 0%nat; None; None; None; None] hp1 refs h' 300 eq_refl (hp1_av [true; false; false; false; false]) E)).
Qed.
Lemma nrtl_built : exists refs h', NRTL_init 2 [Some 0%nat; None; None; None; None; None] hp1 = Ok (refs, h').
Proof.
  apply (C51_NRTL_accepts 2 [Some 0%nat; None; None; None; None; None] hp1 eq_refl (hp1_av [true; false; false; false; false; false])).
  split; [exact (hp1_sq [true; false; false; false; false; false])|]. intros i j _ _. rab.
Qed.
Example C51_NRTL_case : exists refs h', NRTL_init 2 [Some 0%nat; None; None; None; None; None] hp1 = Ok (refs, h') /\
  NRTL_form 1%nat (map (dat h') refs) 300 0%nat 1%nat = 3 / 10 /\ NRTL_form 0%nat (map (dat h') refs) 300 1%nat 0%nat = 2 / 5.
Proof.
  destruct nrtl_built as (refs & h' & E). exists refs, h'. split; [exact E|]. split.
  - destruct (C51_NRTL 2 [Some 0%nat; None; None; None; None; None] hp1 refs h' 300 eq_refl (hp1_av [true; false; false; false; false; false]) E) as (_ & _ & H).
    destruct (H 0%nat 1%nat) as (A & _); [lia|]. rewrite A. cbn [nth arg_val]. lra.
  - rewrite (C51_NRTL_lower 2 [Some 0%nat; None; None; None; None; None] hp1 refs h' 300 eq_refl (hp1_av [true; false; false; false; false; false]) E); [| |lia].
    + cbn [nth arg_val]. unfold dat, hp1; cbn. lra.
    + intros k k' p _ [<-|[<-|[]]] _; discriminate.
Qed.
Example C51_stored_case : exists refs h', NRTL_init 2 [Some 0%nat; None; None; None; None; None] hp1 = Ok (refs, h') /\
  dat h' (nth 0 refs O) 0%nat 1%nat = 2 / 5 /\ dat h' 0 = dat hp1 0.
Proof.
  destruct nrtl_built as (refs & h' & E). exists refs, h'. split; [exact E|].
  pose proof (valid_combine hp1 NRTL_specs [Some 0%nat; None; None; None; None; None] (hp1_av [true; false; false; false; false; false])) as V. split.
  - pose proof (C51_stored 2 _ hp1 refs h' 0 V E) as H. cbv zeta in H. destruct H as (_ & _ & H & _); [cbn; lia|].
    rewrite H by lia. reflexivity.
  - destruct (C50_frame 2 _ hp1 refs h' 0 V E) as (_ & _ & H); [cbn; lia|]. apply H. intros s _. split.
    + intros i. unfold dat, hp1; cbn. now rewrite Nat.eqb_refl.
    + intros _ i j. unfold dat, hp1; cbn. now rewrite Nat.eqb_sym.
Qed.
End Heap.

Section Num.
From Verif Require Import UtilsModel UtilsProps RootsModel RootsProps VecModel VecProps HmtModel FlowModel RheoProps.

Example C60_cross_case : exists m p, mu_Cross 10 5 (1 / 2) (2 / 5) = Ok m /\ mu_PowerLaw (1 / 2 * 10) 5 (2 / 5) = Ok p /\ m < p.
Proof. apply C60_cross_power; lra. Qed.
Example C64_case2 : check_shapes [[2]; [2]]%nat [[]; [2]]%nat = Ok (Some [2]%nat).
Proof.
  apply (C64_check_shapes [[2]; [2]]%nat [[]; [2]]%nat). split; [discriminate|]. split; [discriminate|]. split.
  - intros t [<-|[<-|[]]]; reflexivity.
  - intros t [<-|[<-|[]]]; auto.
Qed.
Example C62_line_case : exists c n0 l, 0 < c <= 1 /\
  line_search n0 1 (fun x _ => x 0%nat) (fun v => v 0%nat) (fun _ => 1) (fun _ => 1) (fun _ => 1) (fun _ => -1) (1 / 100) (fun _ => 1) 10 = Some l.
Proof.
  destruct (C62_line_search 1 (fun x _ => x 0%nat) (fun v => v 0%nat) (fun _ => 1) (fun _ => 1) (fun _ => 1) (fun _ => -1) (1 / 100) (fun _ => 1) 10) as (c & H & _ & _ & n0 & l & A & _); try lra.
  - intros; lra.
  - unfold dot; cbn. lra.
  - reflexivity.
  - exists c, n0, l. split; [exact H|]. apply A. lia.
Qed.
End Num.

Section Dist.
From Verif Require Import Erf DistModel DistFamProps MomModel MomProps GoldProps OracleProps.

Example C67_bracket_case : 0 < exp ((1 - 3 - 2) / 2) < 1.
Proof. apply (C67_gold_bracket (1 / 100) 3 2); lra. Qed.
Example C67_lt1_series_case : is_series (gold_pdf_lt1 (1 / 2) (1 / 3)) 1.
Proof. apply (C67_gold_lt1 (1 / 2) (1 / 3) 1); lra. Qed.
Example C67_poisson_series_case root inc : is_series (fun k => INR k * gold_pdf (1 / 1000) root inc 3 1 k) 3.
Proof. apply (C67_gold_poisson (1 / 1000) root inc 3 1); [lra|]. rewrite Rminus_eq_0, Rabs_R0. lra. Qed.
Example C67_tail_bound_case : gold_lt1 (1 / 1000) 3 (1 / 3) (1 / 2) 2 = gold_pdf_lt1 (1 / 2) (1 / 3) 2 \/ exists J, (3 <= J <= 102)%nat.
Proof.
  destruct (C67_gold_tail (1 / 1000) 3 (1 / 2) (1 / 3) 2 ltac:(lra) ltac:(lra) ltac:(lia)) as [A|(J & B & _)]; [left; exact A|right; exists J; lia].
Qed.
Example C68_moments_case : is_lim (fun X => RInt (fun n => n ^ 2 * lag_pdf [1; 2; 6] n) 0 X) p_infty 6.
Proof. apply (C68_laguerre_moments [1; 2; 6] 2); cbn; try lra; lia. Qed.
Example C66_gamma_case : exists gamma inc incc, gammainc_spec gamma inc incc (5 / 2).
Proof. apply C66_gamma_exists. lra. Qed.
End Dist.

Section Kin.
From Verif Require Import UtilsModel KinModel KinProps KinCldProps VapAnchorProps.

Example C70_rate_case : rx_rate (fun _ => Ok 2) [1; 0]%nat (fun i => INR i + 1) 300 = Ok 4.
Proof.
  assert (E : rx_rate (fun _ => Ok 2) [0; 1]%nat (fun i => INR i + 1) 300 = Ok 4) by (unfold rx_rate; cbn; f_equal; ring).
  exact (proj1 (C70_rate _ _ _ _ _ _ (perm_swap 1%nat 0%nat []) E)).
Qed.
Example C70_moments_case : let P n := match n with 1%nat => 2 | _ => 0 end in
  sumn 4 (fun n => INR n ^ 1 * match n with O => 0 | S m => 3 * 1 * (P m - P (S m)) end) = 6.
Proof.
  intros P. destruct (C70_moments P 3 1 3 eq_refl) as (_ & H & _). rewrite H. unfold P. cbn. ring.
Qed.
Example C71_negative_case : Eyring (-1) 50000 1 (Fin 0) PInf = Err RangeError.
Proof. apply C71_negative_entropy. lra. Qed.
Example C71_prefactor_case : exists k, eyr_equation 300 0 0 1 = Ok k /\ 6250985700 * 10 ^ 3 < k < 6250986000 * 10 ^ 3.
Proof.
  assert (E : exists k, eyr_equation 300 0 0 1 = Ok k) by (unfold eyr_equation; rewrite ?pydiv_ok by lra; cbn [bind]; eexists; reflexivity).
  destruct E as (k & E). exists k. split; [exact E|]. pose proof (C71_prefactor 300 1 k ltac:(lra) ltac:(lra) E). lra.
Qed.
End Kin.

Section Fit.
From Verif Require Import RootsModel CopoModel CopoProps CopoDataModel CopoDataProps.

Example C76_identifiable_case : sse_NLLS [mkFf [(1 / 2, 3 / 5, 1); (1 / 4, 5 / 17, 1)] 1] (fun f => F1val f 1 1) <> 0.
Proof.
  destruct (C76_identifiable [mkFf [(1 / 2, 3 / 5, 1); (1 / 4, 5 / 17, 1)] 1] 2 1 1 1) as (A & _); try lra.
  - intros d [<-|[]]. cbn; lra.
  - intros d f y s [<-|[]] [H|[H|[]]]; injection H as <- <- <-; (split; [lra|]; split; [lra|]); rewrite inst_val by (repeat split; lra); f_equal; unfold F1val; field.
  - eexists; exists (1 / 2), (3 / 5), 1; eexists; exists (1 / 4), (5 / 17), 1. split; [left; reflexivity|]. split; [left; reflexivity|].
    split; [left; reflexivity|]. split; [right; left; reflexivity|lra].
Qed.
Example C76_no_covariance_case inv sse r s : fit_cov inv sse r s 2 = Ok None.
Proof. apply C76_no_covariance. lia. Qed.
End Fit.

Section Props.
From Verif Require Import PropModel PropVapProps PropMixProps TransportProps.

(** An oracle that returns its start point plus one, called last there. *)
Definition plus1 (p : list R) : res curve := Ok (mkCurve [p; map (fun a => a + 1) p] (map (fun a => a + 1) p)).
Example C86_object_case : exists s' r, eq_fit plus1 [(0, true); (1, false); (2, true)]%nat None 300 400 (mkEq (fun n => INR n) 0 1000) = Ok (s', r) /\
  eq_p s' 1%nat = 1 /\ eq_p s' 2%nat = 3 /\ eq_Tmin s' = 300 /\ r 2%nat = 3.
Proof.
  assert (ND : NoDup (map fst [(0, true); (1, false); (2, true)]%nat)) by (repeat constructor; cbn; lia).
  destruct (eq_fit plus1 [(0, true); (1, false); (2, true)]%nat None 300 400 (mkEq (fun n => INR n) 0 1000)) as [(s' & r)|e] eqn:E; [|discriminate].
  exists s', r. split; [reflexivity|].
  destruct (C86_object plus1 _ _ _ _ _ _ _ ND (fun p0 c H => ltac:(unfold plus1 in H; injection H as <-; cbn; now rewrite map_length)) E) as ((c & A & B) & C & D & F).
  injection A as <-. cbn in B. injection B as B1 B2.
  assert (X : eq_p s' 2%nat = 3) by (rewrite B2; ring).
  split; [rewrite C by (cbn; lia); reflexivity|]. split; [exact X|]. split; [exact D|].
  rewrite (C86_returned_last plus1 [(0, true); (1, false); (2, true)]%nat None 300 400 (mkEq (fun n => INR n) 0 1000) s' r (mkCurve [[0; 1 + 1]; [0 + 1; 1 + 1 + 1]] [0 + 1; 1 + 1 + 1]) [[0; 1 + 1]] ND); [exact X| |reflexivity|reflexivity|reflexivity|exact E].
  intros p [<-|[]]. reflexivity.
Qed.
Example C88_Lucas_identical_case P : MUVMX_Lucas 2 400 P (fun _ => 1 / 2) (fun _ => 3 / 100) (fun _ => 500) (fun _ => 4000000) (fun _ => 27 / 100) (fun _ => 0) =
  MUV_Lucas 400 P (3 / 100) 500 4000000 (27 / 100) 0.
Proof. apply C88_Lucas_identical; try lra. cbn. lra. Qed.
Example C88_ST_identical_case v : KVMXPC_Stiel_Thodos 2 v (fun _ => 1 / 2) (fun _ => 3 / 100) (fun _ => 500) (fun _ => 4000000) (fun _ => 27 / 100) (fun _ => 1 / 5) =
  KVPC_Stiel_Thodos v (3 / 100) 500 (4000000 * ((291 / 1000 - 8 / 100 * (1 / 5)) / (27 / 100))) (291 / 1000 - 8 / 100 * (1 / 5)).
Proof. apply (C88_ST_identical 2 v (fun _ => 1 / 2) (3 / 100) 500 4000000 (27 / 100) (1 / 5)); try lra. cbn. lra. Qed.
Example C89_self_case : let p := mkVD 1 0 0 0 0 1 1 0 0 0 0 1 (1 / 2) in 0 < vd_self p (1 / 2) 300 <= 1 /\ 0 <= vd_mutual p (1 / 2) 300.
Proof.
  intros p. assert (A : 0 < vd_self p (1 / 2) 300 <= 1).
  { apply (C89_self_bounds p (1 / 2) 300); unfold vd_ok, p; cbn; repeat split; lra. }
  split; [exact A|]. apply (C89_mutual_nonneg p (1 / 2) 300); [apply A|unfold p; cbn; lra|lra].
Qed.
End Props.
