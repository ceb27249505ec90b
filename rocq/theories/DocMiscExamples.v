(** The examples of the docstrings of kinetics/, distributions/, thermo/ and the fitting of reactivity ratios,
    evaluated in exact arithmetic: the value of the model lies in the range that rounds to the printed number. *)
From Coq Require Import Reals Lra Lia List Bool Arith ZArith String.
From Verif Require Import Prelude UtilsModel KinModel DistModel MomModel AcmModel CopoDataModel CopoMultiModel IvTac DocTac.
Import ListNotations.
Open Scope R_scope.

(** arrhenius.py:60-69 *)
Definition doc_kp : arrh := mkArrh None (fun _ => Rpower 10 (763 / 100)) (fun _ => 32500 / (8314 / 1000)) PInf (Fin 261) (Fin 366).
Example doc_Arrhenius_ok : Arrhenius None (a_k0 doc_kp) (a_EaR doc_kp) PInf (Fin 261) (Fin 366) = Ok doc_kp.
Proof.
  unfold Arrhenius, check_Trange, check_bounds_n. cbn [nelem seq forallb doc_kp a_k0 a_EaR]. unfold eps64.
  repeat (unfold between; cbn -[Rpower pow]; brs 60%Z 5%nat). reflexivity.
Qed.
Example doc_Arrhenius : exists k w, coef_call (CArrh doc_kp) 25 "C" = Ok (k, w) /\ w = false /\ 862838 / 10 ^ 4 <= k <= 862839 / 10 ^ 4.
Proof.
  unfold coef_call, arrh_call, convert_check_temperature, arrh_equation. cbn -[Rpower pydiv]. brs 60%Z 5%nat. cbn -[Rpower pydiv]. brs 60%Z 5%nat. do 2 eexists. split; [reflexivity|].
  split; [reflexivity|]. cbn [fst]. iv_num 90%Z 8%nat.
Qed.
(** cldpropagation.py:64-80 *)
Example doc_half_ok : PropagationHalfLength (CArrh doc_kp) 10 (1 / 2) = Ok (mkHalf (CArrh doc_kp) 10 (1 / 2)).
Proof. unfold PropagationHalfLength. cbn -[Rpower]. repeat (unfold between; cbn -[Rpower pow]; brs 60%Z 5%nat). reflexivity. Qed.
Example doc_half : exists k, half_call (mkHalf (CArrh doc_kp) 10 (1 / 2)) 50 3 "C" = Ok k /\ 371759 / 10 ^ 3 <= k <= 371760 / 10 ^ 3.
Proof.
  unfold half_call, coef_call, arrh_call, convert_check_temperature, arrh_equation, half_equation. cbn -[Rpower pydiv]. brs 60%Z 5%nat. cbn -[Rpower pydiv]. brs 60%Z 5%nat. cbn -[Rpower pydiv]. brs 60%Z 5%nat.
  okv. cbn [fst]. iv_num 90%Z 8%nat.
Qed.
(** cldtermination.py:66-86 *)
Definition doc_kt : arrh := mkArrh None (fun _ => 10 ^ 9) (fun _ => 2000) (Fin 298) (Fin 0) PInf.
Example doc_comp : exists k, comp_call (mkComp (CArrh doc_kt) 30 (1 / 2) (2 / 10)) 25 150 200 "C" = Ok k /\ 129008000 <= k <= 129009000.
Proof.
  unfold comp_call, coef_call, arrh_call, convert_check_temperature, arrh_equation, comp_equation, ktii. cbn -[Rpower pydiv pow]. brs 60%Z 5%nat. cbn -[Rpower pydiv pow]. brs 60%Z 5%nat. cbn -[Rpower pydiv pow]. brs 60%Z 5%nat.
  okv. cbn [fst]. iv_num 90%Z 8%nat.
Qed.
(** eyring.py:60-69 *)
Example doc_Eyring : exists k w, coef_call (CEyr (mkEyr 20 50000 (8 / 10) (Fin 273) (Fin 373))) 25 "C" = Ok (k, w) /\ w = false /\ 95808 <= k <= 95809.
Proof.
  unfold coef_call, convert_check_temperature, eyr_equation. cbn -[Rpower pydiv kB hP Rgas]. brs 60%Z 5%nat. cbn -[Rpower pydiv kB hP Rgas]. brs 60%Z 5%nat. do 2 eexists. split; [reflexivity|].
  split; [reflexivity|]. unfold KinModel.kB, hP, KinModel.Rgas. iv_num 160%Z 8%nat.
Qed.
(** misc.py:58-60, 115-117 *)
Example doc_convolve : convolve_moments [1; 100; 20000] [1; 50; 50000] = Ok [1; 150; 80000].
Proof. unfold convolve_moments. cbn. apply (f_equal Ok). repeat (f_equal; try lra). Qed.
Example doc_convolve_self : convolve_moments_self [1; 100; 20000] 2 = Ok [1; 300; 120000].
Proof. unfold convolve_moments_self. cbn. apply (f_equal Ok). repeat (f_equal; try lra). Qed.
(** misc.py:193-199 *)
Example doc_standards : 118500 <= convert_polymer_standards 100000 (682 / 10 ^ 5) (128 / 10 ^ 4) (77 / 100) (69 / 100) <= 119500.
Proof. unfold convert_polymer_standards. iv_num 60%Z 5%nat. Qed.
(** floryhuggins.py:382-384 *)
Example doc_FH2 : 615 / 1000 <= FH2_activity (25 / 100) (10 ^ 6) (29 / 100) <= 625 / 1000.
Proof. unfold FH2_activity. cbv zeta. iv_num 60%Z 5%nat. Qed.
(** fitting.py:149-157 *)
Definition doc_fr (l : list R) : nat -> R := fun i => nth i l 0.
Example doc_FR : exists r1 r2, fit_Finemann_Ross 6 (doc_fr [186 / 1000; 299 / 1000; 527 / 1000; 600 / 1000; 700 / 1000; 798 / 1000]) (doc_fr [196 / 1000; 279 / 1000; 415 / 1000; 473 / 1000; 542 / 1000; 634 / 1000]) = Ok (r1, r2)
  /\ 265 / 1000 <= r1 <= 275 / 1000 /\ 835 / 1000 <= r2 <= 845 / 1000.
Proof.
  unfold fit_Finemann_Ross, linregress. cbv zeta. cbn [sumn doc_fr nth]. replace (INR 6) with 6 by (rewrite INR_IZR_INZ; reflexivity).
  match goal with |- context [Req_EM_T ?a ?b] => destruct (Req_EM_T a b) as [E|_]; [exfalso; revert E; apply Rgt_not_eq; red; iv_num 60%Z 3%nat|] end.
  cbn [bind fst snd]. do 2 eexists. split; [reflexivity|]. split; iv_num 60%Z 3%nat.
Qed.
(** multicomponent.py:795-804 *)
Example doc_Qe : exists r, convert_Qe_to_r [(1, - (8 / 10)); (78 / 100, 4 / 10); (26 / 1000, - (88 / 100))] = Ok r /\
  nth 0 (nth 0 r []) 0 = 1 /\ 490888 / 10 ^ 6 <= nth 1 (nth 0 r []) 0 <= 490889 / 10 ^ 6 /\ 410035 / 10 ^ 4 <= nth 2 (nth 0 r []) 0 <= 410036 / 10 ^ 4
  /\ 482651 / 10 ^ 6 <= nth 0 (nth 1 r []) 0 <= 482652 / 10 ^ 6 /\ 179788 / 10 ^ 4 <= nth 2 (nth 1 r []) 0 <= 179789 / 10 ^ 4
  /\ 242325 / 10 ^ 7 <= nth 0 (nth 2 r []) 0 <= 242326 / 10 ^ 7 /\ 108066 / 10 ^ 7 <= nth 1 (nth 2 r []) 0 <= 108067 / 10 ^ 7.
Proof.
  unfold convert_Qe_to_r, Qe_entry. cbn -[pydiv]. brs 60%Z 5%nat. eexists. split; [reflexivity|]. cbn [nth].
  split. { replace (- - (8 / 10) * (- (8 / 10) - - (8 / 10))) with 0 by field. rewrite exp_0. field. }
  repeat split; iv_num 80%Z 8%nat.
Qed.
(** analyticaldistributions.py:53-69 (pdf of order 1 at 100; the moments are Examples of DistProps) *)
Example doc_Flory_pdf : 3697296 / 10 ^ 9 <= 100 * flory_pdf0 (flory_a 100) 100 / 100 <= 3697297 / 10 ^ 9.
Proof. unfold flory_pdf0, flory_a. cbn [Nat.sub]. iv_num 80%Z 3%nat. Qed.
(** analyticaldistributions.py:264-265 (order 1: x pdf0 / moment 1, the moment is DPn) *)
Example doc_LogNormal_pdf : 3317780 / 10 ^ 9 <= 100 * logn_pdf0 (logn_mu 100 3) (logn_sigma 100 3) 100 / 100 <= 3317781 / 10 ^ 9.
Proof. unfold logn_pdf0, logn_mu, logn_sigma. iv_num 80%Z 8%nat. Qed.
