(** The examples of the docstrings of flow/, evaluated in exact arithmetic: the value of the model lies in
    the range that rounds to the printed number.  These validate the constants of FlowModel. *)
From Coq Require Import Reals Lra Lia List Bool Arith ZArith.
From Verif Require Import Prelude KinModel CopoModel HmtModel FlowModel IvTac DocTac.
Import ListNotations.
Open Scope R_scope.

(** friction.py:64-77 *)
Example doc_Hagen_Poiseuille : 325000 <= DP_Hagen_Poiseuille (1 / 1000) (50 / 1000) 5 10 <= 335000.
Proof. unfold DP_Hagen_Poiseuille. iv_num 60%Z 5%nat. Qed.
(** friction.py:385-394 *)
Example doc_Haaland : 205 / 10000 <= fD_Haaland 50000 (15 / 10000 / 25) <= 215 / 10000.
Proof. unfold fD_Haaland, pow0. brs 60%Z 5%nat. iv_num 70%Z 5%nat. Qed.
(** friction.py:135-148 *)
Example doc_Darcy_Weisbach : 825000 <= DP_Darcy_Weisbach 2 (25 / 1000) 500 1000 (fD_Haaland 50000 (15 / 10000 / 25)) <= 835000.
Proof. unfold DP_Darcy_Weisbach, fD_Haaland, pow0. brs 60%Z 5%nat. iv_num 70%Z 5%nat. Qed.
(** friction.py:200-209 *)
Example doc_tube : exists d, DP_tube (3 / 3600) (25 / 1000) 500 1000 (1 / 1000) (15 / 10000 / 25) = Ok d /\ 615000 <= d <= 625000.
Proof. unfold DP_tube, fD_switch, DP_Darcy_Weisbach, fD_Haaland, pow0. cbv zeta. brs 70%Z 5%nat. okv. iv_num 70%Z 5%nat. Qed.
(** friction.py:274-276 *)
Example doc_packed_bed : exists d, DP_packed_bed 50 2 (1 / 100) (45 / 100) 800 (1 / 100) = Ok d /\ 13500 <= d <= 14500.
Proof. unfold DP_packed_bed, pow0. cbv zeta. brs 60%Z 5%nat. okv. iv_num 60%Z 5%nat. Qed.
(** friction.py:435-442 *)
Example doc_Cd : 465 / 1000 <= Cd_sphere (12 / 10 * 30 * (67 / 1000) / (16 / 10 ^ 6)) <= 475 / 1000.
Proof. unfold Cd_sphere. iv_num 70%Z 5%nat. Qed.
(** friction.py:488-490 *)
Example doc_vt_Stokes : 535 / 10 ^ 10 <= vt_Stokes (500 / 10 ^ 9) 1400 1000 (1 / 1000) <= 545 / 10 ^ 10.
Proof. unfold vt_Stokes, g_acc. iv_num 90%Z 5%nat. Qed.
(** friction.py:642-655 *)
Example doc_LM : exists d, DP_GL_Lockhart_Martinelli 2 1 (80 / 1000) 1 1000 1 (1 / 1000) (2 / 10 ^ 5) 0 = Ok d /\ 8150 <= d <= 8250.
Proof. unfold DP_GL_Lockhart_Martinelli, LM_phase, fD_switch, DP_Darcy_Weisbach, fD_Haaland, pow0. cbv zeta. brs 80%Z 5%nat. okv. iv_num 80%Z 5%nat. Qed.
(** friction.py:751-763 *)
Example doc_MB : exists d, DP_GL_Mueller_Bonn 2 1 (80 / 1000) 1 1000 1 (1 / 1000) (2 / 10 ^ 5) = Ok d /\ 10500 <= d <= 11500.
Proof. unfold DP_GL_Mueller_Bonn, f_MB, pow0. cbv zeta. brs 80%Z 5%nat. okv. iv_num 80%Z 5%nat. Qed.
(** rheology.py:48-54 *)
Example doc_PowerLaw : exists d, mu_PowerLaw 1000 10 (2 / 10) = Ok d /\ 3975 / 10 ^ 5 <= d <= 3985 / 10 ^ 5.
Proof. unfold mu_PowerLaw. brs 60%Z 5%nat. okv. iv_num 60%Z 5%nat. Qed.
(** rheology.py:101-108 *)
Example doc_Cross : exists d, mu_Cross 20 1 1 (2 / 10) = Ok d /\ 8335 / 10 ^ 5 <= d <= 8345 / 10 ^ 5.
Proof. unfold mu_Cross. brs 60%Z 5%nat. okv. iv_num 60%Z 5%nat. Qed.
(** rheology.py:154-161 *)
Example doc_Cross_modified : exists d, mu_Cross_modified 1 (10 ^ 6) (2 / 10 ^ 5) (2 / 10) = Ok d /\ 83350 <= d <= 83450.
Proof. unfold mu_Cross_modified. brs 60%Z 5%nat. okv. iv_num 60%Z 5%nat. Qed.
(** rheology.py:212-221 *)
Example doc_Carreau_Yasuda : exists d, mu_Carreau_Yasuda 20 1 (1 / 1000) 1 (2 / 10) 2 = Ok d /\ 9175 / 10 ^ 5 <= d <= 9185 / 10 ^ 5.
Proof. unfold mu_Carreau_Yasuda. brs 60%Z 5%nat. okv. iv_num 60%Z 5%nat. Qed.
(** rheology.py:276-281 *)
Example doc_WLF : exists d, aT_WLF (39315 / 100) (37315 / 100) None None = Ok d /\ 1335 / 10 ^ 8 <= d <= 1345 / 10 ^ 8.
Proof. unfold aT_WLF. brs 60%Z 5%nat. okv. iv_num 80%Z 6%nat. Qed.
(** prv.py:121-122 (Kd = 0.975, Kb = Kc = 1) *)
Example doc_relief_gas : exists p A, area_relief_gas 24270 (67 / 10) (101325 / 100000) 348 (111 / 100) 51 (9 / 10) false (975 / 1000) 1 1 1 = Ok (mkPRV (Some p) true A)
  /\ 3895 / 1000 <= p <= 3905 / 1000 /\ 3695 <= A <= 3705.
Proof.
  unfold area_relief_gas, gas_rc, gas_C. cbv zeta. brs 60%Z 5%nat. eexists. eexists. split; [reflexivity|].
  split; iv_num 60%Z 5%nat.
Qed.
(** prv.py:319-320 (Kd = 0.85) *)
Example doc_relief_2phase : exists p A, area_relief_2phase 216560 (5564 / 1000) (2045 / 1000) (1945 / 10 ^ 5) (2265 / 10 ^ 5) (85 / 100) 1 1 1 = mkPRV (Some p) true A
  /\ 3645 / 1000 <= p <= 3655 / 1000 /\ 24450 <= A <= 24550.
Proof.
  unfold area_relief_2phase, omega_eta, omega_Gc. cbv zeta. brs 70%Z 5%nat. eexists. eexists. split; [reflexivity|].
  split; iv_num 70%Z 5%nat.
Qed.
(** prv.py:429-431 (Kd = 0.65) *)
Example doc_relief_subcooled : exists A, area_relief_2phase_subcooled (3785 / 10) (20733 / 1000) (1703 / 1000) (7419 / 1000) (5113 / 10) (2627 / 10) (65 / 100) 1 1 1 = Ok (mkPRV None true A)
  /\ 1345 / 10 <= A <= 1355 / 10.
Proof.
  unfold area_relief_2phase_subcooled, sub_st. cbv zeta. brs 60%Z 5%nat. eexists. split; [reflexivity|].
  iv_num 60%Z 5%nat.
Qed.
