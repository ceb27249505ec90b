(** The examples of the docstrings of hmt/, evaluated in exact arithmetic: the value of the model lies in
    the range that rounds to the printed number.  These validate the constants of HmtModel. *)
From Coq Require Import Reals Lra Lia List Bool Arith ZArith.
From Verif Require Import Prelude KinModel RootsModel CopoModel HmtModel IvTac DocTac.
Import ListNotations.
Open Scope R_scope.

(** correlations.py:93-105 (k = 0.6 W/m/K, D = 25 mm) *)
Example doc_Nu_tube : 7750 <= Nu_tube 50000 7 0 0 * (6 / 10) / (25 / 1000) <= 7850.
Proof. unfold Nu_tube. cbv zeta. brs 60%Z 5%nat. unfold fD_Haaland, pow0. brs 60%Z 5%nat. iv_num 60%Z 5%nat. Qed.
(** correlations.py:206-218 *)
Example doc_Nu_cylinder : 6950 <= Nu_cylinder 67400 7 * (6 / 10) / (337 / 10000) <= 7050.
Proof. unfold Nu_cylinder, pow0. brs 60%Z 5%nat. iv_num 60%Z 5%nat. Qed.
(** correlations.py:271-285 *)
Definition doc_Pr : R := 42 * 100 * (7 / 10000) / (63 / 100).
Definition doc_Ra (D : R) : R := 981 / 100 * (362 / 10 ^ 6) * (330 - 290) * D ^ 3 / (7 / 10000 / 1000) ^ 2 * doc_Pr.
Example doc_Nu_cylinder_free : 1050 <= Nu_cylinder_free (doc_Ra (337 / 10000)) doc_Pr * (63 / 100) / (337 / 10000) <= 1150.
Proof. unfold Nu_cylinder_free, pow0, doc_Ra, doc_Pr. brs 60%Z 5%nat. iv_num 70%Z 5%nat. Qed.
(** correlations.py:394-403 *)
Example doc_Nu_drop : 1095 / 100 <= Nu_drop (12 / 10 * (38 / 10) * (1 / 1000) / (16 / 10 ^ 6)) (7 / 10) <= 1105 / 100.
Proof. unfold Nu_drop, pow0. brs 60%Z 5%nat. iv_num 60%Z 5%nat. Qed.
(** correlations.py:484-497 *)
Example doc_Nu_tank : exists d, Nu_tank SWall IHE3 (2 * (2 / 3) ^ 2 * 1000 / (1 / 1000)) 7 1 (1 / 3) 1 1 (4 / 100) 1 2 = Ok d /\ 1550 <= d * (6 / 10) / 2 <= 1650.
Proof. unfold Nu_tank. cbv zeta. okv. iv_num 60%Z 5%nat. Qed.
(** correlations.py:668-682 *)
Example doc_Nu_bank : 135 <= Nu_cylinder_bank 6 (12 / 10) (18 / 10 ^ 6) (72 / 100) (71 / 100) false (164 / 10000) (313 / 10000) (343 / 10000) 7 * (25 / 1000) / (164 / 10000) <= 145.
Proof.
  unfold Nu_cylinder_bank, bank_vmax, bank_Cm, bank_C2. cbv zeta. brs 60%Z 5%nat. cbn -[INR].
  replace (INR 7) with 7 by (rewrite INR_IZR_INZ; reflexivity). brs 60%Z 5%nat. cbn. iv_num 60%Z 5%nat.
Qed.
(** correlations.py:793-807 *)
Example doc_Nu_sphere_free : 775 <= Nu_sphere_free (doc_Ra (50 / 1000)) doc_Pr * (63 / 100) / (50 / 1000) <= 785.
Proof. unfold Nu_sphere_free, pow0, doc_Ra, doc_Pr. brs 60%Z 5%nat. iv_num 70%Z 5%nat. Qed.
(** correlations.py:896-910 *)
Example doc_Nu_plate_free : exists d, Nu_plate_free Vertical (981 / 100 * (1 / 300) * (310 - 290) * 3 ^ 3 / (159 / 10 ^ 7) ^ 2 * (707 / 1000)) (Some (707 / 1000)) = Ok d
  /\ 365 / 100 <= d * (263 / 10 ^ 4) / 3 <= 375 / 100.
Proof. unfold Nu_plate_free, pow0. brs 90%Z 8%nat. okv. iv_num 90%Z 8%nat. Qed.
(** correlations.py:977-979 *)
Example doc_Nu_combined : 2075 / 100 <= Nu_combined 20 10 true <= 2085 / 100.
Proof. unfold Nu_combined, rcbrt. brs 60%Z 5%nat. iv_num 60%Z 5%nat. Qed.
(** diffusion.py:117-125 (Fo = 1/4, x = 0) *)
Example doc_profile_sheet : 31455423 / 10 ^ 8 <= profile_sheet (1 / 4) 0 <= 31455424 / 10 ^ 8.
Proof.
  unfold profile_sheet. brs 60%Z 5%nat. cbv [sumn sgn_n odd1 Nat.odd Nat.even negb]. cbn [INR Nat.mul Nat.add]. 
  rewrite !Rmult_0_r, !Rmult_0_l, cos_0. iv_num 80%Z 9%nat.
Qed.
(** diffusion.py:559-561 *)
Example doc_composite : 11168831168831167 / 10 ^ 27 <= diffusivity_composite (1 / 10 ^ 10) (1 / 10 ^ 11) (5 / 100) 1 <= 11168831168831169 / 10 ^ 27.
Proof. unfold diffusivity_composite. cbv zeta. iv_num 160%Z 5%nat. Qed.
(** hex.py:63-69 *)
Example doc_plane_wall : 655 <= U_plane_wall 1000 2000 (10 / 1000) 600 0 0 <= 665.
Proof. unfold U_plane_wall. iv_num 60%Z 5%nat. Qed.
(** hex.py:135-142 *)
Example doc_cyl_wall : 605 <= U_cylindrical_wall 2000 1000 (40 / 1000) (50 / 1000) 600 0 0 <= 615.
Proof. unfold U_cylindrical_wall. iv_num 60%Z 5%nat. Qed.
(** diffusion.py:197-205 (Fo = 1/4, r = 0) *)
Example doc_profile_sphere : 83049350 / 10 ^ 8 <= profile_sphere (1 / 4) 0 <= 83049351 / 10 ^ 8.
Proof.
  unfold profile_sphere. rewrite Rabs_R0. rewrite Rltb_gt by (unfold eps; apply Rinv_0_lt_compat; apply pow_lt; lra).
  cbv [sumn sgn_n Nat.odd Nat.even negb]. cbn [INR]. iv_num 80%Z 9%nat.
Qed.
