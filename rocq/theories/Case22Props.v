(** Concrete cases meeting the hypotheses of theorems of several areas. *)
From Coq Require Import Reals Lra Lia List Bool Arith Psatz String.
From Coquelicot Require Import Coquelicot.
From Verif Require Import Prelude.
Import ListNotations.
Close Scope string_scope.
Open Scope R_scope.

Section BoxCases.
From Verif Require Import RootsModel JcrModel JcrProps.
Open Scope R_scope.
(** variances 4 and 9 with covariance 3: the ellipse at level 1 touches its bounding box of half widths 2 and 3 *)
Definition V_ex (i j : nat) : R := if Nat.eqb i j then (if Nat.eqb i 0 then 4 else 9) else 3.
Example C98_box_case : (forall p, quad2 V_ex (1, 1) p = 1 -> (fst p - 1) ^ 2 <= 4 /\ (snd p - 1) ^ 2 <= 9) /\ exists p, quad2 V_ex (1, 1) p = 1 /\ fst p = 3.
Proof.
  destruct (C98_box V_ex (1, 1) 1) as (A & (p & B & C) & _); unfold V_ex; cbn [Nat.eqb]; try lra. split.
  - intros q Hq. destruct (A q Hq) as (X & Y). unfold V_ex in X, Y. cbn [Nat.eqb fst snd] in X, Y. lra.
  - exists p. split; [exact B|]. rewrite C. unfold V_ex. cbn [Nat.eqb fst]. replace (1 * 4) with (2 ^ 2) by lra. rewrite sqrt_pow2 by lra. lra.
Qed.
End BoxCases.

Section CacheCases.
From Verif Require Import RootsModel HmtModel CacheModel CacheProps.
Open Scope R_scope.
(** the second call with the same arguments returns the array of the first one *)
Example C106_same_case s1 s2 c c' l l' : crun [OCall (sheet_key 3)] cinit = ([VArr (Ok (l, c))], s1) -> crun [OWrite 0 0 5; OCall (sheet_key 3)] s1 = ([VNone; VArr (Ok (l', c'))], s2) -> l = l'.
Proof. intros A B. now apply (C106_same [] [] s1 (sheet_key 3) l c [OWrite 0 0 5] [VNone] s2 (sheet_key 3) l' c' A B). Qed.
Example C106_other_case s1 s2 c c' l l' : crun [OCall (sheet_key 3)] cinit = ([VArr (Ok (l, c))], s1) -> crun [OCall (sheet_key 4)] s1 = ([VArr (Ok (l', c'))], s2) -> l <> l'.
Proof. intros A B E. apply (C106_same [] [] s1 (sheet_key 3) l c [] [] s2 (sheet_key 4) l' c' A B) in E. injection E as E. lra. Qed.
End CacheCases.

Section EntropyCases.
From Verif Require Import RootsModel AcmModel AcmProps AcmMixProps.
Open Scope R_scope.
Example C81_FH_entropy_case : sE_consistent (FH_Dgmixc 2 (fun _ => 1 / 2) (fun i => if Nat.eqb i 0 then 1 else 100) (fun _ _ => 1 / 10) (fun _ _ => 50) (fun _ _ => 0) (fun _ _ => 0) (fun _ _ => 0))
  (fun t => FH_Dgmix 2 t (fun _ => 1 / 2) (fun i => if Nat.eqb i 0 then 1 else 100) (FH_chi (fun _ _ => 1 / 10) (fun _ _ => 50) (fun _ _ => 0) (fun _ _ => 0) (fun _ _ => 0) t)) 350.
Proof. apply C81_FH_entropy. lra. Qed.
End EntropyCases.
