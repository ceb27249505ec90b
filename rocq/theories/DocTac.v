(** Tactics that decide the branches of a model at concrete arguments (interval arithmetic of IvTac). *)
From Coq Require Import Reals Lra Lia List Bool Arith ZArith.
From Verif Require Import Prelude KinModel IvTac.
Import ListNotations.
Open Scope R_scope.

Lemma Reqb_pos x y : y < x -> Reqb x y = false.
Proof. intro. apply Reqb_false. lra. Qed.
Lemma Reqb_neg x y : x < y -> Reqb x y = false.
Proof. intro. apply Reqb_false. lra. Qed.
Lemma Rltb_gt x y : x < y -> Rltb x y = true.
Proof. apply Rltb_true. Qed.
Lemma Rltb_ge x y : y <= x -> Rltb x y = false.
Proof. intro. apply Rltb_false. lra. Qed.
Lemma Rleb_le x y : x <= y -> Rleb x y = true.
Proof. apply Rleb_true. Qed.
Lemma Rleb_gt x y : y < x -> Rleb x y = false.
Proof. apply Rleb_false. Qed.
Lemma pydiv_pos a b : 0 < b -> pydiv a b = Ok (a / b).
Proof. intro. apply pydiv_ok. lra. Qed.
Lemma pydiv_neg a b : b < 0 -> pydiv a b = Ok (a / b).
Proof. intro. apply pydiv_ok. lra. Qed.
Lemma py_pow_pos x y : 0 < x -> py_pow x y = Ok (Rpower x y).
Proof. intro. unfold py_pow. rewrite Reqb_pos by assumption. reflexivity. Qed.
Ltac brs p k :=
  repeat (cbn [bind]; match goal with
  | |- context [pydiv ?a ?b] => first [rewrite (pydiv_pos a b) by iv_num p k|rewrite (pydiv_neg a b) by iv_num p k]
  | |- context [py_pow ?a ?b] => rewrite (py_pow_pos a b) by iv_num p k
  | |- context [Rltb ?a ?b] => first [rewrite (Rltb_gt a b) by iv_num p k|rewrite (Rltb_ge a b) by first [lra|iv_num p k]]
  | |- context [Rleb ?a ?b] => first [rewrite (Rleb_le a b) by iv_num p k|rewrite (Rleb_gt a b) by iv_num p k]
  | |- context [Reqb ?a ?b] => first [rewrite (Reqb_pos a b) by iv_num p k|rewrite (Reqb_neg a b) by iv_num p k]
  end); cbn [bind].
Ltac okv := eexists; split; [reflexivity|].
