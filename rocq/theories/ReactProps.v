(** Reactions and reaction systems. *)
From Coq Require Import Reals Lra Lia List Bool Arith Permutation ListDec.
From Verif Require Import Prelude ReactModel.
Import ListNotations.
Open Scope R_scope.

Lemma get_ok x i : (i < length x)%nat -> get x i = Ok (nth i x 0).
Proof. revert i. induction x as [|a x IH]; intros [|i] H; cbn in *; try lia; [reflexivity|]. apply IH. lia. Qed.
Lemma get_bad x i : (length x <= i)%nat -> get x i = Err IndexError.
Proof. revert i. induction x as [|a x IH]; intros [|i] H; cbn in *; try lia; try reflexivity. apply IH. lia. Qed.
Lemma addto_ok x i v : (i < length x)%nat -> exists y, addto x i v = Ok y /\ length y = length x /\ forall j, nth j y 0 = nth j x 0 + (if Nat.eqb j i then v else 0).
Proof.
  revert i. induction x as [|a x IH]; intros [|i] H; cbn [length] in H; try lia.
  - exists ((a + v) :: x). cbn [addto]. split; [reflexivity|]. split; [reflexivity|]. intros [|j]; cbn; ring.
  - destruct (IH i ltac:(lia)) as (y & E & L & N). exists (a :: y). cbn [addto]. rewrite E. cbn [bind]. split; [reflexivity|]. split; [cbn; lia|]. intros [|j]; cbn [nth Nat.eqb]; [ring|apply N].
Qed.
Lemma addto_bad x i v : (length x <= i)%nat -> addto x i v = Err IndexError.
Proof. revert i. induction x as [|a x IH]; intros [|i] H; cbn in *; try lia; try reflexivity. rewrite IH by lia. reflexivity. Qed.

(** the indices set on the species of a propagation *)
Definition indexed (r : prop) (iM iP : nat) (iA : option nat) : Prop :=
  s_idx (p_M r) = Some iM /\ s_idx (p_P r) = Some iP /\
  match p_A r, iA with None, None => True | Some A, Some i => s_idx A = Some i | _, _ => False end.
(** contribution at position j *)
Definition at_ (j i : nat) (v : R) : R := if Nat.eqb j i then v else 0.

(** the update of the rate vector: position by position, for indices that may coincide *)
Theorem C103_update r T x rx iM iP iA k : indexed r iM iP iA -> p_k r T = Ok k ->
  (iM < length x)%nat -> (iP + 1 < length x)%nat -> (iM < length rx)%nat -> (iP + 2 < length rx)%nat -> match iA with Some i => (i < length rx)%nat | None => True end ->
  exists y, prop_eval r T x rx = Ok y /\ length y = length rx /\
    forall j, nth j y 0 = nth j rx 0 + at_ j iM (- (k * nth iM x 0 * nth iP x 0)) + at_ j (iP + 1) (k * nth iM x 0 * nth iP x 0) + at_ j (iP + 2) (k * nth iM x 0 * (2 * nth (iP + 1) x 0 + nth iP x 0))
                        + match iA with Some i => at_ j i (k * nth iM x 0 * nth iP x 0) | None => 0 end.
Proof.
  intros (HM & HP & HA) HK L1 L2 L3 L4 L5. unfold prop_eval, idx. rewrite HM, HP. cbn [bind]. rewrite !get_ok by lia. cbn [bind]. rewrite HK. cbn [bind].
  match goal with |- context [addto rx iM ?v] => destruct (addto_ok rx iM v L3) as (y1 & E1 & M1 & N1) end. rewrite E1. cbn [bind].
  match goal with |- context [addto y1 (iP + 1) ?v] => destruct (addto_ok y1 (iP + 1) v ltac:(lia)) as (y2 & E2 & M2 & N2) end. rewrite E2. cbn [bind].
  match goal with |- context [addto y2 (iP + 2) ?v] => destruct (addto_ok y2 (iP + 2) v ltac:(lia)) as (y3 & E3 & M3 & N3) end. rewrite E3. cbn [bind].
  destruct (p_A r) as [A|], iA as [i|]; try contradiction.
  - rewrite HA. cbn [bind]. match goal with |- context [addto y3 i ?v] => destruct (addto_ok y3 i v ltac:(lia)) as (y4 & E4 & M4 & N4) end. exists y4. rewrite E4. split; [reflexivity|]. split; [lia|]. intros j. rewrite N4, N3, N2, N1. reflexivity.
  - exists y3. split; [reflexivity|]. split; [lia|]. intros j. rewrite N3, N2, N1. unfold at_. ring.
Qed.

(** the chain-length balance of P(n) + M -> P(n+1): each length gains what the length below loses *)
Definition balance (kM : R) (p : nat -> R) (n : nat) : R := kM * match n with O => - p O | S m => p m - p (S m) end.
Fixpoint moment (q : nat) (p : nat -> R) (n : nat) : R := match n with O => INR 0 ^ q * p O | S m => moment q p m + INR (S m) ^ q * p (S m) end.
Lemma balance_moment q kM p n : moment q (balance kM p) n = kM * (moment q (fun j => match j with O => 0 | S m => p m end) n - moment q p n).
Proof. induction n as [|n IH]; cbn [moment]; [unfold balance; ring|]. rewrite IH. unfold balance. ring. Qed.
Lemma shift0 p n : moment 0 (fun j => match j with O => 0 | S m => p m end) (S n) = moment 0 p n.
Proof. induction n as [|n IH]; [cbn; ring|]. cbn [moment] in *. rewrite IH. ring. Qed.
Lemma shift1 p n : moment 1 (fun j => match j with O => 0 | S m => p m end) (S n) = moment 1 p n + moment 0 p n.
Proof. induction n as [|n IH]; [cbn; ring|]. cbn [moment] in *. rewrite IH. rewrite !S_INR. ring. Qed.
Lemma shift2 p n : moment 2 (fun j => match j with O => 0 | S m => p m end) (S n) = moment 2 p n + 2 * moment 1 p n + moment 0 p n.
Proof. induction n as [|n IH]; [cbn; ring|]. cbn [moment] in *. rewrite IH. rewrite !S_INR. ring. Qed.
Lemma moment_last q p n : p (S n) = 0 -> moment q p (S n) = moment q p n.
Proof. intros H. cbn [moment]. rewrite H. ring. Qed.

(** the rates given to the moments of a distribution are the moments of its balance, for every distribution of finite length *)
Theorem C103_moments r T x rx iM iP k p n : indexed r iM iP None -> p_k r T = Ok k -> (iM < iP \/ iP + 2 < iM)%nat ->
  (iM < length x)%nat -> (iP + 1 < length x)%nat -> length rx = length x -> (iP + 2 < length rx)%nat ->
  p (S n) = 0 -> nth iP x 0 = moment 0 p n -> nth (iP + 1) x 0 = moment 1 p n ->
  exists y, prop_eval r T x rx = Ok y /\
    (forall q, (q <= 2)%nat -> nth (iP + q) y 0 - nth (iP + q) rx 0 = moment q (balance (k * nth iM x 0) p) (S n)) /\
    nth iM y 0 - nth iM rx 0 = - moment 1 (balance (k * nth iM x 0) p) (S n) /\
    (forall j, j <> iM -> (j < iP \/ iP + 2 < j)%nat -> nth j y 0 = nth j rx 0).
Proof.
  intros HI HK HD L1 L2 L3 L4 H0 H1 H2. destruct (C103_update r T x rx iM iP None k HI HK) as (y & E & L & N); try lia; try exact I. exists y. split; [exact E|]. rewrite H1, H2 in N. set (kM := k * nth iM x 0) in *.
  assert (AT : forall j i v, at_ j i v = if Nat.eqb j i then v else 0) by reflexivity.
  assert (M1 : moment 1 (balance kM p) (S n) = kM * moment 0 p n) by (rewrite balance_moment, shift1, (moment_last 1 p n H0); ring).
  split; [|split].
  - intros q Hq. assert (C : q = 0%nat \/ q = 1%nat \/ q = 2%nat) by lia. rewrite N, !AT. destruct C as [-> | [-> | -> ]].
    + replace (Nat.eqb (iP + 0) iM) with false by (symmetry; apply Nat.eqb_neq; lia). replace (Nat.eqb (iP + 0) (iP + 1)) with false by (symmetry; apply Nat.eqb_neq; lia). replace (Nat.eqb (iP + 0) (iP + 2)) with false by (symmetry; apply Nat.eqb_neq; lia). rewrite balance_moment, shift0, (moment_last 0 p n H0). ring.
    + replace (Nat.eqb (iP + 1) iM) with false by (symmetry; apply Nat.eqb_neq; lia). rewrite Nat.eqb_refl. replace (Nat.eqb (iP + 1) (iP + 2)) with false by (symmetry; apply Nat.eqb_neq; lia). rewrite M1. ring.
    + replace (Nat.eqb (iP + 2) iM) with false by (symmetry; apply Nat.eqb_neq; lia). replace (Nat.eqb (iP + 2) (iP + 1)) with false by (symmetry; apply Nat.eqb_neq; lia). rewrite Nat.eqb_refl. rewrite balance_moment, shift2, (moment_last 2 p n H0). ring.
  - rewrite N, !AT, M1. rewrite Nat.eqb_refl. replace (Nat.eqb iM (iP + 1)) with false by (symmetry; apply Nat.eqb_neq; lia). replace (Nat.eqb iM (iP + 2)) with false by (symmetry; apply Nat.eqb_neq; lia). ring.
  - intros j J1 J2. rewrite N, !AT. replace (Nat.eqb j iM) with false by (symmetry; apply Nat.eqb_neq; lia). replace (Nat.eqb j (iP + 1)) with false by (symmetry; apply Nat.eqb_neq; lia). replace (Nat.eqb j (iP + 2)) with false by (symmetry; apply Nat.eqb_neq; lia). ring.
Qed.

(** the rate of the reaction is the consumption of the monomer, and what the additional product gains *)
Theorem C103_rate r T x rx iM iP i k : indexed r iM iP (Some i) -> p_k r T = Ok k -> iM <> i -> (iM < iP \/ iP + 2 < iM)%nat -> (i < iP \/ iP + 2 < i)%nat ->
  (iM < length x)%nat -> (iP + 1 < length x)%nat -> length rx = length x -> (iP + 2 < length rx)%nat -> (i < length rx)%nat ->
  exists y v, prop_eval r T x rx = Ok y /\ rate r x T = Ok v /\ nth iM y 0 = nth iM rx 0 - v /\ nth i y 0 = nth i rx 0 + v /\ nth (iP + 1) y 0 = nth (iP + 1) rx 0 + v.
Proof.
  intros HI HK D1 D2 D3 L1 L2 L3 L4 L5. destruct (C103_update r T x rx iM iP (Some i) k HI HK) as (y & E & L & N); try lia. exists y. eexists. split; [exact E|]. destruct HI as (HM & HP & HA). split.
  - unfold rate, prop_reactants. rewrite HK. cbn [bind rate_loop]. unfold idx. rewrite HM, HP. cbn [bind]. rewrite !get_ok by lia. cbn [bind]. reflexivity.
  - assert (AT : forall j m v, at_ j m v = if Nat.eqb j m then v else 0) by reflexivity. rewrite !N, !AT. rewrite !Nat.eqb_refl.
    replace (Nat.eqb iM (iP + 1)) with false by (symmetry; apply Nat.eqb_neq; lia). replace (Nat.eqb iM (iP + 2)) with false by (symmetry; apply Nat.eqb_neq; lia). replace (Nat.eqb iM i) with false by (symmetry; apply Nat.eqb_neq; lia).
    replace (Nat.eqb i iM) with false by (symmetry; apply Nat.eqb_neq; lia). replace (Nat.eqb i (iP + 1)) with false by (symmetry; apply Nat.eqb_neq; lia). replace (Nat.eqb i (iP + 2)) with false by (symmetry; apply Nat.eqb_neq; lia).
    replace (Nat.eqb (iP + 1) iM) with false by (symmetry; apply Nat.eqb_neq; lia). replace (Nat.eqb (iP + 1) (iP + 2)) with false by (symmetry; apply Nat.eqb_neq; lia). replace (Nat.eqb (iP + 1) i) with false by (symmetry; apply Nat.eqb_neq; lia).
    repeat split; ring.
Qed.

(** evaluation raises when an index is missing or out of range, whatever the rest *)
Theorem C103_raises r T x rx : 
  (s_idx (p_M r) = None -> prop_eval r T x rx = Err AttributeError) /\
  (forall iM iP iA, indexed r iM iP iA -> (length x <= iM \/ length x <= iP + 1)%nat -> prop_eval r T x rx = Err IndexError) /\
  (forall iM iP iA k, indexed r iM iP iA -> p_k r T = Ok k -> (length rx <= iM \/ length rx <= iP + 2)%nat -> prop_eval r T x rx = Err IndexError).
Proof.
  assert (G : forall iM iP iA k, indexed r iM iP iA -> (length x <= iM \/ length x <= iP + 1)%nat -> prop_eval r T x rx = k -> k = Err IndexError).
  { intros iM iP iA k (HM & HP & _) H <-. unfold prop_eval, idx. rewrite HM, HP. cbn [bind]. destruct (Nat.lt_ge_cases iM (length x)) as [C|C]; [rewrite get_ok by lia; cbn [bind]|now rewrite get_bad by lia]. destruct (Nat.lt_ge_cases iP (length x)) as [D|D]; [rewrite get_ok by lia; cbn [bind]|now rewrite get_bad by lia]. now rewrite get_bad by lia. }
  split; [|split].
  - intros H. unfold prop_eval, idx. now rewrite H.
  - intros iM iP iA HI H. exact (G iM iP iA _ HI H eq_refl).
  - intros iM iP iA k HI HK H. destruct (Nat.lt_ge_cases iM (length x)) as [C|C]; [|apply (G iM iP iA _ HI ltac:(lia) eq_refl)]. destruct (Nat.lt_ge_cases (iP + 1) (length x)) as [D|D]; [|apply (G iM iP iA _ HI ltac:(lia) eq_refl)].
    destruct HI as (HM & HP & _). unfold prop_eval, idx. rewrite HM, HP. cbn [bind]. rewrite !get_ok by lia. cbn [bind]. rewrite HK. cbn [bind]. destruct (Nat.lt_ge_cases iM (length rx)) as [C1|C1]; [|now rewrite addto_bad by lia].
    match goal with |- context [addto rx iM ?v] => destruct (addto_ok rx iM v C1) as (y1 & E1 & M1 & _) end. rewrite E1. cbn [bind]. destruct (Nat.lt_ge_cases (iP + 1) (length rx)) as [C2|C2]; [|now rewrite addto_bad by lia].
    match goal with |- context [addto y1 (iP + 1) ?v] => destruct (addto_ok y1 (iP + 1) v ltac:(lia)) as (y2 & E2 & M2 & _) end. rewrite E2. cbn [bind]. now rewrite addto_bad by lia.
Qed.

(** a propagation that can be evaluated on vectors of length d *)
Definition fits (T : R) (d : nat) (r : prop) : Prop :=
  exists iM iP iA k, indexed r iM iP iA /\ p_k r T = Ok k /\ (iM < d)%nat /\ (iP + 2 < d)%nat /\ match iA with Some i => (i < d)%nat | None => True end.
Definition as_reactions (l : list (nat * prop)) : list reaction := map (fun ir => mkReaction (fst ir) (prop_eval (snd ir)) (Err AttributeError)) l.

Lemma fit_eval T x r : fits T (length x) r -> exists g, forall rx, length rx = length x -> exists y, prop_eval r T x rx = Ok y /\ length y = length x /\ forall j, nth j y 0 = nth j rx 0 + g j.
Proof.
  intros (iM & iP & iA & k & HI & HK & A & B & C).
  exists (fun j => at_ j iM (- (k * nth iM x 0 * nth iP x 0)) + at_ j (iP + 1) (k * nth iM x 0 * nth iP x 0) + at_ j (iP + 2) (k * nth iM x 0 * (2 * nth (iP + 1) x 0 + nth iP x 0)) + match iA with Some i => at_ j i (k * nth iM x 0 * nth iP x 0) | None => 0 end). intros rx L. destruct (C103_update r T x rx iM iP iA k HI HK) as (y & E & M & N); try lia; try (destruct iA; auto; lia). exists y. split; [exact E|]. split; [lia|]. intros j. rewrite N. ring.
Qed.
Lemma loop_fits T x l : List.Forall (fun ir => fits T (length x) (snd ir)) l -> exists g, forall rx, length rx = length x -> exists y, rates_loop (as_reactions l) T x rx = Ok y /\ length y = length x /\ forall j, nth j y 0 = nth j rx 0 + g j.
Proof.
  induction l as [|(i, r) l IH]; intros F; [exists (fun _ => 0); intros rx L; exists rx; repeat split; auto; intros; ring|]. inversion F as [|? ? F1 F2]; subst. destruct (IH F2) as (g2 & G2). destruct (fit_eval T x r F1) as (g1 & G1). exists (fun j => g1 j + g2 j). intros rx L. destruct (G1 rx L) as (y1 & E1 & L1 & N1). destruct (G2 y1 L1) as (y2 & E2 & L2 & N2). exists y2. cbn [as_reactions map rates_loop r_eval fst snd]. rewrite E1. cbn [bind]. split; [exact E2|]. split; [exact L2|]. intros j. rewrite N2, N1. ring.
Qed.
Lemma nth_ext0 (x y : list R) : length x = length y -> (forall j, nth j x 0 = nth j y 0) -> x = y.
Proof. intros L H. apply (nth_ext x y 0 0 L). intros n _. apply H. Qed.

(** the rates do not depend on the order of the reactions, and those of two groups of reactions add up *)
Theorem C103_order T x rx l l' : length rx = length x -> List.Forall (fun ir => fits T (length x) (snd ir)) l -> Permutation l l' ->
  rates_loop (as_reactions l) T x rx = rates_loop (as_reactions l') T x rx.
Proof.
  intros L F P. revert rx L F. induction P as [|(i, r) l l' P IH|(i, r) (i', r') l|l l' l'' P1 IH1 P2 IH2]; intros rx L F.
  - reflexivity.
  - inversion F as [|? ? F1 F2]; subst. destruct (fit_eval T x r F1) as (g & G). destruct (G rx L) as (y & E & Ly & _). cbn [as_reactions map rates_loop r_eval fst snd]. rewrite E. cbn [bind]. apply IH; [lia|exact F2].
  - inversion F as [|? ? F1 F2]; subst. inversion F2 as [|? ? F3 F4]; subst. cbn [snd] in *. destruct (fit_eval T x r' F1) as (g & G). destruct (fit_eval T x r F3) as (h & H). destruct (G rx L) as (y1 & E1 & L1 & N1). destruct (H rx L) as (y2 & E2 & L2 & N2). destruct (H y1 L1) as (y3 & E3 & L3 & N3). destruct (G y2 L2) as (y4 & E4 & L4 & N4).
    cbn [as_reactions map rates_loop r_eval fst snd]. rewrite E1, E2. cbn [bind]. rewrite E3, E4. cbn [bind]. f_equal. apply nth_ext0; [lia|]. intros j. rewrite N3, N4, N1, N2. ring.
  - rewrite IH1 by assumption. apply IH2; [exact L|]. apply (Permutation_Forall P1). exact F.
Qed.
Theorem C103_additive T x l l' : List.Forall (fun ir => fits T (length x) (snd ir)) (l ++ l') ->
  exists y y' z, rates_loop (as_reactions l) T x (repeat 0 (length x)) = Ok y /\ rates_loop (as_reactions l') T x (repeat 0 (length x)) = Ok y' /\ rates_loop (as_reactions (l ++ l')) T x (repeat 0 (length x)) = Ok z /\ forall j, nth j z 0 = nth j y 0 + nth j y' 0.
Proof.
  intros F. pose proof (proj1 (Forall_app _ _ _) F) as (F1 & F2). destruct (loop_fits T x l F1) as (g & G). destruct (loop_fits T x l' F2) as (h & H). assert (Z : length (repeat 0 (length x)) = length x) by apply repeat_length. assert (ZN : forall j n, nth j (repeat 0 n) 0 = 0) by (intros j n; revert j; induction n as [|n IH]; intros [|j]; cbn; auto).
  destruct (G _ Z) as (y & E & L & N). destruct (H _ Z) as (y' & E' & L' & N'). destruct (H y L) as (z & E'' & L'' & N''). exists y, y', z. split; [exact E|]. split; [exact E'|]. split.
  - unfold as_reactions. rewrite map_app. fold (as_reactions l). fold (as_reactions l'). assert (A : forall m m' rx, rates_loop (m ++ m') T x rx = bind (rates_loop m T x rx) (fun v => rates_loop m' T x v)) by (induction m as [|a m IH]; intros m' rx; cbn [app rates_loop]; [reflexivity|]; destruct (r_eval a T x rx); cbn [bind]; [apply IH|reflexivity]). rewrite A, E. exact E''.
  - intros j. rewrite N'', N', ZN. ring.
Qed.
(** the rates of a system are the sums of the rates of its reactions alone, starting from zero *)
Theorem C103_rates s T x l : rs_reactions s = as_reactions l -> rs_dim s = length x -> List.Forall (fun ir => fits T (length x) (snd ir)) l ->
  exists y cs, rates s x T = Ok y /\ length y = length x /\ Forall2 (fun ir c => prop_eval (snd ir) T x (repeat 0 (length x)) = Ok c) l cs /\ forall j, nth j y 0 = fold_right Rplus 0 (map (fun c => nth j c 0) cs).
Proof.
  intros ER ED F. unfold rates. rewrite ER, ED. clear ER ED s. assert (Z : length (repeat 0 (length x)) = length x) by apply repeat_length. assert (ZN : forall j n, nth j (repeat 0 n) 0 = 0) by (intros j n; revert j; induction n as [|n IH]; intros [|j]; cbn; auto).
  assert (G : forall rx, length rx = length x -> exists y cs, rates_loop (as_reactions l) T x rx = Ok y /\ length y = length x /\ Forall2 (fun ir c => prop_eval (snd ir) T x (repeat 0 (length x)) = Ok c) l cs /\ forall j, nth j y 0 = nth j rx 0 + fold_right Rplus 0 (map (fun c => nth j c 0) cs)).
  { induction F as [|(i, r) l F1 F2 IH]; intros rx L.
    - exists rx, []. split; [reflexivity|]. split; [exact L|]. split; [constructor|]. intros j. cbn. ring.
    - destruct (fit_eval T x r F1) as (g & G). destruct (G rx L) as (y1 & E1 & L1 & N1). destruct (G _ Z) as (c & E0 & _ & N0). destruct (IH y1 L1) as (y & cs & E & Ly & FF & N). exists y, (c :: cs). cbn [as_reactions map rates_loop r_eval fst snd]. rewrite E1. cbn [bind]. split; [exact E|]. split; [exact Ly|]. split; [constructor; [exact E0|exact FF]|]. intros j. rewrite N, N1. cbn [map fold_right]. rewrite N0, ZN. ring. }
  destruct (G _ Z) as (y & cs & E & L & FF & N). exists y, cs. split; [exact E|]. split; [exact L|]. split; [exact FF|]. intros j. rewrite N, ZN. ring.
Qed.

(** the constructor of a system: repeated reactions are rejected, and so is every other nonempty list of the reactions of the library *)
Theorem C103_constructor l : (forall r, In r l -> r_species r = Err AttributeError) ->
  (l = [] -> exists s, new_system l = Ok s /\ rs_dim s = 0%nat) /\ (NoDup (map r_id l) -> l <> [] -> new_system l = Err AttributeError) /\ (~ NoDup (map r_id l) -> new_system l = Err ValueError).
Proof.
  intros HS. split; [|split].
  - intros ->. eexists. split; reflexivity.
  - intros ND NE. unfold new_system. rewrite nodup_fixed_point by exact ND. rewrite map_length, Nat.eqb_refl. destruct l as [|r l]; [congruence|]. cbn [collect]. rewrite HS by now left. reflexivity.
  - intros ND. unfold new_system. replace (Nat.eqb _ _) with false; [reflexivity|]. symmetry. apply Nat.eqb_neq. intros E. apply ND. assert (L : (length (map r_id l) <= length (nodup Nat.eq_dec (map r_id l)))%nat) by (rewrite map_length; lia). apply (@NoDup_incl_NoDup nat (nodup Nat.eq_dec (map r_id l))); [apply NoDup_nodup|exact L|]. intros a Ha. now apply nodup_In in Ha.
Qed.

(** reactions with a species method: a system exists exactly when no reaction is repeated and every species is a scalar or a
    distribution; otherwise ValueError *)
Lemma collect_species_kinds l : forall acc, (exists a, collect_species l acc = Ok a) <-> (forall s, In s l -> s_kind s <> SOther).
Proof.
  induction l as [|s l IH]; intros acc; cbn [collect_species]; [split; [intros _ s []|intros _; eauto]|].
  destruct (s_kind s) eqn:K; [rewrite IH|rewrite IH|]; split.
  - intros H t [<-|Ht]; [congruence|now apply H].
  - intros H t Ht. apply H. now right.
  - intros H t [<-|Ht]; [congruence|now apply H].
  - intros H t Ht. apply H. now right.
  - intros (a & E). discriminate.
  - intros H. exfalso. now apply (H s (or_introl eq_refl)).
Qed.
Lemma collect_species_err l : forall acc e, collect_species l acc = Err e -> e = ValueError.
Proof. induction l as [|s l IH]; intros acc e; cbn [collect_species]; [discriminate|]. destruct (s_kind s); [apply IH|apply IH|congruence]. Qed.
Lemma collect_kinds l : (forall r, In r l -> exists ss, r_species r = Ok ss) -> forall acc,
  (exists a, collect l acc = Ok a) <-> (forall r ss s, In r l -> r_species r = Ok ss -> In s ss -> s_kind s <> SOther).
Proof.
  induction l as [|r l IH]; intros HS acc; cbn [collect]; [split; [intros _ r ss s []|intros _; eauto]|].
  destruct (HS r (or_introl eq_refl)) as (ss & E). rewrite E. cbn [bind]. pose proof (collect_species_kinds ss acc) as K. destruct (collect_species ss acc) as [a|e] eqn:EC; cbn [bind].
  - rewrite IH by (intros r' Hr; apply HS; now right). split.
    + intros H r' ss' s [<-|Hr] E' Hs; [|now apply (H r' ss' s)]. rewrite E in E'. injection E' as <-. now apply (proj1 K (ex_intro _ a eq_refl)).
    + intros H r' ss' s Hr E' Hs. apply (H r' ss' s); [now right|auto|auto].
  - split; [intros (a & X); discriminate|]. intros H. exfalso. destruct (proj2 K) as (a & X); [|discriminate]. intros s Hs. apply (H r ss s); [now left|auto|auto].
Qed.
Lemma collect_err l : (forall r, In r l -> exists ss, r_species r = Ok ss) -> forall acc e, collect l acc = Err e -> e = ValueError.
Proof.
  induction l as [|r l IH]; intros HS acc e; cbn [collect]; [discriminate|]. destruct (HS r (or_introl eq_refl)) as (ss & E). rewrite E. cbn [bind].
  destruct (collect_species ss acc) as [a|e'] eqn:EC; cbn [bind]; [apply IH; intros r' Hr; apply HS; now right|]. intros X. injection X as <-. now apply collect_species_err in EC.
Qed.
Theorem C103_kinds l : (forall r, In r l -> exists ss, r_species r = Ok ss) ->
  ((exists s, new_system l = Ok s) <-> NoDup (map r_id l) /\ forall r ss s, In r l -> r_species r = Ok ss -> In s ss -> s_kind s <> SOther) /\
  (forall e, new_system l = Err e -> e = ValueError).
Proof.
  intros HS. unfold new_system. pose proof (collect_kinds l HS ([], [])) as K. destruct (Nat.eqb_spec (length l) (length (nodup Nat.eq_dec (map r_id l)))) as [E|E].
  - assert (ND : NoDup (map r_id l)). { apply (@NoDup_incl_NoDup nat (nodup Nat.eq_dec (map r_id l))); [apply NoDup_nodup|rewrite map_length; lia|intros z; apply nodup_In]. }
    destruct (collect l ([], [])) as [a|e] eqn:EC; cbn [bind].
    + split; [|intros e X; discriminate]. split; [intros _; split; [exact ND|]; apply K; eauto|intros _; eauto].
    + split; [|intros e' X; injection X as <-; now apply collect_err in EC]. split; [intros (s & X); discriminate|]. intros (_ & H). apply K in H. destruct H as (a & X). discriminate.
  - split; [|intros e X; congruence]. split; [intros (s & X); discriminate|]. intros (ND & _). exfalso. apply E. rewrite nodup_fixed_point by exact ND. now rewrite map_length.
Qed.

(** the systems that can be built from the reactions of the library *)
Inductive buildable : system -> Prop :=
| B_new l s : (forall r, In r l -> exists i p, propagation i p = Ok r) -> new_system l = Ok s -> buildable s
| B_add s i p r : buildable s -> propagation i p = Ok r -> buildable (snd (system_add_reaction s r))
| B_sum s t u : buildable s -> buildable t -> system_add_system s t = Ok u -> buildable u.

Lemma buildable_inv s : buildable s -> rs_dim s = 0%nat /\ forall r, In r (rs_reactions s) -> exists i p, propagation i p = Ok r.
Proof.
  assert (N : forall l s, (forall r, In r l -> exists i p, propagation i p = Ok r) -> new_system l = Ok s -> rs_dim s = 0%nat /\ rs_reactions s = []).
  { intros l s0 H E. assert (HS : forall r, In r l -> r_species r = Err AttributeError) by (intros r Hr; destruct (H r Hr) as (i & p & Ep); unfold propagation, instantiate in Ep; cbn in Ep; injection Ep as <-; reflexivity). destruct (C103_constructor l HS) as (A & B & C). destruct l as [|r l]; [cbn in E; injection E as <-; split; reflexivity|]. destruct (ListDec.NoDup_dec Nat.eq_dec (map r_id (r :: l))) as [D|D]; [rewrite B in E by (auto; discriminate); discriminate|rewrite C in E by exact D; discriminate]. }
  intros H. induction H as [l s H E|s i p r H IH E|s t u H1 IH1 H2 IH2 E].
  - destruct (N l s H E) as (A & B). split; [exact A|]. rewrite B. intros r [].
  - destruct IH as (A & B). split; [exact A|]. cbn [system_add_reaction snd rs_reactions]. intros r0 Hr. apply in_app_or in Hr. destruct Hr as [Hr|[<-|[]]]; [now apply B|now exists i, p].
  - assert (HS : forall r, In r (rs_reactions s ++ rs_reactions t) -> exists i p, propagation i p = Ok r) by (intros r Hr; apply in_app_or in Hr; destruct Hr as [Hr|Hr]; [now apply (proj2 IH1)|now apply (proj2 IH2)]). destruct (N _ _ HS E) as (A & B). split; [exact A|]. rewrite B. intros r [].
Qed.

(** finding: no system with a reaction can be evaluated *)
Theorem C103_system_raises s x T : buildable s -> rs_reactions s <> [] -> exists e, rates s x T = Err e.
Proof.
  intros HB NE. destruct (buildable_inv s HB) as (D & HR). unfold rates. rewrite D. cbn [repeat]. destruct (rs_reactions s) as [|r l]; [congruence|]. destruct (HR r (or_introl eq_refl)) as (i & p & E). unfold propagation, instantiate in E. cbn in E. injection E as <-. cbn [rates_loop r_eval]. destruct (prop_eval p T x []) as [y|e] eqn:EV; [|exists e; reflexivity]. exfalso. unfold prop_eval in EV. destruct (idx (p_M p)) as [a|]; cbn [bind] in EV; [|discriminate]. destruct (idx (p_P p)); cbn [bind] in EV; [|discriminate]. destruct (get x a); cbn [bind] in EV; [|discriminate]. destruct (get x n); cbn [bind] in EV; [|discriminate]. destruct (get x (n + 1)); cbn [bind] in EV; [|discriminate]. destruct (p_k p T); cbn [bind] in EV; [|discriminate]. discriminate.
Qed.
(** finding: adding two reactions raises; a termination cannot be created; adding a reaction changes the system it is added to, and
    the check for repeated reactions is skipped *)
Theorem C103_sum_raises i p r i' p' r' : propagation i p = Ok r -> propagation i' p' = Ok r' -> i <> i' -> add_reactions r r' = Err AttributeError.
Proof. unfold propagation, instantiate. cbn. intros E E' N. injection E as <-. injection E' as <-. unfold add_reactions, new_system. cbn [map r_id]. rewrite nodup_fixed_point by (constructor; [intros [H|[]]; congruence|constructor; [intros []|constructor]]). reflexivity. Qed.
Theorem C103_sum_refuted : exists M P k r1 r2, propagation 0 (mkProp M P None k) = Ok r1 /\ propagation 1 (mkProp M P None k) = Ok r2 /\ r1 <> r2 /\ add_reactions r1 r2 = Err AttributeError /\ forall i, termination i = Err TypeError.
Proof.
  exists (new_substance 0), (new_distribution 1), (fun _ => Ok 5). do 2 eexists. split; [reflexivity|]. split; [reflexivity|]. split; [intros H; apply (f_equal r_id) in H; discriminate|]. split; [|reflexivity].
  eapply C103_sum_raises with (i := 0%nat) (i' := 1%nat); [reflexivity|reflexivity|discriminate].
Qed.
(** a system with one propagation, complete and in range, still raises *)
Theorem C103_system_refuted : exists s p, buildable s /\ (exists i, map r_eval (rs_reactions s) = [prop_eval p] /\ map r_id (rs_reactions s) = [i]) /\ (forall T, fits T 4 p) /\ forall T x, length x = 4%nat -> rates s x T = Err IndexError /\ exists y, prop_eval p T x [0; 0; 0; 0] = Ok y.
Proof.
  set (p := mkProp (mkSpecies 0 SScalar (Some 0%nat)) (mkSpecies 1 SDist (Some 1%nat)) None (fun _ => Ok 5)). destruct (propagation 0 p) as [r|] eqn:E; [|discriminate]. destruct (new_system []) as [s0|] eqn:E0; [|discriminate]. exists (snd (system_add_reaction s0 r)), p. pose proof E as E'. cbn in E'. injection E' as E'. cbn in E0. injection E0 as E0. split; [eapply B_add; [eapply (B_new [])|exact E]; [intros r' []|cbn; now rewrite <- E0]|]. split; [exists 0%nat; rewrite <- E', <- E0; split; reflexivity|]. split.
  - intros T. exists 0%nat, 1%nat, None, 5. unfold indexed, p. cbn. repeat split; lia.
  - intros T x L. destruct x as [|a [|b [|c [|d [|]]]]]; cbn in L; try discriminate. rewrite <- E', <- E0. split; [reflexivity|]. eexists. reflexivity.
Qed.
Theorem C103_mutation_refuted s i p r : propagation i p = Ok r ->
  fst (system_add_reaction s r) <> s /\ (let s1 := snd (system_add_reaction s r) in ~ NoDup (map r_id (rs_reactions (snd (system_add_reaction s1 r))))).
Proof.
  intros E. split.
  - intros H. apply (f_equal (fun s => length (rs_reactions s))) in H. cbn in H. rewrite app_length in H. cbn in H. lia.
  - cbn. intros ND. rewrite <- app_assoc, map_app in ND. apply NoDup_remove_2 with (l := map r_id (rs_reactions s)) in ND. apply ND. apply in_or_app. right. now left.
Qed.

(** with a species list (a user-defined reaction), the dimension counts every mention of a species *)
Lemma collect_species_ok ss acc : (forall s, In s ss -> s_kind s <> SOther) -> collect_species ss acc = Ok (fst acc ++ map s_id (filter (fun s => match s_kind s with SScalar => true | _ => false end) ss), snd acc ++ map s_id (filter (fun s => match s_kind s with SDist => true | _ => false end) ss)).
Proof.
  revert acc. induction ss as [|s ss IH]; intros acc H; [cbn; rewrite !app_nil_r; now destruct acc|]. cbn [collect_species filter]. destruct (s_kind s) eqn:K; [| |exfalso; now apply (H s (or_introl eq_refl))]; rewrite IH by (intros q Hq; apply H; now right); cbn [fst snd map]; rewrite <- app_assoc; reflexivity.
Qed.
Theorem C103_dimension l ss : NoDup (map r_id l) -> map r_species l = map Ok ss -> (forall s, In s (concat ss) -> s_kind s <> SOther) ->
  exists sy, new_system l = Ok sy /\
    rs_dim sy = (length (filter (fun s => match s_kind s with SScalar => true | _ => false end) (concat ss)) + 3 * length (filter (fun s => match s_kind s with SDist => true | _ => false end) (concat ss)))%nat /\
    (length (rs_scalars sy) + 3 * length (rs_dists sy) <= rs_dim sy)%nat.
Proof.
  intros ND E HK. assert (G : forall acc, collect l acc = Ok (fst acc ++ map s_id (filter (fun s => match s_kind s with SScalar => true | _ => false end) (concat ss)), snd acc ++ map s_id (filter (fun s => match s_kind s with SDist => true | _ => false end) (concat ss)))).
  { clear ND. revert ss E HK. induction l as [|r l IH]; intros [|s0 ss] E HK acc; try discriminate; [cbn; rewrite !app_nil_r; now destruct acc|]. cbn [map] in E. injection E as E1 E2. cbn [collect concat] in *. rewrite E1. cbn [bind]. rewrite collect_species_ok by (intros q Hq; apply HK, in_or_app; now left). cbn [bind]. rewrite (IH ss E2) by (intros q Hq; apply HK, in_or_app; now right). cbn [fst snd]. rewrite !filter_app, !map_app, !app_assoc. reflexivity. }
  unfold new_system. rewrite nodup_fixed_point by exact ND. rewrite map_length, Nat.eqb_refl, G. cbn [bind fst snd app]. eexists. split; [reflexivity|]. cbn [rs_dim rs_scalars rs_dists]. rewrite !map_length. split; [reflexivity|].
  assert (NL : forall m : list nat, (length (nodup Nat.eq_dec m) <= length m)%nat) by (induction m as [|a m IHm]; [cbn; lia|]; cbn [nodup length]; destruct (in_dec Nat.eq_dec a m); cbn [length]; lia).
  pose proof (NL (map s_id (filter (fun s => match s_kind s with SScalar => true | _ => false end) (concat ss)))) as P1. pose proof (NL (map s_id (filter (fun s => match s_kind s with SDist => true | _ => false end) (concat ss)))) as P2. rewrite map_length in P1, P2. lia.
Qed.
(** finding: two reactions sharing the monomer and the chains: dimension 8 for one scalar and one distribution *)
Theorem C103_dimension_refuted : exists l sy, new_system l = Ok sy /\ rs_scalars sy = [0%nat] /\ rs_dists sy = [1%nat] /\ rs_dim sy = 8%nat.
Proof.
  exists [mkReaction 0 (fun _ _ rx => Ok rx) (Ok [new_substance 0; new_distribution 1]); mkReaction 1 (fun _ _ rx => Ok rx) (Ok [new_substance 0; new_distribution 1])]. eexists. split; [reflexivity|]. cbn. auto.
Qed.

(** M = 2, P = (1, 3, 11), k = 5: monomer -10, first moment +10, second moment 10 (2*3 + 1) = 70 *)
Example C103_example : exists y, prop_eval (mkProp (mkSpecies 0 SScalar (Some 0%nat)) (mkSpecies 1 SDist (Some 1%nat)) None (fun _ => Ok 5)) 300 [2; 1; 3; 11] [0; 0; 0; 0] = Ok y /\ nth 0 y 0 = -10 /\ nth 2 y 0 = 10 /\ nth 3 y 0 = 70.
Proof. eexists. split; [reflexivity|]. cbn. lra. Qed.
Example C103_build_example : exists s, buildable s /\ length (rs_reactions s) = 1%nat.
Proof.
  destruct (propagation 0 (mkProp (new_substance 0) (new_distribution 1) None (fun _ => Ok 5))) as [r|] eqn:E; [|discriminate]. eexists. split; [eapply B_add; [eapply (B_new [])|exact E]; [intros r' []|reflexivity]|]. reflexivity.
Qed.
Print Assumptions C103_moments. Print Assumptions C103_order. Print Assumptions C103_rates. Print Assumptions C103_additive. Print Assumptions C103_system_raises. Print Assumptions C103_system_refuted. Print Assumptions C103_dimension.
