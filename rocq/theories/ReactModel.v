(** Reactions and reaction systems (src/polykin/kinetics/reaction.py).
    Objects with identity equality (the default of the language) carry a number; two objects are the same exactly when the
    numbers are equal.  The state vectors are lists of reals; the rate vector updated in place is returned. *)
From Coq Require Import Reals Lra Lia List Bool Arith Permutation.
From Verif Require Import Prelude.
Import ListNotations.
Open Scope R_scope.

(** reaction.py:22-75 — a species: its identity, whether it is a scalar (Substance, Variable), a distribution or neither, and
    the attribute [idx], which the constructors do not set.  Negative indices are not modelled; masses and notes are not used. *)
Inductive skind := SScalar | SDist | SOther.
Record species := mkSpecies { s_id : nat; s_kind : skind; s_idx : option nat }.
(** reaction.py:24 — reading [idx]: an attribute error when it was not set *)
Definition idx (s : species) : res nat := match s_idx s with Some i => Ok i | None => Err AttributeError end.
(** reaction.py:36-44, 49-56, 63-73 — Substance, Variable, Distribution constructors *)
Definition new_substance (i : nat) : species := mkSpecies i SScalar None.
Definition new_variable (i : nat) : species := mkSpecies i SScalar None.
Definition new_distribution (i : nat) : species := mkSpecies i SDist None.

(** reaction.py:122, 240-243 — x[i] *)
Fixpoint get (x : list R) (i : nat) : res R :=
  match x, i with
  | [], _ => Err IndexError
  | a :: _, O => Ok a
  | _ :: x', S i' => get x' i'
  end.
(** reaction.py:249-255 — rx[i] += v *)
Fixpoint addto (x : list R) (i : nat) (v : R) : res (list R) :=
  match x, i with
  | [], _ => Err IndexError
  | a :: x', O => Ok ((a + v) :: x')
  | a :: x', S i' => do y <- addto x' i' v; Ok (a :: y)
  end.

(** reaction.py:210-231 — a propagation; the rate coefficient is an argument, a function of the temperature that may raise *)
Record prop := mkProp { p_M : species; p_P : species; p_A : option species; p_k : R -> res R }.
(** reaction.py:233-258 — Propagation.eval *)
Definition prop_eval (r : prop) (T : R) (x rx : list R) : res (list R) :=
  do iM <- idx (p_M r);
  do iP <- idx (p_P r);
  do M <- get x iM;
  do P0 <- get x iP;
  do P1 <- get x (iP + 1);
  do k <- p_k r T;
  do rx <- addto rx iM (- (k * M * P0));
  do rx <- addto rx (iP + 1) (k * M * P0);
  do rx <- addto rx (iP + 2) (k * M * (2 * P1 + P0));
  match p_A r with
  | None => Ok rx
  | Some A => do iA <- idx A; addto rx iA (k * M * P0)
  end.
(** reaction.py:228-231 — the reactants and products of a propagation *)
Definition prop_reactants (r : prop) : list species := [p_M r; p_P r].
Definition prop_products (r : prop) : list species := p_P r :: match p_A r with Some A => [A] | None => [] end.
(** reaction.py:118-123 — Reaction.rate *)
Fixpoint rate_loop (C : list R) (l : list species) (r : R) : res R :=
  match l with
  | [] => Ok r
  | s :: l' => do i <- idx s; do c <- get C i; rate_loop C l' (r * c)
  end.
Definition rate (r : prop) (C : list R) (T : R) : res R := do k <- p_k r T; rate_loop C (prop_reactants r) k.

(** reaction.py:78, 110-116, 205, 261 — the classes and the abstract methods they leave undefined; an instance can be created only
    when there are none *)
Inductive rclass := CReaction | CPropagation | CTermination.
Definition defines_eval (c : rclass) : bool := match c with CPropagation => true | _ => false end.
Definition instantiate {A} (c : rclass) (a : A) : res A := if defines_eval c then Ok a else Err TypeError.

(** a reaction object: its identity, its evaluation, and the result of calling [species]; the library defines no method of that
    name, so its reactions raise; a user-defined subclass may have one *)
Record reaction := mkReaction { r_id : nat; r_eval : R -> list R -> list R -> res (list R); r_species : res (list species) }.
(** reaction.py:205-231 — a propagation as a reaction *)
Definition propagation (i : nat) (r : prop) : res reaction :=
  instantiate CPropagation (mkReaction i (prop_eval r) (Err AttributeError)).
(** reaction.py:261-290 — a termination: the evaluation is not defined *)
Definition termination (i : nat) : res reaction :=
  instantiate CTermination (mkReaction i (fun _ _ _ => Err NotImplementedErr) (Err AttributeError)).

(** reaction.py:136-139 — a system: its reactions and the dimension; scalars, distributions as sets of identities *)
Record system := mkSystem { rs_reactions : list reaction; rs_dim : nat; rs_scalars : list nat; rs_dists : list nat }.
(** reaction.py:152-161 — the species of the reactions: scalars and distributions, in order *)
Fixpoint collect_species (l : list species) (acc : list nat * list nat) : res (list nat * list nat) :=
  match l with
  | [] => Ok acc
  | s :: l' =>
      match s_kind s with
      | SScalar => collect_species l' (fst acc ++ [s_id s], snd acc)
      | SDist => collect_species l' (fst acc, snd acc ++ [s_id s])
      | SOther => Err ValueError
      end
  end.
Fixpoint collect (l : list reaction) (acc : list nat * list nat) : res (list nat * list nat) :=
  match l with
  | [] => Ok acc
  | r :: l' => do ss <- r_species r; do acc <- collect_species ss acc; collect l' acc
  end.
(** reaction.py:141-168 — ReactionSystem.__init__; the order of a set is not modelled *)
Definition new_system (l : list reaction) : res system :=
  if Nat.eqb (length l) (length (nodup Nat.eq_dec (map r_id l))) then
    do acc <- collect l ([], []);
    Ok (mkSystem l (length (fst acc) + 3 * length (snd acc)) (nodup Nat.eq_dec (fst acc)) (nodup Nat.eq_dec (snd acc)))
  else Err ValueError.
(** reaction.py:125-131 — Reaction.__add__ *)
Definition add_reactions (a b : reaction) : res system := new_system [a; b].
(** reaction.py:178-187 — ReactionSystem.__add__ with a reaction: the state of the object itself afterwards, which is also the result *)
Definition system_add_reaction (s : system) (r : reaction) : system * system :=
  let s' := mkSystem (rs_reactions s ++ [r]) (rs_dim s) (rs_scalars s) (rs_dists s) in (s', s').
(** reaction.py:178-187 — ReactionSystem.__add__ with a system *)
Definition system_add_system (s t : system) : res system := new_system (rs_reactions s ++ rs_reactions t).
(** reaction.py:189-202 — ReactionSystem.rates *)
Fixpoint rates_loop (l : list reaction) (T : R) (x rx : list R) : res (list R) :=
  match l with
  | [] => Ok rx
  | r :: l' => do rx <- r_eval r T x rx; rates_loop l' T x rx
  end.
Definition rates (s : system) (x : list R) (T : R) : res (list R) := rates_loop (rs_reactions s) T x (repeat 0 (rs_dim s)).
(** reaction.py:295-296 *)
Definition exclude_None {A} (l : list (option A)) : list A := flat_map (fun o => match o with Some a => [a] | None => [] end) l.
