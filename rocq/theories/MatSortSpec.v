(** Specification vocabulary for matrix sorting. *)
From Verif Require Export SortModel PolyModel.

(** a rectangular matrix with [w] columns *)
Definition rect (w : nat) (m : list (list Z)) : Prop := Forall (fun r => length r = w) m.
(** the columns rearranged: column [k] of the result is column [nth k sigma] of [m] *)
Definition rearrange_cols (sigma : list nat) (m : list (list Z)) : list (list Z) := map (fun r => map (fun j => nth j r 0%Z) sigma) m.
(** [m'] is [m] up to a permutation of rows and a permutation of columns moving column [k] only to related places *)
Definition equivalent (E : nat -> nat -> Prop) (w : nat) (m m' : list (list Z)) : Prop :=
  exists sigma, Permutation sigma (seq 0 w) /\ (forall k, k < w -> E k (nth k sigma 0)) /\ Permutation m' (rearrange_cols sigma m).
Definition equivalence (E : nat -> nat -> Prop) : Prop :=
  (forall a, E a a) /\ (forall a b, E a b -> E b a) /\ (forall a b c, E a b -> E b c -> E a c).
(** all columns except the first *)
Definition fix_first (a b : nat) : Prop := a = 0 <-> b = 0.
(** the entries read column by column *)
Definition by_columns (w : nat) (m : list (list Z)) : list Z := flat_map (fun j => map (fun r => nth j r 0%Z) m) (seq 0 w).
(** equal or members of a common group *)
Definition in_same (gs : list (list nat)) (a b : nat) : Prop := a = b \/ exists g, In g gs /\ In a g /\ In b g.
