(** Facets of a polytope given by points, for C78. *)
From Coq Require Import List ZArith. Import ListNotations.
Local Open Scope Z_scope.
Fixpoint inner (a b : list Z) : Z := match a, b with x :: a, y :: b => x * y + inner a b | _, _ => 0 end.
(** every row normal ++ [offset] is an inequality valid for all points and not an equation for all of them *)
Definition proper_facets (points : list (list Z)) (facets : list (list Z)) : Prop :=
  forall f, In f facets -> exists normal offset, f = normal ++ [offset] /\ (forall v, In v points -> length normal = length v /\ 0 <= inner normal v + offset) /\
    exists v, In v points /\ 0 < inner normal v + offset.
(** sequences of primes in ascending order, in particular that of all primes *)
From Coq Require Import Znumtheory.
Definition prime_sequence (p : Z -> Z) : Prop := forall k, 1 <= k -> prime (p k) /\ p k < p (k + 1).
