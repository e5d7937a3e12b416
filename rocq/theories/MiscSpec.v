(** Specification vocabulary for the helper functions. *)
From Coq Require Export Sorted.
From Verif Require Export MiscModel SortProofs.

(** [sublist c l]: [c] arises from [l] by deleting some positions *)
Inductive sublist {A} : list A -> list A -> Prop :=
| sl_nil : sublist [] []
| sl_keep x c l : sublist c l -> sublist (x :: c) (x :: l)
| sl_skip x c l : sublist c l -> sublist c (x :: l).

(** a perfect matching of [l]: a list of pairs using every element exactly once *)
Definition unpair {A} (m : list (A * A)) : list A := flat_map (fun p => [fst p; snd p]) m.
Definition is_matching {A} (m : list (A * A)) (l : list A) : Prop := Permutation (unpair m) l.
(** two matchings are the same set of unordered pairs *)
Definition same_pair {A} (p q : A * A) : Prop := p = q \/ p = (snd q, fst q).
Definition same_matching {A} (m n : list (A * A)) : Prop :=
  exists m', Permutation m m' /\ Forall2 same_pair m' n.

(** (2n-1)!! = 1 * 3 * ... * (2n-1) *)
Fixpoint odd_double_factorial (n : nat) : nat :=
  match n with O => 1 | S k => (2 * k + 1) * odd_double_factorial k end.
