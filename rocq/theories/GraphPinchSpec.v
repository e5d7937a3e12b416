(** Specification vocabulary for lines with power zero. *)
From Coq Require Import List Arith.
From Verif Require Import FieldBase.
Import ListNotations.
(** the lines whose power is zero *)
Definition selected {A} (zero : nat -> bool) (l : list A) : list A := map snd (filter (fun p => zero (fst p)) (combine (seq 0 (length l)) l)).
(** parameters of the full graph: 0 for the lines with power zero, the coordinates of [y] in order for the others *)
Fixpoint with_zeros {F : Fld} (zeros : list bool) (y : list F) : list F :=
  match zeros, y with
  | [], _ => []
  | true :: r, _ => f0 :: with_zeros r y
  | false :: r, a :: y' => a :: with_zeros r y'
  | false :: r, [] => []
  end.
(** the entries that belong to lines with nonzero power *)
Definition keep {A} (zeros : list bool) (l : list A) : list A := map snd (filter (fun p => negb (fst p)) (combine zeros l)).
