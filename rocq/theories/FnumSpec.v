(** What a product of metric tensors and vectors with Lorentz indices means, and Isserlis' formula. *)
From Verif Require Import FieldBase.
Local Open Scope fld_scope.
Section Spec.
Variable F : Fld.
(** [d] dimensions, diagonal metric [w] with lower indices; its inverse carries the upper indices *)
Variables (d : nat) (w : nat -> F).
Definition metric (i j : nat) : F := if Nat.eqb i j then finv (w i) else 0.
(** an index that occurs twice is summed over (with the metric), an index that occurs once is free *)
Definition occurrences (ms : list (nat * nat)) (vs : list ((nat -> F) * nat)) : list nat := flat_map (fun q => [fst q; snd q]) ms ++ map snd vs.
Definition dummies (names : list nat) : list nat := filter (fun n => Nat.eqb (count_occ Nat.eq_dec names n) 2) (nodup Nat.eq_dec names).
Definition at_most_twice (names : list nat) : Prop := forall n, count_occ Nat.eq_dec names n <= 2.
(** components for the index names *)
Definition set (e : nat -> nat) (n i : nat) : nat -> nat := fun k => if Nat.eqb k n then i else e k.
Definition in_range (e : nat -> nat) : Prop := forall n, e n < d.
Fixpoint contract_sum (names : list nat) (e : nat -> nat) (f : (nat -> nat) -> F) : F :=
  match names with
  | [] => f e
  | n :: r => sumF (map (fun i => w i * contract_sum r (set e n i) f) (seq 0 d))
  end.
Definition factors (ms : list (nat * nat)) (vs : list ((nat -> F) * nat)) (e : nat -> nat) : F :=
  prodF (map (fun q => metric (e (fst q)) (e (snd q))) ms) * prodF (map (fun q => fst q (e (snd q))) vs).
Definition tensor_value (ms : list (nat * nat)) (vs : list ((nat -> F) * nat)) (e : nat -> nat) : F :=
  contract_sum (dummies (occurrences ms vs)) e (factors ms vs).

(** Isserlis' formula: the first factor is replaced by its mean or paired with one of the others; [c m] weights [m] pairs *)
Section Isserlis.
Variables (T : Type) (mean : T -> F) (cov : T -> T -> F) (c : nat -> F).
(** all ways to take one element out *)
Fixpoint select (l : list T) : list (T * list T) :=
  match l with [] => [] | x :: r => (x, r) :: map (fun q => (fst q, x :: snd q)) (select r) end.
Fixpoint wick (fuel m : nat) (l : list T) : F :=
  match fuel, l with
  | S n, x :: r => mean x * wick n m r + sumF (map (fun q => cov x (fst q) * wick n (S m) (snd q)) (select r))
  | _, _ => c m
  end.
Definition isserlis (l : list T) : F := wick (length l) 0 l.
End Isserlis.
End Spec.
