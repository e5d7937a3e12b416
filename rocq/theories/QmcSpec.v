(** Textbook statistics for C79. *)
From Coq Require Import List Arith Reals. Import ListNotations.
Local Open Scope R_scope.
Definition sum (l : list R) : R := fold_right Rplus 0 l.
(** arithmetic mean and standard error of the mean of a sample *)
Definition mean (l : list R) : R := sum l / INR (length l).
Definition standard_error (l : list R) : R := sqrt (sum (map (fun x => (x - mean l) ^ 2) l) / (INR (length l) * (INR (length l) - 1))).
(** a round of the integrator: the size of the lattice and, for every random shift, the values summed up by the workers;
    the estimate of the integral by one random shift *)
Definition round := (nat * list (list R))%type.
Definition estimate (n : nat) (row : list R) : R := sum row / INR n.
(** the shifts of the last rounds of lattice size [n], given the rounds in reverse order *)
Fixpoint pooled (n : nat) (newest_first : list round) : list (list R) :=
  match newest_first with
  | (n', rows) :: older => if Nat.eqb n' n then pooled n older ++ rows else []
  | [] => []
  end.
Definition total_evaluations (rounds : list round) : nat := fold_right (fun q s => fst q * length (snd q) + s)%nat 0%nat rounds.
(** rounds the statistics make sense for: all shifts have the same number of summands, and at least two shifts can be averaged *)
Definition same_width (rows : list (list R)) : Prop := exists w, Forall (fun row => length row = w) rows.
Fixpoint valid (newest_first : list round) : Prop :=
  match newest_first with
  | [] => True
  | (n, rows) :: older => (1 <= n)%nat /\ same_width rows /\ (2 <= length (pooled n newest_first))%nat /\ valid older
  end.
