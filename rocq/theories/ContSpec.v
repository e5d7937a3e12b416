(** The analytically continued integral of  x_i^E G(x)  over x_i from 0 to 1. Specification for the subtraction routines.
    For E > -1 this is the ordinary (improper) integral; integration by parts,
      (E + 1) J_E[G] = G(x_i = 1) - J_(E+1)[dG/dx_i],
    continues it to all E except the negative integers. *)
From Coquelicot Require Import Coquelicot.
From Verif Require Import ExprSpec.
Local Open Scope R_scope.

(** the partial derivative as a function *)
Definition d (i : nat) (G : point -> R) : point -> R := fun x => Derive (fun t => G (upd x i t)) (x i).
(** the integral where it exists, else [n] integrations by parts *)
Fixpoint Jn (n : nat) (E : R) (i : nat) (G : point -> R) : point -> R := fun x =>
  match n with
  | O => RInt (fun t => Rpower t E * G (upd x i t)) 0 1
  | S n => (G (upd x i 1) - Jn n (E + 1) i (d i G) x) / (E + 1)
  end.
(** enough to make E + n positive *)
Definition shift (E : R) : nat := Z.to_nat (up (- E)).
Definition J (E : R) (i : nat) (G : point -> R) : point -> R := Jn (shift E) E i G.
(** all variables of a list, each with its exponent *)
Fixpoint contI (S : list (nat * R)) (G : point -> R) : point -> R :=
  match S with [] => G | (i, E) :: r => J E i (contI r G) end.
(** E is not a negative integer *)
Definition regular (E : R) : Prop := forall k : nat, E + INR k + 1 <> 0.
(** the points reached from x by moving the i-th coordinate through the unit interval *)
Definition seg (U : point -> Prop) (i : nat) : point -> Prop := fun x => forall t, 0 <= t <= 1 -> U (upd x i t).
Fixpoint box (S : list nat) (U : point -> Prop) : point -> Prop := match S with [] => U | i :: r => seg (box r U) i end.
