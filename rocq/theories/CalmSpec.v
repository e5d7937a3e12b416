(** The integrands for which the subtraction routines are shown to be correct: polynomials have numbers as coefficients, and no
    power is a positive integer at the given values of the regulators (see C07_duplicate_terms_refuted: after a substitution
    [ExponentiatedPolynomial.simplify] may change the value of such a power). *)
From Verif Require Import ExprSpec.
Local Open Scope R_scope.
(** points with the coordinates of rho outside S: rho holds the values of the regulators, S the integration variables *)
Definition agree (rho : point) (S : list nat) (x : point) : Prop := forall j, ~ In j S -> x j = rho j.
Section Calm.
Variable at_pt : point -> Prop.  (* the points at which powers are looked at *)
Definition numeric (p : terms_t) : Prop := Forall (fun t => is_num (fst t) = true) p.
Definition frac_at (a : expr) : Prop := forall x, at_pt x -> dom x a /\ forall n : nat, eval x a <> INR (Datatypes.S n).
Fixpoint calm (e : expr) : Prop :=
  match e with
  | Num _ => True
  | Pol p | LPol p => numeric p
  | EPol p a => numeric p /\ frac_at a /\ calm a
  | Sum l | Prod l => allP calm l
  | Rule _ cache => allP (allP (fun t => match t with (_, c) => calm c end)) cache
  | Pow b a => calm b /\ frac_at a /\ calm a
  | Log a | Exp a => calm a
  end.
End Calm.
