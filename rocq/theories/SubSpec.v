(** Meaning of the products handled by the subtraction routines: an integral over the variables S of the product of the monomials
    and the remaining factors, divided by the pole factor; exponents between the poles are reached by analytic continuation (ContSpec).
    The regulators are the variables outside S; [rho] holds their values. *)
From Coquelicot Require Import Coquelicot.
From Verif Require Import ExprSpec ContSpec CalmSpec SubModel.
Local Open Scope R_scope.

(** the exponent of x_j in the product of the monomials: sum over the factors of  row_j * exponent *)
Definition power (m : list (list Z * terms_t)) (j : nat) (x : point) : R :=
  sumR (map (fun f => IZR (getk j (fst f)) * eval x (Pol (snd f))) m).
(** the value of the integral *)
Definition value (S : list nat) (pp : pprod) (rho : point) : R :=
  / eval rho (Pol (pole pp)) * contI (map (fun j => (j, power (mons pp) j rho)) S) (fun y => eval y (Prod (rest pp))) rho.

Section Nv.
Variable nv : nat.
Variable rho : point.
Variable S : list nat.
(** a polynomial of the regulators with numbers as coefficients *)
Definition regpol (p : terms_t) : Prop :=
  p <> [] /\ numeric p /\ Forall (fun t => length (snd t) = nv /\ forall j, In j S -> getk j (snd t) = 0%Z) p.
(** the points of the unit cube over the regulator values *)
Definition cube (x : point) : Prop := agree rho S x /\ forall j, In j S -> 0 <= x j <= 1.
(** what the documentation (166-193, 308-335) asks of the input *)
Definition shape (pp : pprod) : Prop :=
  mons pp <> [] /\ Forall (fun f => length (fst f) = nv /\ regpol (snd f) /\ NoDup (map snd (snd f))) (mons pp) /\
  regpol (pole pp) /\ rest pp <> [] /\ Forall (fun e => wf nv e /\ calm (agree rho S) e) (rest pp).
(** everything is defined, and no exponent is a negative integer, at the given values of the regulators *)
Definition defined (pp : pprod) : Prop :=
  (forall x, cube x -> dom x (Prod (rest pp))) /\ dom rho (Pol (pole pp)) /\ eval rho (Pol (pole pp)) <> 0 /\
  Forall (fun f => dom rho (Pol (snd f))) (mons pp) /\ forall j, In j S -> regular (power (mons pp) j rho).
(** the coefficient of a monomial of the regulators in the exponent of x_j *)
Definition coef (k : list Z) (p : terms_t) : R := sumR (map (fun t => if roweqb (snd t) k then num_of (fst t) else 0) p).
Definition power_coef (m : list (list Z * terms_t)) (j : nat) (k : list Z) : R := sumR (map (fun f => IZR (getk j (fst f)) * coef k (snd f)) m).
(** a_j *)
Definition power_at_0 (m : list (list Z * terms_t)) (j : nat) : R := power_coef m j (zeros nv).
(** the exponent of x_j is negative and contains no regulator *)
Definition no_regulator (m : list (list Z * terms_t)) (j : nat) : Prop :=
  power_at_0 m j < 0 /\ forall k, k <> zeros nv -> power_coef m j k = 0.
End Nv.
(** the q-th derivative in direction j *)
Fixpoint dN (q j : nat) (G : point -> R) : point -> R := match q with O => G | Datatypes.S q => d j (dN q j G) end.
