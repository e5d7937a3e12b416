(** Specification vocabulary for the Feynman parametrised integrand: iterated partial derivatives of a function on a
    domain, removal of a parameter by setting it to zero. *)
From Coq Require Import Reals List ZArith.
From Verif Require Import PolySpec RealField.
Import ListNotations.
Local Open Scope R_scope.

Definition point := list R.
(** the point with one more coordinate, inserted at position [i] *)
Definition insert_at (i : nat) (v : R) (y : point) : point := firstn i y ++ v :: skipn i y.
(** [g] is the partial derivative of [f] with respect to coordinate [i] on [D] *)
Definition is_partial (i : nat) (D : point -> Prop) (f g : point -> R) : Prop :=
  forall x : point, D x -> derivable_pt_lim (fun t : R => f (upd i t x)) (nth i x 0) (g x).
(** [g] is the [k]-th partial derivative of [f] *)
Fixpoint nth_partial (k i : nat) (D : point -> Prop) (f g : point -> R) : Prop :=
  match k with
  | O => forall x, D x -> f x = g x
  | S k' => exists h, is_partial i D f h /\ nth_partial k' i D h g
  end.
(** a list of instructions (parameter, (number of derivatives, whether the parameter is then set to zero and removed)) *)
Fixpoint parametric (steps : list (nat * (nat * bool))) (D : point -> Prop) (f g : point -> R) : Prop :=
  match steps with
  | [] => forall x, D x -> f x = g x
  | (i, (k, d)) :: r => exists h, nth_partial k i D f h /\
      if d then parametric r (fun y => D (insert_at i 0 y)) (fun y => h (insert_at i 0 y)) g
      else parametric r D h g
  end.
(** proper polynomials in [nv] variables *)
Definition proper {F : Fld} (nv : nat) (p : PolyModel.poly F) : Prop := pnv p = nv /\ pwf p /\ pnonneg p.

(** the full point: zeros at the removed parameters, the coordinates of [y] in order at the others *)
Fixpoint embed (removed : list bool) (y : point) : point :=
  match removed with
  | [] => y
  | true :: r => 0 :: embed r y
  | false :: r => match y with a :: y' => a :: embed r y' | [] => [] end
  end.
(** product of y_j^(e_i - 1) over the parameters that are not removed; [es] lists (e_i, removed) *)
Fixpoint monomials (es : list (R * bool)) (y : point) : R :=
  match es with
  | [] => 1
  | (_, true) :: r => monomials r y
  | (e, false) :: r => match y with a :: y' => Rpower a (e - 1) * monomials r y' | [] => 1 end
  end.
(** value of a product of powers *)
Definition powers_value (fs : list (PolyModel.poly R_Fld * R)) (x : point) : R :=
  fold_right Rmult 1 (map (fun f : PolyModel.poly R_Fld * R => Rpower (@peval R_Fld (fst f) x) (snd f)) fs).
(** number of parameters that are not removed *)
Definition kept (removed : list bool) : nat := length (filter negb removed).
(** homogeneity of degree [d] on a domain *)
Definition homogeneous_on (D : point -> Prop) (d : R) (f : point -> R) : Prop :=
  forall (c : R) x, 0 < c -> D x -> f (map (Rmult c) x) = Rpower c d * f x.
