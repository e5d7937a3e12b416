(** Specification vocabulary for polynomials: value at a point, coefficient of a
    monomial, points at which every power is defined. *)
From Coq Require Export Sorted.
From Verif Require Export PolyModel.

Section Spec.
Variable F : Fld.
Local Open Scope fld_scope.

(** x_0^e_0 * x_1^e_1 * ... *)
Fixpoint meval (e : list Z) (x : list F) : F :=
  match e, x with k :: e', a :: x' => zpow a k * meval e' x' | _, _ => 1 end.

(** value of the polynomial at the point [x] *)
Definition peval (p : poly F) (x : list F) : F :=
  sumF (map (fun t => snd t * meval (fst t) x) (ptm p)).

(** total coefficient of the monomial with exponent vector [e] *)
Definition coeff_at (p : poly F) (e : list Z) : F :=
  sumF (map snd (filter (fun t => roweqb (fst t) e) (ptm p))).

(** every exponent vector has one entry per variable (numpy arrays are rectangular) *)
Definition pwf (p : poly F) : Prop := Forall (fun t => length (fst t) = pnv p) (ptm p).

(** [x] has the right length and no zero coordinate is raised to a negative power *)
Definition pdef (p : poly F) (x : list F) : Prop :=
  length x = pnv p /\ Forall (fun t => Forall2 pow_ok x (fst t)) (ptm p).

(** polynomial in the proper sense: no negative exponent *)
Definition pnonneg (p : poly F) : Prop := Forall (fun t => Forall (fun e => (0 <= e)%Z) (fst t)) (ptm p).

(** replacing coordinate [i] of a point *)
Definition set_coord (i : nat) (v : F) (x : list F) : list F := upd i v x.

(** normal form of a polynomial: exponent vectors strictly increasing (lexicographically), no zero
    coefficient; the zero polynomial is the single term 0 *)
Definition rows_sorted (ts : list (term F)) : Prop := StronglySorted (fun a b => lexlt (fst a) (fst b)) ts.
Definition pnormal (p : poly F) : Prop :=
  rows_sorted (ptm p) /\
  (Forall (fun t => snd t <> 0) (ptm p) /\ ptm p <> [] \/ p = pconst (pnv p) 0).

(** substituting [v] for variable [i] is defined *)
Definition replace_ok (p : poly F) (i : nat) (v : F) : Prop :=
  Forall (fun t => pow_ok v (getZ i (fst t))) (ptm p).
End Spec.
Arguments rows_sorted {F} _. Arguments pnormal {F} _. Arguments replace_ok {F} _ _ _.
Arguments meval {F} _ _. Arguments peval {F} _ _. Arguments coeff_at {F} _ _.
Arguments pwf {F} _. Arguments pdef {F} _ _. Arguments pnonneg {F} _. Arguments set_coord {F} _ _ _.
