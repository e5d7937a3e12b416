(** Laurent series in several regulators and their products. *)
From Coq Require Import ZArith.
From Verif Require Import FieldBase.
Local Open Scope fld_scope.
Section Spec.
Variable F : Fld.
(** a series assigns a coefficient to every list of [n] orders *)
Definition series := list Z -> F.
Definition below (a b : list Z) : Prop := Forall2 Z.le a b.
(** no terms unless all orders are at least those of [low] *)
Definition starts_at (n : nat) (low : list Z) (f : series) : Prop := length low = n /\ forall a, length a = n -> ~ below low a -> f a = 0.
(** the same among the terms up to the orders [high] *)
Definition starts_below (n : nat) (high low : list Z) (f : series) : Prop := length low = n /\ forall a, length a = n -> below a high -> ~ below low a -> f a = 0.
(** the coefficients up to the orders [high] are the same *)
Definition same_upto (n : nat) (high : list Z) (f g : series) : Prop := forall a, length a = n -> below a high -> f a = g a.
Definition minus (a b : list Z) : list Z := map (fun q => (fst q - snd q)%Z) (combine a b).
(** [v] is the coefficient of order [e] of the product: a finite sum that contains all non-vanishing contributions once *)
Definition product_coefficient (n : nat) (f g : series) (e : list Z) (v : F) : Prop :=
  exists A, NoDup A /\ Forall (fun a => length a = n) A /\ (forall a, length a = n -> ~ In a A -> f a * g (minus e a) = 0) /\
    v = sumF (map (fun a => f a * g (minus e a)) A).
Definition product3_coefficient (n : nat) (c p i : series) (e : list Z) (v : F) : Prop :=
  exists A, NoDup A /\ Forall (fun q => length (fst q) = n /\ length (snd q) = n) A /\
    (forall a b, length a = n -> length b = n -> ~ In (a, b) A -> c a * p b * i (minus (minus e a) b) = 0) /\
    v = sumF (map (fun q => c (fst q) * p (snd q) * i (minus (minus e (fst q)) (snd q))) A).
(** the series given by a list of terms *)
Definition series_of (p : list (list Z * F)) : series := fun e => sumF (map (fun t => if list_eq_dec Z.eq_dec (fst t) e then snd t else 0) p).
End Spec.
