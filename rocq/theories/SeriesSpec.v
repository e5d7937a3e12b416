(** Laurent series as functions from orders to coefficients, and what a Series object stands for. *)
From Verif Require Export SeriesModel.
Local Open Scope Z_scope.
Section Spec.
Context {F : Fld}.
Notation laurent := (Z -> F).
(** what the constructor guarantees *)
Definition good (s : series F) : Prop := omin s <= omax s /\ Z.of_nat (length (cont s)) = omax s - omin s + 1.
(** the coefficients of f below the stored orders vanish, the stored ones are known; above nothing is known if the
    series is truncated, otherwise they vanish *)
Definition stands_for (s : series F) (f : laurent) : Prop :=
  (forall k, k < omin s -> f k = f0) /\
  (forall n, (n < length (cont s))%nat -> f (omin s + Z.of_nat n) = nth n (cont s) f0) /\
  (trunc s = false -> forall k, omax s < k -> f k = f0).
Definition below (m : Z) (f : laurent) : Prop := forall k, k < m -> f k = f0.
(** sum over j = 0 .. n-1 *)
Fixpoint upto (n : nat) (g : nat -> F) : F := match n with O => f0 | S m => fadd (upto m g) (g m) end.
(** h = f * g *)
Definition is_product (f g h : laurent) : Prop :=
  exists m n, below m f /\ below n g /\ below (m + n) h /\
  forall d : nat, h (m + n + Z.of_nat d) = upto (S d) (fun j => fmul (f (m + Z.of_nat j)) (g (n + Z.of_nat d - Z.of_nat j))).
End Spec.
Notation laurent F := (Z -> car F).
