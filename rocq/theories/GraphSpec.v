(** Specification vocabulary for graphs given as a list of lines (pairs of vertex names): connectedness, trees,
    two-forests.  Independent of the cut construction of from_graph.py. *)
From Coq Require Import List Lia ZArith.
Import ListNotations.

(** [u] and [v] are joined by a path of lines of [E], each line used in either direction *)
Inductive conn (E : list (nat * nat)) : nat -> nat -> Prop :=
| conn_refl : forall u, conn E u u
| conn_step : forall u v w, conn E u v -> In (v, w) E \/ In (w, v) E -> conn E u w.

(** [v] is an end of some line *)
Definition vertex (E : list (nat * nat)) (v : nat) : Prop := exists e, In e E /\ (v = fst e \/ v = snd e).

(** no line has its ends joined by the other lines: no closed loop (in particular no tadpole and no double line) *)
Definition acyclic (E : list (nat * nat)) : Prop :=
  forall A e B, E = A ++ e :: B -> ~ conn (A ++ B) (fst e) (snd e).

(** [T] is a tree that reaches all vertices of the graph [G] *)
Definition spanning_tree (G T : list (nat * nat)) : Prop :=
  (forall u v, vertex G u -> vertex G v -> conn T u v) /\ acyclic T.

(** [T] consists of two disjoint trees that together reach all vertices of [G]: the tree of [a] and the tree of [b] *)
Definition two_forest (G T : list (nat * nat)) (a b : nat) : Prop :=
  vertex G a /\ vertex G b /\ ~ conn T a b /\
  (forall v, vertex G v -> conn T a v \/ conn T b v) /\ acyclic T.

(** the lines that are left when the lines with exponent 1 in [row] are cut *)
Definition uncut (row : list Z) (G : list (nat * nat)) : list (nat * nat) :=
  map snd (filter (fun p => Z.eqb (fst p) 0) (combine row G)).

(** exponent vector of a product of distinct parameters, one parameter for each line *)
Definition cut_row (G : list (nat * nat)) (row : list Z) : Prop :=
  length row = length G /\ Forall (fun e => e = 0%Z \/ e = 1%Z) row.

(** total degree *)
Definition degree (row : list Z) : Z := fold_right Z.add 0%Z row.

(** Momenta are vectors of [n] coefficients with respect to the independent external momenta. *)
From Verif Require Import FieldBase.
Section Flow.
Variable F : Fld.
Local Open Scope fld_scope.
Definition vplus (a b : list F) : list F := map (fun q => fst q + snd q) (combine a b).
Definition mom_sum (n : nat) (ps : list (list F)) : list F := fold_right vplus (repeat 0 n) ps.
(** total momentum that enters through the external lines [els] attached to the vertices selected by [sel] *)
Definition flow (n : nat) (els : list (list F * nat)) (sel : nat -> bool) : list F :=
  mom_sum n (map fst (filter (fun l => sel (snd l)) els)).
(** a scalar product: symmetric and additive *)
Definition scalar_product (n : nat) (dot : list F -> list F -> F) : Prop :=
  (forall a b, length a = n -> length b = n -> dot a b = dot b a) /\
  (forall a b c, length a = n -> length b = n -> length c = n -> dot (vplus a b) c = dot a c + dot b c).
(** momentum conservation: the total external momentum has scalar product zero with everything *)
Definition conserved (n : nat) (dot : list F -> list F -> F) (els : list (list F * nat)) : Prop :=
  forall w, length w = n -> dot (flow n els (fun _ => true)) w = 0.
End Flow.
Arguments vplus {F} _ _. Arguments mom_sum {F} _ _. Arguments flow {F} _ _ _. Arguments scalar_product {F} _ _. Arguments conserved {F} _ _ _.
