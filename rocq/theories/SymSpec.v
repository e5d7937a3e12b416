(** Specification vocabulary for the symmetry finder. *)
From Verif Require Export SymModel SectorSpec MatSortSpec.

Section Spec.
Variable F : Fld.
Local Open Scope fld_scope.
Variable E : Type.

(** renaming of the variables: coordinate [j] of the new point is coordinate [nth j pi] of [y] *)
Definition permute_point (pi : list nat) (y : list F) : list F := map (fun k => nth k y 0) pi.
(** the polynomials of [s'] are those of [s] with the variables renamed: all values agree (the factored products compared as
    products), also the Jacobian *)
Definition sector_permuted (n : nat) (pi : list nat) (s s' : sector F) : Prop :=
  forall y, length y = n -> Forall (fun v => v <> 0) y \/ (snonneg s /\ snonneg s') ->
    Forall2 (fun c c' => peval (fst c') (permute_point pi y) * peval (snd c') (permute_point pi y) = peval (fst c) y * peval (snd c) y) (scast s) (scast s')
    /\ Forall2 (fun p p' => peval p' (permute_point pi y) = peval p y) (sother s) (sother s')
    /\ peval (sjac s') (permute_point pi y) = peval (sjac s) y.
(** a renaming of the variables [0..n-1] that leaves the variables [fixed] alone turns [a] into [b]; exponents unchanged *)
Definition symmetric (n : nat) (fixed : list nat) (a b : xsector F E) : Prop :=
  exists pi, Permutation pi (seq 0 n) /\ (forall k, In k fixed -> nth k pi 0%nat = k) /\
    xcast a = xcast b /\ xother a = xother b /\ sector_permuted n pi (xs a) (xs b).

(** well-formed sector: [n] variables, first factors and Jacobian with one term, no polynomial identically zero, one
    exponent entry per polynomial *)
Definition xwf (n : nat) (s : xsector F E) : Prop :=
  swf n (xs s) /\ length (xcast s) = length (scast (xs s)) /\ length (xother s) = length (sother (xs s)) /\
  length (ptm (sjac (xs s))) = 1%nat /\
  Forall (fun c => (exists e k, ptm (fst c) = [(e, k)] /\ k <> 0) /\ exists t, In t (ptm (snd c)) /\ snd t <> 0) (scast (xs s)) /\
  Forall (fun p => exists t, In t (ptm p) /\ snd t <> 0) (sother (xs s)).
(** the Jacobian does not contain the variables [js] *)
Definition jac_free (js : list nat) (s : xsector F E) : Prop := Forall (fun t => forall j, In j js -> getZ j (fst t) = 0%Z) (ptm (sjac (xs s))).
(** a sort function that only permutes rows and the columns other than the first *)
Definition permuting (sort_function : list (list Z) -> list (list Z)) : Prop :=
  forall w m, (1 <= w)%nat -> rect w m -> equivalent fix_first w m (sort_function m).
(** number of terms of a sector, the Jacobian counted *)
Definition n_terms (s : xsector F E) : nat :=
  (1 + list_sum (map (fun c => length (ptm (snd c))) (scast (xs s))) + list_sum (map (fun p => length (ptm p)) (sother (xs s))))%nat.
End Spec.
Arguments permute_point {F} _ _. Arguments sector_permuted {F} _ _ _ _. Arguments symmetric {F E} _ _ _ _. Arguments xwf {F E} _ _.
Arguments jac_free {F E} _ _. Arguments n_terms {F E} _.

Section Spec2.
Variable F : Fld.
Local Open Scope fld_scope.
Variable E : Type.
(** what is required of "the integral of a sector": additive in the coefficient of the Jacobian, and unchanged by renaming
    the integration variables *)
Definition jac_additive (n : nat) (V : xsector F E -> F) : Prop :=
  forall s c d, xwf n s -> V (set_jac s (c + d)) = V (set_jac s c) + V (set_jac s d).
Definition rename_invariant (n : nat) (fixed : list nat) (V : xsector F E -> F) : Prop :=
  forall a b, xwf n a -> xwf n b -> symmetric n fixed a b -> V a = V b.
(** term by term: the exponents with the columns rearranged, up to the order of the terms *)
Definition rename_row (pi : list nat) (e : list Z) : list Z := map (fun k => nth k e 0%Z) pi.
Definition poly_renamed (pi : list nat) (p p' : poly F) : Prop :=
  Permutation (ptm p') (map (fun t => (rename_row pi (fst t), snd t)) (ptm p)).
(** all polynomials of [b] are those of [a] renamed by [pi] (the Jacobian up to its coefficient) *)
Definition terms_renamed (pi : list nat) (a b : xsector F E) : Prop :=
  Forall2 (fun c c' => poly_renamed pi (fst c) (fst c') /\ poly_renamed pi (snd c) (snd c')) (scast (xs a)) (scast (xs b)) /\
  Forall2 (poly_renamed pi) (sother (xs a)) (sother (xs b)) /\ xcast a = xcast b /\ xother a = xother b /\
  Permutation (map fst (ptm (sjac (xs b)))) (map (fun t => rename_row pi (fst t)) (ptm (sjac (xs a)))).
End Spec2.
Arguments jac_additive {F E} _ _. Arguments rename_invariant {F E} _ _ _. Arguments rename_row _ _. Arguments poly_renamed {F} _ _ _. Arguments terms_renamed {F E} _ _ _.

(** ** vertex-coloured graphs on the vertices 0..N-1 *)
Definition adjacent (edges : list (nat * nat)) (u v : nat) : Prop := In (u, v) edges \/ In (v, u) edges.
(** a bijection of the vertices that respects colours and adjacency *)
Definition graph_isomorphism (N : nat) (colour1 colour2 : nat -> nat) (edges1 edges2 : list (nat * nat)) (f : nat -> nat) : Prop :=
  (forall v, (v < N)%nat -> (f v < N)%nat) /\ (forall u v, (u < N)%nat -> (v < N)%nat -> f u = f v -> u = v) /\
  (forall v, (v < N)%nat -> colour2 (f v) = colour1 v) /\
  (forall u v, (u < N)%nat -> (v < N)%nat -> (adjacent edges1 u v <-> adjacent edges2 (f u) (f v))).
(** two lists of terms agree up to the order of the terms and of the variables *)
Definition same_up_to_order {C : Type} (w : nat) (ca : list C) (ma : list (list Z)) (cb : list C) (mb : list (list Z)) : Prop :=
  exists tau, Permutation tau (seq 0 w) /\ Permutation (combine cb mb) (map (fun q => (fst q, map (fun j => nth j (snd q) 0%Z) tau)) (combine ca ma)).
