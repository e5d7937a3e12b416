(** Specification vocabulary for monomial changes of variables, convex hulls and regions. *)
From Coq Require Import Reals.
From Verif Require Export GeoModel PolySpec SectorSpec.

Section Spec.
Variable F : Fld.
Local Open Scope fld_scope.
(** x_i = prod_j y_j^(T_ij) *)
Definition mono_map (T : list (list Z)) (y : list F) : list F := map (fun r => meval r y) T.
(** the same for the variables [indices] only, the other variables are kept: x_i = prod_b y_(indices b)^(C_ab) for
    i = indices a *)
Definition mono_map_at (indices : list nat) (C : list (list Z)) (y : list F) : list F :=
  map (fun i => match index_of i indices with
                | Some a => meval (nth a C []) (map (fun j => nth j y 0) indices)
                | None => nth i y 0
                end) (seq 0 (length y)).
(** the rescaling by a region vector [v], [i] the position of the smallness parameter z: x_j -> x_j z^(v_j), z -> z^(v_i) *)
Definition region_point (i : nat) (v : list Z) (x : list F) : list F :=
  map (fun j => if Nat.eqb j i then zpow (nth i x 0) (getZ i v) else nth j x 0 * zpow (nth i x 0) (getZ j v)) (seq 0 (length x)).
(** what a geometric subsector means: variables substituted, Jacobian multiplied with c * prod_idx x / prod_idx y *)
Definition geo_transformed (n : nat) (idx : list nat) (C : list (list Z)) (c : F) (s s' : sector F) : Prop :=
  forall y, length y = n -> Forall (fun v => v <> 0) y ->
    Forall2 (fun a b => peval (fst b) y * peval (snd b) y = peval (fst a) (mono_map_at idx C y) * peval (snd a) (mono_map_at idx C y)) (scast s) (scast s')
    /\ Forall2 (fun p p' => peval p' y = peval p (mono_map_at idx C y)) (sother s) (sother s')
    /\ peval (sjac s') y * prodF (map (fun i => nth i y 0) idx) =
       peval (sjac s) (mono_map_at idx C y) * (c * prodF (map (fun i => nth i (mono_map_at idx C y) 0) idx)).
End Spec.
Arguments region_point {F} _ _ _. Arguments mono_map {F} _ _. Arguments mono_map_at {F} _ _ _.
(** [n] rows of length [m] *)
Definition is_matrix (n m : nat) (T : list (list Z)) : Prop := length T = n /\ Forall (fun r => length r = m) T.
(** matrix product entries: sum_k A_ik B_kj *)
Definition mat_prod (m : nat) (A B : list (list Z)) : list (list Z) :=
  map (fun r => map (fun j => fold_right Z.add 0%Z (map (fun k => (getZ k r * getZ j (nth k B []))%Z) (seq 0 (length B)))) (seq 0 m)) A.
(** coordinatewise sum of vectors with [n] entries *)
Definition vec_sum (n : nat) (es : list (list Z)) : list Z := map (fun j => fold_right Z.add 0%Z (map (getZ j) es)) (seq 0 n).
(** the Minkowski sum of the exponent vectors: the monomials of the product of the polynomials, before cancellations *)
Definition minkowski {F : Fld} (n : nat) (ps : list (poly F)) (v : list Z) : Prop :=
  exists es, Forall2 (fun e p => In e (map fst (ptm p))) es ps /\ v = vec_sum n es.
(** the terms of [p] have different exponent vectors (true for simplified polynomials) *)
Definition distinct_terms {F : Fld} (p : poly F) : Prop := NoDup (map fst (ptm p)).
(** [v] is a vertex of the convex hull of the points with [S_]: a point that is no convex combination of other points *)
Definition is_vertex (S_ : list Z -> Prop) (v : list Z) : Prop :=
  S_ v /\ forall ps : list (R * list Z), Forall (fun p => (0 <= fst p)%R /\ S_ (snd p) /\ snd p <> v) ps ->
    fold_right Rplus 0%R (map fst ps) = 1%R ->
    ~ (forall j, (j < length v)%nat -> fold_right Rplus 0%R (map (fun p => fst p * IZR (getZ j (snd p)))%R ps) = IZR (getZ j v)).
