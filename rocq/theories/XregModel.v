(** Model of the choice of extra regulator exponents, /repo/pySecDec/loop_integral/loop_regions.py:217-241 (in [loop_regions]),
    292-352 [suggested_extra_regulator_exponent] and 354-458 [extra_regulator_constraints].
    Exponents are rational numbers.  normaliz is a parameter ([facets_of], the facets of the convex hull of a list of points as rows
    normal ++ [offset], polytope.py), and so is [sympy.prime]. *)
From Coq Require Import List ZArith QArith Qcanon Bool. Import ListNotations.
Local Open Scope Z_scope.
Definition zdot (a b : list Z) : Z := fold_right Z.add 0 (map (fun q => fst q * snd q) (combine a b)).
(** numpy: [np.delete(v, i)] and [row[:-1]] *)
Definition delete_at (i : nat) (v : list Z) : list Z := firstn i v ++ skipn (S i) v.
(** [np.array_equal(facet, -fac)] *)
Definition zeqb (a b : list Z) : bool := if list_eq_dec Z.eq_dec a b then true else false.
(** [facet[facet!=0][0] > 0]; the IndexError for a zero row does not occur for facets *)
Definition first_positive (f : list Z) : bool := match filter (fun x => negb (x =? 0)) f with x :: _ => 0 <? x | [] => false end.
(** the comprehensions of 452 and 455: [next(facet)] at the listed positions that are not [exp_param_index], 0 elsewhere.
    None is StopIteration *)
Fixpoint pad (present : nat -> bool) (exp_param_index : nat) (positions : list nat) (facet : list Z) : option (list Z) :=
  match positions with
  | [] => Some []
  | i :: r => if present i && negb (Nat.eqb i exp_param_index)
              then match facet with x :: f => option_map (cons x) (pad present exp_param_index r f) | [] => None end
              else option_map (cons 0) (pad present exp_param_index r facet)
  end.
Section Constraints.
Variable facets_of : list (list Z) -> list (list Z).
(** 424-427: the facets pointing in the positive direction of the small parameter whose leading power is within the requested order;
    [leading_power region] is [np.dot(region, powerlist)] at vanishing regulators *)
Definition regions (leading_power : list Z -> Qc) (exp_order : Qc) (exp_param_index : nat) (vertices : list (list Z)) : list (list Z) :=
  filter (fun r => (0 <? nth exp_param_index r 0) && Qle_bool (leading_power r) exp_order) (facets_of vertices).
(** 432-435: the vertices in the region, without the small parameter *)
Definition region_vertices (exp_param_index : nat) (vertices : list (list Z)) (region : list Z) : list (list Z) :=
  map (delete_at exp_param_index) (filter (fun v => zdot v (removelast region) + last region 0 =? 0) vertices).
(** 436-441 *)
Definition facets_through_zero (vert : list (list Z)) : list (list Z) := map (@removelast Z) (filter (fun f => last f 0 =? 0) (facets_of vert)).
Definition all_facets (leading_power : list Z -> Qc) (exp_order : Qc) (exp_param_index : nat) (vertices : list (list Z)) : list (list Z) :=
  flat_map (fun r => facets_through_zero (region_vertices exp_param_index vertices r)) (regions leading_power exp_order exp_param_index vertices).
(** 447-452 *)
Definition internal_facets (all : list (list Z)) : list (list Z) := filter (fun f => existsb (fun g => zeqb f (map Z.opp g)) all) all.
Definition selected (all : list (list Z)) : list (list Z) := filter first_positive (internal_facets all).
(** the entry 'all' of the result, for [indices=None] (456-458); None also if there is no region (np.concatenate of nothing) *)
Fixpoint all_some {A} (l : list (option A)) : option (list A) :=
  match l with [] => Some [] | Some x :: r => option_map (cons x) (all_some r) | None :: _ => None end.
Definition constraints (leading_power : list Z -> Qc) (exp_order : Qc) (exp_param_index : nat) (vertices : list (list Z)) : option (list (list Z)) :=
  let dim := length (hd [] vertices) in
  match regions leading_power exp_order exp_param_index vertices with
  | [] => None
  | _ => all_some (map (pad (fun _ => true) exp_param_index (seq 0 dim)) (selected (all_facets leading_power exp_order exp_param_index vertices)))
  end.
End Constraints.
(** 416-419, 452-455: [indices] given: the points are projected on these coordinates and the position of the small parameter is updated *)
Fixpoint index_of (x : nat) (l : list nat) : nat := match l with [] => 0%nat | y :: r => if Nat.eqb x y then 0%nat else S (index_of x r) end.
Definition projected_vertices (indices : list nat) (vertices : list (list Z)) : list (list Z) := map (fun v => map (fun i => nth i v 0) indices) vertices.
Definition pad_indices (dim : nat) (indices : list nat) (exp_param_index : nat) (facet : list Z) : option (list Z) :=
  let exp_param_index := index_of exp_param_index indices in
  pad (fun i => existsb (Nat.eqb i) indices) exp_param_index (seq 0 dim) facet.
(** ** suggested_extra_regulator_exponent *)
Definition inj (z : Z) : Qc := Q2Qc (inject_Z z).
Definition qsum (l : list Qc) : Qc := fold_right Qcplus (inj 0) l.
Definition dot (row : list Z) (e : list Qc) : Qc := qsum (map (fun q => (inj (fst q) * snd q)%Qc) (combine row e)).
Section Search.
Variable prime : Z -> Z.
(** 343 *)
Definition value (k : Z) : Qc := if k <? 0 then inj 0 else if k <? 1 then inj 1 else (/ inj (prime k))%Qc.
(** 332 *)
Definition needed (n : nat) (constr : list (list Z)) : list bool := map (fun i => existsb (fun row => negb (nth i row 0 =? 0)) constr) (seq 0 n).
(** 338-345: the loop over the variables; entries that are not needed stay 0 *)
Fixpoint fill (needed : list bool) (k : Z) : list Qc :=
  match needed with [] => [] | true :: r => value k :: fill r (k + 1) | false :: r => inj 0 :: fill r k end.
(** [lasti] *)
Fixpoint last_needed (needed : list bool) (i : nat) (lasti : option nat) : option nat :=
  match needed with [] => lasti | b :: r => last_needed r (S i) (if b then Some i else lasti) end.
Fixpoint set_at (i : nat) (x : Qc) (l : list Qc) : list Qc := match i, l with O, _ :: r => x :: r | S i, y :: r => y :: set_at i x r | _, [] => [] end.
(** 346-347; None is the TypeError for [exp[None]] *)
Definition attempt (needed : list bool) (nzero : Z) : option (list Qc) :=
  match last_needed needed 0 None with
  | None => None
  | Some lasti => let e := set_at lasti (inj 0) (fill needed (- nzero)) in Some (set_at lasti (- qsum e)%Qc e)
  end.
(** 336-351: None if the fuel does not suffice *)
Fixpoint search (fuel : nat) (constr : list (list Z)) (needed : list bool) (nzero : Z) : option (list Qc) :=
  match fuel with
  | O => None
  | S fuel => match attempt needed nzero with
              | None => None
              | Some e => if forallb (fun row => negb (if Qc_eq_dec (dot row e) (inj 0) then true else false)) constr then Some e else search fuel constr needed (nzero - 1)
              end
  end.
(** 318-334: [constr] are the constraints without the column of the small parameter, the last one *)
Inductive suggestion := Not_needed | Exponents (e : list Qc) | Running.
Definition suggested (fuel : nat) (constr : option (list (list Z))) : suggestion :=
  match constr with
  | None | Some [] => Not_needed
  | Some (row :: r) => let constr := map (@removelast Z) (row :: r) in let n := length (removelast row) in
      match search fuel constr (needed n constr) (Z.of_nat n) with Some e => Exponents e | None => Running end
  end.
End Search.
(** 221-222: [loop_regions] inserts the extra regulator into the list held by the loop integral it was given *)
Definition regulators_after {A} (extra : A) (regulators : list A) : list A := extra :: regulators.
