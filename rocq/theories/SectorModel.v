(** Model of /repo/pySecDec/decomposition/iterative.py and the Sector class of decomposition/common.py. *)
From Verif Require Export PolyModel MiscModel.

Section Sector.
Variable F : Fld.
Local Open Scope fld_scope.

(** common.py:16-91 class Sector.  [scast]: the products (monomial, polynomial); [sother], [sjac].  Not modelled:
    copying, [polysymbols], the exponents of [ExponentiatedPolynomial]s in [cast] (no function below looks at them or
    changes them). *)
Record sector : Type := mkSector { scast : list (poly F * poly F); sother : list (poly F); sjac : poly F }.

(** common.py:51 [number_of_variables] *)
Definition sector_nv (s : sector) : nat := match scast s with [] => 0 | c :: _ => pnv (snd c) end.
(** common.py:39-81 [Sector.__init__] for [cast] given as plain polynomials (they are refactorized); [None]:
    assertion failure *)
Definition make_sector (cast other : list (poly F)) (jac : option (poly F)) : option sector :=
  match cast with
  | [] => None
  | p0 :: _ =>
      let n := pnv p0 in
      let j := match jac with Some j => j | None => pconst n 1 end in
      if forallb (fun p => Nat.eqb n (pnv p)) (cast ++ other ++ [j])
      then Some (mkSector (map (fun p => poly_refactorize p []) cast) other j)
      else None
  end.

(** [sectorpoly.expolist[:,i] = 0] *)
Definition zero_col (i : nat) (p : poly F) : poly F := mkPoly (pnv p) (map (fun t => (upd i 0%Z (fst t), snd t)) (ptm p)).
(** [np.delete(expolist, i, axis=1)] *)
Definition delete_col (i : nat) (p : poly F) : poly F := mkPoly (pnv p - 1) (map (fun t => (delete_nth i (fst t), snd t)) (ptm p)).

(** iterative.py:14-64 [primary_decomposition_polynomial] *)
Definition primary_decomposition_polynomial (p : poly F) (indices : option (list nat)) : list (poly F) :=
  match (match indices with None => seq 0 (pnv p) | Some ix => ix end) with
  | [i] => [zero_col i p]
  | ix => map (fun i => delete_col i p) ix
  end.

(** iterative.py:66-118 [primary_decomposition] *)
Definition primary_decomposition (s : sector) (indices : option (list nat)) : list sector :=
  let N := match indices with None => sector_nv s | Some ix => length ix end in
  let ix := match indices with None => seq 0 (sector_nv s) | Some ix => ix end in
  let prim p := primary_decomposition_polynomial p (Some ix) in
  let at_ k (l : list (poly F)) := nth k l (pconst 0 0) in
  map (fun k => mkSector (map (fun c => (at_ k (prim (fst c)), at_ k (prim (snd c)))) (scast s))
                         (map (fun p => at_ k (prim p)) (sother s))
                         (at_ k (prim (sjac s)))) (seq 0 N).

(** [expolist[:,a] += expolist[:,b]] *)
Definition add_col (a b : nat) (p : poly F) : poly F :=
  mkPoly (pnv p) (map (fun t => (upd a (getZ a (fst t) + getZ b (fst t))%Z (fst t), snd t)) (ptm p)).
(** iterative.py:170-172, one polynomial; the set is nonempty *)
Definition remap_poly (sp : list nat) (p : poly F) : poly F :=
  match sp with [] => p | a :: bs => fold_left (fun q b => add_col a b q) bs p end.
(** iterative.py:174 *)
Definition remap_jac (sp : list nat) (j : poly F) : poly F :=
  match sp with [] => j | a :: bs => shift_col a (Z.of_nat (length sp) - 1) j end.
(** iterative.py:131-174 [remap_parameters]; the arrays modified in place become results, failed assertions [None]
    (as does the IndexError for an empty set) *)
Definition remap_parameters (sp : list nat) (jac : poly F) (polys : list (poly F)) : option (poly F * list (poly F)) :=
  match polys with
  | [] => None
  | p0 :: _ => if forallb (fun p => Nat.eqb (pnv p0) (pnv p)) polys && negb (Nat.eqb (length sp) 0)
               then Some (remap_jac sp jac, map (remap_poly sp) polys)
               else None
  end.

(** result of [find_singular_set]: the set, [EndOfDecomposition], or a failed assertion *)
Inductive fss_result : Type := Found (set : list nat) | EndOfDecomposition | AssertFailed.

(** iterative.py:209-214 *)
Fixpoint get_poly_to_transform (cast : list (poly F * poly F)) (indices : list nat) : option (poly F) :=
  match cast with
  | [] => None
  | c :: r => if has_constant_term (snd c) (Some indices) then get_poly_to_transform r indices else Some (snd c)
  end.
(** iterative.py:223-227: [acc] is [possible_sets] *)
Fixpoint possible_sets_loop (p : poly F) (sets : list (list nat)) (acc : list (list nat)) : list (list nat) :=
  match sets with
  | [] => acc
  | s :: r =>
      if match acc with [] => false | a0 :: _ => Nat.ltb (length a0) (length s) end then acc
      else possible_sets_loop p r (if becomes_zero_for p s then acc ++ [s] else acc)
  end.
(** iterative.py:237-242, the inner loop; state (howmany, howmany_max, best_sets) *)
Definition howmany_step (indices : list nat) (st : nat * nat * list (list nat)) (c : poly F * poly F) :=
  let '(howmany, howmany_max, best) := st in
  let howmany := if has_constant_term (snd c) (Some indices) then howmany else S howmany in
  if Nat.ltb howmany_max howmany then (howmany, howmany, []) else (howmany, howmany_max, best).
(** iterative.py:236-244, one turn of the outer loop; state (howmany_max, best_sets) *)
Definition best_sets_step (cast : list (poly F * poly F)) (indices : list nat) (st : nat * list (list nat)) (s : list nat) :=
  let '(_, hm, best) := fold_left (howmany_step indices) cast (0, fst st, snd st)%nat in (hm, best ++ [s]).
Definition best_sets (cast : list (poly F * poly F)) (indices : list nat) (possible : list (list nat)) : list (list nat) :=
  snd (fold_left (best_sets_step cast indices) possible (1%nat, [])).
(** [expolist[:,set].max(axis=0).sum()], iterative.py:250 *)
Definition col_max (i : nat) (p : poly F) : Z :=
  match ptm p with [] => 0%Z | t :: r => fold_left (fun m u => Z.max m (getZ i (fst u))) r (getZ i (fst t)) end.
Definition exposum (p : poly F) (s : list nat) : Z := fold_left (fun acc i => (acc + col_max i p)%Z) s 0%Z.
(** iterative.py:248-253; [None] is exposum_max = -inf *)
Definition pick_step (p : poly F) (st : option (Z * list nat)) (s : list nat) : option (Z * list nat) :=
  match st with
  | None => Some (exposum p s, s)
  | Some (m, b) => if Z.ltb m (exposum p s) then Some (exposum p s, s) else Some (m, b)
  end.
(** iterative.py:176-257 [find_singular_set] *)
Definition find_singular_set (s : sector) (indices : list nat) : fss_result :=
  match get_poly_to_transform (scast s) indices with
  | None => EndOfDecomposition
  | Some p =>
      let possible := possible_sets_loop p (match powerset indices 2 1 with Some l => l | None => [] end) [] in
      match possible with
      | [] => AssertFailed
      | _ => match fold_left (pick_step p) (best_sets (scast s) indices possible) None with
             | None => AssertFailed
             | Some (_, b) => Found b
             end
      end
  end.

(** iterative.py:290-293: [item[0],item[i] = item[i],item[0]] *)
Definition swap0 (l : list nat) (i : nat) : list nat :=
  match l with [] => [] | a :: _ => upd 0 (nth i l a) (upd i a l) end.
Definition subsector_sets (set : list nat) : list (list nat) := map (swap0 set) (seq 0 (length set)).

(** iterative.py:296-304, one subsector.  [subsector.Jacobian] is both the first argument and the last of the
    polynomials, so it is remapped first and then multiplied. *)
Definition subsector (s : sector) (sp : list nat) : sector :=
  mkSector (map (fun c => refactorize (remap_poly sp (fst c), remap_poly sp (snd c)) (match sp with [] => [] | a :: _ => [a] end)) (scast s))
           (map (remap_poly sp) (sother s))
           (remap_jac sp (remap_poly sp (sjac s))).

(** iterative.py:259-304 [iteration_step] *)
Inductive step_result : Type := Subsectors (l : list sector) | StepEnd | StepFailed.
Definition iteration_step (s : sector) (indices : list nat) : step_result :=
  match find_singular_set s indices with
  | Found set => Subsectors (map (subsector s) (subsector_sets set))
  | EndOfDecomposition => StepEnd
  | AssertFailed => StepFailed
  end.

(** iterative.py:306-334 [iterative_decomposition].  The recursion is bounded by [fuel]; [None]: an assertion failed or
    the fuel was used up (the python generator need not terminate). *)
Fixpoint iterative_decomposition (fuel : nat) (s : sector) (indices : list nat) : option (list sector) :=
  match fuel with
  | O => None
  | S f => match iteration_step s indices with
           | StepEnd => Some [s]
           | StepFailed => None
           | Subsectors l =>
               fold_right (fun sub acc => match iterative_decomposition f sub indices, acc with
                                          | Some a, Some b => Some (a ++ b) | _, _ => None end) (Some []) l
           end
  end.
End Sector.
Arguments mkSector {F} _ _ _. Arguments scast {F} _. Arguments sother {F} _. Arguments sjac {F} _.
Arguments sector_nv {F} _. Arguments make_sector {F} _ _ _. Arguments zero_col {F} _ _. Arguments delete_col {F} _ _.
Arguments primary_decomposition_polynomial {F} _ _. Arguments primary_decomposition {F} _ _.
Arguments add_col {F} _ _ _. Arguments remap_poly {F} _ _. Arguments remap_jac {F} _ _. Arguments remap_parameters {F} _ _ _.
Arguments get_poly_to_transform {F} _ _. Arguments possible_sets_loop {F} _ _ _. Arguments howmany_step {F} _ _ _.
Arguments best_sets_step {F} _ _ _ _. Arguments best_sets {F} _ _ _. Arguments col_max {F} _ _. Arguments exposum {F} _ _.
Arguments pick_step {F} _ _ _. Arguments find_singular_set {F} _ _. Arguments subsector {F} _ _.
Arguments iteration_step {F} _ _. Arguments iterative_decomposition {F} _ _ _.
Arguments Subsectors {F} _. Arguments StepEnd {F}. Arguments StepFailed {F}.
