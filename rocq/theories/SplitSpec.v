(** Specification vocabulary for interval splitting. *)
From Verif Require Export SectorSpec SplitModel.

Section Spec.
Variable F : Fld.
Local Open Scope fld_scope.
(** the point with the coordinates of [ix] replaced by one minus their value *)
Definition flip_coords (ix : list nat) (x : list F) : list F :=
  map (fun j => if existsb (Nat.eqb j) ix then 1 - nth j x 0 else nth j x 0) (seq 0 (length x)).
(** the two maps of the unit interval onto [0,v] and [v,1] *)
Definition split_map (v : F) (right : bool) (t : F) : F := if right then 1 - (1 - v) * t else v * t.
Definition split_scale (v : F) (right : bool) : F := if right then 1 - v else v.
(** all choices left/right, in the order of the recursion: the first index varies slowest *)
Fixpoint choices (k : nat) : list (list bool) :=
  match k with O => [[]] | S j => map (cons false) (choices j) ++ map (cons true) (choices j) end.
(** the point with coordinate [i] mapped according to the choice, for all the indices *)
Fixpoint split_point (ix : list nat) (vs : list F) (cs : list bool) (y : list F) : list F :=
  match ix, vs, cs with
  | i :: ix', v :: vs', c :: cs' => let z := split_point ix' vs' cs' y in set_coord i (split_map v c (nth i z 0)) z
  | _, _, _ => y
  end.
Fixpoint split_jac (vs : list F) (cs : list bool) : F :=
  match vs, cs with v :: vs', c :: cs' => split_scale v c * split_jac vs' cs' | _, _ => 1 end.
(** [s'] at every point [y] (zero coordinates included) is [s] at [phi y]; the Jacobian carries the factor [jac] *)
Definition sector_mapped (n : nat) (s s' : sector F) (phi : list F -> list F) (jac : F) : Prop :=
  forall y, length y = n ->
    Forall2 (fun c c' => peval (fst c') y * peval (snd c') y = peval (fst c) (phi y) * peval (snd c) (phi y)) (scast s) (scast s')
    /\ Forall2 (fun p p' => peval p' y = peval p (phi y)) (sother s) (sother s')
    /\ peval (sjac s') y = peval (sjac s) (phi y) * jac.
(** the factored-out monomials have one term *)
Definition smono (s : sector F) : Prop := Forall (fun c => length (ptm (fst c)) = 1%nat) (scast s).
End Spec.
Arguments flip_coords {F} _ _. Arguments split_map {F} _ _ _. Arguments split_scale {F} _ _. Arguments split_point {F} _ _ _ _.
Arguments split_jac {F} _ _. Arguments sector_mapped {F} _ _ _ _ _. Arguments smono {F} _.
