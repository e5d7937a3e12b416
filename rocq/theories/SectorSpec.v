(** Specification vocabulary for sector decomposition. *)
From Verif Require Export PolySpec SectorModel MiscSpec.

Section Spec.
Variable F : Fld.
Local Open Scope fld_scope.

(** the substitution of one decomposition step, for the ordered set [a; b1; ..; bk]: x_bi -> x_a * x_bi *)
Definition sector_subst (sp : list nat) (x : list F) : list F :=
  match sp with
  | [] => x
  | a :: bs => map (fun j => if existsb (Nat.eqb j) bs then nth a x 0 * nth j x 0 else nth j x 0) (seq 0 (length x))
  end.
(** its Jacobian determinant x_a^k (see C24_jacobian_determinant) *)
Definition subst_jac (sp : list nat) (x : list F) : F :=
  match sp with [] => 1 | a :: bs => npow (nth a x 0) (length bs) end.

(** a sequence of steps, the first step outermost; chain rule for the determinant *)
Fixpoint path_subst (path : list (list nat)) (y : list F) : list F :=
  match path with [] => y | sp :: r => sector_subst sp (path_subst r y) end.
Fixpoint path_jac (path : list (list nat)) (y : list F) : F :=
  match path with [] => 1 | sp :: r => subst_jac sp (path_subst r y) * path_jac r y end.

(** the point where the value is taken: no coordinate zero, or no negative exponent anywhere *)
Definition eval_ok (p : poly F) (x : list F) : Prop := Forall (fun v => v <> 0) x \/ pnonneg p.

(** all polynomials of the sector have [n] variables and at least one term *)
Definition swf (n : nat) (s : sector F) : Prop :=
  Forall (fun p => pnv p = n /\ pwf p /\ ptm p <> []) (map fst (scast s) ++ map snd (scast s) ++ sother s ++ [sjac s]).
(** no variable of [indices] can be factored out of the polynomials to be cast *)
Definition srefactorized (indices : list nat) (s : sector F) : Prop :=
  Forall (fun c => Forall (fun i => col_min i (snd c) = 0%Z) indices) (scast s).
(** standard form: every polynomial to be cast is monomial * (const + ...) *)
Definition standard_form (indices : list nat) (s : sector F) : Prop :=
  Forall (fun c => exists t, In t (ptm (snd c)) /\ Forall (fun i => getZ i (fst t) = 0%Z) indices) (scast s).

(** [s'] at [y] is [s] at [phi y], the factored products being compared as products, and the Jacobian carries the
    additional factor [jac y] *)
Definition sector_transformed (n : nat) (s s' : sector F) (phi : list F -> list F) (jac : list F -> F) : Prop :=
  forall y, length y = n -> Forall (fun v => v <> 0) y ->
    Forall2 (fun c c' => peval (fst c') y * peval (snd c') y = peval (fst c) (phi y) * peval (snd c) (phi y)) (scast s) (scast s')
    /\ Forall2 (fun p p' => peval p' y = peval p (phi y)) (sother s) (sother s')
    /\ peval (sjac s') y = peval (sjac s) (phi y) * jac y.

(** the polynomial vanishes when the parameters of the set are zero: every monomial contains one of them *)
Definition nullifies (set : list nat) (p : poly F) : Prop :=
  Forall (fun t => exists i, In i set /\ (0 < getZ i (fst t))%Z) (ptm p).

(** the integrand of the sector with natural-number exponents [ks] for the products to be cast and [ls] for the other
    polynomials: prod (mono_i*poly_i)^k_i * prod other_j^l_j * Jacobian *)
Definition sector_value (ks ls : list nat) (s : sector F) (x : list F) : F :=
  prodF (map (fun q => npow (peval (fst (fst q)) x * peval (snd (fst q)) x) (snd q)) (combine (scast s) ks))
  * prodF (map (fun q => npow (peval (fst q) x) (snd q)) (combine (sother s) ls)) * peval (sjac s) x.
Definition snonneg (s : sector F) : Prop :=
  Forall pnonneg (map fst (scast s) ++ map snd (scast s) ++ sother s ++ [sjac s]).
End Spec.
Arguments sector_value {F} _ _ _ _. Arguments snonneg {F} _.
Arguments sector_subst {F} _ _. Arguments subst_jac {F} _ _. Arguments path_subst {F} _ _. Arguments path_jac {F} _ _.
Arguments eval_ok {F} _ _. Arguments swf {F} _ _. Arguments srefactorized {F} _ _. Arguments standard_form {F} _ _.
Arguments sector_transformed {F} _ _ _ _ _. Arguments nullifies {F} _ _.
