(** Model of /repo/pySecDec/decomposition/splitting.py. *)
From Verif Require Export SectorModel.

Section Split.
Variable F : Fld.
Local Open Scope fld_scope.

(** splitting.py:55 [pow(-1,k) * math.factorial(n) // math.factorial(n-k) // math.factorial(k)] (python's [//] is the
    floor division [Z.div]) *)
Definition binomcoeff (n k : nat) : Z := ((-1) ^ Z.of_nat k * Z.of_nat (fact n) / Z.of_nat (fact (n - k)) / Z.of_nat (fact k))%Z.
(** splitting.py:52-56 [binompoly] *)
Definition binompoly (nv index n : nat) : poly F :=
  mkPoly nv (map (fun k => (upd index (Z.of_nat k) (zrow nv), zF (binomcoeff n k))) (seq 0 (n + 1))).
(** splitting.py:43-60, the terms arising from one term; [None] for a negative exponent ([np.zeros] or [factorial]
    raise, or the term would be lost) *)
Fixpoint remap_term_loop (nv : nat) (e : list Z) (termpoly : poly F) (indices : list nat) : option (poly F) :=
  match indices with
  | [] => Some termpoly
  | i :: r => if Z.ltb (getZ i e) 0 then None
              else match pmul termpoly (binompoly nv i (Z.to_nat (getZ i e))) with
                   | Some t => remap_term_loop nv e t r
                   | None => None
                   end
  end.
Definition remap_term (nv : nat) (indices : list nat) (t : term F) : option (poly F) :=
  remap_term_loop nv (fst t)
    (mkPoly nv [(map (fun m => if existsb (Nat.eqb m) indices then 0%Z else getZ m (fst t)) (seq 0 nv), snd t)]) indices.
Fixpoint remap_terms (nv : nat) (indices : list nat) (ts : list (term F)) : option (list (term F)) :=
  match ts with
  | [] => Some []
  | t :: r => match remap_term nv indices t, remap_terms nv indices r with
              | Some p, Some q => Some (ptm p ++ q)
              | _, _ => None
              end
  end.
(** splitting.py:17-75 [remap_one_to_zero]; the exponent of an [ExponentiatedPolynomial] is kept (not modelled) *)
Definition remap_one_to_zero (p : poly F) (indices : list nat) : option (poly F) :=
  match remap_terms (pnv p) indices (ptm p) with Some ts => Some (psimplify (mkPoly (pnv p) ts)) | None => None end.

(** splitting.py:77-105 [find_singular_sets_at_one] *)
Definition appears (p : poly F) (i : nat) : bool := existsb (fun t => negb (Z.eqb (getZ i (fst t)) 0)) (ptm p).
Definition set_one (set : list nat) (p : poly F) : poly F := psimplify (fold_left (fun q i => zero_col i q) set p).
Definition singular_at_one (p : poly F) (set : list nat) : bool :=
  let q := set_one set p in
  negb (has_constant_term q None) || (match ptm q with [t] => feqb (snd t) 0 | _ => false end).
Definition find_singular_sets_at_one (p : poly F) : list (list nat) :=
  filter (singular_at_one p)
    (match powerset (filter (appears p) (seq 0 (pnv p))) 0 1 with Some l => l | None => [] end).

(** splitting.py:174-176 [multiply_by]: the exponents are kept, the coefficients are those of [replace] *)
Definition multiply_by (p : poly F) (v : F) (i : nat) : poly F :=
  mkPoly (pnv p) (combine (map fst (ptm p)) (map snd (ptm (preplace p i v false)))).
(** splitting.py:154-163, one product *)
Definition remap_cast (i : nat) (c : poly F * poly F) : option (poly F * poly F) :=
  let k := match ptm (fst c) with t :: _ => getZ i (fst t) | [] => 0%Z end in
  match remap_one_to_zero (shift_col i k (snd c)) [i] with
  | Some p => Some (refactorize (zero_col i (fst c), p) [i])
  | None => None
  end.
Fixpoint all_some {A} (l : list (option A)) : option (list A) :=
  match l with
  | [] => Some []
  | o :: r => match o, all_some r with Some a, Some b => Some (a :: b) | _, _ => None end
  end.
(** splitting.py:150-171: [subsector1] before rescaling.  [Sector(remapped_cast, ...)] keeps the products as they are
    (common.py:56-72) *)
Definition flip_sector (i : nat) (s : sector F) : option (sector F) :=
  match all_some (map (remap_cast i) (scast s)), all_some (map (fun p => remap_one_to_zero p [i]) (sother s)), remap_one_to_zero (sjac s) [i] with
  | Some c, Some o, Some j => Some (mkSector c o j)
  | _, _, _ => None
  end.
(** splitting.py:178-189, one subsector *)
Definition rescale_sector (i : nat) (v : F) (s : sector F) : sector F :=
  mkSector (map (fun c => (multiply_by (fst c) v i, multiply_by (snd c) v i)) (scast s))
           (map (fun p => multiply_by p v i) (sother s))
           (multiply_by (pmul_num (sjac s) v) v i).
(** splitting.py:109-195 [split]; [points] are the splitting values.  Simplification: numpy's random number generator
    is not modelled, the values are an argument. *)
Fixpoint split_recursively (s : sector F) (indices : list nat) (points : list F) : option (list (sector F)) :=
  match indices, points with
  | [], _ => Some [s]
  | i :: ix, v :: vs =>
      match flip_sector i s with
      | None => None
      | Some s1 =>
          match split_recursively (rescale_sector i v s) ix vs, split_recursively (rescale_sector i (1 - v) s1) ix vs with
          | Some a, Some b => Some (a ++ b)
          | _, _ => None
          end
      end
  | _ :: _, [] => None
  end.

(** splitting.py:198-239 [split_singular], the parameters to be split: [set.update], [intersection_update] if
    [indices] is not empty, [sort] *)
Definition singular_parameters (s : sector F) (indices : list nat) : list nat :=
  let all := flat_map (fun c => concat (find_singular_sets_at_one (snd c))) (scast s) in
  filter (fun i => existsb (Nat.eqb i) all && (match indices with [] => true | _ => existsb (Nat.eqb i) indices end))
         (seq 0 (sector_nv s)).
End Split.
Arguments binompoly {F} _ _ _. Arguments remap_term {F} _ _ _. Arguments remap_terms {F} _ _ _. Arguments remap_term_loop {F} _ _ _ _.
Arguments remap_one_to_zero {F} _ _. Arguments appears {F} _ _. Arguments set_one {F} _ _. Arguments singular_at_one {F} _ _.
Arguments find_singular_sets_at_one {F} _. Arguments multiply_by {F} _ _ _. Arguments remap_cast {F} _ _. Arguments flip_sector {F} _ _.
Arguments rescale_sector {F} _ _ _. Arguments split_recursively {F} _ _ _. Arguments singular_parameters {F} _ _.
