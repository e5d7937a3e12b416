(** Model of /repo/pySecDec/decomposition/geometric.py, of the python part of polytope.py and of the polynomial part of
    make_regions.py.  The executable [normaliz] is not modelled: its outputs (vertices, facets, equations,
    triangulations) are arguments. *)
From Verif Require Export SectorModel.
From Verif Require DetModel.

(** [np.dot] of two integer vectors *)
Definition dotZ (a b : list Z) : Z := fold_right Z.add 0%Z (map (fun p => (fst p * snd p)%Z) (combine a b)).
Definition colZ (j : nat) (T : list (list Z)) : list Z := map (getZ j) T.
(** [expolist.dot(T)] on one row, [T] with [m] columns *)
Definition row_mul (m : nat) (e : list Z) (T : list (list Z)) : list Z := map (fun j => dotZ e (colZ j T)) (seq 0 m).
(** [T.sum(axis=0)] *)
Definition col_sums (m : nat) (T : list (list Z)) : list Z := map (fun j => fold_right Z.add 0%Z (colZ j T)) (seq 0 m).
(** [row[idx]] *)
Definition take_cols (idx : list nat) (r : list Z) : list Z := map (fun i => getZ i r) idx.
(** [row[idx] = vals] *)
Definition put_cols (idx : list nat) (vals r : list Z) : list Z :=
  fold_left (fun acc q => upd (fst q) (snd q) acc) (combine idx vals) r.
(** one row of [np.identity(n)] *)
Definition unit_row (n i : nat) : list Z := upd i 1%Z (zrow n).
Definition identity_matrix (n : nat) : list (list Z) := map (unit_row n) (seq 0 n).
Fixpoint index_of (i : nat) (l : list nat) : option nat :=
  match l with [] => None | a :: r => if Nat.eqb a i then Some 0%nat else option_map S (index_of i r) end.
(** [M.T] for a matrix with [m] columns *)
Definition transposeZ (m : nat) (M : list (list Z)) : list (list Z) := map (fun j => colZ j M) (seq 0 m).

(** geometric.py:213-215 and 305-308, [int(abs(np.linalg.det(cone)) + 0.5)]: numpy's floating point determinant is
    modelled by the exact one *)
Definition abs_det (cone : list (list Z)) : Z :=
  match DetModel.det 0%Z Z.add Z.sub Z.mul cone with Some d => Z.abs d | None => 1%Z end.

(** python's negative indices *)
Definition norm_index (n : nat) (i : Z) : nat := Z.to_nat (if Z.ltb i 0 then Z.of_nat n + i else i).

Section Geo.
Variable F : Fld.
Local Open Scope fld_scope.
Notation Poly := (poly F).

(** geometric.py:15-43 [Cheng_Wu] *)
Definition Cheng_Wu (s : sector F) (index : Z) : sector F :=
  let remove := negb (Nat.eqb (sector_nv s) 1) in
  let i := norm_index (sector_nv s) index in
  let r (p : Poly) := preplace p i 1 remove in
  mkSector (map (fun c => (r (fst c), r (snd c))) (scast s)) (map r (sother s)) (r (sjac s)).

(** geometric.py:91-128 [transform_variables]; [m] is [transformation.shape[-1]] *)
Definition transform_variables (p : Poly) (m : nat) (T : list (list Z)) : Poly :=
  mkPoly m (map (fun t => (row_mul m (fst t) T, snd t)) (ptm p)).

(** [poly.expolist[:,indices]] (geometric.py:177-189) *)
Definition restrict_poly (indices : list nat) (p : Poly) : Poly :=
  mkPoly (length indices) (map (fun t => (take_cols indices (fst t), snd t)) (ptm p)).

(** geometric.py:299-303: identity with the block [cone] in the rows and columns [indices] *)
Definition block_transformation (n : nat) (indices : list nat) (cone : list (list Z)) : list (list Z) :=
  map (fun i => match index_of i indices with
                | Some a => put_cols indices (nth a cone []) (unit_row n i)
                | None => unit_row n i
                end) (seq 0 n).

(** geometric.py:297-328 [make_sector_ku]; the product of the Jacobian with the monomial cannot fail, the error case
    keeps the Jacobian *)
Definition make_sector_ku (original : sector F) (indices : list nat) (cone : list (list Z)) : sector F :=
  let n := sector_nv original in
  let T := block_transformation n indices cone in
  let tr p := transform_variables p n T in
  let jac := pmul_num (tr (sjac original)) (zF (abs_det cone)) in
  mkSector (map (fun c => refactorize (tr (fst c), tr (snd c)) []) (scast original))
           (map tr (sother original))
           (match pmul jac (mkPoly n [(map (fun k => (k - 1)%Z) (col_sums n T), 1)]) with Some j => j | None => jac end).

(** [output.expolist[:,indices] = resulting.expolist[:,cone_indices]] (geometric.py:221-227); numpy broadcasts a single
    row and raises ValueError when the numbers of rows differ otherwise *)
Definition assign_cols (indices cone_indices : list nat) (output resulting : Poly) : option Poly :=
  let rows := map (fun t => take_cols cone_indices (fst t)) (ptm resulting) in
  let put (q : term F * list Z) := (put_cols indices (snd q) (fst (fst q)), snd (fst q)) in
  if Nat.eqb (length rows) (length (ptm output)) then Some (mkPoly (pnv output) (map put (combine (ptm output) rows)))
  else match rows with
       | [r] => Some (mkPoly (pnv output) (map (fun t => put (t, r)) (ptm output)))
       | _ => None
       end.
Fixpoint all_some {A} (l : list (option A)) : option (list A) :=
  match l with
  | [] => Some []
  | Some a :: r => option_map (cons a) (all_some r)
  | None :: _ => None
  end.
(** geometric.py:196-208 the transformed [sector] and 210-232 [make_sector]; [T] is [transformation] (one column per
    facet, [m] facets), [cone] the [dim] rays *)
Definition make_sector_geo (original : sector F) (indices : list nat) (m : nat) (T : list (list Z))
    (cone_indices : list nat) (cone : list (list Z)) : option (sector F) :=
  let tr p := transform_variables (restrict_poly indices p) m T in
  let out p := assign_cols indices cone_indices p (tr p) in
  let jac_t := pmul (tr (sjac original)) (mkPoly m [(map (fun k => (k - 1)%Z) (col_sums m T), 1)]) in
  let jac0 := pmul_num (sjac original) (zF (abs_det cone)) in
  match all_some (map (fun c => match out (fst c), out (snd c) with
                                | Some a, Some b => Some (refactorize (a, b) [])
                                | _, _ => None end) (scast original)),
        all_some (map out (sother original)),
        match jac_t with Some j => assign_cols indices cone_indices jac0 j | None => None end with
  | Some c, Some o, Some j => Some (mkSector c o j)
  | _, _, _ => None
  end.

(** polytope.py:17-40 [convex_hull] for a nonempty list of polynomials, [None] otherwise (the integer 1 has no
    [expolist]); the integer coefficients are elements of the field *)
Definition ones (p : Poly) : Poly := mkPoly (pnv p) (map (fun t => (fst t, 1)) (ptm p)).
Definition convex_hull (ps : list Poly) : option (list (list Z)) :=
  match ps with
  | [] => None
  | p0 :: ps' =>
      match fold_left (fun acc p => match acc with Some a => pmul a (ones p) | None => None end) ps'
                      (Some (pmul_num (ones p0) 1)) with
      | Some prod => Some (map fst (filter (fun t => feqb (snd t) 1) (ptm prod)))
      | None => None
      end
  end.

(** [itertools.product] *)
Fixpoint product_lists {A} (ls : list (list A)) : list (list A) :=
  match ls with [] => [[]] | l :: r => flat_map (fun a => map (cons a) (product_lists r)) l end.

(** geometric.py:65-87: the rows (hyperplanes) of one cone of [generate_fan], for the chosen terms [factor] *)
Definition fan_rows (ps : list Poly) (factor : list (list Z)) : list (list Z) :=
  flat_map (fun q => map (fun t => row_sub (fst t) (snd q)) (ptm (fst q))) (combine ps factor).
Definition bad_hyperplane (h : list Z) : bool :=
  (Nat.ltb 1 (length h) && forallb (fun k => Z.ltb 0 k) h) || forallb (fun k => Z.eqb k 0) h.
Definition fan_cone (n : nat) (ps : list Poly) (factor : list (list Z)) : option (list (list Z)) :=
  match psub_or_add false (mkPoly n (map (fun r => (r, 1 : car F)) (fan_rows ps factor)))
                    (mkPoly n (map (fun r => (r, 1 : car F)) (identity_matrix n))) with
  | Some cp => Some (map fst (ptm (psimplify (mkPoly n (map (fun t : term F => (fst t, if bad_hyperplane (fst t) then 0 else snd t)) (ptm cp))))))
  | None => None
  end.
Definition keep_cone (n : nat) (cone : list (list Z)) : bool :=
  Nat.leb n (length cone)
  && negb (existsb (fun h => forallb (fun k => Z.ltb k 0) h) cone)
  && negb (existsb (fun h => existsb (fun g => forallb (fun q => Z.eqb (- fst q) (snd q)) (combine h g)) cone) cone).
(** geometric.py:47-88 [generate_fan] *)
Definition generate_fan (ps : list Poly) : list (list (list Z)) :=
  let n := match ps with [] => 0%nat | p :: _ => pnv p end in
  filter (keep_cone n)
    (flat_map (fun f => match fan_cone n ps f with Some c => [c] | None => [] end)
              (product_lists (map (fun p => map fst (ptm p)) ps))).

(** polytope.py:345-363 [vertex_incidence_lists]; a facet row is the normal vector followed by the constant *)
Definition vertex_incidence_lists (vertices facets : list (list Z)) : list (list Z * list nat) :=
  map (fun v => (v, filter (fun k => Z.eqb (dotZ v (removelast (nth k facets [])) + last (nth k facets []) 0%Z) 0)
                           (seq 0 (length facets)))) vertices.

(** geometric.py:239-242: position of a ray among the columns of [transformation] *)
Definition find_row (v : list Z) (rows : list (list Z)) : nat :=
  match find (fun k => roweqb v (nth k rows [])) (seq 0 (length rows)) with Some k => k | None => length rows end.

(** geometric.py:131-248 [geometric_decomposition]; [vertices], [facets] and [triangulate] come from normaliz, equations
    are empty (otherwise NotImplementedError) *)
Definition geometric_decomposition (s : sector F) (indices : list nat) (vertices facets : list (list Z))
    (triangulate : list (list Z) -> list (list (list Z))) : list (option (sector F)) :=
  let dim := length indices in
  let m := length facets in
  let normals := map (@removelast Z) facets in
  let T := transposeZ dim normals in
  flat_map (fun vi =>
    let cone := map (fun k => nth k normals []) (snd vi) in
    if Nat.eqb (length (snd vi)) dim then [make_sector_geo s indices m T (snd vi) cone]
    else map (fun tc => make_sector_geo s indices m T (map (fun v => find_row v normals) tc) tc) (triangulate cone))
    (vertex_incidence_lists vertices facets).

(** geometric.py:251-336 [geometric_decomposition_ku]; [dual] are the simplicial cones of the dual cone found by normaliz
    (a list of rays each) *)
Definition geometric_decomposition_ku (s : sector F) (indices : list nat) (dual : list (list Z) -> list (list (list Z))) : list (sector F) :=
  flat_map (fun cone => map (fun dc => make_sector_ku s indices (transposeZ (length indices) dc))
                            (filter (fun dc => Nat.eqb (length dc) (length indices)) (dual cone)))
           (generate_fan (map (fun c => restrict_poly indices (snd c)) (scast s))).

(** make_regions.py:177-212 [apply_region] on one polynomial *)
Definition apply_region (i : nat) (region : list Z) (p : Poly) : Poly :=
  mkPoly (pnv p) (map (fun t => (upd i (dotZ (fst t) region) (fst t), snd t)) (ptm p)).

(** make_regions.py:157-170: facets selected by the sign of the smallness parameter's component; [fi] is its position in
    a facet, [ei] in an equation (an equation row still has its constant when it is indexed) *)
Definition select_regions (fi ei : nat) (facets equations : list (list Z)) : option (list (list Z)) :=
  match (match equations with
         | [] => Some (map (@removelast Z) facets)
         | [eqn] => let t := getZ ei eqn in
                    if Z.ltb 0 t then Some [removelast eqn]
                    else if Z.ltb t 0 then Some [map Z.opp (removelast eqn)] else None
         | _ => None
         end) with
  | Some fs => Some (filter (fun f => Z.ltb 0 (getZ fi f)) fs)
  | None => None
  end.
(** make_regions.py:173 [[next(region) if i in indices else 0 for i in range(dim)]] *)
Fixpoint embed_row (is_ : list nat) (indices : list nat) (r : list Z) : list Z :=
  match is_ with
  | [] => []
  | i :: rest => if existsb (Nat.eqb i) indices then hd 0%Z r :: embed_row rest indices (tl r) else 0%Z :: embed_row rest indices r
  end.
(** make_regions.py:99-175 [find_regions]; [dim] is the number of variables of the polynomial, [facets] and [equations]
    are the output of normaliz for the exponent vectors restricted to [indices]; [None]: an exception *)
Definition find_regions (dim : nat) (exp_param_index : Z) (indices : option (list nat)) (facets equations : list (list Z)) : option (list (list Z)) :=
  match indices with
  | None => select_regions (norm_index dim exp_param_index) (norm_index (S dim) exp_param_index) facets equations
  | Some ix => match index_of (norm_index dim exp_param_index) ix with
               | None => None
               | Some k => option_map (map (embed_row (seq 0 dim) ix)) (select_regions k k facets equations)
               end
  end.
End Geo.
Arguments Cheng_Wu {F} _ _. Arguments transform_variables {F} _ _ _. Arguments restrict_poly {F} _ _.
Arguments make_sector_ku {F} _ _ _. Arguments assign_cols {F} _ _ _ _. Arguments make_sector_geo {F} _ _ _ _ _ _.
Arguments ones {F} _. Arguments convex_hull {F} _. Arguments generate_fan {F} _. Arguments fan_rows {F} _ _. Arguments fan_cone {F} _ _ _.
Arguments geometric_decomposition {F} _ _ _ _ _. Arguments geometric_decomposition_ku {F} _ _ _. Arguments apply_region {F} _ _ _.
