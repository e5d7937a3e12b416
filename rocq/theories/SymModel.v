(** Model of the symmetry finder in /repo/pySecDec/decomposition/common.py (lines 124-713). *)
From Verif Require Export SectorModel MatSortModel.

(** ** common.py:169-205 [_collision_safe_hash] *)
Section Hash.
Context {X : Type}.
Variable xdec : forall a b : X, {a = b} + {a <> b}.

(** [len(set(l))] *)
Definition n_distinct {Y} (dec : forall a b : Y, {a = b} + {a <> b}) (l : list Y) : nat := length (nodup dec l).
(** common.py:190-197: the index at which the search loop stops; without [break] it is the last index *)
Fixpoint find_collision (objs : list X) (hashes : list Z) (i : nat) : nat :=
  match objs, hashes with
  | o :: objs', h :: hashes' =>
      if (if in_dec Z.eq_dec h hashes' then true else false) && negb (if in_dec xdec o objs' then true else false) then i
      else match objs' with [] => i | _ => find_collision objs' hashes' (S i) end
  | _, _ => i
  end.
(** common.py:200 [hashes[np.where(objects == objects[i])] += 1] *)
Definition bump (objs : list X) (hashes : list Z) (i : nat) : list Z :=
  match nth_error objs i with
  | Some a => map (fun p => if xdec (fst p) a then (snd p + 1)%Z else snd p) (combine objs hashes)
  | None => hashes
  end.
(** common.py:188-203 the loop; [None]: fuel used up *)
Fixpoint hash_loop (fuel : nat) (objs : list X) (hashes : list Z) : option (list Z) :=
  if Nat.eqb (n_distinct xdec objs) (n_distinct Z.eq_dec hashes) then Some hashes
  else match fuel with O => None | S f => hash_loop f objs (bump objs hashes (find_collision objs hashes 0)) end.
(** [hash] is the built-in hash function.  Simplification: the addition does not overflow *)
Definition collision_safe_hash (fuel : nat) (hash : X -> Z) (objs : list X) : option (list Z) := hash_loop fuel objs (map hash objs).
End Hash.

(** ** sectors as arrays *)
Section Sym.
Variable F : Fld.
Local Open Scope fld_scope.
Variable E : Type.                                     (* exponents of ExponentiatedPolynomials *)
Variable edec : forall a b : E, {a = b} + {a <> b}.

(** A sector whose polynomials may carry exponents: [None] for type [Polynomial], [Some e] for
    [ExponentiatedPolynomial] (common.py:149, 159). *)
Record xsector : Type := mkX { xs : sector F; xcast : list (option E); xother : list (option E) }.

(** The coefficients of the combined array.  [JacOne]: the coefficient 1 of the Jacobian (common.py:139); [Tagged]: a
    coefficient multiplied with the symbols SecDecInternalCast(index) or SecDecInternalOther(index) and
    SecDecInternalExponent(exponent) (common.py:149-162), and with the powers of the variables that
    [_remove_variables] moved to it (common.py:556-575); a product with zero is zero, [Zero]. *)
Inductive tag : Type := TCast (i : nat) (e : option E) | TOther (i : nat) (e : option E).
Inductive cobj : Type := JacOne | Zero | Tagged (t : tag) (c : F) (removed : list Z).
Lemma cobj_dec : forall a b : cobj, {a = b} + {a <> b}.
Proof.
  assert (Ho : forall a b : option E, {a = b} + {a <> b}) by (decide equality).
  assert (Ht : forall a b : tag, {a = b} + {a <> b}) by (decide equality; apply Nat.eq_dec).
  assert (Hc : forall a b : F, {a = b} + {a <> b}).
  { intros a b. destruct (feqb a b) eqn:H; [left; apply feqb_spec, H|right; intros ->; rewrite (proj2 (feqb_spec F b b) eq_refl) in H; discriminate]. }
  decide equality. apply list_eq_dec, Z.eq_dec.
Defined.
Definition tagged (t : tag) (c : F) (removed : list Z) : cobj := if feqb c 0 then Zero else Tagged t c removed.

(** common.py:562 [all_indices - set(indices_to_keep)]: the columns that stay and the removed ones *)
Definition keep_cols (n : nat) (indices : option (list nat)) : list nat :=
  match indices with None => seq 0 n | Some ix => filter (fun j => existsb (Nat.eqb j) ix) (seq 0 n) end.
Definition drop_cols (n : nat) (indices : option (list nat)) : list nat :=
  match indices with None => [] | Some ix => filter (fun j => negb (existsb (Nat.eqb j) ix)) (seq 0 n) end.
Definition cols (js : list nat) (e : list Z) : list Z := map (fun j => getZ j e) js.

(** common.py:143-146: the product multiplied out *)
Definition expand_product (c : poly F * poly F) : list (term F) :=
  match ptm (fst c) with
  | [] => []
  | m :: _ => map (fun t => (row_add (fst t) (fst m), snd t * snd m)) (ptm (snd c))
  end.
Definition rows_of (kc dc : list nat) (t : tag) (ts : list (term F)) : list (cobj * list Z) :=
  map (fun u => (tagged t (snd u) (cols dc (fst u)), cols kc (fst u))) ts.
(** common.py:126-166 [_sector2array], applied to the sector after [_remove_variables]: pairs (coefficient, exponents).
    The variables removed from the Jacobian go to its coefficient, which common.py:139 ignores.  Not modelled: a Jacobian
    with more than one term (error in hstack). *)
Definition sector2array (kc dc : list nat) (s : xsector) : list (cobj * list Z) :=
  map (fun t => (JacOne, cols kc (fst t))) (ptm (sjac (xs s)))
  ++ concat (map (fun q => rows_of kc dc (TCast (fst q) (snd (snd q))) (expand_product (fst (snd q))))
                 (combine (seq 0 (length (scast (xs s)))) (combine (scast (xs s)) (xcast s))))
  ++ concat (map (fun q => rows_of kc dc (TOther (fst q) (snd (snd q))) (ptm (fst (snd q))))
                 (combine (seq 0 (length (sother (xs s)))) (combine (sother (xs s)) (xother s)))).

(** [previous_sector.Jacobian.coeffs[0] += sector.Jacobian.coeffs[0]] (common.py:705) *)
Definition jac_coeff (s : xsector) : F := match ptm (sjac (xs s)) with [] => 0 | t :: _ => snd t end.
Definition set_jac (s : xsector) (c : F) : xsector :=
  mkX (mkSector (scast (xs s)) (sother (xs s))
        (match ptm (sjac (xs s)) with [] => sjac (xs s) | t :: r => mkPoly (pnv (sjac (xs s))) ((fst t, c) :: r) end)) (xcast s) (xother s).
Definition add_jac (s s' : xsector) : xsector := set_jac s (jac_coeff s + jac_coeff s').

(** common.py:697-711: the sectors in sorted order with their sorted arrays; neighbours with equal arrays are merged.
    Also common.py:487-535 with the comparison of hash and canonical graph. *)
Fixpoint merge {A} (eqA : A -> A -> bool) (prev : A * xsector) (l : list (A * xsector)) : list xsector :=
  match l with
  | [] => [snd prev]
  | p :: r => if eqA (fst p) (fst prev) then merge eqA (fst prev, add_jac (snd prev) (snd p)) r else snd prev :: merge eqA p r
  end.
Definition merge_all {A} (eqA : A -> A -> bool) (l : list (A * xsector)) : list xsector :=
  match l with [] => [] | p :: r => merge eqA p r end.
(** cut a flat list into pieces of the given lengths ([reshape], common.py:676) *)
Fixpoint split_lengths {A} (ns : list nat) (l : list A) : list (list A) :=
  match ns with [] => [] | n :: r => firstn n l :: split_lengths r (skipn n l) end.
Definition arr_eqb (a b : list (list Z)) : bool := if list_eq_dec (list_eq_dec Z.eq_dec) a b then true else false.

(** common.py:577-713 [squash_symmetry_redundant_sectors_sort].  [None]: no sectors (IndexError), sectors with different
    numbers of terms (numpy cannot stack them), or fuel used up in the hash loop.  [n]: number of variables. *)
Definition squash_sort (fuel : nat) (hash : cobj -> Z) (sort_function : list (list Z) -> list (list Z)) (n : nat)
  (indices : option (list nat)) (sectors : list xsector) : option (list xsector) :=
  let kc := keep_cols n indices in let dc := drop_cols n indices in
  let arrays := map (sector2array kc dc) sectors in
  match sectors with
  | [] => None
  | s0 :: _ =>
      if forallb (fun a => Nat.eqb (length a) (length (sector2array kc dc s0))) arrays then
        match collision_safe_hash cobj_dec fuel hash (map fst (concat arrays)) with
        | None => None
        | Some hs =>
            let hss := split_lengths (map (@length _) arrays) hs in
            let sorted := map (fun p => sort_function (map (fun q => fst q :: snd (snd q)) (combine (fst p) (snd p)))) (combine hss arrays) in
            Some (merge_all arr_eqb (gather (combine sorted sectors) (argsort_3D sorted)))
        end
      else None
  end.
(** common.py:348-537 [squash_symmetry_redundant_sectors_dreadnaut]: [hash] and [canon] are what dreadnaut reports for the
    graph of the sector, [order] the permutation found by [np.argsort] of the hashes *)
Definition squash_dreadnaut {H G : Type} (heqb : H -> H -> bool) (geqb : G -> G -> bool) (report : xsector -> H * G)
  (order : list nat) (sectors : list xsector) : list xsector :=
  merge_all (fun a b => heqb (fst a) (fst b) && geqb (snd a) (snd b)) (gather (combine (map report sectors) sectors) order).
End Sym.
Arguments mkX {F E} _ _ _. Arguments xs {F E} _. Arguments xcast {F E} _. Arguments xother {F E} _.
Arguments JacOne {F E}. Arguments Zero {F E}. Arguments Tagged {F E} _ _ _. Arguments tagged {F E} _ _ _.
Arguments TCast {E} _ _. Arguments TOther {E} _ _. Arguments rows_of {F E} _ _ _ _. Arguments sector2array {F E} _ _ _.
Arguments expand_product {F} _. Arguments jac_coeff {F E} _. Arguments set_jac {F E} _ _. Arguments add_jac {F E} _ _.
Arguments merge {F E A} _ _ _. Arguments merge_all {F E A} _ _. Arguments squash_sort {F E} _ _ _ _ _ _ _. Arguments squash_dreadnaut {F E H G} _ _ _ _ _.
Arguments cobj_dec {F E} _ _ _.

(** ** common.py:207-345 [_array_to_dreadnaut]: the graph written to the file *)
Section Dread.
Context {C : Type}.
Variable cdec : forall a b : C, {a = b} + {a <> b}.
(** position in the list of unique values ([None]: absent) *)
Fixpoint index_of {X} (dec : forall a b : X, {a = b} + {a <> b}) (x : X) (l : list X) : option nat :=
  match l with [] => None | y :: r => if dec x y then Some 0 else option_map S (index_of dec x r) end.
(** the edges in the order of the file; lines 283-334.  An exponent missing in [uexp] gives the text "None", not
    modelled: no edge *)
Definition dread_edges (ncols : nat) (expolist : list (list Z)) (coeffs : list C) (uexp : list Z) (ucoeff : list C) : list (nat * nat) :=
  let rows := length expolist in let elements := rows * ncols in
  flat_map (fun c => map (fun r => (c, c + ncols + rows + r * ncols)) (seq 0 rows)) (seq 0 ncols)
  ++ flat_map (fun r => map (fun c => (ncols + r, r * ncols + ncols + rows + c)) (seq 0 ncols)) (seq 0 rows)
  ++ flat_map (fun q => match index_of Z.eq_dec (snd q) uexp with Some k => [(ncols + rows + fst q, ncols + rows + elements + k)] | None => [] end)
       (combine (seq 0 elements) (concat expolist))
  ++ flat_map (fun k => flat_map (fun q => match nth_error ucoeff k with
                                           | Some u => if cdec (snd q) u then [(ncols + rows + elements + length uexp + k, ncols + fst q)] else []
                                           | None => [] end) (combine (seq 0 rows) coeffs))
       (seq 0 (length ucoeff)).
(** number of vertices; line 276 *)
Definition dread_n (ncols : nat) (expolist : list (list Z)) (uexp : list Z) (ucoeff : list C) : nat :=
  ncols + length expolist + length expolist * ncols + length uexp + length ucoeff.
(** the cell of a vertex; lines 337-345 *)
Definition dread_colour (ncols : nat) (expolist : list (list Z)) (v : nat) : nat :=
  let rows := length expolist in
  if v <? ncols then 0 else if v <? ncols + rows then 1 else if v <? ncols + rows + rows * ncols then 2
  else 3 + (v - (ncols + rows + rows * ncols)).
End Dread.
