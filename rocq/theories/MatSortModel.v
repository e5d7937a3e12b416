(** Model of /repo/pySecDec/matrix_sort.py.  A matrix is the list of its rows together with the number [w] of columns
    ([matrix.shape[1]]); the functions modifying their argument in place return the new matrix. *)
From Verif Require Export SortModel PolyModel.

(** [m[:, j]] *)
Definition column (j : nat) (m : list (list Z)) : list Z := map (fun r => getZ j r) m.
(** rows of [m.T] *)
Definition transpose (w : nat) (m : list (list Z)) : list (list Z) := map (fun j => column j m) (seq 0 w).
(** [m[argsort_2D_array(m)]] *)
Definition sort_rows (m : list (list Z)) : list (list Z) := gather m (argsort_2D m).

(** matrix_sort.py:34-46, one turn of the loop: the new matrix and the two sort keys.
    [matrix[:,1:] = matrix[:,1:][:,key]] *)
Definition iter_turn (w : nat) (m : list (list Z)) : list (list Z) * (list nat * list nat) :=
  let key0 := argsort_2D m in
  let m1 := gather m key0 in
  let key1 := argsort_2D (tl (transpose w m1)) in
  (map (fun r => getZ 0 r :: map (fun k => getZ (S k) r) key1) m1, (key0, key1)).
(** [np.array_equal(key, np.arange(n))] *)
Definition is_arange (key : list nat) (n : nat) : bool := forallb (fun p => Nat.eqb (fst p) (snd p)) (combine key (seq 0 n)) && Nat.eqb (length key) n.
(** matrix_sort.py:14-46 [iterative_sort]; [None]: fuel used up.  A matrix without columns is not modelled (numpy raises in [matrix.T[1:]]'s sort) *)
Fixpoint iterative_sort (fuel w : nat) (m : list (list Z)) : option (list (list Z)) :=
  match fuel with
  | O => None
  | S f => let '(m', (k0, k1)) := iter_turn w m in
           if is_arange k0 (length m) && is_arange k1 (w - 1) then Some m' else iterative_sort f w m'
  end.

(** matrix_sort.py:88-92: exchange of the columns [i] and [j], then sorting of the rows *)
Definition swap_cols (i j : nat) (m : list (list Z)) : list (list Z) := map (fun r => upd j (getZ i r) (upd i (getZ j r) r)) m.
Definition swap_sort (i j : nat) (m : list (list Z)) : list (list Z) := sort_rows (swap_cols i j m).
(** matrix_sort.py:101-112: the matrices (in sorted order) while their column [i] equals that of the first one,
    without repetitions *)
Fixpoint pak_collect (i : nat) (first : list (list Z)) (l acc : list (list (list Z))) : list (list (list Z)) :=
  match l with
  | [] => acc
  | p :: r => if roweqb (column i p) (column i first)
              then pak_collect i first r (if existsb (fun q => if list_eq_dec (list_eq_dec Z.eq_dec) q p then true else false) acc then acc else acc ++ [p])
              else acc
  end.
(** matrix_sort.py:81-112, one index [i] *)
Definition pak_step (w i : nat) (remaining : list nat) (options : list (list (list Z))) : list (list (list Z)) :=
  let permutations := flat_map (fun m => map (fun j => swap_sort i j m) remaining) options in
  let sorted := gather permutations (argsort_3D (map (transpose w) permutations)) in
  match sorted with [] => [] | first :: _ => pak_collect i first sorted [] end.
(** matrix_sort.py:79-112, one set of indices: [remaining_indices = set_of_indices[idx:]] *)
Fixpoint pak_group (w : nat) (group : list nat) (options : list (list (list Z))) : list (list (list Z)) :=
  match group with
  | [] => options
  | i :: r => pak_group w r (pak_step w i group options)
  end.
(** [sorted(...)] of the indices *)
Fixpoint insert_nat (a : nat) (l : list nat) : list nat := match l with [] => [a] | b :: r => if Nat.leb a b then a :: l else b :: insert_nat a r end.
Definition sort_nat (l : list nat) : list nat := fold_right insert_nat [] l.
(** matrix_sort.py:48-115 [Pak_sort]; [None]: no option left (cannot happen, [Pak_sort_total]) *)
Definition Pak_sort (w : nat) (indices : list (list nat)) (m : list (list Z)) : option (list (list Z)) :=
  let groups := match indices with [] => [seq 1 (w - 1)] | _ => map sort_nat indices end in
  match fold_left (fun o g => pak_group w g o) groups [m] with [] => None | o :: _ => Some o end.

(** matrix_sort.py:117-159 [light_Pak_sort] *)
Definition light_step (w : nat) (m : list (list Z)) (i : nat) : list (list Z) :=
  let permutations := map (fun j => swap_sort i j m) (seq i (w - i)) in
  nth (hd 0 (argsort_3D (map (transpose w) permutations))) permutations m.
Definition light_Pak_sort (w : nat) (m : list (list Z)) : list (list Z) := fold_left (light_step w) (seq 1 (w - 1)) m.
