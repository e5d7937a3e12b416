(** Lexicographic order on integer rows and the stable sort used by
    /repo/pySecDec/misc.py:argsort_2D_array. *)
From Coq Require Export List ZArith Lia Bool Permutation.
Export ListNotations.

(** Comparison of two rows of an integer array, column by column: numpy's order on the
    record view created in misc.py:305 ([array.dtype = [('column0',..),...]]). *)
Fixpoint lexcmp (a b : list Z) : comparison :=
  match a, b with
  | [], [] => Eq
  | [], _ :: _ => Lt
  | _ :: _, [] => Gt
  | x :: a', y :: b' => match Z.compare x y with Eq => lexcmp a' b' | c => c end
  end.
Definition lexleb (a b : list Z) : bool := match lexcmp a b with Gt => false | _ => true end.
Definition lexltb (a b : list Z) : bool := match lexcmp a b with Lt => true | _ => false end.
(** the order as propositions (for statements) *)
Definition lexle (a b : list Z) : Prop := lexleb a b = true.
Definition lexlt (a b : list Z) : Prop := lexltb a b = true.
(** [(row1 == row2).all()] for rows of equal length, e.g. algebra.py:681 *)
Definition roweqb (a b : list Z) : bool := match lexcmp a b with Eq => true | _ => false end.

(** Insertion into a sorted list, in front of equal keys. *)
Fixpoint insert_by {A} (key : A -> list Z) (x : A) (l : list A) : list A :=
  match l with
  | [] => [x]
  | y :: r => if lexleb (key x) (key y) then x :: y :: r else y :: insert_by key x r
  end.
Fixpoint sort_by {A} (key : A -> list Z) (l : list A) : list A :=
  match l with [] => [] | x :: r => insert_by key x (sort_by key r) end.

(** misc.py:268-309 [argsort_2D_array]: [np.argsort(array, kind='mergesort')].
    numpy's merge sort is represented by the stable insertion sort of (row, index)
    pairs; the two have the same result because the stable sorting permutation is unique
    (proved: [argsort_unique]). *)
Definition argsort_2D (rows : list (list Z)) : list nat :=
  map snd (sort_by fst (combine rows (seq 0 (length rows)))).

(** numpy fancy indexing [array[keys]] along the first axis; indices outside the array
    (IndexError in numpy) never occur with keys from [argsort_2D]. *)
Definition gather {A} (l : list A) (ks : list nat) : list A :=
  flat_map (fun k => match nth_error l k with Some a => [a] | None => [] end) ks.

(** misc.py:311-335 [argsort_ND_array]: flatten all trailing axes, then sort rows.
    Modelled for a list of matrices (3-dimensional arrays). *)
Definition argsort_3D (ms : list (list (list Z))) : list nat :=
  argsort_2D (map (@concat Z) ms).
