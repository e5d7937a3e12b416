(** Model of the decomposition with splitting of the integration region: /repo/pySecDec/code_writer/make_package.py:1871-1884
    ([secondary_decomposition_with_splitting]), for decomposition_method='iterative' or 'iterative_no_primary' (the secondary strategy is [iterative_decomposition]). *)
From Verif Require Export SplitModel.
Section S.
Variable F : Fld.
(** the k-th number randint(1,20)/20 drawn from RandomState(seed) (splitting.py:132-137); every call of [split] starts again from the same seed *)
Variable points : nat -> F.
(** splitting.py:198-239 *)
Definition split_singular (s : sector F) (indices : list nat) : option (list (sector F)) :=
  let ps := singular_parameters s indices in split_recursively s ps (map points (seq 0 (length ps))).
(** the results of a generator for all elements of a list, one after the other; [None] if one of them fails *)
Definition collect {A B} (f : A -> option (list B)) (l : list A) : option (list B) :=
  fold_right (fun a acc => match f a, acc with Some x, Some y => Some (x ++ y) | _, _ => None end) (Some []) l.
(** make_package.py:1871-1884; [given] is the argument split_sectors; the depth of both recursions is bounded by [fuel] (None: not finished, or an assertion failed) *)
Fixpoint secondary_with_splitting (fuel : nat) (s : sector F) (indices : list nat) (given : option (list (sector F))) : option (list (sector F)) :=
  match fuel with
  | O => None
  | S f =>
      match (match given with None => split_singular s indices | Some l => Some l end) with
      | None => None
      | Some split_sectors =>
          collect (fun split_sector =>
            match iterative_decomposition f split_sector indices with
            | None => None
            | Some decomposed =>
                collect (fun decomposed_sector =>
                  match split_singular decomposed_sector indices with
                  | None => None
                  | Some l => if Nat.eqb (length l) 1 then Some [decomposed_sector] else secondary_with_splitting f decomposed_sector indices (Some l)
                  end) decomposed
            end) split_sectors
      end
  end.
End S.
Arguments split_singular {F} _ _ _. Arguments secondary_with_splitting {F} _ _ _ _ _.
