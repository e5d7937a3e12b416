(** Model of /repo/pySecDec/generating_vectors.py:206-222 (tables: GenVecData.v). *)
From Coq Require Export ZArith List Lia Znumtheory.
From Verif Require Export GenVecData.
Export ListNotations.
Local Open Scope Z_scope.

(** what a call does: return a value or raise *)
Inductive outcome (A : Type) := Returns (a : A) | ValueError | OverflowError.
Arguments Returns {A} _. Arguments ValueError {A}. Arguments OverflowError {A}.

(** [np.searchsorted(a, key)] (side left): numpy's binary search (binsearch.cpp); [lo], [hi] are [min_idx], [max_idx] *)
Fixpoint binsearch (fuel : nat) (a : list Z) (key : Z) (lo hi : nat) : nat :=
  match fuel with
  | O => lo
  | S f => if Nat.ltb lo hi
           then let mid := (lo + Nat.div2 (hi - lo))%nat in
                if Z.ltb (nth mid a 0) key then binsearch f a key (S mid) hi else binsearch f a key lo mid
           else lo
  end.
Definition searchsorted (a : list Z) (key : Z) : nat := binsearch (S (length a)) a key 0 (length a).
(** [row[:n]] *)
Definition slice_to (n : Z) (r : list Z) : list Z :=
  firstn (Z.to_nat (if Z.ltb n 0 then Z.of_nat (length r) + n else n)) r.
(** [np.int64(m)] of a python integer raises OverflowError outside the 64 bit range *)
Definition int64 (m : Z) : bool := Z.leb (-(2 ^ 63)) m && Z.ltb m (2 ^ 63).

(** generating_vectors.py:206-215 [generating_vector] *)
Definition try_table (lattice : list Z) (gv : list (list Z)) (nvariables minsize : Z) : option (Z * list Z) :=
  let i := searchsorted lattice minsize in
  if Nat.ltb i (length gv) then Some (nth i lattice 0, slice_to nvariables (nth i gv [])) else None.
Definition generating_vector (nvariables minsize : Z) : outcome (Z * list Z) :=
  let second :=
    if Z.leb nvariables 10 then
      if int64 minsize then
        match try_table cbcpt_cfftw2_10_lattice cbcpt_cfftw2_10_gv nvariables minsize with
        | Some r => Returns r
        | None => ValueError
        end
      else OverflowError
    else ValueError in
  if Z.leb nvariables 100 then
    if int64 minsize then
      match try_table cbcpt_dn1_100_lattice cbcpt_dn1_100_gv nvariables minsize with
      | Some r => Returns r
      | None => second
      end
    else OverflowError
  else second.
(** generating_vectors.py:217-222 [max_lattice_size] *)
Definition max_lattice_size (nvariables : Z) : outcome Z :=
  if Z.leb nvariables 10 then Returns (last cbcpt_cfftw2_10_lattice 0)
  else if Z.leb nvariables 100 then Returns (last cbcpt_dn1_100_lattice 0)
  else ValueError.
