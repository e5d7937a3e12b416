(** Model of [det] and [parallel_det] of /repo/pySecDec/misc.py over an arbitrary ring of matrix entries. *)
From Coq Require Export List Arith Lia.
Export ListNotations.
From Verif Require Import PolyModel.

Section Det.
Context {A : Type} (zero : A) (add sub mul : A -> A -> A).
(** [M[i,j]] *)
Definition entry (M : list (list A)) (i j : nat) : A := nth j (nth i M []) zero.
(** misc.py:224 [M[[[k] for k in range(1,D)], sub_indices(i)]]: first row and column [i] left out *)
Definition minor (i : nat) (M : list (list A)) : list (list A) := map (delete_nth i) (tl M).

(** misc.py:196-232 [det], recursion on the dimension [D]; [add_term] is the body of the loop (misc.py:223-231)
    for [i >= 1].  The value for D = 0 is never used. *)
Definition add_term (term : nat -> A) (result : A) (i : nat) : A :=
  if Nat.even i then add result (term i) else sub result (term i).
Fixpoint det_rec (D : nat) (M : list (list A)) : A :=
  match D with
  | O => zero
  | S D' => match D' with
            | O => entry M 0 0
            | S _ => let term i := mul (entry M 0 i) (det_rec D' (minor i M)) in
                     fold_left (add_term term) (seq 1 D') (term 0)
            end
  end.
(** the assertions in misc.py:205-206; the empty matrix leaves [result] unbound *)
Definition is_square (M : list (list A)) : bool := forallb (fun r => Nat.eqb (length r) (length M)) M.
Definition det (M : list (list A)) : option A :=
  if is_square M && negb (Nat.eqb (length M) 0) then Some (det_rec (length M) M) else None.

(** misc.py:141-194 [parallel_det]; [pool.imap] keeps the order of the results, the sum starts with 0 *)
Definition parallel_det_rec (M : list (list A)) : A :=
  match length M with
  | 1 => entry M 0 0
  | D => fold_left (add_term (fun i => mul (entry M 0 i) (det_rec (D - 1) (minor i M)))) (seq 0 D) zero
  end.
Definition parallel_det (M : list (list A)) : option A :=
  if is_square M && negb (Nat.eqb (length M) 0) then Some (parallel_det_rec M) else None.
End Det.
