(** Model of [LoopIntegralFromPropagators._numerator_tensors], /repo/pySecDec/loop_integral/from_propagators.py:246-306.
    Simplification: a term of the expanded numerator is a product of factors [momentum(index)] (given as two lists, for the loop and the
    external momenta; a factor occurs in the list as often as its power says) times a non-zero remainder that contains none of
    them, so that [term.subs(momentum(index), 0) == 0] holds exactly when the factor is present. *)
From Coq Require Import List Arith. Import ListNotations.
From Verif Require Import MiscModel FnumModel.
Notation factor := (nat * nat)%type (only parsing).
Fixpoint remove1 (x : factor) (l : list factor) : list factor :=
  match l with [] => [] | y :: r => if eqb2 x y then r else y :: remove1 x r end.
(** state of the loops: the factors still in the term, the list built so far, [index_count] *)
Definition state := (list factor * list factor * nat)%type.
(** 289-297: the while loop for one momentum and one index; at most length-many rounds; None is the failing assertion *)
Fixpoint strip (fuel : nat) (x : factor) (s : state) : option state :=
  let '(term, lst, index_count) := s in
  match fuel with
  | O => Some s
  | S fuel =>
      if existsb (eqb2 x) term
      then if Nat.leb (S index_count) 2 then strip fuel x (remove1 x term, lst ++ [x], S index_count) else None
      else Some s
  end.
(** 286: loop over the momenta *)
Fixpoint strip_momenta (momenta : list nat) (index : nat) (s : state) : option state :=
  match momenta with
  | [] => Some s
  | i :: r => match strip (length (fst (fst s))) (i, index) s with Some s' => strip_momenta r index s' | None => None end
  end.
(** 283-297: loop over the indices; the loop momenta first, then the external momenta with the same [index_count] *)
Fixpoint strip_indices (L E : nat) (indices : list nat) (loop_term loop_list ext_term ext_list : list factor) : option (list factor * list factor * list factor * list factor) :=
  match indices with
  | [] => Some (loop_term, loop_list, ext_term, ext_list)
  | index :: r =>
      match strip_momenta (seq 0 L) index (loop_term, loop_list, 0) with
      | None => None
      | Some (loop_term', loop_list', count) =>
          match strip_momenta (seq 0 E) index (ext_term, ext_list, count) with
          | None => None
          | Some (ext_term', ext_list', _) => strip_indices L E r loop_term' loop_list' ext_term' ext_list'
          end
      end
  end.
(** one term: what is left of its factors, the loop tensor and the external tensor *)
Definition numerator_tensors (L E : nat) (Lorentz_indices : list nat) (loop_factors ext_factors : list factor) :=
  strip_indices L E Lorentz_indices loop_factors [] ext_factors [].
