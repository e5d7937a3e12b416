(** Model of the helper functions of /repo/pySecDec/misc.py. *)
From Verif Require Export SortModel.

(** python's [range(a, b, st)] for nonnegative [a], [b] and [st >= 1] *)
Definition range_step (a b st : nat) : list nat :=
  map (fun k => a + k * st) (seq 0 ((b - a + st - 1) / st)).

(** [itertools.combinations(s, r)]: sublists of length [r] by position, first elements first *)
Fixpoint combinations {A} (r : nat) (s : list A) : list (list A) :=
  match r, s with
  | O, _ => [[]]
  | S _, [] => []
  | S r', x :: s' => map (cons x) (combinations r' s') ++ combinations r s'
  end.

(** misc.py:32-58 [powerset].  Simplification: the iterator is the list of its items; [min_length] and [stride]
    are natural numbers (python raises for a negative length and for stride 0: [None]). *)
Definition powerset {A} (s : list A) (min_length stride : nat) : option (list (list A)) :=
  if Nat.eqb stride 0 then None
  else Some (flat_map (fun r => combinations r s) (range_step min_length (length s + 1) stride)).

(** [np.arange(l, h)] *)
Definition arange (l h : Z) : list Z := map (fun k => (l + Z.of_nat k)%Z) (seq 0 (Z.to_nat (h - l))).
(** [itertools.product], last factor runs fastest *)
Fixpoint product {A} (ls : list (list A)) : list (list A) :=
  match ls with
  | [] => [[]]
  | l :: r => flat_map (fun x => map (cons x) (product r)) l
  end.
(** misc.py:60-87 [rangecomb]; the assertion on the lengths becomes [None] *)
Definition rangecomb (low high : list Z) : option (list (list Z)) :=
  if Nat.eqb (length low) (length high)
  then Some (product (map (fun lh => arange (fst lh) (snd lh + 1)) (combine low high)))
  else None.

Section Eq.
Context {A : Type} (eqb : A -> A -> bool).
(** python's [list.remove(item)]: the first occurrence, ValueError ([None]) if absent *)
Fixpoint list_remove (x : A) (l : list A) : option (list A) :=
  match l with
  | [] => None
  | y :: r => if eqb y x then Some r
              else match list_remove x r with Some r' => Some (y :: r') | None => None end
  end.
(** misc.py:89-112 [missing] *)
Fixpoint missing_loop (m part : list A) : option (list A) :=
  match part with
  | [] => Some m
  | x :: p => match list_remove x m with Some m' => missing_loop m' p | None => None end
  end.
Definition missing (full part : list A) : option (list A) := missing_loop full part.
End Eq.

(** misc.py:114-139 [all_pairs].  The recursion is on the length of the list; [fuel] is that length, it is never
    exhausted.  [picks pre l] are the pairs [(lst[i], lst[1:i]+lst[i+1:])] of the loop at line 132-134.
    The odd case (a single remaining element is yielded as is, line 128-130) never
    occurs behind the assertion in line 138, it is represented by the empty list of pairs. *)
Fixpoint picks {A} (pre l : list A) : list (A * list A) :=
  match l with
  | [] => []
  | y :: r => (y, pre ++ r) :: picks (pre ++ [y]) r
  end.
Fixpoint all_pairs_rec {A} (fuel : nat) (l : list A) : list (list (A * A)) :=
  match fuel with
  | O => [[]]
  | S f => match l with
           | [] => [[]]
           | [_] => [[]]
           | a :: r => flat_map (fun yr => map (cons (a, fst yr)) (all_pairs_rec f (snd yr))) (picks [] r)
           end
  end.
Definition all_pairs {A} (l : list A) : option (list (list (A * A))) :=
  if Nat.even (length l) then Some (all_pairs_rec (length l) l) else None.

(** misc.py:512-531 [chunks] for [n >= 0]: slices starting at 0, n, 2n, ... *)
Definition chunks {A} (l : list A) (n : nat) : list (list A) :=
  let n := if Nat.eqb n 0 then n + 1 else n in
  map (fun i => firstn n (skipn i l)) (range_step 0 (length l) n).

(** misc.py:533-563 [rec_subs]: apply the rules ([step], sympy's [expand().subs(repl)]) until nothing changes, at
    most [n] times; [None] is the ValueError *)
Fixpoint rec_subs {A} (eqb : A -> A -> bool) (step : A -> A) (n : nat) (e : A) : option A :=
  match n with
  | O => None
  | S n' => let e' := step e in if eqb e' e then Some e' else rec_subs eqb step n' e'
  end.
