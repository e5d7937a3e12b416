(** Model of symbolic functions: /repo/pySecDec/algebra.py:98-331 (class Function) and
    /repo/pySecDec/code_writer/make_package.py:694-806 (RealPartFunction, MaxDegreeFunction).
    A Function object shares the dictionary [derivative_tracks] with all its derivatives, copies and replaced versions; so the
    model is a heap of objects with one dictionary.  A [copy] shares all mutable parts with the original and is not
    distinguished from it.  Simplifications: symbols and the sets of names are not modelled; [differentiated_args] (a cache of
    [arg.derive(index)]) is recomputed; [simplify], which simplifies the arguments in place, is not modelled. *)
From Verif Require Export ExprModel.

(** python dictionaries with tuples of integers as keys *)
Fixpoint dget {A} (m : list Z) (d : list (list Z * A)) : option A :=
  match d with [] => None | (k, v) :: r => if roweqb m k then Some v else dget m r end.
Fixpoint dset {A} (m : list Z) (v : A) (d : list (list Z * A)) : list (list Z * A) :=
  match d with [] => [(m, v)] | (k, w) :: r => if roweqb m k then (m, v) :: r else (k, w) :: dset m v r end.
(** [new_multiindex[argindex] += 1]; None is an IndexError *)
Fixpoint bump (j : nat) (m : list Z) : option (list Z) :=
  match m, j with
  | [], _ => None
  | z :: r, O => Some ((z + 1)%Z :: r)
  | z :: r, S j' => match bump j' r with Some r' => Some (z :: r') | None => None end
  end.
(** A function object.  [f_max]: [maxdegrees] of a MaxDegreeFunction, with None for infinity; the empty list for a Function.
    [f_cache]: the array [derivatives]: a derivative is the sum of products of a differentiated argument with a function
    (given by its address in the heap); the empty sum is the zero polynomial. *)
Record func := mkFunc { f_args : list expr; f_multi : list Z; f_max : list (option Z); f_cache : list (nat * list (expr * nat)) }.
Record heap := mkHeap { h_objs : list func; h_tracks : list (list Z * (nat * list Z)) }.

Section Nv.
Variable nv : nat.                (* number_of_variables of the arguments *)
Variable zero_test : expr -> bool. (* the test done by sympy inside ProductRule.derive *)

(** algebra.py:164-187 [__init__] *)
Definition fresh (args : list expr) (maxdegrees : list (option Z)) : heap := mkHeap [mkFunc args (zeros nv) maxdegrees []] [].

(** algebra.py:287-288: [type(differentiated_arg) is Polynomial and (differentiated_arg.coeffs == 0).all()] *)
Definition zero_poly (d : expr) : bool := match d with Pol p => all_coeffs 0 p | _ => false end.
(** make_package.py:754-755: [self.maxdegrees[argindex] <= 0] *)
Definition exhausted (f : func) (j : nat) : bool := match nth j (f_max f) None with Some d => Z.leb d 0 | None => false end.
(** make_package.py:777-778 *)
Fixpoint lower (j : nat) (l : list (option Z)) : list (option Z) :=
  match l, j with
  | [], _ => []
  | d :: r, O => option_map (fun d => (d - 1)%Z) d :: r
  | d :: r, S j' => d :: lower j' r
  end.
(** algebra.py:279-312 (make_package.py:752-790): the loop over the arguments, from [argindex] = j on *)
Fixpoint derive_args (n i : nat) (f : func) (j : nat) (args : list expr) (h : heap) : option (list (expr * nat) * heap) :=
  match args with
  | [] => Some ([], h)
  | arg :: rest =>
      if exhausted f j then derive_args n i f (S j) rest h
      else match derive nv zero_test i n arg with
      | None => None
      | Some d =>
          if zero_poly d then derive_args n i f (S j) rest h
          else match bump j (f_multi f) with
               | None => None   (* IndexError *)
               | Some m =>
                   match derive_args n i f (S j) rest
                           (mkHeap (h_objs h ++ [mkFunc (f_args f) m (lower j (f_max f)) []]) (dset m (j, f_multi f) (h_tracks h))) with
                   | None => None
                   | Some (s, h') => Some ((d, length (h_objs h)) :: s, h')
                   end
               end
      end
  end.
Fixpoint cached (i : nat) (c : list (nat * list (expr * nat))) : option (list (expr * nat)) :=
  match c with [] => None | (k, s) :: r => if Nat.eqb i k then Some s else cached i r end.
Fixpoint set_obj (o : nat) (f : func) (l : list func) : list func :=
  match l, o with [], _ => [] | _ :: r, O => f :: r | g :: r, S o' => g :: set_obj o' f r end.
(** algebra.py:263-317 [Function.derive], make_package.py:732-796 [MaxDegreeFunction.derive] *)
Definition f_derive (n o i : nat) (h : heap) : option (list (expr * nat) * heap) :=
  match nth_error (h_objs h) o with
  | None => None
  | Some f =>
      match cached i (f_cache f) with
      | Some s => Some (s, h)
      | None =>
          match derive_args n i f 0 (f_args f) h with
          | None => None
          | Some (s, h') => Some (s, mkHeap (set_obj o (mkFunc (f_args f) (f_multi f) (f_max f) ((i, s) :: f_cache f)) (h_objs h')) (h_tracks h'))
          end
      end
  end.
(** algebra.py:319-330 [replace] (make_package.py:803-806), with [remove=False] *)
Definition f_replace (o i : nat) (v : R) (h : heap) : option heap :=
  match nth_error (h_objs h) o with
  | None => None
  | Some f => match option_all (map (replace nv i v) (f_args f)) with
              | None => None
              | Some args => Some (mkHeap (h_objs h ++ [mkFunc args (f_multi f) (f_max f) []]) (h_tracks h))
              end
  end.

(** algebra.py:204-249 [compute_derivatives]; the recursion [update] goes at most [depth] levels deep *)
Section Compute.
Variable recipes : list (list Z * (nat * list Z)).
Variable expression : expr.
Variable n : nat. (* fuel of derive and simplify *)
Fixpoint update (depth : nat) (repository : list (list Z * expr)) (m : list Z) : option (expr * list (list Z * expr)) :=
  match dget m repository with
  | Some e => Some (e, repository)
  | None =>
      if Z.eqb (fold_right Z.add 0%Z m) 0 then Some (expression, repository)
      else match depth with
      | O => None
      | S depth' =>
          match dget m recipes with
          | None => None  (* KeyError *)
          | Some (i, low) =>
              match update depth' repository low with
              | None => None
              | Some (e, repository) =>
                  match derive nv zero_test i n e with
                  | None => None
                  | Some d => match simplify nv n d with None => None | Some d => Some (d, dset m d repository) end
                  end
              end
          end
      end
  end.
Fixpoint update_all (depth : nat) (keys : list (list Z)) (repository : list (list Z * expr)) : option (list (list Z * expr)) :=
  match keys with
  | [] => Some repository
  | m :: r => match update depth repository m with None => None | Some (_, repository) => update_all depth r repository end
  end.
End Compute.
Definition compute_derivatives (n depth : nat) (h : heap) (expression : expr) : option (list (list Z * expr)) :=
  match simplify nv n expression with
  | None => None
  | Some e => update_all (h_tracks h) e n depth (map fst (h_tracks h)) []
  end.
End Nv.

(** make_package.py:715-725 [MaxDegreeFunction.get_maxdegrees] for a Polynomial: the highest exponent of each variable in
    [indices], infinity for the others and if a negative exponent occurs.  [None] is infinity. *)
Definition column (j : nat) (rows : list (list Z)) : list Z := map (fun k => nth j k 0%Z) rows.
Definition zmax (l : list Z) : Z := match l with [] => 0%Z | a :: r => fold_left Z.max r a end.
Definition get_maxdegrees (indices : list nat) (nvars : nat) (rows : list (list Z)) : list (option Z) :=
  map (fun j => if existsb (Nat.eqb j) indices && negb (existsb (fun z => Z.ltb z 0) (column j rows))
                then Some (zmax (column j rows)) else None) (seq 0 nvars).
