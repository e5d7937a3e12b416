(** Model of the numeric part of /repo/pySecDec/algebra.py: class Polynomial. *)
From Verif Require Export FieldBase SortModel.

(** One term: a row of [expolist] and the matching entry of [coeffs]. *)
Notation term F := (list Z * car F)%type (only parsing).

Section Poly.
Variable F : Fld.
Local Open Scope fld_scope.

(** algebra.py:333-422 class Polynomial.  [expolist] and [coeffs] are kept
    together as one list of terms, [pnv] is [number_of_variables].
    Not modelled: [polysymbols] (names only), int64 overflow of exponents, the expression-valued
    coefficients (see ExprModel.v for these). *)
Record poly : Type := mkPoly { pnv : nat; ptm : list (term F) }.

Definition zrow (n : nat) : list Z := repeat 0%Z n.

(** [expolist[i] + expolist[j]] etc. *)
Definition row_add (a b : list Z) : list Z := map (fun p => (fst p + snd p)%Z) (combine a b).
Definition row_sub (a b : list Z) : list Z := map (fun p => (fst p - snd p)%Z) (combine a b).

Definition getZ (i : nat) (r : list Z) : Z := nth i r 0%Z.
Fixpoint upd {A} (i : nat) (v : A) (l : list A) : list A :=
  match l, i with
  | [], _ => []
  | _ :: r, O => v :: r
  | x :: r, S j => x :: upd j v r
  end.
(** [np.delete(expolist, index, axis=1)] on one row *)
Fixpoint delete_nth {A} (i : nat) (l : list A) : list A :=
  match l, i with
  | [], _ => []
  | _ :: r, O => r
  | x :: r, S j => x :: delete_nth j r
  end.

(** the one-term polynomial [c * x**0], e.g. algebra.py:556 (zero) and algebra.py:632 (one) *)
Definition pconst (n : nat) (c : F) : poly := mkPoly n [(zrow n, c)].

(** algebra.py:674-686, the merge loop of [simplify].  The python loop runs over [i] with
    [d = distance_to_nonzero_previous]; here [before] are the (reversed) terms in front of
    position [i-d], [p] is the term at [i-d], and [zs] the (reversed) terms with zero
    coefficient strictly between [i-d] and [i]. *)
Fixpoint merge_loop (before : list (term F)) (p : term F) (zs : list (term F)) (rest : list (term F)) : list (term F) :=
  match rest with
  | [] => rev before ++ p :: rev zs
  | t :: r =>
      if feqb (snd t) 0 then merge_loop before p (t :: zs) r
      else if roweqb (fst p) (fst t)
           then merge_loop (zs ++ (fst p, 0) :: before) (fst t, snd t + snd p) [] r
           else merge_loop (zs ++ p :: before) t [] r
  end.
Definition merge_terms (ts : list (term F)) : list (term F) :=
  match ts with [] => [] | t :: r => merge_loop [] t [] r end.

(** algebra.py:648-698 [simplify] (coefficients are numbers, so [deep] is irrelevant) *)
Definition psimplify (p : poly) : poly :=
  let sort_key := argsort_2D (map fst (ptm p)) in
  let sorted := gather (ptm p) sort_key in
  let merged := merge_terms sorted in
  let nonzero := filter (fun t => negb (feqb (snd t) 0)) merged in
  match nonzero with
  | [] => pconst (pnv p) 0
  | _ :: _ => mkPoly (pnv p) nonzero
  end.

(** algebra.py:623-625 [__neg__] *)
Definition pneg (p : poly) : poly := mkPoly (pnv p) (map (fun t => (fst t, - snd t)) (ptm p)).

(** algebra.py:577-598 [_sub_or_add], branch [type(other) is Polynomial]; the assertion on the number
    of variables becomes [None] *)
Definition psub_or_add (sub : bool) (p q : poly) : option poly :=
  if Nat.eqb (pnv p) (pnv q)
  then Some (psimplify (mkPoly (pnv p) (ptm p ++ (if sub then ptm (pneg q) else ptm q))))
  else None.
(** algebra.py:592-595, branch for numbers *)
Definition psub_or_add_num (sub : bool) (p : poly) (c : F) : poly :=
  psimplify (mkPoly (pnv p) ((zrow (pnv p), if sub then - c else c) :: ptm p)).

(** algebra.py:600-608 [__mul__], branch [type(other) is Polynomial] *)
Definition pmul (p q : poly) : option poly :=
  if Nat.eqb (pnv p) (pnv q)
  then Some (psimplify (mkPoly (pnv p)
         (flat_map (fun t => map (fun u => (row_add (fst u) (fst t), snd u * snd t)) (ptm q)) (ptm p))))
  else None.
(** algebra.py:610-616, branch for numbers *)
Definition pmul_num (p : poly) (c : F) : poly :=
  if feqb c 1 then p
  else if feqb c 0 then pconst (pnv p) 0
  else mkPoly (pnv p) (map (fun t => (fst t, snd t * c)) (ptm p)).

(** algebra.py:627-646 [__pow__] for an integer exponent >= 0.  [iterative_pow] halves the exponent; on the
    binary representation this is structural recursion. *)
Fixpoint ppow_pos (p : poly) (e : positive) : option poly :=
  match e with
  | xH => Some p
  | xO h => match ppow_pos p h with Some o => pmul o o | None => None end
  | xI h => match ppow_pos p h with
            | Some o => match pmul o o with Some o2 => pmul o2 p | None => None end
            | None => None end
  end.
Definition ppow (p : poly) (n : N) : option poly :=
  match n with N0 => Some (pconst (pnv p) 1) | Npos e => ppow_pos p e end.

(** algebra.py:511-558 [derive] for numeric coefficients: terms with exponent 0 are dropped, nothing left means
    the zero polynomial *)
Definition pderive (p : poly) (i : nat) : poly :=
  let nz := filter (fun t => negb (Z.eqb (getZ i (fst t)) 0)) (ptm p) in
  match nz with
  | [] => pconst (pnv p) 0
  | _ :: _ => mkPoly (pnv p)
      (map (fun t => (upd i (getZ i (fst t) - 1)%Z (fst t), snd t * zF (getZ i (fst t)))) nz)
  end.

(** algebra.py:701-755 [replace] for numeric coefficients, the three branches value==0, value==1, other;
    the result is not simplified *)
Definition preplace_coeff (v : F) (i : nat) (t : term F) : F :=
  if feqb v 0 then (if Z.eqb (getZ i (fst t)) 0 then snd t else 0)
  else if feqb v 1 then snd t
  else zpow v (getZ i (fst t)) * snd t.
Definition preplace (p : poly) (i : nat) (v : F) (remove : bool) : poly :=
  if remove
  then mkPoly (pnv p - 1) (map (fun t => (delete_nth i (fst t), preplace_coeff v i t)) (ptm p))
  else mkPoly (pnv p) (map (fun t => (upd i 0%Z (fst t), preplace_coeff v i t)) (ptm p)).

(** algebra.py:479-496 [has_constant_term]; [None] means all indices *)
Definition has_constant_term (p : poly) (indices : option (list nat)) : bool :=
  existsb (fun t => match indices with
                    | None => forallb (fun e => Z.eqb e 0) (fst t)
                    | Some ix => forallb (fun i => Z.eqb (getZ i (fst t)) 0) ix
                    end) (ptm p).

(** algebra.py:498-509 [becomes_zero_for] *)
Definition becomes_zero_for (p : poly) (zero_params : list nat) : bool :=
  forallb (fun t => existsb (fun i => Z.ltb 0 (getZ i (fst t))) zero_params) (ptm p).

(** [expolist[:,i].min()] (numpy raises on an empty array; [Polynomial] objects have at least one
    term) *)
Fixpoint min_list (l : list Z) : Z :=
  match l with [] => 0%Z | [x] => x | x :: r => Z.min x (min_list r) end.
Definition col_min (i : nat) (p : poly) : Z := min_list (map (fun t => getZ i (fst t)) (ptm p)).

(** [expolist[:,i] += k] *)
Definition shift_col (i : nat) (k : Z) (p : poly) : poly :=
  mkPoly (pnv p) (map (fun t => (upd i (getZ i (fst t) + k)%Z (fst t), snd t)) (ptm p)).

(** algebra.py:1855-1886 [refactorize] (and decomposition/common.py:93-122): move powers of the
    polynomial to the monomial.  With parameters: one after the other; without: all columns at once
    ([expolist_poly.min(axis=0)]). *)
Definition refactorize1 (mp : poly * poly) (i : nat) : poly * poly :=
  let k := col_min i (snd mp) in (shift_col i k (fst mp), shift_col i (- k)%Z (snd mp)).
Definition refactorize_params (mp : poly * poly) (params : list nat) : poly * poly :=
  fold_left refactorize1 params mp.
Definition refactorize_all (mp : poly * poly) : poly * poly :=
  let (m, p) := mp in
  let ks := map (fun i => col_min i p) (seq 0 (pnv p)) in
  (mkPoly (pnv m) (map (fun t => (row_add (fst t) ks, snd t)) (ptm m)),
   mkPoly (pnv p) (map (fun t => (row_sub (fst t) ks, snd t)) (ptm p))).
Definition refactorize (mp : poly * poly) (params : list nat) : poly * poly :=
  match params with [] => refactorize_all mp | _ => refactorize_params mp params end.

(** algebra.py:757-768 [Polynomial.refactorize] *)
Definition poly_refactorize (p : poly) (params : list nat) : poly * poly :=
  refactorize (pconst (pnv p) 1, p) params.

End Poly.

Arguments mkPoly {F} _ _. Arguments pnv {F} _. Arguments ptm {F} _.
Arguments pconst {F} _ _. Arguments psimplify {F} _. Arguments pneg {F} _.
Arguments psub_or_add {F} _ _ _. Arguments psub_or_add_num {F} _ _ _.
Arguments pmul {F} _ _. Arguments pmul_num {F} _ _. Arguments ppow {F} _ _. Arguments ppow_pos {F} _ _.
Arguments pderive {F} _ _. Arguments preplace {F} _ _ _ _. Arguments preplace_coeff {F} _ _ _.
Arguments has_constant_term {F} _ _. Arguments becomes_zero_for {F} _ _.
Arguments col_min {F} _ _. Arguments shift_col {F} _ _ _.
Arguments refactorize1 {F} _ _. Arguments refactorize_params {F} _ _. Arguments refactorize_all {F} _.
Arguments refactorize {F} _ _. Arguments poly_refactorize {F} _ _.
Arguments merge_loop {F} _ _ _ _. Arguments merge_terms {F} _.
