(** Model of /repo/pySecDec/loop_integral/from_graph.py: class LoopIntegralFromGraph. *)
From Verif Require Export PolyModel MiscModel.

(** numpy matrices of unbounded integers as lists of rows.  Simplification: int64 overflow of the entries of the matrix
    power is not modelled. *)
Definition matrix := list (list Z).
Definition mget (M : matrix) (i j : nat) : Z := nth j (nth i M []) 0%Z.
(** [M[i,j] += c] *)
Definition madd (M : matrix) (i j : nat) (c : Z) : matrix := upd i (upd j (mget M i j + c)%Z (nth i M [])) M.
Definition tabulate (n : nat) (f : nat -> nat -> Z) : matrix := map (fun i => map (f i) (seq 0 n)) (seq 0 n).
(** [np.identity(n, dtype=int)] *)
Definition identity (n : nat) : matrix := tabulate n (fun i j => if Nat.eqb i j then 1%Z else 0%Z).
Definition sumZ (l : list Z) : Z := fold_right Z.add 0%Z l.
(** matrix product of square matrices *)
Definition mmul (n : nat) (M K : matrix) : matrix :=
  tabulate n (fun i j => sumZ (map (fun k => mget M i k * mget K k j)%Z (seq 0 n))).
(** [np.linalg.matrix_power(M, e)].  Simplification: repeated multiplication instead of repeated squaring (the same
    matrix over the integers). *)
Fixpoint matrix_power (n : nat) (M : matrix) (e : nat) : matrix :=
  match e with O => identity n | S e' => mmul n M (matrix_power n M e') end.
(** [0 in M] *)
Definition contains_zero (M : matrix) : bool := existsb (fun r => existsb (fun e => Z.eqb e 0) r) M.

(** position of a vertex name in the list of names; the length of the list stands for a missing key *)
Fixpoint index_of (v : nat) (ord : list nat) : nat :=
  match ord with [] => 0 | w :: r => if Nat.eqb v w then 0 else S (index_of v r) end.

Section Graph.
Variable F : Fld.
Local Open Scope fld_scope.

(** from_graph.py:42-66: an internal line is [mass, [vertex, vertex]], an external line [momentum, vertex].  Vertex
    names are natural numbers.  A momentum is the list of its coefficients with respect to [self.external_momenta]. *)
Notation iline := (car F * (nat * nat))%type.
Notation eline := (list (car F) * nat)%type.

(** from_graph.py:84-98, one step of the loop that removes line [i]: the line is dropped and its first vertex is renamed
    to its second one in the remaining lines and in the external lines. *)
Definition rename (v1 v2 v : nat) : nat := if Nat.eqb v v1 then v2 else v.
Definition pinch (i : nat) (g : list iline * list eline) : list iline * list eline :=
  match nth_error (fst g) i with
  | None => g
  | Some (_, (v1, v2)) =>
      (map (fun l => (fst l, (rename v1 v2 (fst (snd l)), rename v1 v2 (snd (snd l))))) (delete_nth i (fst g)),
       map (fun l => (fst l, rename v1 v2 (snd l))) (snd g))
  end.
(** from_graph.py:82-83 the loop: backwards over the lines with power 0; [zero i] is [powerlist[i] == 0] *)
Definition pinch_all (zero : nat -> bool) (g : list iline * list eline) : list iline * list eline :=
  fold_left (fun g i => if zero i then pinch i g else g) (rev (seq 0 (length (fst g)))) g.

Section Given.
Variable ord : list nat.            (* from_graph.py:112-125 [intverts]: the distinct vertices of the internal lines in the
                                       (arbitrary) iteration order of the python set *)
Variable ils : list iline.          (* self.internal_lines *)
Variable els : list eline.          (* self.external_lines *)
Variable n : nat.                   (* number of external momenta *)
Variable dot : list F -> list F -> F. (* scalar product of two momenta after the replacement rules *)

Definition gP : nat := length ils.
Definition gV : nat := length ord.
(** from_graph.py:100-105 [self.L]; the assertion [L > 0] is in [loops_ok] *)
Definition gL : nat := gP - (gV - 1).
Definition loops_ok : bool := Nat.ltb (gV - 1) gP.
Definition numvert : nat := gV + length els.

(** ends of internal line [i] as vertex indices (from_graph.py:136-137, 164-165, 198-199) *)
Definition ends (i : nat) : nat * nat :=
  let e := snd (nth i ils (0, (0%nat, 0%nat))) in (index_of (fst e) ord, index_of (snd e) ord).
(** from_graph.py:142-144: external line [i] is the new vertex [V + i] *)
Definition ext_ends (i : nat) : nat * nat := (gV + i, index_of (snd (nth i els ([], 0%nat))) ord)%nat.
(** [M[start,end] += c; M[end,start] += c] *)
Definition add_line (c : Z) (M : matrix) (e : nat * nat) : matrix :=
  madd (madd M (fst e) (snd e) c) (snd e) (fst e) c.

(** from_graph.py:127-148 [vertmatrix] *)
Definition vertmatrix : matrix :=
  fold_left (add_line 1) (map ext_ends (seq 0 (length els)))
    (fold_left (add_line 1) (map ends (seq 0 gP)) (identity numvert)).
(** KeyError in line 144 if an external line is attached to a vertex without internal line *)
Definition keys_ok : bool := forallb (fun l => existsb (Nat.eqb (snd l)) ord) els.

(** from_graph.py:161-171, 195-204: transition matrix of the cut graph, then its power *)
Definition cut_matrix (cut : list nat) : matrix := fold_left (add_line (-1)) (map ends cut) vertmatrix.
Definition cut_power (cut : list nat) : matrix := matrix_power numvert (cut_matrix cut) numvert.

(** from_graph.py:176-178, 241-243: [expolist=[0]*P; for i in cut: expolist[i]=1] *)
Definition cut_expo (cut : list nat) : list Z := fold_left (fun r i => upd i 1%Z r) cut (repeat 0%Z gP).

(** [Polynomial(expolists, coeffs)]: AssertionError for an empty list (algebra.py:379) *)
Definition make_poly (ts : list (term F)) : option (poly F) :=
  match ts with [] => None | _ :: _ => Some (mkPoly gP ts) end.

(** from_graph.py:150-182 [preliminary_U] *)
Definition U_terms : list (term F) :=
  flat_map (fun cut => if contains_zero (cut_power cut) then [] else [(cut_expo cut, 1)]) (combinations gL (seq 0 gP)).
Definition preliminary_U : option (poly F) :=
  if loops_ok && keys_ok then make_poly U_terms else None.

Definition vadd (a b : list F) : list F := map (fun p => fst p + snd p) (combine a b).
(** from_graph.py:245 [sum(self.external_lines[i-self.V][0] for i in cutmomenta)] *)
Definition sum_mom (is : list nat) : list F :=
  fold_left (fun s i => vadd s (fst (nth (i - gV) els ([], 0%nat)))) is (repeat 0 n).

(** from_graph.py:206-210 and 212-216 *)
Definition int_not0 (M : matrix) : list nat := filter (fun i => Z.eqb (mget M 0 i) 0) (seq 0 gV).
Definition ext_not0 (M : matrix) : list nat := filter (fun i => Z.eqb (mget M 0 i) 0) (seq gV (length els)).
(** from_graph.py:218-225 *)
Definition valid2tree (M : matrix) : bool :=
  forallb (fun ij => match ij with [i; j] => negb (Z.eqb (mget M i j) 0) | _ => true end)
          (combinations 2 (int_not0 M ++ ext_not0 M)).
(** from_graph.py:230-236; [missing] cannot fail here *)
Definition cutmomenta (M : matrix) : list nat :=
  let e := ext_not0 M in
  if Nat.leb (length e) (length els - length e) then e
  else match missing Nat.eqb (seq gV (length els)) e with Some m => m | None => [] end.

(** from_graph.py:184-253: terms of F0 *)
Definition F0_terms : list (term F) :=
  flat_map (fun cut =>
      let M := cut_power cut in
      if valid2tree M then
        match cutmomenta M with
        | [] => []
        | ms => [(cut_expo cut, - dot (sum_mom ms) (sum_mom ms))]
        end
      else []) (combinations (gL + 1) (seq 0 gP)).
(** from_graph.py:255-270: terms of Fm *)
Definition Fm_terms : list (term F) :=
  flat_map (fun i => let m := fst (nth i ils (0, (0%nat, 0%nat))) in
      if feqb m 0 then [] else [(upd i 1%Z (repeat 0%Z gP), m * m)]) (seq 0 gP).

(** from_graph.py:272 [F0 + self.preliminary_U*Fm]; an empty list of terms is the number 0 *)
Definition preliminary_F : option (poly F) :=
  match preliminary_U with
  | None => None
  | Some U =>
      match (match Fm_terms with [] => Some (pmul_num U 0) | ts => pmul U (mkPoly gP ts) end) with
      | None => None
      | Some UFm => match F0_terms with
                    | [] => Some (psub_or_add_num false UFm 0)
                    | ts => psub_or_add false (mkPoly gP ts) UFm
                    end
      end
  end.
End Given.
End Graph.
Arguments pinch {F} _ _. Arguments pinch_all {F} _ _. Arguments preliminary_U {F} _ _ _. Arguments preliminary_F {F} _ _ _ _ _.
Arguments gP {F} _. Arguments gL {F} _ _. Arguments U_terms {F} _ _ _.
