(** Model of the Symanzik polynomials of [LoopIntegralFromPropagators], /repo/pySecDec/loop_integral/from_propagators.py:185-244, and of
    [adjugate], /repo/pySecDec/misc.py:234-266.
    The polynomials in the Feynman parameters are represented by their values at an arbitrary point [x] (Polynomial arithmetic and
    [Polynomial.from_expression] preserve values: C01-C03, C08, C65); masses and other scalars are part of the coefficients.
    Expanded sympy expressions in the momenta are lists of terms: coefficient, exponents of the loop momenta, exponents of the external
    momenta.  The replacement rules are identities between scalar products and are applied when the result is evaluated (FpropSpec). *)
From mathcomp Require Import all_ssreflect all_algebra.
From Coq Require Export List.
From Verif Require Import PolyModel DetModel.
Import GRing.Theory ListNotations.
Local Open Scope ring_scope.

Section Model.
Variable K : fieldType.
Definition kdet_rec := det_rec (0 : K) (fun a b => a + b) (fun a b => a - b) (fun a b => a * b).
Definition kdet := det (0 : K) (fun a b => a + b) (fun a b => a - b) (fun a b => a * b).
(** row [i] and column [j] left out *)
Definition minor_ij (i j : nat) (M : list (list K)) : list (list K) := List.map (delete_nth j) (delete_nth i M).
(** misc.py:234-266; sympy's adjugate of the generic matrix is taken to be the transposed matrix of cofactors *)
Definition adjugate_rec (D : nat) (M : list (list K)) : list (list K) :=
  if Nat.eqb D 1 then [[1]]
  else List.map (fun i => List.map (fun j => (if Nat.even (i + j)%coq_nat then 1 else -1) * kdet_rec (D - 1)%coq_nat (minor_ij j i M)) (List.seq 0 D)) (List.seq 0 D).
Definition adjugate (M : list (list K)) : option (list (list K)) :=
  if is_square M && negb (Nat.eqb (List.length M) 0) then Some (adjugate_rec (List.length M) M) else None.

(** ** propagators *)
Record mterm := { mc : K; mk : list nat; mp : list nat }.
Definition expr := list mterm.
Variables (L : nat) (props : list expr) (x : list K).
Definition kexp (i : nat) (t : mterm) : nat := List.nth i (mk t) 0%nat.
(** all loop momenta are set to zero *)
Definition no_loop (t : mterm) : bool := List.forallb (Nat.eqb 0) (mk t).
(** 185-187 *)
Definition propagator_sum : expr := List.flat_map (fun q => List.map (fun t => {| mc := mc t * snd q; mk := mk t; mp := mp t |}) (fst q)) (List.combine props x).
Definition ksum (l : list K) : K := List.fold_right (fun a b => a + b) 0 l.
(** 194: the terms containing exactly k_i*k_j (k_i**2 for i = j) *)
Definition has_product (i j : nat) (t : mterm) : bool :=
  if Nat.eqb i j then Nat.eqb (kexp i t) 2 else Nat.eqb (kexp i t) 1 && Nat.eqb (kexp j t) 1.
(** 194-206: only i <= j is computed, the matrix is completed symmetrically *)
Definition M_upper (i j : nat) : K :=
  let current_term := ksum (List.map mc (List.filter (has_product i j) propagator_sum)) in
  if Nat.eqb i j then current_term else current_term / 2%:R.
Definition M_entry (i j : nat) : K := if Nat.leb i j then M_upper i j else M_upper j i.
Definition M : list (list K) := List.map (fun i => List.map (M_entry i) (List.seq 0 L)) (List.seq 0 L).
(** 217-223: a sum of terms without loop momenta *)
Definition linear_in (i : nat) (t : mterm) : bool :=
  Nat.eqb (kexp i t) 1 && no_loop {| mc := mc t; mk := PolyModel.upd i 0%nat (mk t); mp := mp t |}.
Definition Q (i : nat) : list (K * list nat) := List.map (fun t => (mc t / (- 2%:R), mp t)) (List.filter (linear_in i) propagator_sum).
(** 225-228 *)
Definition J : list (K * list nat) := List.map (fun t => (mc t, mp t)) (List.filter no_loop propagator_sum).
(** 209-215, 231 *)
Definition U : K := kdet_rec L M.
Definition aM (i j : nat) : K := entry 0 (adjugate_rec L M) i j.
(** products of expanded expressions: all pairs of terms, exponents are added *)
Definition add_exp (a b : list nat) : list nat := List.map (fun q => (fst q + snd q)%coq_nat) (List.combine a b).
Definition pmul (p q : list (K * list nat)) : list (K * list nat) := List.flat_map (fun a => List.map (fun b => (a.1 * b.1, add_exp a.2 b.2)) q) p.
Definition pscale (c : K) (p : list (K * list nat)) : list (K * list nat) := List.map (fun a => (c * a.1, a.2)) p.
(** 233-244 *)
Definition F : list (K * list nat) :=
  List.flat_map (fun i => List.flat_map (fun j => pmul (pscale (aM i j) (Q i)) (Q j)) (List.seq 0 L)) (List.seq 0 L) ++ pscale (- U) J.
End Model.
Arguments mc {K}. Arguments mk {K}. Arguments mp {K}.
Arguments kdet_rec {K}. Arguments kdet {K}. Arguments minor_ij {K}. Arguments adjugate_rec {K}. Arguments adjugate {K}.
Arguments kexp {K}. Arguments no_loop {K}. Arguments propagator_sum {K}. Arguments ksum {K}. Arguments has_product {K}.
Arguments M_upper {K}. Arguments M_entry {K}. Arguments M {K}. Arguments linear_in {K}. Arguments Q {K}. Arguments J {K}.
Arguments U {K}. Arguments aM {K}. Arguments pmul {K}. Arguments pscale {K}. Arguments F {K}.
