(** Model of /repo/pySecDec/make_regions.py: the expansion of a product of powers in the smallness parameter of a region. *)
From Coq Require Import QArith Qround.
From Verif Require Export PolyModel GeoModel ParamModel.
Local Open Scope nat_scope.

Section Reg.
Variable F : Fld.
Local Open Scope fld_scope.
Implicit Types p q : PolyModel.poly F.
(** an [ExponentiatedPolynomial]: base and exponent.  Simplification: the exponent is a number (its value for given values
    of the regulators) *)
Definition epoly : Type := (PolyModel.poly F * F)%type.

(** a factor that is either the number 1 ([None]) or a polynomial; [p * factor] *)
Definition times_o p (o : option (PolyModel.poly F)) : PolyModel.poly F := match o with None => pmul_num p 1 | Some q => ptimes p q end.
(** make_regions.py:266 [np.prod] of a list of polynomials *)
Definition np_prod (l : list (PolyModel.poly F)) : option (PolyModel.poly F) := match l with [] => None | p :: r => Some (fold_left ptimes r p) end.
(** make_regions.py:272-277 the product over all j <> i, starting from the number 1 *)
Definition prod_others (l : list (PolyModel.poly F)) (i : nat) : option (PolyModel.poly F) :=
  fold_left (fun o (jd : nat * PolyModel.poly F) =>
      if Nat.eqb (fst jd) i then o else match o with None => Some (pmul_num (snd jd) 1) | Some q => Some (ptimes q (snd jd)) end)
    (combine (seq 0 (length l)) l) None.

(** make_regions.py:215-292 [derive_prod] *)
Definition derive_prod (pl : list epoly) (N : PolyModel.poly F) (index : nat) (names : list nat) : list epoly * PolyModel.poly F :=
  let dummies := map (fun ni : nat => psymbol (pnv N) ni) names in
  let prod_all := np_prod dummies in
  let step acc (i : nat) :=
    let Pa := nth i pl (pconst (pnv N) 0, 0) in
    let ni := nth i names O in
    let summand1 := times_o (ptimes (pmul_num N (snd Pa)) (pderive (fst Pa) index)) (prod_others dummies i) in
    let summand2 := times_o (ptimes (pderive N ni) (pderive (fst Pa) index)) prod_all in
    pplus acc (pplus summand1 summand2) in
  (map (fun Pa : epoly => (fst Pa, snd Pa - 1)) pl,
   fold_left step (seq 0 (length pl)) (times_o (pderive N index) prod_all)).

(** algebra.py:915-940 [ExponentiatedPolynomial.simplify] called for its effect on the object: the returned object is
    discarded in make_regions.py:333, 353 *)
Definition ep_simplify (Pa : epoly) : epoly :=
  if feqb (snd Pa) 0 then (pconst (pnv (fst Pa)) 1, 1)
  else if feqb (snd Pa) 1 then Pa
  else (psimplify (fst Pa), snd Pa).

(** make_regions.py:328-334 the term of order zero *)
Definition zeroth_term (pl : list epoly) (N : PolyModel.poly F) (index : nat) : list epoly * PolyModel.poly F :=
  (map (fun Pa : epoly => ep_simplify (preplace (fst Pa) index 0 true, snd Pa)) pl, psimplify (preplace N index 0 true)).
(** make_regions.py:342-356 a term of higher order; [poly**0] is not simplified *)
Definition higher_term (pl : list epoly) (N : PolyModel.poly F) (index : nat) (inverse_factorial : F) : list epoly * PolyModel.poly F :=
  (map (fun Pa : epoly => let r := (preplace (fst Pa) index 0 true, snd Pa) in if feqb (snd Pa) 0 then r else ep_simplify r) pl,
   psimplify (preplace (pmul_num N inverse_factorial) index 0 true)).
(** make_regions.py:336-360 the loop; [d] is [derivative], [i] the loop variable, [k] the number of iterations left *)
Fixpoint higher_terms (k i : nat) (inverse_factorial : F) (d : list epoly * PolyModel.poly F) (index : nat) (names : list nat) : list (list epoly * PolyModel.poly F) :=
  match k with
  | O => []
  | S k' => let f := inverse_factorial / natF i in
      higher_term (fst d) (snd d) index f :: higher_terms k' (S i) f (derive_prod (fst d) (snd d) index names) index names
  end.
(** make_regions.py:295-360 [expand_region]; the generator is a list *)
Definition expand_region (pl : list epoly) (N : PolyModel.poly F) (index : nat) (order : Q) (names : list nat) : list (list epoly * PolyModel.poly F) :=
  if negb (Qle_bool 0 order) then []
  else zeroth_term pl N index :: higher_terms (Z.to_nat (Qfloor order)) 1 1 (derive_prod pl N index names) index names.

(** [factor0.expolist[0][smallness_parameter_index]] *)
Definition monomial_power (i : nat) p : Z := getZ i (fst (nth 0 (ptm p) (nil, 0))).

(** make_regions.py:487-546 one region: exponents of the smallness parameter in the prefactors and the terms.
    Variables: [n0] integration variables and regulators, one name per polynomial, the smallness parameter last.  [value]
    evaluates an exponent for given values of the regulators *)
Record region_data : Type := mkRegion { rd_polys : list (PolyModel.poly F * power); rd_scaling : list Z; rd_numerator : PolyModel.poly F; rd_npower : Z }.
Definition region_setup (n0 : nat) (region : list Z) (pl : list (PolyModel.poly F * power)) (N : PolyModel.poly F) : region_data :=
  let idx := (n0 + length pl)%nat in
  let parts := map (fun Pa : PolyModel.poly F * power => poly_refactorize (apply_region idx region (fst Pa)) [idx]) pl in
  let ms := map (fun mp : PolyModel.poly F * PolyModel.poly F => monomial_power idx (fst mp)) parts in
  let poly_scaling := repeat 0%Z n0 ++ ms ++ [0%Z] in
  let np := poly_refactorize (apply_region idx (row_add region poly_scaling) N) [idx] in
  mkRegion (combine (map snd parts) (map snd pl)) ms (snd np) (monomial_power idx (fst np)).
(** [power_overall_smallness_parameter], [.._no_regulators] and [power_smallness_parameter_measure] *)
Definition power_overall (value : power -> F) (d : region_data) : F :=
  sumF (map (fun ma : Z * power => zF (fst ma) * value (snd ma)) (combine (rd_scaling d) (map snd (rd_polys d)))) + zF (rd_npower d).
Definition power_no_regulators (d : region_data) : Q :=
  (fold_right Qplus 0 (map (fun ma : Z * power => inject_Z (fst ma) * at0 (snd ma)) (combine (rd_scaling d) (map snd (rd_polys d)))) + inject_Z (rd_npower d))%Q.
Definition power_measure (region : list Z) : Z := fold_right Z.add 0%Z (removelast region).
Definition t_independent (idx : nat) p : bool := forallb (fun t => Z.eqb (getZ idx (fst t)) 0) (ptm p).
Definition region_order (n0 : nat) (region : list Z) (order : Q) (d : region_data) : Q :=
  let idx := (n0 + length (rd_polys d))%nat in
  let o := (order * inject_Z (getZ idx region) - power_no_regulators d - inject_Z (power_measure region))%Q in
  if forallb (t_independent idx) (map fst (rd_polys d) ++ [rd_numerator d]) && Qle_bool 0 o then 0%Q else o.
Definition region_terms (value : power -> F) (n0 : nat) (region : list Z) (order : Q) (pl : list (PolyModel.poly F * power)) (N : PolyModel.poly F)
  : list (F * (list epoly * PolyModel.poly F)) :=
  let d := region_setup n0 region pl N in
  let idx := (n0 + length pl)%nat in
  let series := expand_region (map (fun Pa : PolyModel.poly F * power => (fst Pa, value (snd Pa))) (rd_polys d)) (rd_numerator d) idx
                              (region_order n0 region order d) (seq n0 (length pl)) in
  map (fun it : nat * (list epoly * PolyModel.poly F) =>
         ((power_overall value d + zF (power_measure region) + natF (fst it)) / zF (getZ idx region), snd it))
      (combine (seq 0 (length series)) series).
End Reg.
Arguments times_o {F} _ _. Arguments np_prod {F} _. Arguments prod_others {F} _ _. Arguments derive_prod {F} _ _ _ _. Arguments ep_simplify {F} _.
Arguments zeroth_term {F} _ _ _. Arguments higher_term {F} _ _ _ _. Arguments higher_terms {F} _ _ _ _ _ _. Arguments expand_region {F} _ _ _ _ _.
Arguments monomial_power {F} _ _. Arguments mkRegion {F} _ _ _ _. Arguments rd_polys {F} _. Arguments rd_scaling {F} _. Arguments rd_numerator {F} _. Arguments rd_npower {F} _.
Arguments region_setup {F} _ _ _ _. Arguments power_overall {F} _ _. Arguments power_no_regulators {F} _. Arguments t_independent {F} _ _.
Arguments region_order {F} _ _ _ _. Arguments region_terms {F} _ _ _ _ _ _.
