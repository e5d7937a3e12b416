(** Model of /repo/pySecDecContrib/util/secdecutil/uncertainties.hpp: UncorrelatedDeviation for a real type (41-201) and its
    specialisation for complex types (205-478). Simplifications: real numbers instead of floating point numbers; printing
    and [isnan] are left out. A compound assignment is the function from the old to the new content of the object. *)
From Coq Require Export Reals Lra.
Local Open Scope R_scope.

(** * the real class *)
(** 45-46 *)
Record ud := mkU { val : R; unc : R }.
(** 186-188 *)
Definition conv (x : R) : ud := mkU x 0.
(** 64-67 *)
Definition uneg (a : ud) : ud := mkU (- val a) (unc a).
(** 72-76 *)
Definition uadd_t (a : ud) (x : R) : ud := mkU (val a + x) (unc a).
(** 77-82 *)
Definition uadd (a b : ud) : ud := mkU (val a + val b) (sqrt (unc a * unc a + unc b * unc b)).
(** 84-88 *)
Definition usub_t (a : ud) (x : R) : ud := mkU (val a - x) (unc a).
(** 89-94 *)
Definition usub (a b : ud) : ud := mkU (val a - val b) (sqrt (unc a * unc a + unc b * unc b)).
(** 96-101 *)
Definition umul_t (a : ud) (x : R) : ud := mkU (val a * x) (sqrt (unc a * x * unc a * x)).
(** 102-108; [gv]: the value of the argument when it is read in the last assignment *)
Definition umul_at (a b : ud) (gv : R) : ud :=
  mkU (val a * val b) (sqrt (unc a * gv * unc a * gv + unc b * val a * unc b * val a + unc a * unc a * unc b * unc b)).
Definition umul (a b : ud) : ud := umul_at a b (val b).
(** [a *= a]: the argument is the object itself, its value has already been overwritten *)
Definition umul_self (a : ud) : ud := umul_at a a (val a * val a).
(** 110-115 *)
Definition udiv_t (a : ud) (x : R) : ud := mkU (val a / x) (sqrt (unc a * unc a / (x * x))).
(** 147-152: scalar minus object; the other scalar operators (126-137, 160-171) are the compound assignments on a copy *)
Definition tsub (x : R) (a : ud) : ud := uadd_t (uneg a) x.
Definition tadd (x : R) (a : ud) : ud := uadd_t a x.
Definition tmul (x : R) (a : ud) : ud := umul_t a x.

(** * the complex specialisation *)
(** 210-211 *)
Record cud := mkC { cre : ud; cim : ud }.
(** 461-466: conversions from a real and a complex number, 472-475: from the real class *)
Definition cconv_t (x : R) : cud := mkC (conv x) (conv 0).
Definition cconv (x : R * R) : cud := mkC (conv (fst x)) (conv (snd x)).
Definition cconv_u (a : ud) : cud := mkC a (conv 0).
(** 229-232 *)
Definition cneg (a : cud) : cud := mkC (mkU (- val (cre a)) (unc (cre a))) (mkU (- val (cim a)) (unc (cim a))).
(** 237-241, 242-246 *)
Definition cadd_t (a : cud) (x : R) : cud := mkC (mkU (val (cre a) + x) (unc (cre a))) (mkU (val (cim a)) (unc (cim a))).
Definition cadd_c (a : cud) (x : R * R) : cud := mkC (mkU (val (cre a) + fst x) (unc (cre a))) (mkU (val (cim a) + snd x) (unc (cim a))).
(** 247-254 *)
Definition cadd (a b : cud) : cud :=
  mkC (mkU (val (cre a) + val (cre b)) (sqrt (unc (cre a) * unc (cre a) + unc (cre b) * unc (cre b))))
      (mkU (val (cim a) + val (cim b)) (sqrt (unc (cim a) * unc (cim a) + unc (cim b) * unc (cim b)))).
(** 256-265 *)
Definition csub_t (a : cud) (x : R) : cud := mkC (mkU (val (cre a) - x) (unc (cre a))) (mkU (val (cim a)) (unc (cim a))).
Definition csub_c (a : cud) (x : R * R) : cud := mkC (mkU (val (cre a) - fst x) (unc (cre a))) (mkU (val (cim a) - snd x) (unc (cim a))).
(** 266-273 *)
Definition csub (a b : cud) : cud :=
  mkC (mkU (val (cre a) - val (cre b)) (sqrt (unc (cre a) * unc (cre a) + unc (cre b) * unc (cre b))))
      (mkU (val (cim a) - val (cim b)) (sqrt (unc (cim a) * unc (cim a) + unc (cim b) * unc (cim b)))).
(** 275-287 *)
Definition cmul_t (a : cud) (x : R) : cud := mkC (umul_t (cre a) x) (tmul x (cim a)).
(** 288-300 *)
Definition cmul_c (a : cud) (x : R * R) : cud :=
  mkC (usub (umul_t (cre a) (fst x)) (umul_t (cim a) (snd x))) (uadd (umul_t (cre a) (snd x)) (tmul (fst x) (cim a))).
(** 301-316; everything is read before the object is written *)
Definition cmul (a b : cud) : cud :=
  mkC (usub (umul (cre a) (cre b)) (umul (cim a) (cim b))) (uadd (umul (cre a) (cim b)) (umul (cre b) (cim a))).
(** 318-332 *)
Definition cdiv_t (a : cud) (x : R) : cud := mkC (udiv_t (umul_t (cre a) x) (x * x)) (udiv_t (tmul x (cim a)) (x * x)).
(** 333-347 *)
Definition cdiv_c (a : cud) (x : R * R) : cud :=
  let d := fst x * fst x + snd x * snd x in
  mkC (udiv_t (uadd (umul_t (cre a) (fst x)) (umul_t (cim a) (snd x))) d) (udiv_t (usub (tmul (fst x) (cim a)) (umul_t (cre a) (snd x))) d).
(** 370-381, 402-413, 434-445: a number on the left is converted *)
Definition tcadd (x : R) (a : cud) : cud := cadd (cconv_t x) a.
Definition ccadd (x : R * R) (a : cud) : cud := cadd (cconv x) a.
Definition tcsub (x : R) (a : cud) : cud := csub (cconv_t x) a.
Definition ccsub (x : R * R) (a : cud) : cud := csub (cconv x) a.
Definition tcmul (x : R) (a : cud) : cud := cmul (cconv_t x) a.
Definition ccmul (x : R * R) (a : cud) : cud := cmul (cconv x) a.
