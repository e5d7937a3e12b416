(** Model of the contour deformation of /repo/pySecDec/code_writer/make_package.py. *)
From Coq Require Import Reals.
From Verif Require Import PolyModel PolySpec DetModel CplxField.
From Coquelicot Require Import Coquelicot.
Notation cpoly := (PolyModel.poly C_Fld).
(** the expressions the deformation is built of: polynomials (algebra.py:333), [Sum] (algebra.py:1062) and [Product]
    (algebra.py:1178), here with two operands each (n-ary ones are nested), and [RealPartFunction] (make_package.py:694-706) *)
Inductive dexpr : Type :=
| DPoly (p : cpoly)
| DSum (a b : dexpr)
| DProd (a b : dexpr)
| DReal (a : dexpr).
(** [derive]: algebra.py:511-558 (Polynomial), 1159-1169 (Sum), 1280-1290 and 1399-1440 (Product, by the product rule),
    make_package.py:705-706 (RealPartFunction: the derivative commutes to the inside) *)
Fixpoint dderive (i : nat) (e : dexpr) : dexpr :=
  match e with
  | DPoly p => DPoly (pderive p i)
  | DSum a b => DSum (dderive i a) (dderive i b)
  | DProd a b => DSum (DProd (dderive i a) b) (DProd a (dderive i b))
  | DReal a => DReal (dderive i a)
  end.
(** the value the generated code computes at the real sample [x] (exact arithmetic); [SecDecInternalRealPart] takes the real part *)
Fixpoint deval (x : list R) (e : dexpr) : C :=
  match e with
  | DPoly p => peval (F := C_Fld) p (map RtoC x)
  | DSum a b => Cplus (deval x a) (deval x b)
  | DProd a b => Cmult (deval x a) (deval x b)
  | DReal a => RtoC (fst (deval x a))
  end.
(** [c * elementary_monomials[k]] (make_package.py:2009-2012) and [1 - elementary_monomials[k]] *)
Definition mono (n k : nat) (c : C) : cpoly := @mkPoly C_Fld n ((upd k 1%Z (zrow n), c) :: nil).
Definition one_minus (n k : nat) : cpoly := @mkPoly C_Fld n ((upd k 1%Z (zrow n), RtoC (-1)) :: (zrow n, RtoC 1) :: nil).
(** make_package.py:2037-2047 [deformed_integration_parameters]; [F] is the sector's contour deformation polynomial as a
    polynomial in the [n] integration variables (regulators and kinematics are numbers here) *)
Definition deformed_variable (n : nat) (F : cpoly) (lam : list R) (k : nat) : dexpr :=
  DSum (DPoly (mono n k (RtoC 1)))
       (DProd (DPoly (mono n k (Cmult (Copp Ci) (RtoC (nth k lam 0%R)))))
              (DProd (DPoly (one_minus n k)) (DReal (dderive k (DPoly F))))).
(** make_package.py:2050-2060 [deformation_factors] *)
Definition deformation_factor (n : nat) (F : cpoly) (lam : list R) (k : nat) : dexpr :=
  DSum (DPoly (pconst n (RtoC 1 : C_Fld)))
       (DProd (DPoly (pconst n (Cmult (Copp Ci) (RtoC (nth k lam 0%R)) : C_Fld)))
              (DProd (DPoly (one_minus n k)) (DReal (dderive k (DPoly F))))).
(** the deformed point *)
Definition deformed_point (n : nat) (F : cpoly) (lam x : list R) : list C := map (fun k => deval x (deformed_variable n F lam k)) (seq 0 n).
(** make_package.py:2079-2082 [contourdef_Jacobian], and its determinant (2083-2086, [det] of misc.py:196-232) *)
Definition contourdef_Jacobian (n : nat) (F : cpoly) (lam x : list R) : list (list C) :=
  map (fun i => map (fun j => deval x (dderive j (deformed_variable n F lam i))) (seq 0 n)) (seq 0 n).
Definition contourdef_Jacobian_determinant (n : nat) (F : cpoly) (lam x : list R) : option C :=
  det (RtoC 0) Cplus Cminus Cmult (contourdef_Jacobian n F lam x).
(** make_package.py:1097-1110 [additional_deformation_factor]: the product of the deformation factors to the power of the monomials;
    [pw k] raises to the power [monomial_powers[k]] *)
Definition cprod (n : nat) (f : nat -> C) : C := fold_right Cmult (RtoC 1) (map f (seq 0 n)).
Definition additional_deformation_factor (n : nat) (F : cpoly) (lam : list R) (pw : nat -> C -> C) (x : list R) : C :=
  cprod n (fun k => pw k (deval x (deformation_factor n F lam k))).
(** make_package.py:1122-1130 [cal_I] with contour deformation; [rest] is the product of the remainder expression and the polynomials,
    evaluated at the deformed point *)
Definition cal_I (n : nat) (F : cpoly) (lam : list R) (pw : nat -> C -> C) (rest : list C -> C) (x : list R) : option C :=
  match contourdef_Jacobian_determinant n F lam x with
  | None => None
  | Some J => Some (Cmult (Cmult J (additional_deformation_factor n F lam pw x)) (rest (deformed_point n F lam x)))
  end.
(** the monomials that are kept undeformed for the subtraction (make_package.py:1083-1085), times [cal_I] *)
Definition monomials (n : nat) (pw : nat -> C -> C) (x : list R) : C := cprod n (fun k => pw k (RtoC (nth k x 0%R))).
Definition deformed_integrand (n : nat) (F : cpoly) (lam : list R) (pw : nat -> C -> C) (rest : list C -> C) (x : list R) : option C :=
  match cal_I n F lam pw rest x with None => None | Some v => Some (Cmult (monomials n pw x) v) end.
