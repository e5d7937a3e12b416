(** Specification vocabulary for products of powers whose numerator may refer to the bases by name. *)
From Coq Require Import Reals List ZArith.
From Verif Require Import PolySpec RealField ParamSpec.
Import ListNotations.
Local Open Scope R_scope.

Definition repoly : Type := (PolyModel.poly R_Fld * R)%type.
(** [x] with the coordinates [names] replaced by the values of the polynomials at [x] *)
Definition fill (names : list nat) (pl : list repoly) (x : point) : point :=
  map (fun k => match find (fun nP => Nat.eqb (fst nP) k) (combine names pl) with
                | Some nP => @peval R_Fld (fst (snd nP)) x
                | None => nth k x 0 end) (seq 0 (length x)).
(** prod_j P_j(x)^a_j * N(x, names = P(x)) *)
Definition product_value (names : list nat) (d : list repoly * PolyModel.poly R_Fld) (x : point) : R :=
  powers_value (fst d) x * @peval R_Fld (snd d) (fill names (fst d) x).
(** no term of the polynomial contains one of the variables *)
Definition free_of (vars : list nat) (p : PolyModel.poly R_Fld) : Prop := Forall (fun t => Forall (fun k => getZ k (fst t) = 0%Z) vars) (ptm p).
(** an admissible product in [nv] variables *)
Definition product_ok (nv : nat) (names : list nat) (d : list repoly * PolyModel.poly R_Fld) : Prop :=
  length names = length (fst d) /\ NoDup names /\ Forall (fun k => (k < nv)%nat) names /\ proper nv (snd d) /\
  Forall (fun Pa => proper nv (fst Pa) /\ free_of names (fst Pa)) (fst d).
(** all bases positive *)
Definition positive_at (nv : nat) (pl : list repoly) (x : point) : Prop :=
  length x = nv /\ Forall (fun Pa => 0 < @peval R_Fld (fst Pa) x) pl.

(** points for the variables of a region: [u] integration variables and regulators, one coordinate per polynomial name (not
    used), and the smallness parameter *)
Definition region_vars (u : point) (m : nat) (t : R) : point := u ++ repeat 1 m ++ [t].
(** the integration variables of a region in terms of the original smallness parameter: x_j = u_j * s^(v_j/v_n) *)
Definition rescaled (vu : list Z) (vn : Z) (u : point) (s : R) : point := map (fun uv : R * Z => fst uv * Rpower s (IZR (snd uv) / IZR vn)) (combine u vu).
(** scalar product of exponents and region vector; [m] is the smallest one in the polynomial *)
Definition weight (v e : list Z) : Z := fold_right Z.add 0%Z (map (fun p : Z * Z => (fst p * snd p)%Z) (combine e v)).
Definition is_min_weight {F : Fld} (v : list Z) (p : PolyModel.poly F) (m : Z) : Prop :=
  (exists t, In t (ptm p) /\ weight v (fst t) = m) /\ Forall (fun t => (m <= weight v (fst t))%Z) (ptm p).
(** the part of the polynomial that dominates in the region, at smallness parameter 1 *)
Definition leading (n0 : nat) (v : list Z) (m : Z) (p : PolyModel.poly R_Fld) (u : point) : R :=
  fold_right Rplus 0 (map (fun t => snd t * @meval R_Fld (firstn n0 (fst t)) u) (filter (fun t => Z.eqb (weight v (fst t)) m) (ptm p))).
