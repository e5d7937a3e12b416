(** What an expansion is.  [dN q j G] (SubSpec) is the q-th derivative of G in direction j, [d] (ContSpec) is Coquelicot's [Derive]. *)
From Coquelicot Require Import Coquelicot.
From Verif Require Import ExprSpec ContSpec SubSpec.
Local Open Scope R_scope.
(** the derivatives of orders ks in the directions js *)
Fixpoint dmulti (js ks : list nat) (G : point -> R) : point -> R :=
  match js, ks with j :: js, k :: ks => dmulti js ks (dN k j G) | _, _ => G end.
(** the point with the coordinates js set to zero *)
Definition zeroed (js : list nat) (x : point) : point := fun i => if in_dec Nat.eq_dec i js then 0 else x i.
Fixpoint facts (ks : list nat) : R := match ks with [] => 1 | k :: ks => INR (fact k) * facts ks end.
(** all multi-indices up to the given orders, the last entry running fastest *)
Fixpoint multi (orders : list Z) : list (list nat) :=
  match orders with [] => [[]] | o :: r => flat_map (fun k => map (cons k) (multi r)) (seq 0 (S (Z.to_nat o))) end.
(** the row of exponents k_m of the variable j_m, other exponents zero *)
Definition exponents (nv : nat) (js : list nat) (ks : list Z) (row : list Z) : Prop :=
  length row = nv /\ (forall m, (m < length js)%nat -> getk (nth m js 0%nat) row = nth m ks 0%Z) /\ forall i, ~ In i js -> getk i row = 0%Z.
(** c is the Taylor coefficient of e for the orders ks in the variables js *)
Definition taylor_coefficient (e : expr) (js ks : list nat) (c : expr) : Prop :=
  forall x, dom (zeroed js x) e -> dom x c /\ eval x c = / facts ks * dmulti js ks (fun y => eval y e) (zeroed js x).
(** f(t) is of smaller order than t^n for t to 0 (and t <> 0) *)
Definition small_o (f : R -> R) (n : Z) : Prop := forall eps, 0 < eps -> exists del, 0 < del /\ forall t, t <> 0 -> Rabs t < del -> Rabs (f t) <= eps * Rabs (powerRZ t n).
(** the sum of c_k t^k *)
Definition series_at (l : list (Z * R)) (t : R) : R := sumR (map (fun q => snd q * powerRZ t (fst q)) l).
