(** Specification for the contour deformation: complex differentiable functions of several variables, complex integrals over the cube. *)
From Coq Require Export List Reals.
From Verif Require Export TransSpec.
From Coquelicot Require Import Coquelicot.
Local Open Scope R_scope.
(** sum_(j<n) f j *)
Fixpoint csum (n : nat) (f : nat -> C) : C := match n with O => RtoC 0 | S k => Cplus (csum k f) (f k) end.
(** component [j] of a complex vector *)
Definition cpt (z : list C) (j : nat) : C := nth j z (RtoC 0).
(** every component of [w] is closer than [delta] to that of [z] *)
Definition cclose (n : nat) (delta : R) (w z : list C) : Prop := length w = n /\ forall j, (j < n)%nat -> Cmod (Cminus (cpt w j) (cpt z j)) < delta.
Definition ccontinuous_at (n : nat) (G : list C -> C) (z : list C) : Prop :=
  forall eps, 0 < eps -> exists delta, 0 < delta /\ forall w, cclose n delta w z -> Cmod (Cminus (G w) (G z)) < eps.
(** sum_(j<n) |w_j - z_j| *)
Fixpoint dist1 (n : nat) (w z : list C) : R := match n with O => 0 | S k => dist1 k w z + Cmod (Cminus (cpt w k) (cpt z k)) end.
(** [G] is complex differentiable at [z], its partial derivatives there are [DG j z], and these are continuous at [z] *)
Definition holomorphic_at (n : nat) (G : list C -> C) (DG : nat -> list C -> C) (z : list C) : Prop :=
  (forall eps, 0 < eps -> exists delta, 0 < delta /\ forall w, cclose n delta w z ->
     Cmod (Cminus (Cminus (G w) (G z)) (csum n (fun j => Cmult (DG j z) (Cminus (cpt w j) (cpt z j))))) <= eps * dist1 n w z)
  /\ forall j, (j < n)%nat -> ccontinuous_at n (DG j) z.
(** the integral of a complex function over the cube *)
Definition ccube_integral (n : nat) (f : list R -> C) : C := (cube_integral n (fun x => fst (f x)), cube_integral n (fun x => snd (f x))).
(** the deformed contour z_k = x_k - i t lambda_k x_k (1 - x_k) g_k(x), where t goes from 0 (no deformation) to 1 *)
Definition contour (n : nat) (g : nat -> list R -> R) (lam : list R) (t : R) (x : list R) : list C :=
  map (fun k => ((nth k x 0, - (t * nth k lam 0 * nth k x 0 * (1 - nth k x 0) * g k x)) : C)) (seq 0 n).
(** w_0^(p 0) * ... * w_(n-1)^(p (n-1)) *)
Fixpoint cpow (w : C) (m : nat) : C := match m with O => RtoC 1 | S k => Cmult w (cpow w k) end.
Fixpoint cmonomial (n : nat) (p : nat -> nat) (w : list C) : C := match n with O => RtoC 1 | S k => Cmult (cmonomial k p w) (cpow (cpt w k) (p k)) end.
(** the value of an evaluation that succeeds *)
Definition value (o : option C) : C := match o with Some v => v | None => RtoC 0 end.
(** sum_(k<m) f k *)
Fixpoint rsumS (m : nat) (f : nat -> R) : R := match m with O => 0 | S k => rsumS k f + f k end.
(** the integer power *)
Definition czpow (w : C) (e : Z) : C := if Z.leb 0 e then cpow w (Z.to_nat e) else Cinv (cpow w (Z.to_nat (- e))).
(** [x] with the entry [k] replaced by [v] *)
Definition with_entry (k : nat) (v : R) (x : list R) : list R := firstn k x ++ v :: skipn (S k) x.
(** [g k] is the partial derivative with respect to x_k of the real part of the function [f] of the real variables *)
Definition real_gradient (n : nat) (f : list C -> C) (g : nat -> list R -> R) : Prop :=
  forall k x, (k < n)%nat -> in_cube n x -> is_derive (fun v => fst (f (map RtoC (with_entry k v x)))) (nth k x 0) (g k x).
