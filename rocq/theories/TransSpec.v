(** Integrals over the unit cube and continuous integrands. *)
From Coq Require Export List Reals.
From Coquelicot Require Import Coquelicot.
Export ListNotations.
Local Open Scope R_scope.
(** int_0^1 dx_0 int_0^1 dx_1 ... int_0^1 dx_(n-1) g(x) *)
Fixpoint cube_integral (n : nat) (g : list R -> R) : R :=
  match n with O => g [] | S m => RInt (fun v => cube_integral m (fun xs => g (v :: xs))) 0 1 end.
(** points of the closed unit cube *)
Definition in_cube (n : nat) (x : list R) : Prop := length x = n /\ List.Forall (fun v => 0 <= v <= 1) x.
(** continuous on the closed cube (uniformly, which is the same on a compact set) *)
Definition continuous_on_cube (n : nat) (g : list R -> R) : Prop :=
  forall eps, 0 < eps -> exists delta, 0 < delta /\
    forall x y, in_cube n x -> in_cube n y -> List.Forall2 (fun a b => Rabs (a - b) < delta) x y -> Rabs (g x - g y) < eps.
