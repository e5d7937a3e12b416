(** Specification vocabulary for symbolic functions: call histories, and what a function object stands for. *)
From Verif Require Export FunModel ExprSpec ExprSmooth.
Local Open Scope R_scope.

Section Nv.
Variables (nv : nat) (zero_test : expr -> bool).
(** the heaps that can arise from [Function(name, *args)] by calls of derive and replace on this function and on the functions
    in the results of such calls *)
Inductive reachable (args : list expr) (maxdegrees : list (option Z)) : heap -> Prop :=
| r_init : reachable args maxdegrees (fresh nv args maxdegrees)
| r_derive n o i s h h' : reachable args maxdegrees h -> (i < nv)%nat -> f_derive nv zero_test n o i h = Some (s, h') -> reachable args maxdegrees h'
| r_replace o i v h h' : reachable args maxdegrees h -> (i < nv)%nat -> f_replace nv o i v h = Some h' -> reachable args maxdegrees h'.
End Nv.

(** [g m] is the derivative of multi-index m of one function of [na] arguments on the open set [W]: the family of all partial
    derivatives of a smooth function *)
Definition derivative_family (nv na : nat) (W : point -> Prop) (g : list Z -> point -> R) : Prop :=
  forall m, length m = nv -> cont W (g m) /\
  forall j m', (j < na)%nat -> bump j m = Some m' -> forall y, W y -> pd j (g m) y (g m' y).
(** derivatives beyond the given degrees vanish *)
Definition vanishing_beyond (nv : nat) (W : point -> Prop) (maxdegrees : list (option Z)) (g : list Z -> point -> R) : Prop :=
  forall j d m, length m = nv -> Forall (fun z => (0 <= z)%Z) m -> nth j maxdegrees None = Some d -> (d < nth j m 0)%Z -> forall y, W y -> g m y = 0.
(** the point at which the function is evaluated: the values of the arguments (0 beyond the last argument) *)
Definition arg_point (args : list expr) (x : point) : point := fun j => match nth_error args j with Some a => eval x a | None => 0 end.
(** the value of a function object, and of a sum of products of an expression and a function *)
Definition func_value (g : list Z -> point -> R) (f : func) (x : point) : R := g (f_multi f) (arg_point (f_args f) x).
Definition sum_value (g : list Z -> point -> R) (h : heap) (s : list (expr * nat)) (x : point) : R :=
  sumR (map (fun t => eval x (fst t) * match nth_error (h_objs h) (snd t) with Some f => func_value g f x | None => 0 end) s).
