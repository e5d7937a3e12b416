(** Finite probability distributions of real numbers: a list of (probability, outcome). *)
From Coq Require Export Reals List Lra.
Export ListNotations.
Local Open Scope R_scope.
Definition dist : Type := list (R * R).
Fixpoint expect (f : R -> R) (d : dist) : R := match d with [] => 0 | (p, x) :: r => p * f x + expect f r end.
Definition is_dist (d : dist) : Prop := Forall (fun q => 0 <= fst q) d /\ expect (fun _ => 1) d = 1.
Definition mean (d : dist) : R := expect (fun x => x) d.
Definition variance (d : dist) : R := expect (fun x => (x - mean d) ^ 2) d.
(** the distribution of a function of a random number *)
Definition image (f : R -> R) (d : dist) : dist := map (fun q => (fst q, f (snd q))) d.
(** the distribution of [op X Y] for independent X, Y *)
Definition image2 (op : R -> R -> R) (d e : dist) : dist := flat_map (fun q => map (fun s => (fst q * fst s, op (snd q) (snd s))) e) d.
(** value v and standard deviation u *)
Definition describes (v u : R) (d : dist) : Prop := is_dist d /\ mean d = v /\ 0 <= u /\ u ^ 2 = variance d.
