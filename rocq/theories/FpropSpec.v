(** What propagators and momenta mean. *)
From mathcomp Require Import all_ssreflect all_algebra.
From Verif Require Import FpropModel.
Import GRing.Theory ListNotations.
Local Open Scope ring_scope.
Section Spec.
Variable K : fieldType.
(** vectors with [D] components and a diagonal metric [g] *)
Variables (D : nat) (g : nat -> K).
Definition vector := nat -> K.
Definition dot (u v : vector) : K := \sum_(mu < D) g mu * u mu * v mu.
(** the momenta in a monomial, with multiplicity *)
Fixpoint factors (e : list nat) (v : list vector) : list vector :=
  match e, v with n :: e, u :: v => List.repeat u n ++ factors e v | _, _ => [] end.
(** a product of two momenta is their scalar product, the empty product is one *)
Definition contract (l : list vector) : K := match l with [] => 1 | [u; v] => dot u v | _ => 0 end.
Definition term_value (k p : list vector) (t : mterm K) : K := mc t * contract (factors (mk t) k ++ factors (mp t) p).
Definition value (k p : list vector) (e : expr K) : K := List.fold_right (fun t s => term_value k p t + s) 0 e.
Definition ext_value (p : list vector) (e : list (K * list nat)) : K := List.fold_right (fun t s => t.1 * contract (factors t.2 p) + s) 0 e.
(** every term is a scalar or a product of two momenta *)
Definition total (e : list nat) : nat := List.list_sum e.
Definition wf_term (L E : nat) (t : mterm K) : Prop :=
  List.length (mk t) = L /\ List.length (mp t) = E /\ ((total (mk t) + total (mp t))%coq_nat = 0%nat \/ (total (mk t) + total (mp t))%coq_nat = 2%nat).
Definition wf (L E : nat) (props : list (expr K)) : Prop := List.Forall (List.Forall (wf_term L E)) props.
(** sum of x_i D_i(k, p) *)
Definition weighted (props : list (expr K)) (x : list K) (k p : list vector) : K :=
  List.fold_right (fun q s => snd q * value k p (fst q) + s) 0 (List.combine props x).
End Spec.
Arguments dot {K}. Arguments factors {K}. Arguments contract {K}. Arguments term_value {K}. Arguments value {K}. Arguments ext_value {K}.
Arguments wf_term {K}. Arguments wf {K}. Arguments weighted {K}.
Section Spec2.
Variables (K : fieldType) (D : nat) (g : nat -> K).
Definition momentum (v : list (vector K)) (a : nat) : vector K := List.nth a v (fun _ => 0).
(** the vector given by an expression linear in the external momenta *)
Definition ext_vector (p : list (vector K)) (e : list (K * list nat)) : vector K :=
  fun mu => List.fold_right (fun t s => t.1 * match factors t.2 p with [u] => u mu | _ => 0 end + s) 0 e.
(** U k_a - sum_b adj(M)_ab Q_b *)
Definition shifted (L : nat) (props : list (expr K)) (x : list K) (k p : list (vector K)) (a : nat) : vector K :=
  fun mu => U L props x * momentum k a mu - \sum_(b < L) aM L props x a b * ext_vector p (Q props x b) mu.
(** new loop momenta: k_a -> sum_b R_ab k_b + s_a *)
Definition reroute (L : nat) (R : nat -> nat -> K) (s : list (vector K)) (k : list (vector K)) : list (vector K) :=
  List.map (fun a => fun mu => \sum_(b < L) R a b * momentum k b mu + momentum s a mu) (List.seq 0 L).
Definition routing_det (L : nat) (R : nat -> nat -> K) : K := \det (\matrix_(i < L, j < L) R i j).
(** no term of the propagator is quadratic in the loop momenta *)
Definition linear_propagator (e : expr K) : Prop := List.Forall (fun t => (total (mk t) <= 1)%coq_nat) e.
End Spec2.
Arguments momentum {K}. Arguments ext_vector {K}. Arguments shifted {K}. Arguments reroute {K}. Arguments routing_det {K}. Arguments linear_propagator {K}.
