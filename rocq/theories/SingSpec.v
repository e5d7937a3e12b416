(** What the Laurent expansion of a quotient of polynomials is. *)
From Verif Require Import ExprSpec ExprArith CalmSpec SubSpec ExpSpec.
Local Open Scope R_scope.
Section Nv.
Variable nv : nat.
(** a polynomial with numbers as coefficients; one in which x_j does not occur *)
Definition poly (p : terms_t) : Prop := p <> [] /\ numeric p /\ Forall (fun t => length (snd t) = nv) p.
Definition free_poly (j : nat) (p : terms_t) : Prop := poly p /\ Forall (fun t => getk j (snd t) = 0%Z) p.
(** products with factors of the form <polynomial> and <polynomial> ** -1 *)
Definition factor_ok (f : expr) : Prop := match f with Pol p => poly p | EPol p a => poly p /\ a = Num (-1) | _ => False end.
Definition quotient (e : expr) : Prop := exists fs, e = Prod fs /\ Forall factor_ok fs.
(** the product of the numerators and the product of the denominators *)
Definition upper (fs : list expr) (x : point) : R := prodR (map (fun f => match f with Pol p => eval x (Pol p) | _ => 1 end) fs).
Definition lower (fs : list expr) (x : point) : R := prodR (map (fun f => match f with EPol p _ => eval x (Pol p) | _ => 1 end) fs).
(** no negative power of zero, whatever the value of x_j <> 0 *)
Definition defined_at (j : nat) (fs : list expr) (x : point) : Prop :=
  Forall (fun f => match f with Pol p | EPol p _ => dom (upd x j 1) (Pol p) | _ => True end) fs.
(** A t^a is the leading behaviour of G for x_j = t to 0: A is not the zero polynomial, unless G vanishes *)
Definition leads (j : nat) (fs : list expr) (G : point -> R) (a : Z) (A : terms_t) : Prop :=
  free_poly j A /\
  (forall x, defined_at j fs x -> dom x (Pol A) /\ small_o (fun t => G (upd x j t) - eval x (Pol A) * powerRZ t a) a) /\
  ((exists k, coef k A <> 0) \/ (a = 0%Z /\ forall x t, defined_at j fs x -> t <> 0 -> G (upd x j t) = 0)).
(** p is the expansion of the product of fs in x_j from order m to [order] (trailing zeros may be left out), valid where the
    leading coefficient B of the denominators is not zero *)
Definition laurent (j : nat) (fs : list expr) (B : terms_t) (m order : Z) (p : terms_t) : Prop :=
  (exists len, (1 <= len)%nat /\ (Z.of_nat len <= order - m + 1)%Z /\ Forall2 (fun i t => exponents nv [j] [m + Z.of_nat i]%Z (snd t)) (seq 0 len) p) /\
  Forall (fun t => quotient (fst t)) p /\
  forall x, defined_at j fs x -> eval x (Pol B) <> 0 ->
    Forall (fun t => dom x (fst t) /\ forall s, eval (upd x j s) (fst t) = eval x (fst t)) p /\
    small_o (fun t => eval (upd x j t) (Prod fs) - eval (upd x j t) (Pol p)) order.
(** the expansion in one variable *)
Definition expansion (j : nat) (order : Z) (e : expr) (p : terms_t) : Prop :=
  exists fs a A b B, e = Prod fs /\ leads j fs (upper fs) a A /\ leads j fs (lower fs) b B /\ laurent j fs B (a - b) order p.
(** expansion in several variables: first in the first one, then every coefficient in the others *)
Inductive expansions : list nat -> list Z -> expr -> terms_t -> Prop :=
| one_variable j o e p : expansion j o e p -> expansions [j] [o] e p
| more_variables j o js os e p ps : expansion j o e p -> Forall2 (fun t q => expansions js os (fst t) q) p ps ->
    expansions (j :: js) (o :: os) e (concat (map (fun tq => map (fun u => (fst u, addk (snd (fst tq)) (snd u))) (snd tq)) (combine p ps))).
End Nv.
