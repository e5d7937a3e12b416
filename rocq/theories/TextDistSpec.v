(** Specification for the textual results of disteval. *)
From Verif Require Export TextDistModel TextOutSpec.
(** a number in scientific notation with an explicit sign: it ends in a digit, and a sign inside does not follow a digit (it belongs to the exponent) *)
Fixpoint sci_tail (d : bool) (t : text) : bool := match t with [] => d | c :: r => number_char c && negb (is_sign c && d) && sci_tail (is_digit c) r end.
Definition sci (t : text) : Prop := match t with s :: r => is_sign s = true /\ sci_tail false r = true | [] => False end.
(** what disteval has to write: some regulators with names, sums with at least one term each, powers for all regulators, each combination of powers once *)
Definition good_term (regs : list text) (t : dterm_out) : Prop := length (t_pow t) = length regs /\ sci (t_re t) /\ sci (t_im t) /\ sci (t_ere t) /\ sci (t_eim t).
Definition good_dist (regs : list text) (sums : list (list dterm_out)) : Prop :=
  regs <> [] /\ Forall is_name regs /\ sums <> [] /\ Forall (fun ts => ts <> [] /\ Forall (good_term regs) ts /\ NoDup (map t_pow ts)) sums.
Section S.
Context {P : Type} (float_of : text -> option P) (is0 : P -> bool).
(** the four numbers are numbers for Python *)
Definition readable_term (t : dterm_out) : Prop := float_of (t_re t) <> None /\ float_of (t_im t) <> None /\ float_of (t_ere t) <> None /\ float_of (t_eim t) <> None.
(** a number as Python keeps it: real, if the imaginary part is zero *)
Inductive seen_num (re im : text) : pvalue P -> Prop :=
| SN_real a b : float_of re = Some a -> float_of im = Some b -> is0 b = true -> seen_num re im (PReal P a)
| SN_cplx a b : float_of re = Some a -> float_of im = Some b -> is0 b = false -> seen_num re im (PCplx P a b).
Definition seen_term (t : dterm_out) (v : pval P) : Prop := exists a b, v = PPair P (PNum P a) (PNum P b) /\ seen_num (t_re t) (t_im t) a /\ seen_num (t_ere t) (t_eim t) b.
(** the coefficient in a nested series that Python has read, at the given orders *)
Inductive pat : pval P -> list Z -> pval P -> Prop :=
| PA_pair a b : pat (PPair P a b) [] (PPair P a b)
| PA_ser terms x o c k ks d : In (c, k) terms -> pat c ks d -> pat (PSer P terms x o) (k :: ks) d.
(** nested series in the given regulators: the orders of each are distinct, and its truncation order is the highest one plus 1 *)
Inductive layered : list text -> pval P -> Prop :=
| L_pair a b : layered [] (PPair P (PNum P a) (PNum P b))
| L_ser x xs terms m : terms <> [] -> NoDup (map snd terms) -> Forall (fun ck => layered xs (fst ck)) terms -> In m (map snd terms) -> Forall (fun k => (k <= m)%Z) (map snd terms) ->
    layered (x :: xs) (PSer P terms (Some x) (Some (m + 1)%Z)).
(** the series has exactly the terms of the sum *)
Definition same_terms (regs : list text) (ts : list dterm_out) (v : pval P) : Prop :=
  layered regs v /\ (forall t, In t ts -> exists d, pat v (t_pow t) d /\ seen_term t d) /\ (forall ks d, pat v ks d -> exists t, In t ts /\ t_pow t = ks /\ seen_term t d).
(** ** the value of a sum *)
Variables (K : Fld) (I : K) (env : text -> K) (num : P -> K).
Local Open Scope fld_scope.
Definition num_of (a : text) : K := match float_of a with Some p => num p | None => 0 end.
Definition monomial_value (regs : list text) (ps : list Z) : K := prodF (map (fun rp => zpow (env (fst rp)) (snd rp)) (combine regs ps)).
Definition sum_value (mean : bool) (regs : list text) (ts : list dterm_out) : K :=
  sumF (map (fun t => (if mean then num_of (t_re t) + num_of (t_im t) * I else num_of (t_ere t) + num_of (t_eim t) * I) * monomial_value regs (t_pow t)) ts).
End S.
