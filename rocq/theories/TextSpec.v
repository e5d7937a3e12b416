(** Specification for the textual form of results: which texts are names and numbers, and what Python should see. *)
From Verif Require Export TextModel.
(** letters, digits and the underscore *)
Definition is_letter (c : ascii) : bool := let n := nat_of_ascii c in orb (andb (Nat.leb 65 n) (Nat.leb n 90)) (andb (Nat.leb 97 n) (Nat.leb n 122)).
Definition name_char (c : ascii) : bool := is_letter c || is_digit c || Ascii.eqb c "_".
(** a name of a regulator *)
Definition is_name (t : text) : Prop := t <> [] /\ Forall (fun c => name_char c = true) t.
(** printed numbers such as 1.5, -2e-05, inf, nan *)
Definition number_char (c : ascii) : bool := is_letter c || is_digit c || Ascii.eqb c "." || Ascii.eqb c "+" || Ascii.eqb c "-".
Definition is_number (t : text) : Prop := t <> [] /\ Forall (fun c => number_char c = true) t.
Definition good_value (v : cvalue) : Prop := match v with CReal a => is_number a | CCplx re im => is_number re /\ is_number im end.
(** a value as the C++ types build it: every series has at least one coefficient and a name as its expansion parameter *)
Inductive good : coef -> Prop :=
| G_num v : good_value v -> good (CNum v)
| G_dev v u : good_value v -> good_value u -> good (CDev v u)
| G_ser mn l tr x : l <> [] -> Forall good l -> is_name x -> good (CSer mn l tr x).
(** what Python should see *)
Section Seen.
Variables (P : Type) (float_of : text -> option P).
Inductive seen_value : cvalue -> pvalue P -> Prop :=
| V_real a p : float_of a = Some p -> seen_value (CReal a) (PReal P p)
| V_cplx a b p q : float_of a = Some p -> float_of b = Some q -> seen_value (CCplx a b) (PCplx P p q).
(** the coefficients with their orders; the variable, which is not printed if only the order 0 is present; the truncation order *)
Inductive seen : coef -> pval P -> Prop :=
| S_num v p : seen_value v p -> seen (CNum v) (PNum P p)
| S_dev v u p q : seen_value v p -> seen_value u q -> seen (CDev v u) (PPair P (PNum P p) (PNum P q))
| S_ser mn l tr x ps : Forall2 seen l ps ->
    seen (CSer mn l tr x)
      (PSer P (combine ps (map (fun i => (mn + Z.of_nat i)%Z) (seq 0 (List.length l))))
         (if andb (negb tr) (andb (Z.eqb mn 0) (Nat.eqb (List.length l) 1)) then None else Some x)
         (if tr then Some (mn + Z.of_nat (List.length l))%Z else None)).
End Seen.
