(** Specification for the converters of results: the value of a result, and the value of a text in the syntax of a computer algebra system. *)
From Verif Require Export FieldBase TextSpec.
(** ** the value of a result, for values [env] of the regulators; [omega] stands for the unknown remainder of a truncated series *)
Section Val.
Variables (K : Fld) (I omega : K) (env : text -> K) (num : text -> K).
Local Open Scope fld_scope.
(** the value of the printed digits *)
Definition number (v : cvalue) : K := match v with CReal a => num a | CCplx a b => num a + num b * I end.
(** the mean value ([mean]) or the standard deviation of a result: a number has deviation 0; the sum over the orders, plus the remainder *)
Fixpoint reading (mean : bool) (c : coef) : K :=
  match c with
  | CNum v => if mean then number v else 0
  | CDev v u => if mean then number v else number u
  | CSer mn l tr x =>
      (fix go (i : Z) (l : list coef) : K :=
         match l with
         | [] => if tr then zpow (env x) i * omega else 0
         | c :: r => reading mean c * zpow (env x) i + go (i + 1)%Z r
         end) mn l
  end.
End Val.
(** the regulators of a result *)
Inductive uses : coef -> text -> Prop :=
| U_here mn l tr x : uses (CSer mn l tr x) x
| U_in mn l tr x c y : In c l -> uses c y -> uses (CSer mn l tr x) y.
(** all printed numbers are numbers for Python *)
Inductive readable {P} (float_of : text -> option P) : coef -> Prop :=
| R_num v : readable_v float_of v -> readable float_of (CNum v)
| R_dev v u : readable_v float_of v -> readable_v float_of u -> readable float_of (CDev v u)
| R_ser mn l tr x : Forall (readable float_of) l -> readable float_of (CSer mn l tr x)
with readable_v {P} (float_of : text -> option P) : cvalue -> Prop :=
| R_real a : float_of a <> None -> readable_v float_of (CReal a)
| R_cplx a b : float_of a <> None -> float_of b <> None -> readable_v float_of (CCplx a b).
(** names of symbols: not starting with a digit, and not the imaginary unit *)
Definition symbol (x : text) : Prop := is_name x /\ x <> txt "I" /\ (forall c r, x = c :: r -> is_digit c = false).
(** ** GiNaC, SymPy, Maple: the value of a text, as a grammar.  [lit] and [slit] are the literals of the system without and with an explicit sign, [pow] its power
    operator and [ord] the name of its order symbol. *)
Section Gram.
Variables (K : Fld) (I omega : K) (env : text -> K) (lit slit : text -> K -> Prop) (pow ord : text).
Local Open Scope fld_scope.
Inductive dsum : text -> K -> Prop :=
| D_term t v : dterm t v -> dsum t v
| D_plus s t a b : dsum s a -> dterm t b -> dsum (s ++ txt " + " ++ t) (a + b)
| D_imag s t a b : dsum s a -> slit t b -> dsum (s ++ t ++ txt "*I") (a + b * I)
with dterm : text -> K -> Prop :=
| D_lit t v : lit t v -> dterm t v
| D_fac t v : dfac t v -> dterm t v
| D_mul t f a b : dterm t a -> dfac f b -> dterm (t ++ txt "*" ++ f) (a * b)
| D_div t f a b : dterm t a -> dfac f b -> b <> 0 -> dterm (t ++ txt "/" ++ f) (a / b)
with dfac : text -> K -> Prop :=
| D_name x : symbol x -> dfac x (env x)
| D_pow x k : symbol x -> (0 < k)%Z -> dfac (x ++ pow ++ zdec k) (zpow (env x) k)
| D_pow_brackets x k : symbol x -> dfac (x ++ pow ++ txt "(" ++ zdec k ++ txt ")") (zpow (env x) k)
| D_brackets t v : dsum t v -> dfac (txt "(" ++ t ++ txt ")") v
| D_order f v : dfac f v -> dfac (ord ++ txt "(" ++ f ++ txt ")") (v * omega).
End Gram.
(** ** Mathematica: O[x] for the remainder, SeriesData[x, 0, {a, b, ...}, min, order, 1] for a*x^min + b*x^(min+1) + ... + O[x]^order; no underscores in names *)
Section GramM.
Variables (K : Fld) (I omega : K) (env : text -> K) (lit slit : text -> K -> Prop).
Local Open Scope fld_scope.
Definition symbol_m (x : text) : Prop := symbol x /\ ~ In "_"%char x.
Inductive msum : text -> K -> Prop :=
| M_term t v : mterm t v -> msum t v
| M_plus s t a b : msum s a -> mterm t b -> msum (s ++ txt " + " ++ t) (a + b)
| M_imag s t a b : msum s a -> slit t b -> msum (s ++ t ++ txt "*I") (a + b * I)
with mterm : text -> K -> Prop :=
| M_lit t v : lit t v -> mterm t v
| M_fac t v : mfac t v -> mterm t v
| M_mul t f a b : mterm t a -> mfac f b -> mterm (t ++ txt "*" ++ f) (a * b)
| M_div t f a b : mterm t a -> mfac f b -> b <> 0 -> mterm (t ++ txt "/" ++ f) (a / b)
with mfac : text -> K -> Prop :=
| M_name x : symbol_m x -> mfac x (env x)
| M_pow x k : symbol_m x -> (0 < k)%Z -> mfac (x ++ txt "^" ++ zdec k) (zpow (env x) k)
| M_brackets t v : msum t v -> mfac (txt "(" ++ t ++ txt ")") v
| M_order x : symbol_m x -> mfac (txt "O[" ++ x ++ txt "]") (env x * omega)
| M_order_pow x k : symbol_m x -> (0 < k)%Z -> mfac (txt "O[" ++ x ++ txt "]^" ++ zdec k) (zpow (env x) k * omega)
| M_series x t vs mn k : symbol_m x -> mlist t vs -> k = (mn + Z.of_nat (length vs))%Z ->
    mfac (txt "SeriesData[" ++ x ++ txt ", 0, {" ++ t ++ txt "}, " ++ zdec mn ++ txt ", " ++ zdec k ++ txt ", 1]")
      (sumF (map (fun iv => snd iv * zpow (env x) (mn + Z.of_nat (fst iv))) (combine (seq 0 (length vs)) vs)) + zpow (env x) k * omega)
with mlist : text -> list K -> Prop :=
| M_one t v : msum t v -> mlist t [v]
| M_cons t v r vs : msum t v -> mlist r vs -> mlist (t ++ txt ", " ++ r) (v :: vs).
End GramM.
(** nested series occur only in truncated series *)
Inductive nests_truncated : coef -> Prop :=
| N_num v : nests_truncated (CNum v)
| N_dev v u : nests_truncated (CDev v u)
| N_ser mn l tr x : Forall nests_truncated l -> (tr = true \/ Forall (fun c => match c with CSer _ _ _ _ => False | _ => True end) l) -> nests_truncated (CSer mn l tr x).
