(** Model of the path of the expanded prefactor into the generated C++ function: /repo/pySecDec/expansion.py:425-441 (sympy_to_nested_Polynomial),
    /repo/pySecDec/code_writer/make_package.py:639-674 (_make_prefactor_function) and the brace initialisation of nested secdecutil::Series,
    /repo/pySecDecContrib/util/secdecutil/series.hpp:585-600.
    Simplifications: the expression returned by ginsh is the list of its terms (exponents of the regulators, coefficient); the text is a list of
    tokens and ccode(coeff.evalf(20)) is one token that stands for the coefficient. *)
From Coq Require Export String ZArith List Bool.
From Verif Require Export FieldBase.
Export ListNotations.
Local Open Scope Z_scope.
Section S.
Variable F : Fld.
(** a nested Polynomial: the exponents of one regulator and the coefficients; [truncated] is the attribute, if it is set *)
Inductive npoly := Coef (c : F) | NPoly (terms : list (Z * npoly)) (truncated : option bool).
(** expansion.py:428-432: [po.terms()] collected by the exponent of the first remaining regulator *)
Definition collected (p : Z) (ts : list (list Z * F)) : list (list Z * F) :=
  map (fun t => (tl (fst t), snd t)) (filter (fun t => Z.eqb (hd 0 (fst t)) p) ts).
(** [min(co.keys())]; sympy's zero polynomial has the single term of order zero *)
Definition lowest (ks : list Z) : Z := match ks with [] => 0 | k :: r => fold_left Z.min r k end.
Definition highest (ks : list Z) : Z := match ks with [] => 0 | k :: r => fold_left Z.max r k end.
(** python's range *)
Definition range (a b : Z) : list Z := map (fun j => a + Z.of_nat j) (seq 0 (Z.to_nat (b - a))).
Fixpoint sequence {A} (l : list (option A)) : option (list A) :=
  match l with [] => Some [] | None :: _ => None | Some a :: r => match sequence r with Some b => Some (a :: b) | None => None end end.
(** expansion.py:425-441; [None]: Polynomial's assertion fails for an empty expolist (algebra.py:380) *)
Fixpoint to_nested (orders : list Z) (ts : list (list Z * F)) : option npoly :=
  match orders with
  | [] => Some (Coef (sumF (map snd ts)))
  | o :: os =>
      let exps := range (lowest (map (fun t => hd 0 (fst t)) ts)) (o + 1) in
      match exps with
      | [] => None
      | _ => match sequence (map (fun p => to_nested os (collected p ts)) exps) with
             | Some cs => Some (NPoly (combine exps cs) None)
             | None => None
             end
      end
  end.
Inductive token := LB | RB | Comma | TInt (z : Z) | TBool (b : bool) | TStr (s : string) | TCode (c : F).
(** [sep.join(l)] *)
Fixpoint join (sep : list token) (l : list (list token)) : list token :=
  match l with [] => [] | [a] => a | a :: r => a ++ sep ++ join sep r end.
(** make_package.py:657,663: [getattr(expression, "truncated", True)] *)
Definition is_truncated (t : option bool) : bool := match t with Some b => b | None => true end.
Definition coefficient_code (e : npoly) : option (list token) := match e with Coef c => Some [TCode c] | NPoly _ _ => None end.
(** make_package.py:643-665 [recursion]; [regs] are the regulators from [regulator_index] on; [None]: not such a nested polynomial *)
Fixpoint write (regs : list string) (e : npoly) : option (list token) :=
  match regs, e with
  | r :: rest, NPoly terms tr =>
      let orders := map fst terms in
      let head := [LB; TInt (lowest orders); Comma; TInt (highest orders); Comma; LB] in
      match rest with
      | _ :: _ =>
          match sequence (map (fun t => write rest (snd t)) terms) with
          | Some body => Some (head ++ join [Comma] body ++ [RB; Comma; TBool (is_truncated tr); Comma; TStr r; RB])
          | None => None
          end
      | [] =>
          match sequence (map (fun t => coefficient_code (snd t)) terms) with
          | Some body => Some ((head ++ [LB]) ++ join [RB; Comma; LB] body ++ [RB; RB; Comma; TBool (is_truncated tr); Comma; TStr r; RB])
          | None => None
          end
      end
  | _, _ => None
  end.
(** the C++ side: a value of type Series<...Series<T>...> *)
Inductive cval := CNum (c : F) | CSeries (order_min order_max : Z) (content : list cval) (truncated : bool) (parameter : string).
(** a list of initializers up to the closing brace *)
Fixpoint read_elements (rd : list token -> option (cval * list token)) (fuel : nat) (ts : list token) : option (list cval * list token) :=
  match fuel with
  | O => None
  | S f => match rd ts with
           | Some (v, RB :: r) => Some ([v], r)
           | Some (v, Comma :: r) => match read_elements rd f r with Some (l, r') => Some (v :: l, r') | None => None end
           | _ => None
           end
  end.
(** brace initialisation of a series nested [d] times; a number may be braced *)
Fixpoint read (d : nat) (ts : list token) : option (cval * list token) :=
  match d with
  | O => match ts with LB :: TCode c :: RB :: r => Some (CNum c, r) | _ => None end
  | S d' =>
      match ts with
      | LB :: TInt a :: Comma :: TInt b :: Comma :: LB :: r =>
          match read_elements (read d') (length r) r with
          | Some (l, Comma :: TBool t :: Comma :: TStr n :: RB :: r') => Some (CSeries a b l t n, r')
          | _ => None
          end
      | _ => None
      end
  end.
(** series.hpp:596-599: no constructor throws *)
Fixpoint constructed (v : cval) : bool :=
  match v with
  | CNum _ => true
  | CSeries a b l _ _ => Z.leb a b && Z.eqb (Z.of_nat (length l)) (b - a + 1) && forallb constructed l
  end.
(** make_package.py:667-672: the macros, in the order of the definitions; the flag tells real from complex parameters *)
Definition definitions (reals complexes : list string) : list (string * (bool * nat)) :=
  map (fun ip => (snd ip, (true, fst ip))) (combine (seq 0 (length reals)) reals) ++ map (fun ip => (snd ip, (false, fst ip))) (combine (seq 0 (length complexes)) complexes).
Definition undefs (reals complexes : list string) : list string := reals ++ complexes.
(** the preprocessor: the last definition counts *)
Definition expansion_of (p : string) (defs : list (string * (bool * nat))) : option (bool * nat) :=
  fold_left (fun acc d => if String.eqb (fst d) p then Some (snd d) else acc) defs None.
End S.
Arguments Coef {F}. Arguments NPoly {F}. Arguments LB {F}. Arguments RB {F}. Arguments Comma {F}. Arguments TInt {F}. Arguments TBool {F}. Arguments TStr {F}. Arguments TCode {F}.
Arguments CNum {F}. Arguments CSeries {F}. Arguments collected {F}. Arguments to_nested {F}. Arguments write {F}. Arguments join {F}. Arguments read {F}. Arguments read_elements {F}. Arguments constructed {F}. Arguments coefficient_code {F}.
