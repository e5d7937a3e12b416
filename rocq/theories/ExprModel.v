(** Model of the expression classes of /repo/pySecDec/algebra.py: Polynomial with expression valued coefficients (333-788),
    ExponentiatedPolynomial (790-961), LogOfPolynomial (963-1060), Sum (1062-1176), Product (1178-1297), ProductRule (1299-1528),
    Pow (1530-1645), Log (1647-1713), Exp (1715-1777).
    Simplifications: numbers and sympy constants are real numbers; symbols are not modelled (all parts of an expression have the
    same [nv] variables, numbered from 0); python mutates the objects in place, here every method returns a new tree; the flag
    [simplified] (a shortcut for objects already simplified) is not modelled. *)
From Coq Require Export Reals Lra.
From Verif Require Export SortModel.
Local Open Scope R_scope.

(** A term of a polynomial is a coefficient with its row of [expolist]. *)
Inductive expr : Type :=
| Num (r : R)                                   (* a coefficient or exponent that is not an _Expression *)
| Pol (p : list (expr * list Z))                (* Polynomial *)
| EPol (p : list (expr * list Z)) (a : expr)    (* ExponentiatedPolynomial *)
| LPol (p : list (expr * list Z))               (* LogOfPolynomial *)
| Sum (l : list expr)
| Prod (l : list expr)
| Rule (terms : list (Z * list (list Z))) (cache : list (list (list Z * expr)))  (* ProductRule: coeffs with factorlist; expressions *)
| Pow (b a : expr)
| Log (a : expr)
| Exp (a : expr).
Notation terms_t := (list (expr * list Z)).
Notation cache_t := (list (list (list Z * expr))).

(** ** small helpers *)
Definition is_num (e : expr) : bool := match e with Num _ => true | _ => false end.
(** [coeff == 0], [coeff == 1]; an _Expression is never equal to a number *)
Definition is_const (r : R) (e : expr) : bool := match e with Num q => if Req_EM_T q r then true else false | _ => false end.
(** [(expolist == 0).all()] for one row *)
Definition zero_row (k : list Z) : bool := forallb (Z.eqb 0) k.
Definition all_rows_zero (p : terms_t) : bool := forallb (fun t => zero_row (snd t)) p.
(** [(coeffs == r).all()] *)
Definition all_coeffs (r : R) (p : terms_t) : bool := forallb (fun t => is_const r (fst t)) p.
Definition getk (i : nat) (k : list Z) : Z := nth i k 0%Z.
Fixpoint setk (i : nat) (v : Z) (k : list Z) : list Z :=
  match k, i with [], _ => [] | _ :: r, O => v :: r | y :: r, S j => y :: setk j v r end.
Definition addk (a b : list Z) : list Z := map (fun q => (fst q + snd q)%Z) (combine a b).
Fixpoint option_all {A} (l : list (option A)) : option (list A) :=
  match l with [] => Some [] | None :: _ => None | Some x :: r => match option_all r with Some s => Some (x :: s) | None => None end end.
Definition max_list (l : list nat) : nat := fold_right Nat.max 0%nat l.
Definition sum_list (l : list nat) : nat := fold_right Nat.add 0%nat l.

(** ** nesting depth of polynomials in coefficients: the fuel of additions and products of polynomials (enough by [addc_fuel], [mulc_fuel]) *)
Fixpoint depth (e : expr) : nat :=
  match e with
  | Num _ => 0
  | Pol p | LPol p => S (max_list (map (fun t => match t with (c, _) => depth c end) p))
  | EPol p a => Nat.max (S (max_list (map (fun t => match t with (c, _) => depth c end) p))) (depth a)
  | Sum l | Prod l => max_list (map depth l)
  | Rule _ cache => max_list (map (fun col => max_list (map (fun t => match t with (_, c) => depth c end) col)) cache)
  | Pow b a => Nat.max (depth b) (depth a)
  | Log a | Exp a => depth a
  end.
Section Nv.
Variable nv : nat.
Definition zeros : list Z := repeat 0%Z nv.
(** the constant polynomial, e.g. algebra.py:556 and the conversions of numbers in [_Expression.__add__] etc. (27-55) *)
Definition cst (r : R) : expr := Pol [(Num r, zeros)].

(** ** algebra.py:674-698: the merge loop of [Polynomial.simplify] on sorted terms, the removal of zeros, and the
    zero polynomial if nothing is left.  Terms whose coefficient is zero when the loop arrives there are skipped and removed
    afterwards; here they are dropped at once. *)
Fixpoint merge_from (add : expr -> expr -> expr) (prev : expr * list Z) (rest : terms_t) : terms_t :=
  match rest with
  | [] => [prev]
  | t :: r =>
      if is_const 0 (fst t) then merge_from add prev r
      else if roweqb (snd prev) (snd t) then merge_from add (add (fst t) (fst prev), snd t) r
      else prev :: merge_from add t r
  end.
Definition merged (add : expr -> expr -> expr) (sorted : terms_t) : terms_t :=
  match filter (fun t => negb (is_const 0 (fst t))) (match sorted with [] => [] | t :: r => merge_from add t r end) with
  | [] => [(Num 0, zeros)]
  | l => l
  end.
(** algebra.py:648-698 [simplify(deep=False)] *)
Definition tidy (add : expr -> expr -> expr) (p : terms_t) : terms_t := merged add (sort_by snd p).

(** ** algebra.py:577-598 [Polynomial._sub_or_add] and 27-31 [_Expression.__add__], with python's dispatch
    (NotImplemented -> the reflected method of the right operand).  [n] bounds the nesting of polynomials. *)
Fixpoint addc (n : nat) (a b : expr) : expr :=
  match a, b with
  | Num r, Num s => Num (r + s)
  | Pol p, Pol q => match n with O => Sum [a; b] (* not reached, see addc_fuel *) | S m => Pol (tidy (addc m) (p ++ q)) end
  | Pol p, Num r | Num r, Pol p => match n with O => Sum [a; b] | S m => Pol (tidy (addc m) ((Num r, zeros) :: p)) end
  | Num r, _ => Sum [b; cst r]
  | _, Num r => Sum [a; cst r]
  | Pol _, _ => Sum [b; a]
  | _, _ => Sum [a; b]
  end.
Definition add (a b : expr) : expr := addc (Nat.max (depth a) (depth b)) a b.
(** ** algebra.py:600-621 [Polynomial.__mul__] and 44-48 [_Expression.__mul__] *)
Definition scale (mul : expr -> expr -> expr) (p : terms_t) (r : R) : expr :=
  if Req_EM_T r 1 then Pol p else if Req_EM_T r 0 then cst 0 else Pol (map (fun t => (mul (fst t) (Num r), snd t)) p).
Fixpoint mulc (n : nat) (a b : expr) : expr :=
  match a, b with
  | Num r, Num s => Num (r * s)
  | Pol p, Pol q => match n with O => Prod [a; b] (* not reached *) | S m =>
      Pol (tidy add (flat_map (fun t => map (fun u => (mulc m (fst u) (fst t), addk (snd u) (snd t))) q) p)) end
  | Pol p, Num r | Num r, Pol p => match n with O => Prod [Pol p; cst r] (* not reached *) | S m => scale (mulc m) p r end
  | Num r, _ => Prod [b; cst r]
  | _, Num r => Prod [a; cst r]
  | Pol _, _ => Prod [b; a]
  | _, _ => Prod [a; b]
  end.
Definition mul (a b : expr) : expr := mulc (Nat.max (depth a) (depth b)) a b.
(** [exponent - 1]: algebra.py:574-575, 592-595 for polynomials, 37-38 for other expressions *)
Definition minus_one (a : expr) : expr :=
  match a with
  | Num r => Num (r - 1)
  | Pol p => Pol (tidy add ((Num (-1), zeros) :: p))
  | _ => Sum [a; cst (-1)]
  end.

(** ** simplify *)
(** algebra.py:669-671: a coefficient that is a constant polynomial is replaced by its coefficient *)
Definition unwrap (e : expr) : expr := match e with Pol [(c, k)] => if zero_row k then c else e | _ => e end.
(** algebra.py:1119-1131: what one simplified summand contributes: (changed, summands, zero) *)
Definition sum_item (e : expr) : bool * list expr * option expr :=
  match e with
  | Sum l => (true, l, None)
  | Pol p | EPol p _ | LPol p => if all_coeffs 0 p then (true, [], Some e) else (false, [e], None)
  | _ => (false, [e], None)
  end.
Fixpoint sum_pass (l : list expr) : bool * list expr * option expr :=
  match l with
  | [] => (false, [], None)
  | e :: r => match sum_item e, sum_pass r with
              | (c, s, z), (c', s', z') => (c || c', s ++ s', match z' with None => z | _ => z' end) end
  end.
(** algebra.py:1247-1264: one simplified factor: splice, drop a one, or a zero (the loop is left) *)
Inductive factor := Splice (l : list expr) | One (e : expr) | Zero (e : expr) | Keep (e : expr).
Definition prod_item (e : expr) : factor :=
  match e with
  | Prod l => Splice l
  | Pol p => if all_rows_zero p && all_coeffs 1 p then One e
             else if all_coeffs 0 p then Zero (Pol (tidy add p)) else Keep e
  | _ => Keep e
  end.
(** result: (changed, factors, one) or the zero *)
Fixpoint prod_pass (l : list expr) : (bool * list expr * option expr) + expr :=
  match l with
  | [] => inl (false, [], None)
  | e :: r =>
      match prod_item e, prod_pass r with
      | Zero z, _ => inr z
      | _, inr z => inr z
      | Splice s, inl (_, s', o) => inl (true, s ++ s', o)
      | One o, inl (_, s', o') => inl (true, s', match o' with None => Some o | _ => o' end)
      | Keep x, inl (c, s', o) => inl (c, x :: s', o)
      end
  end.

(** *** ProductRule *)
Fixpoint lookup (n : list Z) (col : list (list Z * expr)) : option expr :=
  match col with [] => None | (m, e) :: r => if roweqb n m then Some e else lookup n r end.
(** algebra.py:1466-1470, 1487-1491: [type(expression) is Polynomial and (expression.coeffs == 0).all()] *)
Definition entry_zero (n : list Z) (col : list (list Z * expr)) : bool :=
  match lookup n col with Some (Pol p) => all_coeffs 0 p | _ => false end.
Definition term_zero (ns : list (list Z)) (cache : cache_t) : bool := existsb (fun q => entry_zero (fst q) (snd q)) (combine ns cache).
(** 1472-1491; [prev] is the previous term with its current coefficient; a term whose coefficient is zero is passed over
    but becomes the previous one *)
Fixpoint rule_merge (cache : cache_t) (prev : Z * list (list Z)) (rest : list (Z * list (list Z))) : list (Z * list (list Z)) :=
  match rest with
  | [] => [prev]
  | (c, ns) :: r =>
      if Z.eqb c 0 then prev :: rule_merge cache (c, ns) r
      else if roweqb (concat (snd prev)) (concat ns)
           then (0%Z, snd prev) :: rule_merge cache (if term_zero ns cache then 0%Z else (c + fst prev)%Z, ns) r
           else prev :: rule_merge cache (if term_zero ns cache then 0%Z else c, ns) r
  end.
(** algebra.py:1448-1506 *)
Definition rule_simplify (terms : list (Z * list (list Z))) (cache : cache_t) : expr :=
  match filter (fun t => negb (Z.eqb (fst t) 0))
          (match sort_by (fun t => concat (snd t)) terms with
           | [] => []
           | (c, ns) :: r => rule_merge cache (if term_zero ns cache then 0%Z else c, ns) r
           end) with
  | [] => cst 0
  | terms' => Rule terms' cache
  end.

(** *** the whole tree; [n] is fuel: each recursive call and each further pass of a [while changed] loop uses one unit;
    None: out of fuel, or simplify called on a number *)
Section Simp.
Variable simp : expr -> option expr.   (* the recursive calls *)
(** 666-671 *)
Definition deep (p : terms_t) : option terms_t :=
  option_all (map (fun t => if is_num (fst t) then Some t else match simp (fst t) with Some c => Some (unwrap c, snd t) | None => None end) p).
(** 648-698 [simplify(deep=True)] *)
Definition pol_simplify (p : terms_t) : option terms_t :=
  match deep (sort_by snd p) with Some q => Some (merged add q) | None => None end.
(** 920-923 *)
Definition exponent_const (a : expr) : expr := match a with Pol (((c, _) :: _) as q) => if all_rows_zero q then c else a | _ => a end.
(** 913-938 [ExponentiatedPolynomial.simplify] *)
Definition exponentiated (p : terms_t) (a : expr) : option expr :=
  match (if is_num a then Some a else match simp a with Some a => Some (exponent_const a) | None => None end) with
  | None => None
  | Some a =>
      if is_const 0 a then Some (cst 1)
      else if is_const 1 a then Some (Pol p)
      else match pol_simplify p with
           | None => None
           | Some q => match q with [(c, k)] => if is_const 1 c && zero_row k then Some (Pol q) else Some (EPol q a) | _ => Some (EPol q a) end
           end
  end.
Definition simp_step (e : expr) : option expr :=
  match e with
  | Num _ => None
  | Pol p => match pol_simplify p with Some q => Some (Pol q) | None => None end
  | EPol p a => exponentiated p a
  | LPol p => (* 1049-1060 *)
      match pol_simplify p with
      | None => None
      | Some q => match q with [(c, k)] => if is_const 1 c && zero_row k then Some (cst 0) else Some (LPol q) | _ => Some (LPol q) end
      end
  | Sum l => (* 1103-1140 *)
      match option_all (map simp l) with
      | None => None
      | Some l => match sum_pass l with
                  | (true, [], Some z) => Some z
                  | (true, s, _) => simp (Sum s)
                  | (false, [s], _) => Some s
                  | (false, s, _) => Some (Sum s)
                  end
      end
  | Prod l => (* 1231-1275 *)
      match option_all (map simp l) with
      | None => None
      | Some l => match prod_pass l with
                  | inr z => Some z
                  | inl (true, [], Some o) => Some o
                  | inl (true, s, _) => simp (Prod s)
                  | inl (false, [s], _) => Some s
                  | inl (false, s, _) => Some (Prod s)
                  end
      end
  | Rule terms cache => Some (rule_simplify terms cache)
  | Pow b a => (* 1572-1604 *)
      match simp b with
      | None => None
      | Some (Pol p) => exponentiated p a
      | Some b => match simp a with
                  | None => None
                  | Some (Pol q) => if all_coeffs 0 q then Some (cst 1)
                                    else match q with [(c, k)] => if is_const 1 c && zero_row k then Some b else Some (Pow b (Pol q)) | _ => Some (Pow b (Pol q)) end
                  | Some a => Some (Pow b a)
                  end
      end
  | Log a => (* 1679-1691 *)
      match simp a with
      | None => None
      | Some ((Pol [(c, k)]) as a) => if is_const 1 c && zero_row k then Some (cst 0) else Some (Log a)
      | Some a => Some (Log a)
      end
  | Exp a => (* 1747-1759 *)
      match simp a with
      | None => None
      | Some ((Pol [(c, k)]) as a) => if is_const 0 c && zero_row k then Some (cst 1) else Some (Exp a)
      | Some a => Some (Exp a)
      end
  end.
End Simp.
Fixpoint simplify (n : nat) (e : expr) : option expr := match n with O => None | S n' => simp_step (simplify n') e end.

(** ** derive *)
(** the test [sympify_expression(expression).simplify() == 0] of line 1438 is done by sympy; it is a parameter *)
Variable sympy_zero : expr -> bool.
Section Derive.
Variable i : nat.
(** 1437-1440 *)
Definition vanishes (e : expr) : bool :=
  match e with Pol p | EPol p _ | LPol p => all_rows_zero p && sympy_zero e | _ => false end.
Fixpoint raise (j : nat) (ns : list (list Z)) : list (list Z) :=
  match ns, j with [], _ => [] | n :: r, O => setk i (getk i n + 1) n :: r | n :: r, S j => n :: raise j r end.
(** 1422-1440: one term; None is a KeyError or a failing derivative *)
Fixpoint rule_fill (der : expr -> option expr) (ns : list (list Z)) (cache : cache_t) : option (bool * cache_t) :=
  match ns, cache with
  | n :: ns', col :: cache' =>
      match (match lookup n col with
             | Some e => Some (e, col)
             | None => match lookup (setk i (getk i n - 1) n) col with
                       | None => None
                       | Some lower => match der lower with None => None | Some e => Some (e, col ++ [(n, e)]) end
                       end
             end), rule_fill der ns' cache' with
      | Some (e, col), Some (v, cache') => Some (vanishes e || v, col :: cache')
      | _, _ => None
      end
  | _, _ => Some (false, cache)
  end.
Fixpoint rule_fill_all (der : expr -> option expr) (terms : list (Z * list (list Z))) (cache : cache_t) : option (list (Z * list (list Z)) * cache_t) :=
  match terms with
  | [] => Some ([], cache)
  | (c, ns) :: r => match rule_fill der ns cache with
                    | None => None
                    | Some (v, cache) => match rule_fill_all der r cache with
                                         | None => None
                                         | Some (r, cache) => Some ((if v then 0%Z else c, ns) :: r, cache) end
                    end
  end.
(** 1399-1445 *)
Definition rule_derive (der : expr -> option expr) (terms : list (Z * list (list Z))) (cache : cache_t) : option expr :=
  match rule_fill_all der (flat_map (fun j => map (fun t => (fst t, raise j (snd t))) terms) (seq 0 (length cache))) cache with
  | None => None
  | Some (terms, cache) => Some (Rule terms cache)
  end.
(** 1341-1378: [ProductRule] of expressions *)
Definition rule_of (simp : expr -> option expr) (l : list expr) : option expr :=
  match option_all (map simp l) with
  | None => None
  | Some l => Some (Rule [(1%Z, map (fun _ => zeros) l)] (map (fun e => [(zeros, e)]) l))
  end.
Section Go.
Variables simp der : expr -> option expr.   (* the recursive calls *)
(** 511-558 [Polynomial.derive] *)
Definition pol_derive (p : terms_t) : option expr :=
  let s1 := map (fun t => (mul (fst t) (Num (IZR (getk i (snd t)))), setk i (getk i (snd t) - 1) (snd t)))
              (filter (fun t => negb (Z.eqb (getk i (snd t)) 0)) p) in
  if existsb (fun t => negb (is_num (fst t))) p then
    match option_all (map (fun t => if is_num (fst t) then Some (Num 0, snd t) else match der (fst t) with Some c => Some (c, snd t) | None => None end) p) with
    | None => None
    | Some s2 => match s1 with [] => Some (Pol s2) | _ => Some (add (Pol s1) (Pol s2)) end
    end
  else match s1 with [] => Some (cst 0) | _ => Some (Pol s1) end.
Definition coeffs_of (e : expr) : terms_t := match e with Pol p => p | _ => [] end.
Definition der_step (e : expr) : option expr :=
  match e with
  | Num _ => None
  | Pol p => pol_derive p
  | EPol p a => (* 856-905 *)
      match pol_derive p, (if is_num a then Some None else match der a with Some a' => Some (Some a') | None => None end) with
      | Some dp, Some da =>
          let s1 := if all_coeffs 0 (coeffs_of dp) then None
                    else let factor1 := mul a dp in
                         if is_const 0 (minus_one a) then Some factor1 else Some (Prod [EPol p (minus_one a); factor1]) in
          match da, s1 with
          | None, None => Some (cst 0)
          | None, Some s1 => Some s1
          | Some da, None => Some (Prod [EPol p a; da; LPol p])
          | Some da, Some s1 => Some (Sum [Prod [EPol p a; da; LPol p]; s1])
          end
      | _, _ => None
      end
  | LPol p => (* 1018-1047 *)
      match pol_derive p with
      | None => None
      | Some dp => if all_coeffs 0 (coeffs_of dp) then Some (cst 0) else Some (Prod [EPol p (Num (-1)); dp])
      end
  | Sum l => match option_all (map der l) with Some l => Some (Sum l) | None => None end (* 1151-1162 *)
  | Prod l => (* 1281-1290 *)
      match rule_of simp l with
      | Some (Rule terms cache) => rule_derive (fun e => match der e with Some d => simp d | None => None end) terms cache
      | _ => None
      end
  | Rule terms cache => rule_derive (fun e => match der e with Some d => simp d | None => None end) terms cache
  | Pow b a => (* 1606-1639 *)
      match der b, der a with
      | Some db, Some da =>
          let factor1 := mul a db in
          Some (Sum [Prod [Pow b a; da; Log b];
                     if is_const 0 (minus_one a) then factor1 else Prod [Pow b (minus_one a); factor1]])
      | _, _ => None
      end
  | Log a => match der a with Some da => Some (Prod [Pow a (cst (-1)); da]) | None => None end (* 1693-1708 *)
  | Exp a => match der a with Some da => Some (Prod [Exp a; da]) | None => None end (* 1761-1772 *)
  end.
End Go.
Fixpoint derive (n : nat) (e : expr) : option expr := match n with O => None | S n' => der_step (simplify n') (derive n') e end.
End Derive.

(** algebra.py:1508-1518 [to_sum]; a missing key is a KeyError *)
Definition to_sum (terms : list (Z * list (list Z))) (cache : cache_t) : option expr :=
  match option_all (map (fun t => match option_all (map (fun q => lookup (fst q) (snd q)) (combine (snd t) cache)) with
                                  | Some fs => Some (Prod (cst (IZR (fst t)) :: fs)) | None => None end) terms) with
  | Some l => Some (Sum l) | None => None end.

(** ** replace, with [remove=False] *)
Section Replace.
Variable i : nat.
Variable v : R.
(** [value**int(power)] *)
Definition vpow (k : Z) : R := powerRZ v k.
(** algebra.py:701-760 [Polynomial.replace]; [rep] is the recursive call *)
Definition pol_replace (rep : expr -> option expr) (p : terms_t) : option terms_t :=
  option_all (map (fun t =>
    let k := setk i 0 (snd t) in
    if Req_EM_T v 0 then Some (if Z.eqb (getk i (snd t)) 0 then fst t else Num 0, k)
    else if is_num (fst t)
         then Some (if Req_EM_T v 1 then fst t else mul (fst t) (Num (vpow (getk i (snd t)))), k)
         else match rep (fst t) with
              | None => None
              | Some c => Some (if Req_EM_T v 1 then c else mul c (Num (vpow (getk i (snd t)))), k)
              end) p).
Fixpoint replace (e : expr) : option expr :=
  match e with
  | Num _ => None
  | Pol p => match pol_replace replace p with Some q => Some (Pol q) | None => None end
  | EPol p a => match pol_replace replace p, (if is_num a then Some a else replace a) with Some q, Some a => Some (EPol q a) | _, _ => None end
  | LPol p => match pol_replace replace p with Some q => Some (LPol q) | None => None end
  | Sum l => match option_all (map replace l) with Some l => Some (Sum l) | None => None end
  | Prod l => match option_all (map replace l) with Some l => Some (Prod l) | None => None end
  | Rule terms cache => (* 1520-1528 *)
      let cache := map (map (fun q => match q with (n, e) => (n, replace e) end)) cache in
      match option_all (map (fun t => match option_all (map (fun q => match find (fun r => roweqb (fst q) (fst r)) (snd q) with Some r => snd r | None => None end) (combine (snd t) cache)) with
                                      | Some fs => Some (mul (Prod fs) (Num (IZR (fst t)))) | None => None end) terms) with
      | Some l => Some (Sum l) | None => None end
  | Pow b a => match replace b, replace a with Some b, Some a => Some (Pow b a) | _, _ => None end
  | Log a => match replace a with Some a => Some (Log a) | None => None end
  | Exp a => match replace a with Some a => Some (Exp a) | None => None end
  end.
End Replace.
End Nv.
