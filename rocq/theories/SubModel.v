(** Model of /repo/pySecDec/subtraction.py 17-366: pole_structure, integrate_pole_part, integrate_by_parts.
    Simplifications: a [polyprod] is a record of its three kinds of factors; a monomial factor is its row of exponents with
    coefficient 1; numbers are real numbers; python objects are not shared or mutated (see ExprModel); the exponent of
    [regulator_poles] is -1 (as the documentation, 188-193, demands) and [Pow(base, -1)] with a polynomial [base], which
    [Pow.simplify] (algebra.py:1577-1583) turns into an ExponentiatedPolynomial first, is built as one. *)
From Verif Require Import ExprModel.
Local Open Scope R_scope.

(** ** the input and output products: factors[0], the base of factors[1], factors[2:] *)
Record pprod := mkPP { mons : list (list Z * terms_t); pole : terms_t; rest : list expr }.
Inductive outcome := NoFuel | ValueError | AssertionError | Ok (l : list pprod).
Section Sub.
Variable nv : nat.
Variable zero_test : expr -> bool.   (* the test done by sympy in ProductRule.derive *)
Variable n : nat.                    (* fuel of simplify and derive *)
Definition num_of (e : expr) : R := match e with Num r => r | _ => 0 end.
(** subtraction.py:38-41, 60-62, 227-229: the constant term of an exponent; the documentation asks for a numerical constant term *)
Definition constant_term (e : terms_t) : R := fold_right Rplus 0 (map (fun t => num_of (fst t)) (filter (fun t => zero_row (snd t)) e)).
(** subtraction.py:36-43, 57-64: a_j *)
Definition exponent_constant_term (m : list (list Z * terms_t)) (j : nat) : R :=
  fold_left (fun acc f => acc + constant_term (snd f) * IZR (getk j (fst f))) m 0.
(** subtraction.py:58, 65: the exponent with its regulators *)
Definition full_exponent (m : list (list Z * terms_t)) (j : nat) : expr :=
  fold_left (fun acc f => add nv acc (mul nv (Pol (snd f)) (Num (IZR (getk j (fst f)))))) m (Num 0).
(** subtraction.py:17-45 *)
Definition pole_structure (m : list (list Z * terms_t)) (js : list nat) : list R := map (exponent_constant_term m) js.
(** subtraction.py:67-71 *)
Definition unregulated (m : list (list Z * terms_t)) (j : nat) : bool :=
  if Rlt_dec (exponent_constant_term m j) 0
  then all_coeffs 0 (coeffs_of (add nv (full_exponent m j) (Num (- exponent_constant_term m j))))
  else false.
(** [monomial_product.replace(index,1)], 51 *)
Definition set_to_one (j : nat) (m : list (list Z * terms_t)) : list (list Z * terms_t) :=
  map (fun f => (setk j 0 (fst f), map (fun t => (fst t, setk j 0 (snd t))) (snd f))) m.
(** the row of x_j^p, 86-87, 255-256 *)
Definition unit_row (j : nat) (p : Z) : list Z := setk j p (zeros nv).

(** ** integrate_pole_part *)
Section Pole.
Variables (pp : pprod) (j : nat).
Let a := exponent_constant_term (mons pp) j.
Let full := full_exponent (mons pp) j.
Let cal_I := Prod (rest pp).
(** 109 *)
Definition denominator (p : nat) : terms_t := coeffs_of (mul nv (add nv full (Num (INR p + 1))) (Num (INR (fact p)))).
(** 110-124: one term of the pole part *)
Definition pole_term (p : nat) (d0 : expr) : option pprod :=
  if Req_EM_T (a + INR p + 1) 0
  then Some (mkPP (set_to_one j (mons pp)) (coeffs_of (mul nv (Pol (pole pp)) (Pol (denominator p)))) [d0])
  else match simplify nv n (Prod [d0; EPol (denominator p) (Num (-1))]) with
       | Some last => Some (mkPP (set_to_one j (mons pp)) (pole pp) [last])
       | None => None
       end.
(** 125, 80-88 *)
Definition minus_term (p : nat) (d0 : expr) : expr := Prod [Pol [(Num (- (1 / INR (fact p))), unit_row j (Z.of_nat p))]; d0].
(** 95-125: [count] terms from power p on; [cur] is the p-th derivative *)
Fixpoint pole_loop (count p : nat) (cur : option expr) : option (list pprod * list expr) :=
  match count with
  | O => Some ([], [])
  | S count =>
      match cur with
      | None => None
      | Some dI =>
          match replace nv j 0 dI with
          | None => None
          | Some d0 => match pole_term p d0, pole_loop count (S p) (derive nv zero_test j n dI) with
                       | Some t, Some (ts, ms) => Some (t :: ts, minus_term p d0 :: ms)
                       | _, _ => None
                       end
          end
      end
  end.
(** [range(int(-exponent_constant_term))], 96 *)
Definition subtractions : nat := Z.to_nat (Int_part (- a)).
(** 49-131 *)
Definition pole_part_single : outcome :=
  if unregulated (mons pp) j then ValueError
  else if Rle_dec 0 a then Ok [pp]
  else match pole_loop subtractions 0 (Some cal_I) with
       | None => NoFuel
       | Some (ts, ms) => match simplify nv n (Sum (cal_I :: ms)) with
                          | None => NoFuel
                          | Some r => Ok (ts ++ [mkPP (mons pp) (pole pp) [r]])
                          end
       end.
End Pole.
(** 211-212, 364-365: the inner loop *)
Fixpoint for_all (f : pprod -> outcome) (l : list pprod) : outcome :=
  match l with
  | [] => Ok []
  | pp :: r => match f pp with
               | Ok a => match for_all f r with Ok b => Ok (a ++ b) | o => o end
               | o => o
               end
  end.
(** 207-213, 360-366: the outer loop *)
Fixpoint over {A} (f : A -> pprod -> outcome) (ixs : list A) (l : list pprod) : outcome :=
  match ixs with
  | [] => Ok l
  | i :: r => match for_all (f i) l with Ok l' => over f r l' | o => o end
  end.
(** 133-213 *)
Definition integrate_pole_part (pp : pprod) (indices : list nat) : outcome := over (fun j pp => pole_part_single pp j) indices [pp].

(** ** integrate_by_parts *)
(** 240-259 *)
Fixpoint increase_first (j : nat) (m : list (list Z * terms_t)) : option (list (list Z * terms_t)) :=
  match m with
  | [] => None
  | f :: r => if all_rows_zero (snd f) && all_coeffs 1 (snd f) then Some ((setk j (getk j (fst f) + 1) (fst f), snd f) :: r)
              else match increase_first j r with Some r => Some (f :: r) | None => None end
  end.
Definition increase_power (j : nat) (m : list (list Z * terms_t)) : list (list Z * terms_t) :=
  match increase_first j m with
  | Some m => m
  | None => (unit_row j 1, [(Num 1, zeros nv)]) :: m
  end.
(** 217-279; [k] bounds the recursion *)
Fixpoint by_parts_single (k : nat) (goal : R) (j : nat) (pp : pprod) : outcome :=
  match k with
  | O => NoFuel
  | S k =>
      let cal_I := Prod (rest pp) in
      if unregulated (mons pp) j then ValueError
      else if Rle_dec goal (exponent_constant_term (mons pp) j) then Ok [pp]
      else let pole' := coeffs_of (mul nv (Pol (pole pp)) (add nv (full_exponent (mons pp) j) (Num 1))) in
           match replace nv j 1 cal_I, derive nv zero_test j n cal_I with
           | Some c1, Some d => match simplify nv n c1, simplify nv n (Prod [cst nv (-1); d]) with
                                | Some c1, Some d =>
                                    match by_parts_single k goal j (mkPP (increase_power j (mons pp)) pole' [d]) with
                                    | Ok l => Ok (mkPP (set_to_one j (mons pp)) pole' [c1] :: l)
                                    | o => o
                                    end
                                | _, _ => NoFuel
                                end
           | _, _ => NoFuel
           end
  end.
(** 281-366: one goal for all indices, or one for each *)
Inductive goals := Same (g : R) | Each (l : list R).
Definition integrate_by_parts (k : nat) (pp : pprod) (power_goals : goals) (indices : list nat) : outcome :=
  match power_goals with
  | Same g => over (fun q pp => by_parts_single k (fst q) (snd q) pp) (map (pair g) indices) [pp]
  | Each l => if Nat.eqb (length l) (length indices) then over (fun q pp => by_parts_single k (fst q) (snd q) pp) (combine l indices) [pp] else AssertionError
  end.
End Sub.
