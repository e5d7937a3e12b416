(** Model of the bookkeeping of expansion orders, from the orders requested for a sum of integrals down to the kernels of the sectors:
    /repo/pySecDec/code_writer/sum_package.py:54-119 [Coefficient.leading_orders], 131-176 [_generate_one_term];
    /repo/pySecDec/code_writer/make_package.py:1150-1188, 1361-1362, 1798-1802, 1892-1893, 2135-2136, 2151-2158 (orders), 580-583 [_make_sector_order_names];
    /repo/pySecDec/code_writer/templates/sum_package/src/name_weighted_integral.cpp:31-48 [compute_required_orders];
    /repo/pySecDecContrib/util/secdecutil/coefficient_parser.hpp:186-195; /repo/pySecDec/disteval.py:489-493.
    A list of orders has one entry per regulator.  Coefficients are elements of a field; [ginsh] and the two expansion routines
    (C38, C39) are parameters. *)
From Coq Require Import ZArith. 
From Verif Require Import FieldBase MiscModel.
Local Open Scope Z_scope.
Notation orders := (list Z) (only parsing).
(** numpy's elementwise operations *)
Definition zipz (f : Z -> Z -> Z) (a b : orders) : orders := map (fun q => f (fst q) (snd q)) (combine a b).
Definition vadd := zipz Z.add.
Definition vsub := zipz Z.sub.
Definition vmin := zipz Z.min.
Definition vmax := zipz Z.max.
Definition vneg (a : orders) : orders := map Z.opp a.

(** ** sum_package.py *)
(** python's [<] for lists of integers *)
Fixpoint list_lt (a b : orders) : bool :=
  match a, b with
  | [], _ :: _ => true
  | x :: a, y :: b => if x =? y then list_lt a b else x <? y
  | _, _ => false
  end.
(** python's [min] of lists: the first one that is minimal *)
Definition py_min (x : orders) (l : list orders) : orders := fold_left (fun best y => if list_lt y best then y else best) l x.
(** 154-156: the orders requested from an integral; [lowest] holds the leading orders of the coefficients of this integral in the
    sums it contributes to (999999 is the default if there is none) *)
Definition requested_of_integral (requested_orders : orders) (lowest : list orders) : orders :=
  match lowest with
  | [] => map (fun r => r - 999999) requested_orders
  | x :: l => vsub requested_orders (py_min x l)
  end.
(** 167 *)
Definition highest_coefficient_orders (requested_orders prefactor_lowest lowest_orders : orders) : orders := vsub (vsub requested_orders prefactor_lowest) lowest_orders.
(** name_weighted_integral.cpp:31-48, requested_orders + 1 - coefficient - integral - prefactor, at least 1 *)
Definition compute_required_orders (requested_orders coefficient_lowest lowest_orders prefactor_lowest : orders) : orders :=
  map (fun order => if 0 <? order then order else 1)
    (vsub (vsub (vsub (map (fun r => r + 1) requested_orders) coefficient_lowest) lowest_orders) prefactor_lowest).
(** coefficient_parser.hpp:190-193: [series(EXPR, regulator, required_orders + 1)] keeps the terms below this order *)
Definition parser_highest_orders (requested_orders coefficient_lowest lowest_orders prefactor_lowest : orders) : orders :=
  compute_required_orders requested_orders coefficient_lowest lowest_orders prefactor_lowest.
(** disteval.py:491-493 with cpuworker.cpp:529 [expr.series(x, order+1)] *)
Definition disteval_highest_orders (requested_orders lowest_orders prefactor_lowest : orders) : orders :=
  vadd (vsub (vneg lowest_orders) prefactor_lowest) requested_orders.

(** *** 54-119 [leading_orders].  For one regulator, with the others at random primes: [Some l] if the series starts at order [l],
    [None] if it is zero.  One pass of the loop asks whether the terms up to order [orders[i]] vanish, and for [ldegree] (0 for zero) *)
Definition vanishes (l : option Z) (o : Z) : bool := match l with None => true | Some l => o <? l end.
Definition ldegree (l : option Z) (o : Z) : Z := if vanishes l o then 0 else match l with Some l => l | None => 0 end.
(** 110-118: None if another pass is needed, with the new orders; [maxorder] bounds the search *)
Definition next_order (maxorder : Z) (l : option Z) (o : Z) : Z := if vanishes l o && (o <=? maxorder) then o + 1 else o.
Fixpoint leading_loop (fuel : nat) (maxorder : Z) (series : list (option Z)) (os : orders) : option orders :=
  match fuel with
  | O => None
  | S fuel =>
      let os' := map (fun q => next_order maxorder (fst q) (snd q)) (combine series os) in
      if forallb (fun q => fst q =? snd q) (combine os os')
      then Some (map (fun q => ldegree (fst q) (snd q)) (combine series os))
      else leading_loop fuel maxorder series os'
  end.
(** [whole_zero]: line 108, the coefficient is zero for random values of everything *)
Definition leading_orders (fuel : nat) (maxorder : Z) (whole_zero : bool) (series : list (option Z)) : option orders :=
  if whole_zero then Some (map (fun _ => maxorder) series) else leading_loop fuel maxorder series (map (fun _ => 0) series).

(** ** make_package.py *)
(** 1798-1802 *)
Definition required_orders (requested prefactor_lowest : orders) : orders := vsub requested prefactor_lowest.
(** 2152 *)
Definition prefactor_orders (requested lowest : orders) : orders := vsub requested lowest.
Section Sector.
Variable F : Fld.
Notation poly := (list (orders * F)) (only parsing).
(** a summand after the subtraction: the two expansion routines applied to its pole part and to its regular part; None is OrderError *)
Record summand := { expand_singular : orders -> option poly; expand_Taylor : orders -> option poly }.
(** [expolist.min(axis=0)] *)
Definition col_min (p : poly) : orders := match p with [] => [] | t :: r => fold_left vmin (map fst r) (fst t) end.
(** 1159-1165: an OrderError is replaced by a zero term *)
Definition singular_expanded (required : orders) (s : summand) : poly :=
  match expand_singular s required with Some p => p | None => [(required, (0%fld : F))] end.
(** 1167-1168 *)
Definition poles (required : orders) (s : summand) : orders := vneg (col_min (singular_expanded required s)).
Definition expansion_orders (required : orders) (s : summand) : orders := vadd required (poles required s).
(** 1170-1176 *)
Definition regular_expanded (required : orders) (s : summand) : poly :=
  match expand_Taylor s (expansion_orders required s) with Some p => p | None => [(expansion_orders required s, (0%fld : F))] end.
(** 1178-1181; a sector has at least one summand *)
Definition sector_poles (required : orders) (sector : list summand) : orders :=
  match sector with [] => [] | s :: r => fold_left (fun m t => vmax m (poles required t)) r (poles required s) end.
(** 1361-1362, 580-583: the orders for which code is written, shifted back by the poles *)
Definition sector_orders (required : orders) (sector : list summand) : option (list orders) :=
  option_map (map (fun p => vsub p (sector_poles required sector))) (rangecomb (map (fun _ => 0) required) (vadd required (sector_poles required sector))).
(** the integrand is the sum of the products; the kernel of an order is the coefficient of that order *)
Definition kernel (required : orders) (sector : list summand) (e : orders) : F :=
  sumF (map (fun s => sumF (map (fun a => sumF (map (fun b => if list_eq_dec Z.eq_dec (vadd (fst a) (fst b)) e then (snd a * snd b)%fld else (0%fld : F))
     (regular_expanded required s))) (singular_expanded required s))) sector).
(** 1187-1188, 2135-2136: the lowest orders over all sectors, starting from the requested ones *)
Definition lowest_orders (requested required : orders) (sectors : list (list summand)) : orders :=
  fold_left (fun m sector => vmin m (vneg (sector_poles required sector))) sectors requested.
(** 2138-2143: the kernels listed under an order *)
Definition order_value (required : orders) (sectors : list (list summand)) (e : orders) : F :=
  sumF (map (fun sector => match sector_orders required sector with
                           | Some l => if existsb (fun x => if list_eq_dec Z.eq_dec x e then true else false) l then kernel required sector e else (0%fld : F)
                           | None => (0%fld : F) end) sectors).
End Sector.
Arguments expand_singular {F}. Arguments expand_Taylor {F}.
