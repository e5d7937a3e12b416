(** Model of the arithmetic of /repo/pySecDec/disteval.py: [bracket_mul] (265-278), [mul_variance] (280-285),
    [split_integral_into_orders] (930-946), [parse_array_shorthand] (948-966), [parse_unit] (968-972).
    Simplification: floating point numbers are exact (elements of a field, real numbers). *)
From Coq Require Export String Ascii Reals.
From Verif Require Export FieldBase.
Local Open Scope Z_scope.

(** orders: vectors of integer powers of the regulators *)
Definition order := list Z.
Definition oeqb (a b : order) : bool := if list_eq_dec Z.eq_dec a b then true else false.
Fixpoint oadd (a b : order) : order := match a, b with x :: a', y :: b' => (x + y) :: oadd a' b' | _, _ => [] end.
Fixpoint oleb (a b : order) : bool := match a, b with x :: a', y :: b' => Z.leb x y && oleb a' b' | _, _ => true end.
(** [np.min(l, axis=0)], [np.max(l, axis=0)] of a nonempty list *)
Fixpoint ozip (f : Z -> Z -> Z) (a b : order) : order := match a, b with x :: a', y :: b' => f x y :: ozip f a' b' | _, _ => [] end.
Definition omin (l : list order) : order := match l with [] => [] | a :: r => fold_left (ozip Z.min) r a end.
Definition omax (l : list order) : order := match l with [] => [] | a :: r => fold_left (ozip Z.max) r a end.

(** dictionaries in insertion order *)
Section Dict.
Context {V : Type}.
Definition bracket := list (order * V).
Fixpoint bget (k : order) (d : bracket) : option V := match d with [] => None | (j, v) :: r => if oeqb k j then Some v else bget k r end.
Fixpoint bset (k : order) (v : V) (d : bracket) : bracket :=
  match d with [] => [(k, v)] | (j, u) :: r => if oeqb k j then (j, v) :: r else (j, u) :: bset k v r end.
End Dict.
Arguments bracket V : clear implicits.

Section Mul.
Context {F : Fld}.
(** disteval.py:265-278 *)
Definition bmul_entry (maxorders : order) (mul : F -> F -> F) (br : bracket F) (k1 : order) (v1 : F) (k2 : order) (v2 : F) : bracket F :=
  let key := oadd k1 k2 in
  if oleb key maxorders then bset key (fadd (match bget key br with Some x => x | None => f0 end) (mul v1 v2)) br else br.
Definition bracket_mul (br1 br2 : bracket F) (maxorders : order) (mul : F -> F -> F) : bracket F :=
  fold_left (fun br p1 => fold_left (fun br p2 => bmul_entry maxorders mul br (fst p1) (snd p1) (fst p2) (snd p2)) br2 br) br1 [].

(** an integral: the orders of its kernels, each with the (indices of the) kernels summed up, disteval.py:935-946;
    [kernel2idx] is resolved: kernels are their indices *)
Fixpoint set_at {A} (i : nat) (f : A -> A) (l : list A) : list A := match l, i with [], _ => [] | x :: r, O => f x :: r | x :: r, S j => x :: set_at j f r end.
(** the dictionary [orders] for one value of [ampid] *)
Definition split_integral (nkern : nat) (orders : bracket (list F)) (kern_orders : list (order * list nat)) (br_pref br_coef : bracket F) (requested : order) : bracket (list F) :=
  let leading := oadd (omin (map fst br_pref)) (omin (map fst br_coef)) in
  let kern_leading := omin (map fst kern_orders) in
  let kern_highest := omax (map fst kern_orders) in
  let max_highest := oadd leading kern_highest in
  let prefactor := bracket_mul br_pref br_coef (oadd (map Z.opp kern_leading) requested) fmul in
  fold_left (fun orders o =>
    fold_left (fun orders pc =>
      let p := oadd (fst o) (fst pc) in
      if oleb p requested && oleb p max_highest then
        let row := match bget p orders with Some r => r | None => repeat f0 nkern end in
        bset p (fold_left (fun row k => set_at k (fun x => fadd x (snd pc)) row) (snd o) row) orders
      else orders) prefactor orders) kern_orders orders.
End Mul.

(** disteval.py:280-285 [mul_variance]; complex numbers are pairs *)
Definition mul_variance (coef var : R * R) : R * R :=
  (let cr2 := fst coef ^ 2 in let ci2 := snd coef ^ 2 in
   (cr2 * fst var + ci2 * snd var, ci2 * fst var + cr2 * snd var))%R.
(** disteval.py:763-764 [amp_var = W_re_var_coef @ real(kern_var) + W_im_var_coef @ imag(kern_var)] with the coefficient
    arrays of lines 523-528, for one amplitude; and [amp_val = W @ kern_val] *)
Definition dotR (a b : list R) : R := fold_right Rplus 0%R (map (fun p => fst p * snd p)%R (combine a b)).
Definition amp_var (W : list (R * R)) (kern_var : list (R * R)) : R * R :=
  (let re2 := map (fun c => fst c ^ 2) W in let im2 := map (fun c => snd c ^ 2) W in
   (dotR re2 (map fst kern_var) + dotR im2 (map snd kern_var), dotR im2 (map fst kern_var) + dotR re2 (map snd kern_var)))%R.
Definition cmul (a b : R * R) : R * R := (fst a * fst b - snd a * snd b, fst a * snd b + snd a * fst b)%R.
Definition cadd (a b : R * R) : R * R := (fst a + fst b, snd a + snd b)%R.
Definition amp_val (W kern_val : list (R * R)) : R * R := fold_right cadd (0, 0)%R (map (fun p => cmul (fst p) (snd p)) (combine W kern_val)).

(** * text *)
Section Text.
Variable V : Type.
Variable pyfloat : list ascii -> option V. (* python's float(): None is a ValueError *)
Variable pyint : list ascii -> option Z.   (* python's int() *)
(** [text.split(c)] *)
Fixpoint split_on (c : ascii) (t : list ascii) : list (list ascii) :=
  match t with
  | [] => [[]]
  | a :: r => if Ascii.eqb a c then [] :: split_on c r else match split_on c r with s :: l => (a :: s) :: l | [] => [[a]] end
  end.
(** [item.split(c, 1)] when c occurs *)
Fixpoint split_first (c : ascii) (t : list ascii) : option (list ascii * list ascii) :=
  match t with
  | [] => None
  | a :: r => if Ascii.eqb a c then Some ([], r) else match split_first c r with Some (s, u) => Some (a :: s, u) | None => None end
  end.
(** disteval.py:948-966 *)
Definition parse_item (item : list ascii) : option (list V) :=
  match split_first "x" item with
  | Some (rep, value) =>
      match pyfloat value with
      | Some v => match pyint rep with Some n => Some (repeat v (Z.to_nat n)) | None => None end
      | None => None
      end
  | None => option_map (fun v => [v]) (pyfloat item)
  end.
Fixpoint parse_items (l : list (list ascii)) : option (list V) :=
  match l with
  | [] => Some []
  | i :: r => match parse_item i, parse_items r with Some a, Some b => Some (a ++ b)%list | _, _ => None end
  end.
Definition parse_array_shorthand (text : list ascii) : option (list V) := parse_items (split_on "," text).
(** disteval.py:968-972; [text.endswith(unit)] and [text[:-len(unit)]] *)
Variable scale : V -> V -> V. (* multiplication *)
Definition endswith (text u : list ascii) : bool :=
  Nat.leb (List.length u) (List.length text) && (if list_eq_dec ascii_dec (skipn (List.length text - List.length u) text) u then true else false).
Fixpoint parse_unit (units : list (list ascii * V)) (text : list ascii) : option V :=
  match units with
  | [] => pyfloat text
  | (u, m) :: r => if endswith text u then option_map (fun v => scale v m) (pyfloat (firstn (List.length text - List.length u) text)) else parse_unit r text
  end.
End Text.

(** * /repo/pySecDec/formset.py:115-180 *)
Definition round_down (x n : Z) : Z := x / n * n.
Definition round_up (x n : Z) : Z := (x + (n - 1)) / n * n.
(** number of decimal digits minus one, [int(math.floor(math.log10(x)))]; simplification: exact *)
Fixpoint log10_floor (fuel : nat) (x : Z) : Z := match fuel with O => 0 | S f => if Z.ltb x 10 then 0 else 1 + log10_floor f (x / 10) end.
(** formset.py:165-190, for x >= 100 (below, the rounding unit is a fraction); the value and the text: a number with a
    suffix, given by the power of 1000 it stands for *)
Definition round_human_readable (x : Z) (up : bool) : Z * (Z * nat) :=
  let round_off := if up then round_up else round_down in
  let x := round_off x (10 ^ (log10_floor (Z.to_nat (Z.log2 x + 1)) x - 2)) in
  if Z.eqb (round_off x (1000 ^ 4)) x then (round_off x (1000 ^ 4), (round_off x (1000 ^ 4) / 1000 ^ 4, 4%nat))
  else if Z.eqb (round_off x (1000 ^ 3)) x then (round_off x (1000 ^ 3), (round_off x (1000 ^ 3) / 1000 ^ 3, 3%nat))
  else if Z.eqb (round_off x (1000 ^ 2)) x then (round_off x (1000 ^ 2), (round_off x (1000 ^ 2) / 1000 ^ 2, 2%nat))
  else if Z.eqb (round_off x 1000) x then (round_off x 1000, (round_off x 1000 / 1000, 1%nat))
  else (x, (x, 0%nat)).
(** formset.py:128-145 [metric_prefix] *)
Definition strip_lower_prefix (c : ascii) : option Z :=
  if existsb (Ascii.eqb c) ["k"; "K"]%char then Some 1000 else if existsb (Ascii.eqb c) ["m"; "M"]%char then Some (1000 ^ 2)
  else if existsb (Ascii.eqb c) ["g"; "G"]%char then Some (1000 ^ 3) else if existsb (Ascii.eqb c) ["t"; "T"]%char then Some (1000 ^ 4) else None.
(** formset.py:148-157 [parse_number]; [pyfloat] gives an integer here (the texts of interest), [None] is a ValueError;
    texts without line ends (where the regular expression would behave differently) *)
Definition parse_number (pyfloat : list ascii -> option Z) (s : list ascii) : option Z :=
  match rev s with
  | c :: r => match strip_lower_prefix c with Some m => option_map (fun v => v * m) (pyfloat (rev r)) | None => pyfloat s end
  | [] => pyfloat s
  end.
