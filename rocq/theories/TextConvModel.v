(** Model of the converters of /repo/pySecDec/integral_interface.py. *)
From Verif Require Export TextModel.
(** [sep.join(l)] *)
Fixpoint join (sep : text) (l : list text) : text := match l with [] => [] | [a] => a | a :: r => a ++ sep ++ join sep r end.
(** the line boundaries of [str.splitlines] (ASCII); a carriage return followed by a newline counts twice here *)
Definition is_newline (c : ascii) : bool := let n := nat_of_ascii c in orb (andb (Nat.leb 10 n) (Nat.leb n 13)) (andb (Nat.leb 28 n) (Nat.leb n 30)).
Fixpoint splitlines_aux (cur t : text) : list text :=
  match t with
  | [] => match cur with [] => [] | _ => [cur] end
  | c :: r => if is_newline c then cur :: splitlines_aux [] r else splitlines_aux (cur ++ [c]) r
  end.
Definition splitlines (t : text) : list text := splitlines_aux [] t.
(** [t.replace("e", "*10^")] *)
Fixpoint replace_e (t : text) : text := match t with [] => [] | c :: r => if Ascii.eqb c "e" then txt "*10^" ++ replace_e r else c :: replace_e r end.
(** ["%s" % var] *)
Definition var_text (v : option text) : text := match v with Some x => x | None => txt "None" end.
(** a list of results, or a single one: [results if len(results) > 1 else results[0]] *)
Definition all_some {A} : list (option A) -> option (list A) :=
  fix go l := match l with [] => Some [] | Some a :: r => option_map (cons a) (go r) | None :: _ => None end.
Section Conv.
(** Python's numbers, ["%.18g" % a] and ["%+.18g" % a] *)
Variables (P : Type) (float_of : text -> option P) (g18 g18plus : P -> text).
Section Fmt.
Variables (power Order : text).
(** integral_interface.py:141-147 [fmt_term], on the text of the value *)
Definition fmt_term (val var : text) (e : Z) : text :=
  if Z.eqb e 0 then val
  else if Z.eqb e 1 then val ++ txt "*" ++ var
  else if Z.eqb e (-1) then val ++ txt "/" ++ var
  else if Z.ltb e 0 then val ++ txt "/" ++ var ++ power ++ zdec (- e)
  else val ++ txt "*" ++ var ++ power ++ zdec e.
(** integral_interface.py:149-152, the order term *)
Definition fmt_order (var : text) (o : option Z) : text :=
  match o with
  | None => []
  | Some k => if Z.eqb k 1 then txt " + " ++ Order ++ txt "(" ++ var ++ txt ")"
              else if Z.ltb 0 k then txt " + " ++ Order ++ txt "(" ++ var ++ power ++ zdec k ++ txt ")"
              else txt " + " ++ Order ++ txt "(" ++ var ++ power ++ txt "(" ++ zdec k ++ txt "))"
  end.
(** integral_interface.py:131-140 [fmt_value]; the brackets of a nested series are part of it *)
Fixpoint fmt_value (mean : bool) (v : pval P) : text :=
  match v with
  | PNum _ (PCplx _ a b) => if mean then txt "(" ++ g18 a ++ g18plus b ++ txt "*I)" else txt "0"
  | PNum _ (PReal _ a) => if mean then g18 a else txt "0"
  | PPair _ m s => if mean then fmt_value true m else fmt_value true s
  | PSer _ terms var order => txt "(" ++ join (txt " + ") (map (fun t => fmt_term (fmt_value mean (fst t)) (var_text var) (snd t)) terms) ++ fmt_order (var_text var) order ++ txt ")"
  end.
(** integral_interface.py:148-153 [fmt_series] *)
Definition fmt_series (mean : bool) (v : pval P) : option text :=
  match v with
  | PSer _ terms var order => Some (join (txt " + ") (map (fun t => fmt_term (fmt_value mean (fst t)) (var_text var) (snd t)) terms) ++ fmt_order (var_text var) order)
  | _ => None
  end.
(** integral_interface.py:154-161, for texts that do not start with a bracket *)
Definition convert_one (t : text) : option (text * text) :=
  match parse_text P float_of t with
  | Some v => match fmt_series true v, fmt_series false v with Some a, Some b => Some (a, b) | _, _ => None end
  | None => None
  end.
Definition convert_series (t : text) : option (list (text * text)) := all_some (map convert_one (splitlines t)).
End Fmt.
(** integral_interface.py:163-198, 257-272 *)
Definition series_to_ginac := convert_series (txt "^") (txt "Order").
Definition series_to_sympy := convert_series (txt "**") (txt "O").
Definition series_to_maple := convert_series (txt "^") (txt "O").
(** ** integral_interface.py:200-255 series_to_mathematica *)
Definition is_series (v : pval P) : bool := match v with PSer _ _ _ _ => true | _ => false end.
(** 243-246, the order term of a series without nested series *)
Definition fmt_order_m (var : text) (k : Z) : text :=
  if Z.eqb k 1 then txt " + O[" ++ var ++ txt "]"
  else if Z.ltb 0 k then txt " + O[" ++ var ++ txt "]^" ++ zdec k
  else txt " + O[" ++ var ++ txt "]/" ++ var ++ txt "^" ++ zdec (1 - k).
Fixpoint min_list (d : Z) (l : list Z) : Z := match l with [] => d | a :: r => Z.min a (min_list a r) end.
Fixpoint zlist_eqb (a b : list Z) : bool := match a, b with [], [] => true | x :: a', y :: b' => Z.eqb x y && zlist_eqb a' b' | _, _ => false end.
(** [list(range(a, b))] *)
Definition zrange (a b : Z) : list Z := map (fun i => (a + Z.of_nat i)%Z) (seq 0 (Z.to_nat (b - a))).
(** 232-247 [fmt_series], given the texts of the values; [None] is the ValueError *)
Definition fmt_series_m (terms : list (pval P * Z)) (texts : list text) (var : text) (order : option Z) : option text :=
  let es := map snd terms in
  match order with
  | None => Some (join (txt " + ") (map (fun te => fmt_term (txt "^") (fst te) var (snd te)) (combine texts es)))
  | Some k =>
      if existsb (fun t => is_series (fst t)) terms then
        let minexp := min_list 0 es in
        if zlist_eqb es (zrange minexp k) then
          Some (txt "SeriesData[" ++ var ++ txt ", 0, {" ++ join (txt ", ") texts ++ txt "}, " ++ zdec minexp ++ txt ", " ++ zdec k ++ txt ", 1]")
        else None
      else Some (join (txt " + ") (map (fun te => fmt_term (txt "^") (fst te) var (snd te)) (combine texts es)) ++ fmt_order_m var k)
  end.
(** 215-224 [fmt_value] (without brackets around a nested series) *)
Fixpoint fmt_value_m (mean : bool) (v : pval P) : option text :=
  match v with
  | PNum _ (PReal _ a) => Some (if mean then replace_e (g18 a) else txt "0")
  | PNum _ (PCplx _ a b) => Some (if mean then replace_e (txt "(" ++ g18 a ++ g18plus b ++ txt "*I)") else txt "0")
  | PPair _ m s => if mean then fmt_value_m true m else fmt_value_m true s
  | PSer _ terms var order =>
      match all_some (map (fun t => fmt_value_m mean (fst t)) terms) with
      | Some texts => fmt_series_m terms texts (var_text var) order
      | None => None
      end
  end.
Definition convert_one_m (t : text) : option (text * text) :=
  match parse_text P float_of t with
  | Some v => match fmt_value_m true v, fmt_value_m false v with Some a, Some b => Some (a, b) | _, _ => None end
  | None => None
  end.
Definition series_to_mathematica (t : text) : option (list (text * text)) := all_some (map convert_one_m (splitlines t)).
End Conv.
