(** Model of series_to_json of /repo/pySecDec/integral_interface.py:274-320. *)
From Verif Require Export TextModel.
Fixpoint keyb (a b : list Z) : bool := match a, b with [], [] => true | x :: a', y :: b' => Z.eqb x y && keyb a' b' | _, _ => false end.
Section Json.
Variables (P : Type) (float_of : text -> option P).
(** an entry of the dictionary: (mean, deviation), or (value, 0.) for [None] *)
Definition entry : Type := pval P * option (pval P).
Definition dict := list (list Z * entry).
(** [d[k] = e] on a dictionary in insertion order *)
Fixpoint update (d : dict) (k : list Z) (e : entry) : dict := match d with [] => [(k, e)] | (k', e') :: r => if keyb k' k then (k', e) :: r else (k', e') :: update r k e end.
Fixpoint get (d : dict) (k : list Z) : option entry := match d with [] => None | (k', e) :: r => if keyb k' k then Some e else get r k end.
(** 290-312 [parse_terms]; [bt] is bottom_is_tuple, the state is all_terms with its 'regulators' apart; [None] is an exception, or a case that does not occur (a pair although
    no "+/-" is in the text) *)
Fixpoint parse_terms (bt : bool) (vars : list (option text)) (order : list Z) (v : pval P) (st : dict * list (option text)) : option (dict * list (option text)) :=
  match v with
  | PNum _ _ => if bt then None else Some (update (fst st) order (v, None), vars)
  | PPair _ m s => if bt then Some (update (fst st) order (m, Some s), vars) else None
  | PSer _ terms x _ =>
      (fix go (ts : list (pval P * Z)) (st : dict * list (option text)) : option (dict * list (option text)) :=
         match ts with
         | [] => Some st
         | (c, k) :: r => match parse_terms bt (vars ++ [x]) (order ++ [k]) c st with Some st' => go r st' | None => None end
         end) terms st
  end.
(** 313-320: the dictionary under ['sums'][name], and ['regulators'] *)
Definition series_to_json (t : text) : option (dict * list (option text)) :=
  match parse_text P float_of t with Some v => parse_terms (contains (txt "+/-") t) [] [] v ([], []) | None => None end.
End Json.
