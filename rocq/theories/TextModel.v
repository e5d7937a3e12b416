(** Model of the textual form of results: the stream operators of secdecutil (series.hpp, uncertainties.hpp) and the functions of
    /repo/pySecDec/integral_interface.py that read it.  Texts are lists of characters. *)
From Coq Require Export String Ascii List Bool Arith ZArith Lia.
From Coq Require DecimalString Decimal.
Export ListNotations.
Definition text := list ascii.
Definition txt (s : string) : text := list_ascii_of_string s.
(** ** Python string functions *)
(** [t.startswith(p)] *)
Fixpoint starts (p t : text) : bool := match p, t with [], _ => true | a :: p', b :: t' => Ascii.eqb a b && starts p' t' | _, _ => false end.
(** [t.endswith(p)] *)
Definition ends (p t : text) : bool := starts (rev p) (rev t).
(** [p in t] *)
Fixpoint contains (p t : text) : bool := starts p t || match t with [] => false | _ :: r => contains p r end.
(** [t.count(c)] for a single character *)
Definition count (c : ascii) (t : text) : nat := List.length (filter (Ascii.eqb c) t).
(** white space removed by [str.strip] (ASCII) *)
Definition is_space (c : ascii) : bool := let n := nat_of_ascii c in orb (Nat.eqb n 32) (orb (andb (Nat.leb 9 n) (Nat.leb n 13)) (andb (Nat.leb 28 n) (Nat.leb n 31))).
Fixpoint lstrip (t : text) : text := match t with c :: r => if is_space c then lstrip r else t | [] => [] end.
Definition strip (t : text) : text := rev (lstrip (rev (lstrip t))).
(** [t.split(p)] for a non-empty separator; [cur] is the piece read so far *)
Fixpoint split_aux (fuel : nat) (p cur t : text) : list text :=
  match fuel with
  | O => [cur ++ t]
  | S f => if starts p t then cur :: split_aux f p [] (skipn (List.length p) t)
           else match t with [] => [cur] | c :: r => split_aux f p (cur ++ [c]) r end
  end.
Definition split_text (p t : text) : list text := split_aux (S (List.length t)) p [] t.
(** [t[1:-1]] *)
Definition inner (t : text) : text := removelast (tl t).
(** [str(i)] and C++'s [os << i] *)
Definition zdec (z : Z) : text := txt (DecimalString.NilZero.string_of_int (Z.to_int z)).
(** [int(t)] for texts of digits and signs; [None] is a ValueError *)
Definition pyint (t : text) : option Z :=
  match t with
  | c :: r => if Ascii.eqb c "+" then option_map (fun u => Z.of_int (Decimal.Pos u)) (DecimalString.NilZero.uint_of_string (string_of_list_ascii r))
              else option_map Z.of_int (DecimalString.NilZero.int_of_string (string_of_list_ascii t))
  | [] => None
  end.
(** ** The output of C++ *)
(** a number is represented by the digits that are printed *)
Inductive cvalue := CReal (a : text) | CCplx (re im : text).
(** the value of a type built from numbers, [UncorrelatedDeviation] and [Series] *)
Inductive coef := CNum (v : cvalue) | CDev (v u : cvalue) | CSer (order_min : Z) (content : list coef) (truncated : bool) (param : text).
(** [operator<<] of [std::complex] (C++ standard: (re,im)) and of real numbers *)
Definition show_value (v : cvalue) : text := match v with CReal a => a | CCplx re im => txt "(" ++ re ++ txt "," ++ im ++ txt ")" end.
(** series.hpp:564-569, the power of the expansion parameter *)
Definition show_power (x : text) (i : Z) : text := if Z.eqb i 0 then [] else txt "*" ++ x ++ (if Z.eqb i 1 then [] else txt "^" ++ zdec i).
(** series.hpp:572-579, the order term; [i] is the value of the loop variable after the loop *)
Definition show_order (x : text) (i : Z) : text := txt " + O(" ++ x ++ (if Z.eqb i 1 then [] else txt "^" ++ zdec i) ++ txt ")".
(** uncertainties.hpp:187-191 and series.hpp:557-582 [operator<<] *)
Fixpoint show (c : coef) : text :=
  match c with
  | CNum v => show_value v
  | CDev v u => show_value v ++ txt " +/- " ++ show_value u
  | CSer mn l tr x =>
      (fix go (i : Z) (l : list coef) : text :=
         match l with
         | [] => if tr then show_order x i else []
         | c :: r => txt " + (" ++ show c ++ txt ")" ++ show_power x i ++ go (i + 1)%Z r
         end) mn l
  end.
(** ** Reading it in Python *)
(** integral_interface.py:46-57 [iter_terms]; [cur] is text[i:j], [rest] is text[j:] *)
Fixpoint iter_terms (fuel : nat) (cur rest : text) : list text :=
  match fuel with
  | O => [cur ++ rest]
  | S f =>
      if starts (txt " + ") rest then
        if Nat.eqb (count "(" cur) (count ")" cur) then cur :: iter_terms f [] (skipn 3 rest)
        else iter_terms f (cur ++ txt " + ") (skipn 3 rest)
      else match rest with [] => [cur] | c :: r => iter_terms f (cur ++ [c]) r end
  end.
(** the characters up to the first [^], and the rest *)
Fixpoint until_caret (t : text) : text * text := match t with c :: r => if Ascii.eqb c "^" then ([], t) else let (a, b) := until_caret r in (c :: a, b) | [] => ([], []) end.
(** [[0-9+-]] *)
Definition is_digit (c : ascii) : bool := let n := nat_of_ascii c in andb (Nat.leb 48 n) (Nat.leb n 57).
Definition is_expo (c : ascii) : bool := is_digit c || Ascii.eqb c "+" || Ascii.eqb c "-".
(** [([^^]+)(?:\^([0-9+-]+))?] against the whole text: both groups *)
Definition match_power (t : text) : option (text * option text) :=
  let (v, e) := until_caret t in
  match v, e with
  | [], _ => None
  | _, [] => Some (v, None)
  | _, _ :: d => match d with [] => None | _ => if forallb is_expo d then Some (v, Some d) else None end
  end.
(** [([*]([^^]+)(?:\^([0-9+-]+))?)?] against the whole text *)
Definition match_tail (t : text) : option (option (text * option text)) :=
  match t with
  | [] => Some None
  | c :: r => if Ascii.eqb c "*" then option_map Some (match_power r) else None
  end.
(** a group of any characters, a closing parenthesis and the pattern above, against the whole text; the star is greedy, a dot is anything but a newline *)
Fixpoint match_greedy (t : text) : option (text * option (text * option text)) :=
  match t with
  | [] => None
  | c :: r =>
      if Nat.eqb (nat_of_ascii c) 10 then None
      else match match_greedy r with
           | Some (g, tl) => Some (c :: g, tl)
           | None => if Ascii.eqb c ")" then match match_tail r with Some tl => Some ([], tl) | None => None end else None
           end
  end.
(** integral_interface.py:59 [rx_term.fullmatch] *)
Definition rx_term (t : text) : option (text * option (text * option text)) :=
  match t with c :: r => if Ascii.eqb c "(" then match_greedy r else None | [] => None end.
(** integral_interface.py:60 [rx_order.fullmatch] *)
Definition rx_order (t : text) : option (text * option text) :=
  if starts (txt "O(") t && ends (txt ")") t && Nat.ltb 2 (List.length t) then match_power (removelast (skipn 2 t)) else None.
Section Python.
(** Python's floats and [float(text)] *)
Variables (P : Type) (float_of : text -> option P).
Inductive pvalue := PReal (a : P) | PCplx (re im : P).
(** the tuples of the parser: a number; (mean, standard deviation); (terms, variable, order) *)
Inductive pval := PNum (v : pvalue) | PPair (m s : pval) | PSer (terms : list (pval * Z)) (var : option text) (order : option Z).
(** integral_interface.py:73-75, the power of a term *)
Definition power_of (tl : option (text * option text)) : option Z :=
  match tl with None => Some 0%Z | Some (_, None) => Some 1%Z | Some (_, Some d) => pyint d end.
(** integral_interface.py:63-84 [series], the loop over the terms; [coefficient] and [again] are the recursive calls *)
Fixpoint term_loop (coefficient again : text -> option pval) (parts : list text) (terms : list (pval * Z)) (var : option text) (order : option Z) : option pval :=
  match parts with
  | [] => Some (PSer terms var order)
  | p :: ps =>
      let part := strip p in
      match part with
      | [] => term_loop coefficient again ps terms var order
      | _ =>
          match rx_term part with
          | Some (g, tl) =>
              match coefficient g, power_of tl with
              | Some v, Some k => term_loop coefficient again ps (terms ++ [(v, k)]) (match tl with Some (x, _) => Some x | None => var end) order
              | _, _ => None
              end
          | None =>
              match rx_order part with
              | Some (x, e) => match (match e with None => Some 1%Z | Some d => pyint d end) with Some k => term_loop coefficient again ps terms (Some x) (Some k) | None => None end
              | None => if starts (txt "( + ") part && ends (txt ")") part then again (inner part) else None
              end
          end
      end
  end.
(** integral_interface.py:21-37 [_parse_series_coefficient]; [None] is an exception *)
Fixpoint parse (fuel : nat) (t : text) : option pval :=
  match fuel with
  | O => None
  | S f =>
      if starts (txt " + ") t then parse_series f t
      else if contains (txt "+/-") t then
        match split_text (txt "+/-") t with
        | [m; s] => match parse f (strip m), parse f (strip s) with Some a, Some b => Some (PPair a b) | _, _ => None end
        | _ => None
        end
      else if starts (txt "(") t && ends (txt ")") t && contains (txt ",") t then
        match split_text (txt ",") (inner t) with
        | [re; im] => match float_of re, float_of im with Some a, Some b => Some (PNum (PCplx a b)) | _, _ => None end
        | _ => None
        end
      else match float_of t with Some a => Some (PNum (PReal a)) | None => None end
  end
(** integral_interface.py:39-85 [_parse_series] *)
with parse_series (fuel : nat) (t : text) : option pval :=
  match fuel with
  | O => None
  | S f => term_loop (parse f) (parse_series f) (iter_terms (S (List.length t)) [] t) [] None None
  end.
(** [_parse_series(text)] *)
Definition parse_text (t : text) : option pval := parse_series (S (List.length t)) t.
End Python.
