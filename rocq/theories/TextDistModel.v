(** Model of the textual form of the results of disteval: /repo/pySecDec/disteval.py:973-1005 writes it, /repo/pySecDec/integral_interface.py:87-128 reads it. *)
From Verif Require Export TextConvModel TextJsonModel.
(** ** the writer *)
(** one term: the powers of the regulators, and the numbers (value, error; real and imaginary part) as they are formatted by :+.16e *)
Record dterm_out := mkTerm { t_pow : list Z; t_re : text; t_im : text; t_ere : text; t_eim : text }.
(** disteval.py:980 [stem]; zip stops at the shorter list *)
Definition stem (regs : list text) (ps : list Z) : text := join (txt "*") (map (fun rp => fst rp ++ txt "^" ++ zdec (snd rp)) (combine regs ps)).
Definition nl : text := ["010"%char].
(** 981-982, the two lines of a term *)
Definition term_line (regs : list text) (t : dterm_out) : text := txt "    +" ++ stem regs (t_pow t) ++ txt "*(" ++ t_re t ++ t_im t ++ txt "j)".
Definition error_line (regs : list text) (t : dterm_out) : text := txt "    +" ++ stem regs (t_pow t) ++ txt "*(" ++ t_ere t ++ t_eim t ++ txt "j)*plusminus".
(** 977-986, one sum; [final] says that it is the last one *)
Definition sum_text (regs : list text) (ts : list dterm_out) (final : bool) : text :=
  txt "  (" ++ nl ++ concat (map (fun t => term_line regs t ++ nl ++ error_line regs t ++ nl) ts) ++
  (match ts with [] => txt "    0" ++ nl | _ => [] end) ++ (if final then txt "  )" ++ nl else txt "  )," ++ nl).
Fixpoint sums_text (regs : list text) (sums : list (list dterm_out)) : text :=
  match sums with [] => [] | ts :: r => sum_text regs ts (match r with [] => true | _ => false end) ++ sums_text regs r end.
(** 973-988 [result_to_sympy] *)
Definition result_to_sympy (regs : list text) (sums : list (list dterm_out)) : text := txt "[" ++ nl ++ sums_text regs sums ++ txt "]".
(** ** the reader *)
Definition is_sign (c : ascii) : bool := Ascii.eqb c "+" || Ascii.eqb c "-".
(** [[+-].*[0-9]] against the whole text *)
Definition signed_part (t : text) : bool := match t with c :: ((_ :: _) as r) => is_sign c && match rev r with d :: _ => is_digit d | [] => false end | _ => false end.
(** two consecutive such parts; the first is as long as possible: [n] characters or fewer *)
Fixpoint split_parts (n : nat) (t : text) : option (text * text) :=
  if signed_part (firstn n t) && signed_part (skipn n t) then Some (firstn n t, skipn n t)
  else match n with O => None | S m => split_parts m t end.
(** the characters up to the first opening bracket, and the rest *)
Fixpoint until_open (t : text) : text * text := match t with c :: r => if Ascii.eqb c "(" then ([], t) else let (a, b) := until_open r in (c :: a, b) | [] => ([], []) end.
Definition drop_end (p t : text) : option text := if ends p t then Some (firstn (length t - length p) t) else None.
(** integral_interface.py:93 [rx_term.fullmatch]: stem, real part, imaginary part, is it an error *)
Definition rx_dist (t : text) : option (text * text * text * bool) :=
  match t with
  | c :: r =>
      if Ascii.eqb c "+" then
        let (a, b) := until_open r in
        match drop_end (txt "*") a, b with
        | Some st, _ :: body =>
            match drop_end (txt "j)*plusminus") body with
            | Some nums => match split_parts (length nums) nums with Some (x, y) => Some (st, x, y, true) | None => None end
            | None => match drop_end (txt "j)") body with
                      | Some nums => match split_parts (length nums) nums with Some (x, y) => Some (st, x, y, false) | None => None end
                      | None => None
                      end
            end
        | _, _ => None
        end
      else None
  | [] => None
  end.
Definition text_eqb (a b : text) : bool := if list_eq_dec Ascii.ascii_dec a b then true else false.
Section Read.
(** [is0] is [imag == 0] *)
Variables (P : Type) (float_of : text -> option P) (is0 : P -> bool).
(** the value and the error at given powers; [None] is the initial 0 *)
Definition slots := (option (pvalue P) * option (pvalue P))%type.
Definition coeffs := list (list Z * slots).
Fixpoint set_slot (d : coeffs) (k : list Z) (err : bool) (v : pvalue P) : coeffs :=
  match d with
  | [] => [(k, if err then (None, Some v) else (Some v, None))]
  | (k', s) :: r => if keyb k' k then (k', if err then (fst s, Some v) else (Some v, snd s)) :: r else (k', s) :: set_slot r k err v
  end.
(** 104, 105: the names and the powers of a stem; [None] is an exception *)
Definition stem_names (st : text) : list text := map (fun x => hd [] (split_text (txt "^") x)) (split_text (txt "*") st).
Definition stem_powers (st : text) : option (list Z) := all_some (map (fun x => match split_text (txt "^") x with _ :: d :: _ => pyint d | _ => None end) (split_text (txt "*") st)).
Record rstate := mkR { r_done : list coeffs; r_cur : coeffs; r_vars : option (list text) }.
(** 98-116, one line *)
Definition read_line (line : text) (s : rstate) : option rstate :=
  let line := strip line in
  match rx_dist line with
  | Some (st, re, im, pm) =>
      match stem_powers st, float_of re, float_of im with
      | Some ps, Some a, Some b =>
          Some (mkR (r_done s) (set_slot (r_cur s) ps pm (if is0 b then PReal P a else PCplx P a b)) (match r_vars s with None => Some (stem_names st) | v => v end))
      | _, _, _ => None
      end
  | None => if text_eqb line (txt "),") then Some (mkR (r_done s ++ [r_cur s]) [] (r_vars s)) else Some s
  end.
Fixpoint read_lines (lines : list text) (s : rstate) : option rstate := match lines with [] => Some s | l :: r => match read_line l s with Some s' => read_lines r s' | None => None end end.
(** 123-126, grouping by the power of the [i]-th regulator, in the order of first occurrence; the keys are distinct, so that the inner assignment is an append *)
Definition group_add {A} (p : Z) (x : A) : list (Z * list A) -> list (Z * list A) :=
  fix go g := match g with [] => [(p, [x])] | (q, xs) :: r => if Z.eqb q p then (q, xs ++ [x]) :: r else (q, xs) :: go r end.
Fixpoint group_by {A} (f : A -> option Z) (l : list A) (g : list (Z * list A)) : option (list (Z * list A)) :=
  match l with [] => Some g | x :: r => match f x with Some p => group_by f r (group_add p x g) | None => None end end.
(** [max] of a non-empty list *)
Fixpoint max_list (l : list Z) : option Z := match l with [] => None | [a] => Some a | a :: r => option_map (Z.max a) (max_list r) end.
(** 118-127 [rec], for the regulators from the [i]-th on; a pair in which a number is missing keeps the integer 0, on which the converters raise an exception ([None]) *)
Fixpoint rec (vars : list text) (i : nat) (expmap : coeffs) : option (pval P) :=
  match vars with
  | [] => match expmap with [(_, (Some v, Some e))] => Some (PPair P (PNum P v) (PNum P e)) | _ => None end
  | x :: vs =>
      match group_by (fun kc => nth_error (fst kc) i) expmap [] with
      | Some co =>
          match all_some (map (fun pc => option_map (fun v => (v, fst pc)) (rec vs (S i) (snd pc))) co), max_list (map fst co) with
          | Some terms, Some m => Some (PSer P terms (Some x) (Some (m + 1)%Z))
          | _, _ => None
          end
      | None => None
      end
  end.
(** 87-128 [_parse_disteval_series] *)
Definition parse_disteval (t : text) : option (list (pval P)) :=
  match read_lines (splitlines t) (mkR [] [] None) with
  | Some s => match r_vars s with Some vars => all_some (map (rec vars 0) (r_done s ++ [r_cur s])) | None => None end
  | None => None
  end.
(** 154-161, 248-255: the converters on texts that start with a bracket *)
Definition convert_disteval (g18 g18plus : P -> text) (power Order : text) (t : text) : option (list (text * text)) :=
  match parse_disteval t with
  | Some vs => all_some (map (fun v => match fmt_series P g18 g18plus power Order true v, fmt_series P g18 g18plus power Order false v with Some a, Some b => Some (a, b) | _, _ => None end) vs)
  | None => None
  end.
Definition disteval_to_mathematica (g18 g18plus : P -> text) (t : text) : option (list (text * text)) :=
  match parse_disteval t with
  | Some vs => all_some (map (fun v => match fmt_value_m P g18 g18plus true v, fmt_value_m P g18 g18plus false v with Some a, Some b => Some (a, b) | _, _ => None end) vs)
  | None => None
  end.
End Read.
