(** Model of the text handling of /repo/pySecDec/code_writer: template_parser.py and the name checks of make_package.py. *)
From Coq Require Export String Ascii List Bool Arith Lia.
Export ListNotations.
Local Open Scope string_scope.

Definition mem_str (x : string) (l : list string) : bool := existsb (String.eqb x) l.
(** [x[n:]] *)
Definition str_drop (n : nat) (x : string) : string := substring n (String.length x - n) x.

(** * template_parser.py:10-48 validate_pylink_qmc_transforms *)
(** [str(i) for i in range(1,7)] *)
Definition digits16 : list string := ["1"; "2"; "3"; "4"; "5"; "6"].
(** template_parser.py:27-32 *)
Definition qmc_options : list string := (
  ["none"] ++ ["baker"]
  ++ flat_map (fun i => map (fun j => ("korobov" ++ i ++ "x" ++ j)%string) digits16) digits16
  ++ map (fun i => ("sidi" ++ i)%string) digits16)%list.
(** template_parser.py:35-36 *)
Definition canonical_qmc (x : string) : string :=
  if mem_str x (map (fun i => "korobov" ++ i) digits16) then "korobov" ++ str_drop 7 x ++ "x" ++ str_drop 7 x else x.
(** template_parser.py:38-42: remove duplicates, preserving order *)
Definition dedup_str (l : list string) : list string :=
  fold_left (fun acc i => if mem_str i acc then acc else acc ++ [i])%list l [].
(** template_parser.py:33-48; [None] (the argument) and the empty list give the default; result [None]: AssertionError *)
Definition validate_qmc (arg : option (list string)) : option (list string) :=
  let l := match arg with
           | Some (x :: r) => dedup_str (map canonical_qmc (x :: r))
           | _ => ["korobov3x3"]
           end in
  if forallb (fun x => mem_str x qmc_options) l then Some l else None.
(** * template_parser.py:50-72 generate_pylink_qmc_macro_dict; a dictionary is an association list without repeated keys *)
Definition qmc_macro_dict (macro : string) : list (string * string) := (
  [("none", macro ++ "_NONE_QMC()"); ("baker", macro ++ "_BAKER_QMC()")]%string
  ++ flat_map (fun i => map (fun j => ("korobov" ++ i ++ "x" ++ j, macro ++ "_KOROBOV_QMC(" ++ i ++ "," ++ j ++ ")")%string) digits16) digits16
  ++ map (fun i => ("sidi" ++ i, macro ++ "_SIDI_QMC(" ++ i ++ ")")%string) digits16)%list.
Fixpoint lookup {V} (k : string) (d : list (string * V)) : option V :=
  match d with [] => None | (k', v) :: r => if String.eqb k k' then Some v else lookup k r end.

(** * make_package.py:109-172 _validate *)
Definition in_range (lo hi : ascii) (c : ascii) : bool := Nat.leb (nat_of_ascii lo) (nat_of_ascii c) && Nat.leb (nat_of_ascii c) (nat_of_ascii hi).
(** the character classes [[A-Z,a-z,_]] and [[A-Z,a-z,0-9,_]]: the commas are members *)
Definition class1 (c : ascii) : bool := in_range "A" "Z" c || in_range "a" "z" c || Ascii.eqb c "," || Ascii.eqb c "_".
Definition class2 (c : ascii) : bool := class1 c || in_range "0" "9" c.
Definition newline : ascii := ascii_of_nat 10.
(** make_package.py:124 [re.match('^[class1]+[class2]*$', name)]: [$] also matches before a final newline; the second
    class contains the first, so the repetition of the first class may stop after one character *)
Fixpoint class2_dollar (s : list ascii) : bool :=
  match s with
  | [] => true
  | c :: r => (class2 c && class2_dollar r) || (Ascii.eqb c newline && match r with [] => true | _ => false end)
  end.
Definition name_regex (s : list ascii) : bool :=
  match s with [] => false | c :: r => class1 c && class2_dollar r end.
(** make_package.py:131-161 *)
Definition banwords : list string :=
  ["std";"alignas";"alignof";"and";"and_eq";"asm";"atomic_cancel";"atomic_commit";
   "atomic_noexcept";"auto";"bitand";"bitor";"bool";"break";"case";"catch";"char";
   "char16_t";"char32_t";"class";"compl";"concept";"const";"constexpr";"const_cast";
   "continue";"decltype";"default";"delete";"do";"double";"dynamic_cast";"else";
   "enum";"explicit";"export";"extern";"false";"float";"for";"friend";"goto";"if";
   "import";"inline";"int";"long";"module";"mutable";"namespace";"new";"noexcept";
   "not";"not_eq";"nullptr";"operator";"or";"or_eq";"private";"protected";"public";
   "register";"reinterpret_cast";"requires";"return";"short";"signed";
   "sizeof";"static";"static_assert";"static_cast";"struct";"switch";"synchronized";
   "template";"this";"thread_local";"throw";"true";"try";"typedef";"typeid";"typename";
   "union";"unsigned";"using";"virtual";"void";"volatile";"wchar_t";"while";"xor";"xor_eq";
   "_Pragma";
   "auto";"break";"case";"char";"const";"continue";"default";"do";"double";"else";"enum";
   "extern";"float";"for";"goto";"if";"inline";"int";"long";"register";"restrict";"return";
   "short";"signed";"sizeof";"static";"struct";"switch";"typedef";"union";"unsigned";"void";
   "volatile";"while";"_Alignas";"_Alignof";"_Atomic";"_Bool";"_Complex";"_Generic";
   "_Imaginary";"_Noreturn";"_Static_assert";"_Thread_local";
   "alignas";"alignof";"bool";"complex";"imaginary";"noreturn";"static_assert";
   "thread_local";
   "log";"exp";"real";"imag";"sqrt";"I";"i_";
   "cubareal";"Vegas";"llVegas";"Suave";"llSuave";"Cuhre";"llCuhre";"Divonne";"llDivonne";
   "integrand_t";"peakfinder_t"].
(** make_package.py:167; [internal_prefix] is line 45 *)
Definition banstarts : list string := ["SecDecInternal"; "cuba"; "atomic"; "_"].
(** [str.lower()] on ASCII *)
Definition lower_ascii (c : ascii) : ascii := if in_range "A" "Z" c then ascii_of_nat (nat_of_ascii c + 32) else c.
Definition lower (s : string) : string := string_of_list_ascii (map lower_ascii (list_ascii_of_string s)).
Definition validate_name (name : string) (allow_underscore : bool) : bool :=
  name_regex (list_ascii_of_string name)
  && (allow_underscore || negb (existsb (Ascii.eqb "_") (list_ascii_of_string name)))
  && negb (mem_str name banwords)
  && forallb (fun b => negb (prefix (lower b) (lower name))) banstarts.

(** * template_parser.py:74-140 parse_template_file *)
Definition text := list ascii.
(** [text.find(')')]-like: what precedes the first closing parenthesis, and the rest after it *)
Fixpoint upto_paren (s : text) : option (text * text) :=
  match s with
  | [] => None
  | c :: r => if Ascii.eqb c ")" then Some ([], r) else match upto_paren r with Some (k, r') => Some (c :: k, r') | None => None end
  end.
(** one match, at the beginning of the text, of the regular expression of line 134 (percent, parenthesis, key without closing
    parenthesis, parenthesis, s) *)
Definition match_key (s : text) : option (text * text) :=
  match s with
  | c1 :: c2 :: r => if Ascii.eqb c1 "%" && Ascii.eqb c2 "(" then
        match upto_paren r with
        | Some (k, c3 :: r') => if Ascii.eqb c3 "s" then Some (k, r') else None
        | _ => None
        end else None
  | _ => None
  end.
(** template_parser.py:134 [re.split]: the text before the first match and the (key, following text) pairs; [fuel] bounds
    the length *)
Fixpoint re_split (fuel : nat) (s : text) : text * list (text * text) :=
  match fuel with
  | O => ([], [])
  | S f => match match_key s with
           | Some (k, r) => let q := re_split f r in ([], (k, fst q) :: snd q)
           | None => match s with
                     | [] => ([], [])
                     | c :: r => let q := re_split f r in (c :: fst q, snd q)
                     end
           end
  end.
Definition dict := text -> option text.
(** python's [s % replacements] for the conversions [%%] and [%(key)s]; anything else is an error ([None]) in the model *)
Fixpoint py_format (fuel : nat) (d : dict) (s : text) : option text :=
  match fuel with
  | O => None
  | S f => match s with
           | [] => Some []
           | c :: r => if Ascii.eqb c "%" then
                 match r with
                 | [] => None
                 | c2 :: r2 => if Ascii.eqb c2 "%" then option_map (cons "%"%char) (py_format f d r2)
                               else match match_key s with
                                    | Some (k, r3) => match d k, py_format f d r3 with Some v, Some t => Some (v ++ t)%list | _, _ => None end
                                    | None => None
                                    end
                 end
               else option_map (cons c) (py_format f d r)
           end
  end.
(** template_parser.py:113-119 [write_large]: what is written in total *)
Definition write_large (chunksize : nat) (s : text) : text :=
  flat_map (fun k => firstn (S k * chunksize - k * chunksize) (skipn (k * chunksize) s)) (seq 0 (Nat.div (List.length s) chunksize + 1)).
(** template_parser.py:134-140; the replacement texts are given as strings (lists are written piece by piece, flushing
    has no effect on the contents); [chunksize] is 1000*10**6 (line 115) *)
Fixpoint write_rest (chunksize fuel : nat) (d : dict) (l : list (text * text)) : option text :=
  match l with
  | [] => Some []
  | (k, t) :: r => match d k, py_format fuel d t, write_rest chunksize fuel d r with
                   | Some v, Some u, Some w => Some (write_large chunksize v ++ u ++ w)%list
                   | _, _, _ => None
                   end
  end.
Definition parse_template (chunksize : nat) (d : dict) (s : text) : option text :=
  let n := S (List.length s) in
  let q := re_split n s in
  match py_format n d (fst q), write_rest chunksize n d (snd q) with Some a, Some b => Some (a ++ b)%list | _, _ => None end.

(** * template_parser.py:142-222 parse_template_tree *)
(** [os.walk(src)]: for every directory its path components relative to [src] and its files; [get] is
    [filesystem_replacements.get(x, x)] with [None] for an ignored entry *)
Definition renaming := list (string * option string).
Definition get_renamed (m : renaming) (x : string) : option string := match lookup x m with Some r => r | None => Some x end.
(** lines 191-203: the components from the last one to the first, stopping at an ignored one *)
Fixpoint rename_rev (m : renaming) (rev_path : list string) : option (list string) :=
  match rev_path with
  | [] => Some []
  | x :: r => match get_renamed m x with
              | None => None
              | Some y => option_map (cons y) (rename_rev m r)
              end
  end.
Definition target_dir (m : renaming) (path : list string) : option (list string) := option_map (@List.rev string) (rename_rev m (List.rev path)).
Inductive action := MkDir (target : list string) | WriteFile (target : list string) (source : list string).
Definition parse_tree (m : renaming) (walk : list (list string * list string)) : list action :=
  flat_map (fun q => match target_dir m (fst q) with
                     | None => []
                     | Some t => MkDir t :: flat_map (fun f => match get_renamed m f with
                                                               | None => []
                                                               | Some g => [WriteFile (t ++ [g]) (fst q ++ [f])]
                                                               end) (snd q)
                     end)%list walk.
