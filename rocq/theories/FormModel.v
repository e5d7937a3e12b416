(** Model of /repo/pySecDec/code_writer/make_package.py:451-558, [_make_FORM_function_definition]: splitting a long expression
    into a sequence of FORM identifications.  Simplifications: the length of the string representation is an arbitrary function
    [len] of the expression; the left hand sides [name(arg?,...)] and calls [name(arg,...)] are represented by the names (all
    carry the same arguments); the codelines are trees instead of strings, the text of an unsplit expression stands for the
    expression itself.  Symbolic functions inside expressions are not modelled. *)
From Coq Require Export String Ascii.
From Coq Require Import DecimalString.
From Verif Require Export ExprModel.
Local Open Scope list_scope.

Definition text := list ascii.
Definition txt (s : string) : text := list_ascii_of_string s.
(** make_package.py:45 *)
Definition internal_prefix : text := txt "SecDecInternal".
(** [str(i)] *)
Definition dec (i : nat) : text := txt (NilZero.string_of_uint (Nat.to_uint i)).
(** 499, 512, 528, 538: [internal_prefix+'fDUMMY'+name+'Part'] and the index appended to it *)
Definition part (name : text) (i : nat) : text := internal_prefix ++ txt "fDUMMY" ++ name ++ txt "Part" ++ dec i.

(** right hand sides: an expression, a sum of names, a product of names, a name times a monomial *)
Inductive rhs := RExpr (e : expr) | RSum (names : list text) | RProd (names : list text) | RTerm (name : text) (k : list Z).

Section Split.
Variables (nv : nat) (len : expr -> nat) (limit : nat).

(** 539-541: [new_n_coeffs] and [new_n_polys = ceil(old/new)] *)
Definition chunk_size (n : nat) : nat := if Nat.eqb (n / 10) 0 then 1 else n / 10.
Definition chunk_count (n : nat) : nat := (n + chunk_size n - 1) / chunk_size n.
(** 549: terms [i*size : (i+1)*size] *)
Definition chunk (size i : nat) (p : terms_t) : terms_t := firstn size (skipn (i * size) p).

(** one level of the loop over the parts (507-508, 519-520, 548-549) *)
Fixpoint parts (rec : text -> expr -> option (list (text * rhs))) (name : text) (i : nat) (l : list expr) : option (list (text * rhs)) :=
  match l with
  | [] => Some []
  | e :: r => match rec (part name i) e, parts rec name (S i) r with Some a, Some b => Some (a ++ b) | _, _ => None end
  end.
(** 486-554 [recursion] with at most [n] levels; a number has no method [clear_cache] (488): None *)
Fixpoint split (n : nat) (name : text) (e : expr) : option (list (text * rhs)) :=
  match n with
  | O => None
  | S n =>
      if is_num e then None
      else if Nat.leb (len e) limit then Some [(name, RExpr e)]
      else match (match e with Rule terms cache => to_sum nv terms cache | _ => Some e end) with
      | None => None
      | Some (Sum l) => match parts (split n) name 0 l with
                        | Some c => Some ((name, RSum (map (part name) (seq 0 (List.length l)))) :: c) | None => None end
      | Some (Prod l) => match parts (split n) name 0 l with
                        | Some c => Some ((name, RProd (map (part name) (seq 0 (List.length l)))) :: c) | None => None end
      | Some (Pol [(c, k)]) => match split n (part name 0) c with
                               | Some r => Some ((name, RTerm (part name 0) k) :: r) | None => None end
      | Some (Pol p) =>
          let size := chunk_size (List.length p) in
          let m := chunk_count (List.length p) in
          match parts (split n) name 0 (map (fun i => Pol (chunk size i p)) (seq 0 m)) with
          | Some c => Some ((name, RSum (map (part name) (seq 0 m))) :: c) | None => None end
      | Some e => Some [(name, RExpr e)]
      end
  end.
End Split.
