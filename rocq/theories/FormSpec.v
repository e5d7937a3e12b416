(** What FORM does with the identifications: trees with names (called at the values [x] of the arguments), one statement
    replaces every occurrence of its left hand side by its right hand side; the statements are executed in order. *)
From Verif Require Export FormModel ExprSpec.
Inductive fterm := TName (s : text) (x : point) | TExpr (e : expr) (x : point) | TMono (k : list Z) (x : point) | TSum (l : list fterm) | TProd (l : list fterm).
Definition text_dec : forall a b : text, {a = b} + {a <> b} := list_eq_dec ascii_dec.
Definition call (r : rhs) (x : point) : fterm :=
  match r with
  | RExpr e => TExpr e x
  | RSum l => TSum (map (fun s => TName s x) l)
  | RProd l => TProd (map (fun s => TName s x) l)
  | RTerm s k => TProd [TName s x; TMono k x]
  end.
(** replace the calls of [s]: [Id s(arg?,...) = ...] *)
Fixpoint subst (s : text) (c : point -> fterm) (t : fterm) : fterm :=
  match t with
  | TName s' x => if text_dec s' s then c x else t
  | TExpr _ _ | TMono _ _ => t
  | TSum l => TSum (map (subst s c) l)
  | TProd l => TProd (map (subst s c) l)
  end.
Definition run (lines : list (text * rhs)) (t : fterm) : fterm := fold_left (fun t l => subst (fst l) (call (snd l)) t) lines t.
(** no undefined name is left *)
Fixpoint closed (t : fterm) : Prop :=
  match t with TName _ _ => False | TExpr _ _ | TMono _ _ => True | TSum l | TProd l => allP closed l end.
Fixpoint value (t : fterm) : R :=
  match t with
  | TName _ _ => 0
  | TExpr e x => eval x e
  | TMono k x => mono x 0 k
  | TSum l => sumR (map value l)
  | TProd l => prodR (map value l)
  end.
(** the names occurring in a tree *)
Fixpoint occurs (s : text) (t : fterm) : Prop :=
  match t with TName s' _ => s' = s | TExpr _ _ | TMono _ _ => False | TSum l | TProd l => fold_right (fun t Q => occurs s t \/ Q) False l end.
