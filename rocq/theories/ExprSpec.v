(** Meaning of expressions: value at a point, domain, partial and mixed derivatives, and the well-formed trees.
    Written independently of the algorithms of ExprModel. *)
From Verif Require Export ExprModel.
Local Open Scope R_scope.

Definition point := nat -> R.
Definition upd (x : point) (i : nat) (t : R) : point := fun j => if Nat.eqb j i then t else x j.
Definition sumR (l : list R) : R := fold_right Rplus 0 l.
Definition prodR (l : list R) : R := fold_right Rmult 1 l.
(** the monomial x_o^(k_0) x_(o+1)^(k_1) ... *)
Fixpoint mono (x : point) (o : nat) (k : list Z) : R := match k with [] => 1 | z :: r => powerRZ (x o) z * mono x (S o) r end.
(** no negative power of zero *)
Fixpoint row_ok (x : point) (o : nat) (k : list Z) : Prop := match k with [] => True | z :: r => ((0 <= z)%Z \/ x o <> 0) /\ row_ok x (S o) r end.
Fixpoint lookupR (n : list Z) (col : list (list Z * R)) : R := match col with [] => 0 | (m, v) :: r => if roweqb n m then v else lookupR n r end.
(** b^a: the real power of a positive base, the integer power of other bases (used for integer a only) *)
Definition gpow (b a : R) : R := if Rlt_dec 0 b then Rpower b a else powerRZ b (Int_part a).
(** ** the value *)
Fixpoint eval (x : point) (e : expr) {struct e} : R :=
  match e with
  | Num r => r
  | Pol p => sumR (map (fun t => match t with (c, k) => eval x c * mono x 0 k end) p)
  | EPol p a => gpow (sumR (map (fun t => match t with (c, k) => eval x c * mono x 0 k end) p)) (eval x a)
  | LPol p => ln (sumR (map (fun t => match t with (c, k) => eval x c * mono x 0 k end) p))
  | Sum l => sumR (map (eval x) l)
  | Prod l => prodR (map (eval x) l)
  | Rule terms cache =>
      let vals := map (map (fun t => match t with (n, c) => (n, eval x c) end)) cache in
      sumR (map (fun t => IZR (fst t) * prodR (map (fun q => lookupR (fst q) (snd q)) (combine (snd t) vals))) terms)
  | Pow b a => Rpower (eval x b) (eval x a)
  | Log a => ln (eval x a)
  | Exp a => exp (eval x a)
  end.
Definition allP {A} (P : A -> Prop) (l : list A) : Prop := fold_right (fun x Q => P x /\ Q) True l.
(** a positive base, or a nonzero base and an integer as exponent *)
Definition base_ok (b : R) (a : expr) : Prop := 0 < b \/ b <> 0 /\ exists z, a = Num (IZR z).
(** ** the domain: no negative power of zero, positive bases (or nonzero ones with an integer exponent) and positive arguments of logarithms *)
Fixpoint dom (x : point) (e : expr) {struct e} : Prop :=
  match e with
  | Num _ => True
  | Pol p => allP (fun t => match t with (c, k) => dom x c /\ row_ok x 0 k end) p
  | EPol p a => allP (fun t => match t with (c, k) => dom x c /\ row_ok x 0 k end) p /\ base_ok (eval x (Pol p)) a /\ dom x a
  | LPol p => allP (fun t => match t with (c, k) => dom x c /\ row_ok x 0 k end) p /\ 0 < eval x (Pol p)
  | Sum l | Prod l => allP (dom x) l
  | Rule _ cache => allP (allP (fun t => match t with (_, c) => dom x c end)) cache
  | Pow b a => dom x b /\ 0 < eval x b /\ dom x a
  | Log a => dom x a /\ 0 < eval x a
  | Exp a => dom x a
  end.
(** ** partial derivative of G in direction i at x *)
Definition pd (i : nat) (G : point -> R) (x : point) (l : R) : Prop := derivable_pt_lim (fun t => G (upd x i t)) (x i) l.
(** ** G is the derivative of F on U, in the directions of the list (the last entry first) *)
Fixpoint along (U : point -> Prop) (F : point -> R) (p : list nat) (G : point -> R) : Prop :=
  match p with
  | [] => forall x, U x -> G x = F x
  | i :: r => exists H, along U F r H /\ forall x, U x -> pd i H x (G x)
  end.
Section Nv.
Variable nv : nat.
(** a mixed derivative with n_k derivatives in direction k, in some order *)
Definition mixed (U : point -> Prop) (F : point -> R) (n : list Z) (G : point -> R) : Prop :=
  length n = nv /\ exists p, Forall (fun i => (i < nv)%nat) p /\ (forall k, getk k n = Z.of_nat (count_occ Nat.eq_dec p k)) /\ along U F p G.
(** a is not identically a positive integer *)
Definition fractional (a : expr) : Prop := exists x, dom x a /\ forall n : nat, eval x a <> INR (S n).
(** ** well-formed expressions: what the constructors check (at least one term, the same number of variables, no number where an
    expression is needed), and
    - an ExponentiatedPolynomial has no two terms with the same exponents, or its power is not a positive integer (see C07_duplicate_terms_refuted),
    - a ProductRule stores derivatives of its factors *)
Definition terms_ok (ok : expr -> Prop) (p : terms_t) : Prop :=
  p <> [] /\ allP (fun t => match t with (c, k) => length k = nv /\ (is_num c = true \/ ok c) end) p.
Definition column_ok (col : list (list Z * expr)) : Prop :=
  exists f, lookup (zeros nv) col = Some f /\
  Forall (fun q => mixed (fun x => dom x f) (fun x => eval x f) (fst q) (fun x => eval x (snd q)) /\ forall x, dom x f -> dom x (snd q)) col.
Fixpoint wf (e : expr) {struct e} : Prop :=
  match e with
  | Num _ => False
  | Pol p | LPol p => terms_ok wf p
  | EPol p a => terms_ok wf p /\ (NoDup (map snd p) \/ fractional a) /\ (is_num a = true \/ wf a)
  | Sum l | Prod l => l <> [] /\ allP wf l
  | Rule terms cache => cache <> [] /\ terms <> [] /\
      Forall (fun t => Forall2 (fun n col => lookup n col <> None) (snd t) cache) terms /\
      allP (fun col => column_ok col /\ allP (fun t => match t with (_, c) => wf c end) col) cache
  | Pow b a => wf b /\ wf a
  | Log a | Exp a => wf a
  end.
End Nv.

(** * induction over trees *)
Lemma expr_rect' (P : expr -> Prop) :
  (forall r, P (Num r)) -> (forall p, Forall (fun t => P (fst t)) p -> P (Pol p)) -> (forall p a, Forall (fun t => P (fst t)) p -> P a -> P (EPol p a)) ->
  (forall p, Forall (fun t => P (fst t)) p -> P (LPol p)) -> (forall l, Forall P l -> P (Sum l)) -> (forall l, Forall P l -> P (Prod l)) ->
  (forall terms cache, Forall (Forall (fun t => P (snd t))) cache -> P (Rule terms cache)) ->
  (forall b a, P b -> P a -> P (Pow b a)) -> (forall a, P a -> P (Log a)) -> (forall a, P a -> P (Exp a)) -> forall e, P e.
Proof.
  intros H1 H2 H3 H4 H5 H6 H7 H8 H9 H10. fix IH 1. intros [r|p|p a|p|l|l|terms cache|b a|a|a].
  - apply H1.
  - apply H2. induction p as [|[c k] p IHp]; constructor; [apply IH|exact IHp].
  - apply H3; [|apply IH]. induction p as [|[c k] p IHp]; constructor; [apply IH|exact IHp].
  - apply H4. induction p as [|[c k] p IHp]; constructor; [apply IH|exact IHp].
  - apply H5. induction l as [|c l IHl]; constructor; [apply IH|exact IHl].
  - apply H6. induction l as [|c l IHl]; constructor; [apply IH|exact IHl].
  - apply H7. induction cache as [|col cache IHc]; constructor; [|exact IHc]. induction col as [|[n c] col IHl]; constructor; [apply IH|exact IHl].
  - apply H8; apply IH.
  - apply H9; apply IH.
  - apply H10; apply IH.
Qed.
Lemma allP_Forall {A} (P : A -> Prop) l : allP P l <-> Forall P l.
Proof. induction l as [|x l IH]; cbn; [split; [constructor|exact (fun _ => I)]|]. fold (allP P l). rewrite IH. split; [intros [? ?]; constructor; assumption|intros H; inversion H; auto]. Qed.
