(** Model of the tensor reduction of the numerator of [LoopIntegralFromPropagators],
    /repo/pySecDec/loop_integral/from_propagators.py:323-541.
    Simplifications: Lorentz indices are natural numbers (symbols or numbers with decidable equality); the polynomials aM, Q, U, F are
    represented by their values at a point (Polynomial arithmetic: C01-C03), a contravariant vector by its components; the replacement rules
    are identities between scalar products (applied by evaluation).  A summand is kept as scalar coefficient, list of the
    remaining metric tensors and list of the vectors with their Lorentz index. *)
From Verif Require Import FieldBase MiscModel.
Local Open Scope fld_scope.

(** ** metric tensors, 411-473: [contractions_left], [contractions_right], [contractions_unmatched] zipped *)
Definition mentry := (nat * nat * bool)%type.
(** 426-473: the four cases, in this order *)
Definition join (mu nu rho sigma : nat) : option (nat * nat) :=
  if Nat.eqb mu rho then Some (nu, sigma)
  else if Nat.eqb mu sigma then Some (rho, nu)
  else if Nat.eqb nu rho then Some (mu, sigma)
  else if Nat.eqb nu sigma then Some (rho, mu)
  else None.
(** 436-473: loop over j, only j < i has an effect; the first match breaks *)
Fixpoint inner (mu nu : nat) (before : list mentry) : option (list mentry) :=
  match before with
  | [] => None
  | (rho, sigma, unmatched) :: r =>
      match (if unmatched then join mu nu rho sigma else None) with
      | Some (x, y) => Some ((x, y, true) :: r)
      | None => option_map (cons (rho, sigma, unmatched)) (inner mu nu r)
      end
  end.
(** 432-473: loop over i; [before] are the entries with smaller index, with their current values *)
Fixpoint sweep (before after : list mentry) : list mentry * bool :=
  match after with
  | [] => (before, false)
  | (mu, nu, unmatched) :: r =>
      match (if unmatched then inner mu nu before else None) with
      | Some before' => (fst (sweep (before' ++ [(mu, nu, false)]) r), true)
      | None => sweep (before ++ [(mu, nu, unmatched)]) r
      end
  end.
(** 428-430: while matched; every round that matches removes a metric tensor, so the number of rounds is at most their number plus one *)
Fixpoint match_rounds (fuel : nat) (s : list mentry) : list mentry :=
  match fuel with
  | O => s
  | S fuel => let (s', matched) := sweep [] s in if matched then match_rounds fuel s' else s'
  end.
Definition match_metrics (s : list mentry) : list mentry := match_rounds (S (length s)) s.
(** 483-491, 512-522: the first unmatched metric tensor that carries the index [a]; the other index is returned *)
Fixpoint use_metric (a : nat) (s : list mentry) : option (nat * list mentry) :=
  match s with
  | [] => None
  | (x, y, unmatched) :: r =>
      if unmatched && Nat.eqb x a then Some (y, (x, y, false) :: r)
      else if unmatched && Nat.eqb y a then Some (x, (x, y, false) :: r)
      else option_map (fun q => (fst q, (x, y, unmatched) :: snd q)) (use_metric a r)
  end.
Notation vec F := (nat -> car F) (only parsing).
Section Model.
Variable F : Fld.
(** 482-491 for the tensor "P", 511-524 for the external momenta *)
Fixpoint contract_vectors (vs : list (vec F * nat)) (s : list mentry) : list (vec F * nat) * list mentry :=
  match vs with
  | [] => ([], s)
  | (v, a) :: r =>
      match use_metric a s with
      | Some (b, s') => let (r', s'') := contract_vectors r s' in ((v, b) :: r', s'')
      | None => let (r', s'') := contract_vectors r s in ((v, a) :: r', s'')
      end
  end.
Record summand := { coef : F; metrics : list (nat * nat); vectors : list (vec F * nat) }.
Definition unmatched_metrics (s : list mentry) : list (nat * nat) := map fst (filter snd s).
(** 529-536: g(mu, mu) becomes the dimensionality, the others stay *)
Definition traces (l : list (nat * nat)) : nat := length (filter (fun q => Nat.eqb (fst q) (snd q)) l).
Definition proper (l : list (nat * nat)) : list (nat * nat) := filter (fun q => negb (Nat.eqb (fst q) (snd q))) l.
Variable dim : F.
Definition contract (ms : list (nat * nat)) (ps es : list (vec F * nat)) : summand :=
  let s := match_metrics (map (fun q => (q, true)) ms) in
  let (ps', s1) := contract_vectors ps s in
  let (es', s2) := contract_vectors es s1 in
  let left_over := unmatched_metrics s2 in
  {| coef := npow dim (traces left_over); metrics := proper left_over; vectors := ps' ++ es' |}.

(** ** scalar factors, 351-369; [a] is N_nu - D*L/2 *)
Variables (a Fval Uval : F) (highest_rank : nat).
(** the recursion runs from r/2 up to highest_rank//2; [steps] is the difference *)
Fixpoint reduce_gamma (steps r_over_two : nat) : F :=
  match steps with O => 1 | S n => (a - natF (r_over_two + 1)) * reduce_gamma n (r_over_two + 1) end.
Definition scalar_factor (r : nat) : F :=
  npow (fdiv 1 (- (1 + 1))) (Nat.div2 r) * npow Fval (Nat.div2 r) * reduce_gamma (Nat.div2 highest_rank - Nat.div2 r) (Nat.div2 r).

(** ** one term of the numerator, 378-541 *)
Variables (aM : nat -> nat -> F) (P : nat -> vec F) (p : nat -> vec F).
Definition eqb2 (x y : nat * nat) : bool := Nat.eqb (fst x) (fst y) && Nat.eqb (snd x) (snd y).
Definition pair_term (A : list ((nat * nat) * (nat * nat))) (P_indices external : list (nat * nat)) (r : nat) (loop_rank : nat) (remainder : F) : summand :=
  let c := contract (map (fun q => (snd (fst q), snd (snd q))) A) (map (fun q => (P (fst q), snd q)) P_indices) (map (fun q => (p (fst q), snd q)) external) in
  {| coef := scalar_factor r * npow Uval (highest_rank - loop_rank) * remainder * prodF (map (fun q => aM (fst (fst q)) (fst (snd q))) A) * coef c;
     metrics := metrics c; vectors := vectors c |}.
Definition term_numerator (loop_tensor external : list (nat * nat)) (remainder : F) : option (list summand) :=
  match powerset loop_tensor 0 2 with
  | None => None
  | Some subsets =>
      fold_right (fun A_indices acc =>
        match missing eqb2 loop_tensor A_indices, all_pairs A_indices, acc with
        | Some P_indices, Some pairings, Some l =>
            Some (map (fun A => pair_term A P_indices external (length A_indices) (length loop_tensor) remainder) pairings ++ l)
        | _, _, _ => None
        end) (Some []) subsets
  end.
End Model.
Arguments coef {F}. Arguments metrics {F}. Arguments vectors {F}.
