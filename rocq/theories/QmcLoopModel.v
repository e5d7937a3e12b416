(** Model of the adaptive part of the QMC integrator, /repo/pySecDecContrib/qmc.hpp: 1264-1276 and 1321-1342 [compute_error_ratio],
    3225-3281 [update], 3283-3310 [get_next_n], 3313-3364 [integrate_no_fit_no_transform], 3380-3433 [get_median_z].
    Simplifications: floating point numbers are real numbers, extended by infinity and NaN where divisions by zero matter; unsigned integers
    are natural numbers; the checks of [n] against the largest representable numbers (3303-3307) are left out. *)
From Coq Require Export List Arith Reals. Export ListNotations.
From Verif Require Export QmcModel.
Inductive num := Fin (x : R) | Inf | Nan.
Definition lt (a b : num) : bool :=
  match a, b with Fin x, Fin y => if Rlt_dec x y then true else false | Fin _, Inf => true | _, _ => false end.
(** std::min and std::max *)
Definition fmin (a b : num) : num := if lt b a then b else a.
Definition fmax (a b : num) : num := if lt a b then b else a.
(** division of a nonnegative number; the sign of the divisor is not kept if it is zero, [fabs] follows *)
Definition fdiv (x y : R) : num := if Req_EM_T y 0 then (if Req_EM_T x 0 then Nan else Inf) else Fin (x / y).
Definition fabs (a : num) : num := match a with Fin x => Fin (Rabs x) | _ => a end.
Section Ratio.
Local Open Scope R_scope.
Variables epsrel epsabs : R.
(** 1264-1276 *)
Definition ratio_real (res : result R) : num := fmin (fdiv (error res) epsabs) (fabs (fdiv (error res) (integral res * epsrel))).
(** 1321-1342: errormode all and largest *)
Definition ratio_all (res : result (R * R)) : num :=
  fmax (fmin (fdiv (fst (error res)) epsabs) (fdiv (fst (error res)) (Rabs (fst (integral res) * epsrel))))
       (fmin (fdiv (snd (error res)) epsabs) (fdiv (snd (error res)) (Rabs (snd (integral res) * epsrel)))).
Definition ratio_largest (res : result (R * R)) : num :=
  let e := Rmax (fst (error res)) (snd (error res)) in
  fmin (fdiv e epsabs) (fdiv e (Rmax (Rabs (fst (integral res))) (Rabs (snd (integral res))) * epsrel)).
End Ratio.
(** 3286-3300: [generatingvectors] is a map, its keys are sorted; lower_bound and rbegin *)
Fixpoint lower_bound (lattices : list nat) (n : nat) : option nat :=
  match lattices with [] => None | l :: r => if Nat.leb n l then Some l else lower_bound r n end.
Definition get_next_n (lattices : list nat) (median : bool) (preferred_n : nat) : nat :=
  match lower_bound lattices preferred_n with
  | Some l => l
  | None => if median then preferred_n else last lattices 0
  end.
(** static_cast<U> of a nonnegative number *)
Definition to_U (x : R) : nat := Z.to_nat (Int_part x).
Section Update.
Variables (lattices : list nat) (median : bool) (minn minm maxeval : nat).
Local Open Scope R_scope.
(** 3225-3281; None: NaN is converted to an integer *)
Definition update (ratio : num) (evals n m : nat) : option (nat * nat) :=
  match fmin ratio (Fin 20) with
  | Fin error_ratio =>
      if Rlt_dec error_ratio 1 then Some (n, m)
      else if Nat.ltb maxeval evals then Some (n, m)
      else
        let n0 := get_next_n lattices median (to_U (INR n * Rpower error_ratio (1 / 0.8))) in
        let increase_m := if Nat.leb n0 n then true else if Rlt_dec (error_ratio * error_ratio - 1) (INR n0 / INR n) then true else false in
        let new_n := if increase_m then n else n0 in
        let new_m := if increase_m then (to_U (INR m * error_ratio * error_ratio) + 1 - m)%nat else minm in
        let new_n' := if Nat.ltb maxeval (evals + new_n * new_m) then Nat.max n (get_next_n lattices median ((maxeval - evals) / new_m)) else new_n in
        let new_m' := if andb (Nat.eqb n new_n') (Nat.ltb maxeval (evals + new_n' * new_m)) then Nat.max 1 ((maxeval - evals) / new_n') else new_m in
        Some (new_n', new_m')
  | _ => None
  end.
(** 3338-3350: the call of [update] before the condition of the loop is modelled after it, its result is used only if the loop goes on.  [sampler] stands for [sample] (QmcModel.sample), its state for the previous iterations and the random numbers.  The list contains
    the values of [n] and [m] of the rounds, the last one first.  None: after [fuel] rounds the loop has not ended *)
Variables (T S : Type) (sampler : nat -> nat -> S -> result T * S) (ratio : result T -> num).
Fixpoint loop (fuel : nat) (n m : nat) (s : S) (rounds : list (nat * nat)) : option (result T * S * list (nat * nat)) :=
  match fuel with
  | O => None
  | Datatypes.S fuel =>
      let (res, s') := sampler n m s in
      let rounds' := (n, m) :: rounds in
      if andb (lt (Fin 1) (ratio res)) (Nat.ltb (evaluations res) maxeval)
      then match update (ratio res) (evaluations res) n m with Some (n', m') => loop fuel n' m' s' rounds' | None => None end
      else Some (res, s', rounds')
  end.
(** 3317-3320 and 3335-3337; the other checks do not concern the algorithm *)
Definition integrate (fuel : nat) (s : S) : option (result T * S * list (nat * nat)) :=
  if Nat.ltb minm 2 then None else loop fuel (get_next_n lattices median minn) minm s [].
End Update.
(** ** get_median_z *)
(** 3400-3405: random numbers are drawn until one of them is coprime to [n] *)
Fixpoint pick (n : nat) (random : list nat) : option (nat * list nat) :=
  match random with [] => None | x :: r => if Nat.eqb (Nat.gcd x n) 1 then Some (x, r) else pick n r end.
Fixpoint candidate (n M : nat) (random : list nat) : option (list nat * list nat) :=
  match M with
  | O => Some ([], random)
  | S M => match pick n random with
           | Some (x, r) => match candidate n M r with Some (z, r') => Some (x :: z, r') | None => None end
           | None => None
           end
  end.
Fixpoint candidates (n M c : nat) (random : list nat) : option (list (list nat) * list nat) :=
  match c with
  | O => Some ([], random)
  | S c => match candidate n M random with
           | Some (z, r) => match candidates n M c r with Some (l, r') => Some (z :: l, r') | None => None end
           | None => None
           end
  end.
(** 3392 *)
Definition odd_candidates (latticecandidates : nat) : nat := if Nat.eqb (latticecandidates mod 2) 0 then latticecandidates + 1 else latticecandidates.
(** std::sort *)
Fixpoint insert (x : R) (l : list R) : list R := match l with [] => [x] | y :: r => if Rle_dec x y then x :: l else y :: insert x r end.
Definition sort (l : list R) : list R := fold_right insert [] l.
(** 3414-3431; None: logic_error "unexpected median" *)
Definition choose (value : list nat -> R) (genvecs : list (list nat)) (c : nat) : option (list nat) :=
  let results := map value genvecs in
  let median := nth (c / 2) (sort results) 0%R in
  find (fun z => if Req_EM_T (value z) median then true else false) genvecs.
Definition median_z (value : list nat -> R) (n M latticecandidates : nat) (random : list nat) : option (option (list nat)) :=
  let c := odd_candidates latticecandidates in
  match candidates n M c random with Some (l, _) => Some (choose value l c) | None => None end.
