(** Model of /repo/pySecDecContrib/util/secdecutil/amplitude.hpp: class Integral (51-128), compute_impl of QmcIntegral (149-187),
    CubaIntegral (223-246), CQuadIntegral (274-281) and MultiIntegratorIntegral (309-316), the operators on vectors of
    WeightedIntegral (321-456), compute_sum (776-783), the loop around a failing integration (511-561) and the refinement
    loops of WeightedIntegralHandler (800-1310); and get_next_n of /repo/pySecDecContrib/qmc.hpp (3281-3304).
    Simplifications: numbers of points are natural numbers (no overflow); the result of an integration is whatever the
    integrator returns (an oracle), [err] is the absolute value of its uncertainty, None if that is not a number; integration
    times, verbose output and threads (each integral is computed by one thread) are left out. *)
From Coq Require Export List Arith Lia Bool Reals.
From Verif Require UncModel.
Export ListNotations.

(** qmc.hpp 3281-3304: [keys] are the sizes of the available lattices in increasing order, [median] whether lattices of
    any size may be constructed (latticecandidates > 0); overflow checks left out *)
Definition get_next_n (keys : list nat) (median : bool) (n : nat) : nat :=
  match find (fun k => n <=? k) keys with
  | Some k => k
  | None => if median then n else last keys 0
  end.

Inductive kind : Type := Qmc (keys : list nat) (median : bool) | Cuba (divonne : bool) | Once.

Section Integral.
Variable A : Type.
Variable err : A -> option R.
(** 55-67 *)
Record integral := mkI { num : nat; next : nat; refine : bool; res : A; how : kind }.
(** 72-75 with the first request of 145 (minn), 204 (mineval), 269 and 304 (0); [a] is the unspecified initial content *)
Definition fresh (how : kind) (n : nat) (a : A) : integral := mkI 0 n true a how.
(** 85-91 *)
Definition set_next (s : integral) (n : nat) (allow_decrease : bool) : integral :=
  mkI (num s) (if allow_decrease then max n (num s) else max (max (next s) n) (num s)) (refine s) (res s) (how s).
(** 98-103: None is the exception *)
Definition get_result (s : integral) : option A := if num s <=? 0 then None else Some (res s).
(** [abs(a) > abs(b)]: false if one of them is not a number *)
Definition gt (a b : option R) : bool :=
  match a, b with Some x, Some y => if Rlt_dec y x then true else false | _, _ => false end.
(** 149-187, 223-246, 274-281, 309-316: the state after compute_impl, whether it returned normally, and the number of
    points given to the integrator. [out]: the answer of the integrator (the result and the number of evaluations it
    reports) or None if it throws *)
Definition compute_impl (s : integral) (out : option (A * nat)) : integral * bool * nat :=
  match how s with
  | Qmc keys median =>
      let n := get_next_n keys median (next s) in
      let s1 := if n <? next s then mkI (num s) (next s) false (res s) (how s) else s in
      let s2 := set_next s1 n true in
      match out with
      | None => (s2, false, n)
      | Some (r, _) =>
          (match get_result s2 with
           | Some old => if gt (err old) (err r) then mkI (num s2) (next s2) (refine s2) r (how s2) else s2
           | None => mkI (num s2) (next s2) (refine s2) r (how s2)
           end, true, n)
      end
  | Cuba divonne =>
      let s1 := if divonne then mkI (num s) (next s) false (res s) (how s) else s in
      match out with
      | None => (s1, false, next s)
      | Some (r, neval) => (set_next (mkI (num s1) (next s1) (refine s1) r (how s1)) neval true, true, next s)
      end
  | Once =>
      let s1 := mkI (num s) (next s) false (res s) (how s) in
      match out with
      | None => (s1, false, next s)
      | Some (r, _) => (mkI (num s1) (next s1) (refine s1) r (how s1), true, next s)
      end
  end.
(** 117-126: the new state, whether no exception was thrown, and the call of the integrator if there was one *)
Definition compute (s : integral) (out : option (A * nat)) : integral * bool * option nat :=
  if refine s && (num s <? next s)
  then match compute_impl s out with
       | (s', true, n) => (mkI (next s') (next s') (refine s') (res s') (how s'), true, Some n)
       | (s', false, n) => (s', false, Some n)
       end
  else (s, true, None).

(** * the refinement loops *)
(** a sum: the positions of its integrals, the limits, and the factor of ensure_maxincreasefac as a function of the
    current number of points *)
Record sum := mkSum { members : list nat; mineval : nat; maxeval : nat; max_next : nat -> nat }.
Definition upd (i : nat) (f : integral -> integral) (l : list integral) : list integral :=
  match nth_error l i with None => l | Some s => firstn i l ++ f s :: skipn (S i) l end.
(** 913-918 *)
Definition ensure_mineval (sums : list sum) (l : list integral) : list integral :=
  fold_left (fun l s => fold_left (fun l i => upd i (fun x => set_next x (mineval s) false) l) (members s) l) sums l.
(** 920-959: [want s i x] is None if the precision of the integral suffices, otherwise the extrapolated number of points *)
Definition min_prec_term (want : sum -> nat -> integral -> option nat) (s : sum) (st : list integral * bool) (i : nat) : list integral * bool :=
  match nth_error (fst st) i with
  | None => st
  | Some x =>
      if refine x && (num x <? maxeval s)
      then match want s i x with
           | Some new => if num x <? new then (upd i (fun x => set_next x (if maxeval s <? new then maxeval s else new) false) (fst st), true) else st
           | None => st
           end
      else st
  end.
Definition ensure_min_prec (want : sum -> nat -> integral -> option nat) (sums : list sum) (st : list integral * bool) : list integral * bool :=
  fold_left (fun st s => fold_left (min_prec_term want s) (members s) st) sums st.
(** 975-1159: [want] is None if the error goal of the sum is reached (1000-1006) or [c_i] is negative, in particular if the
    integral is not to be refined (1018), otherwise the extrapolated number of points (1132-1137) *)
Definition error_goal_term (want : sum -> nat -> integral -> option nat) (s : sum) (st : list integral * bool) (i : nat) : list integral * bool :=
  match nth_error (fst st) i with
  | None => st
  | Some x =>
      if refine x
      then match want s i x with
           | Some new => let p := min (maxeval s) (max (next x) new) in
                         (upd i (fun x => set_next x p false) (fst st), snd st || (num x <? p))
           | None => st
           end
      else st
  end.
Definition ensure_error_goal (want : sum -> nat -> integral -> option nat) (sums : list sum) (st : list integral * bool) : list integral * bool :=
  fold_left (fun st s => fold_left (error_goal_term want s) (members s) st) sums st.
(** 1162-1184 *)
Definition ensure_maxincreasefac (sums : list sum) (l : list integral) : list integral :=
  fold_left (fun l s => fold_left (fun l i => upd i (fun x => if max_next s (num x) <? next x then set_next x (max_next s (num x)) true else x) l) (members s) l) sums l.
(** 805-906: time is up; or the numbers of points are reduced several times, [red i x] being the reduced number for integral i *)
Inductive clock : Type := Stop | Reduce (rounds : list (nat -> integral -> nat)).
Definition numbered {B} (l : list B) : list (nat * B) := combine (seq 0 (length l)) l.
Definition reduce (st : list integral * bool) (red : nat -> integral -> nat) : list integral * bool :=
  (map (fun ix => if num (snd ix) <? next (snd ix) then set_next (snd ix) (red (fst ix) (snd ix)) true else snd ix) (numbered (fst st)),
   existsb (fun ix => (num (snd ix) <? next (snd ix)) && (num (snd ix) <? red (fst ix) (snd ix))) (numbered (fst st))).
Definition wall_clock (c : clock) (st : list integral * bool) : list integral * bool :=
  match c with
  | Stop => (map (fun x => set_next x (num x) true) (fst st), false)
  | Reduce rounds => fold_left reduce rounds st
  end.
(** 503-610: every integral is computed, see [attempts]; here the integrator does not fail. [out] answers for integral i,
    it may depend on the state *)
Definition evaluate_integrals (out : nat -> integral -> A * nat) (l : list integral) : list integral :=
  map (fun ix => fst (fst (compute (snd ix) (Some (out (fst ix) (snd ix)))))) (numbered l).
(** what the outside world does in one pass: results, extrapolations, clock *)
Record world := mkW { outs : nat -> integral -> A * nat; wants : sum -> nat -> integral -> option nat; wants2 : sum -> nat -> integral -> option nat; time : clock }.
(** 1239-1262: one pass of the first loop; the flag tells whether there is another one *)
Definition pass1 (sums : list sum) (w : world) (l : list integral) : list integral * bool :=
  let st := ensure_min_prec (wants w) sums (l, false) in
  let st := (ensure_maxincreasefac sums (fst st), snd st) in
  let st := wall_clock (time w) st in
  (evaluate_integrals (outs w) (fst st), snd st).
(** 1265-1302: one pass of the second loop; with errormode [all] the real and the imaginary part are treated one after the other *)
Definition pass2 (all : bool) (sums : list sum) (w : world) (l : list integral) : list integral * bool :=
  let st := ensure_error_goal (wants w) sums (l, false) in
  let st := if all then ensure_error_goal (wants2 w) sums st else st in
  let st := (ensure_maxincreasefac sums (fst st), snd st) in
  let st := wall_clock (time w) st in
  (evaluate_integrals (outs w) (fst st), snd st).
(** a do-while loop; [ws k] is what happens in pass k. None: more passes than the fuel *)
Fixpoint repeat_pass (pass : world -> list integral -> list integral * bool) (fuel k : nat) (ws : nat -> world) (l : list integral) : option (list integral * nat) :=
  match fuel with
  | O => None
  | S fuel => let (l', again) := pass (ws k) l in if again then repeat_pass pass fuel (S k) ws l' else Some (l', S k)
  end.
(** 1190-1310 *)
Definition refine_integrals (all : bool) (sums : list sum) (fuel : nat) (first : nat -> integral -> A * nat) (ws : nat -> world) (l : list integral) : option (list integral) :=
  let l := evaluate_integrals first (ensure_mineval sums l) in
  match repeat_pass (pass1 sums) fuel 0 ws l with
  | None => None
  | Some (l, k) => match repeat_pass (pass2 all sums) fuel k ws l with None => None | Some (l, _) => Some l end
  end.

(** * the loop around a failing integration *)
(** 532-545: reduce a deformation parameter; [mn]: its minimum, [fac]: the factor *)
Definition shrink (mn fac p : R) : R * bool :=
  if Rlt_dec mn p then ((if Rlt_dec (p * fac) mn then mn else p * fac)%R, true) else (p, false).
Inductive verdict : Type := Finished | GaveUp.
(** 519-561: [outs k] is the answer of the integrator to the k-th attempt; the deformation parameters are those of one sector
    with its minimum and factor *)
Fixpoint attempts (mn fac : R) (fuel k : nat) (outs : nat -> option (A * nat)) (s : integral) (pars : list R) : option (integral * list R * verdict) :=
  match fuel with
  | O => None
  | S fuel =>
      match compute s (outs k) with
      | (s', true, _) => Some (s', pars, Finished)
      | (s', false, _) =>
          let q := map (shrink mn fac) pars in
          if existsb snd q then attempts mn fac fuel (S k) outs s' (map fst q) else Some (s', map fst q, GaveUp)
      end
  end.
End Integral.
Arguments mkI {A}. Arguments num {A}. Arguments next {A}. Arguments refine {A}. Arguments res {A}. Arguments how {A}. Arguments fresh {A}. Arguments set_next {A}. Arguments get_result {A}.
Arguments compute_impl {A}. Arguments compute {A}. Arguments upd {A}. Arguments ensure_mineval {A}. Arguments min_prec_term {A}. Arguments ensure_min_prec {A}. Arguments error_goal_term {A}. Arguments ensure_error_goal {A}.
Arguments ensure_maxincreasefac {A}. Arguments Stop {A}. Arguments Reduce {A}. Arguments reduce {A}. Arguments wall_clock {A}. Arguments evaluate_integrals {A}. Arguments mkW {A}. Arguments outs {A}. Arguments wants {A}. Arguments wants2 {A}. Arguments time {A}.
Arguments pass1 {A}. Arguments pass2 {A}. Arguments repeat_pass {A}. Arguments refine_integrals {A}. Arguments attempts {A}.

(** * weighted sums *)
Section Weighted.
Variable C : Type.
Variables (cadd cmul cdiv : C -> C -> C) (copp_one : C).
(** an integral is identified by the pointer to it *)
Definition term : Type := nat * C.
(** 350-361: the inner loop *)
Fixpoint merge (a : list term) (y : term) : list term :=
  match a with
  | [] => [y]
  | x :: r => if fst x =? fst y then (fst x, cadd (snd x) (snd y)) :: r else x :: merge r y
  end.
(** 343-363, 364-373 *)
Definition wadd (a b : list term) : list term := fold_left merge b a.
(** 374-406 *)
Definition wmul (a : list term) (c : C) : list term := map (fun x => (fst x, cmul (snd x) c)) a.
(** 407-428 *)
Definition wdiv (a : list term) (c : C) : list term := map (fun x => (fst x, cdiv (snd x) c)) a.
(** 429-456 *)
Definition wneg (a : list term) : list term := wmul a copp_one.
Definition wsub (a b : list term) : list term := wadd a (wneg b).
End Weighted.
Arguments merge {C}. Arguments wadd {C}. Arguments wmul {C}. Arguments wdiv {C}. Arguments wneg {C}. Arguments wsub {C}.
(** 776-783: the sum over the terms with uncertainties; [get i] is the result of integral i *)
Definition compute_sum (get : nat -> UncModel.ud) (a : list (nat * R)) : UncModel.ud :=
  fold_left (fun acc t => UncModel.uadd acc (UncModel.tmul (snd t) (get (fst t)))) a (UncModel.conv 0).
