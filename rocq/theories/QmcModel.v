(** Model of the statistics of the QMC integrator, /repo/pySecDecContrib/qmc.hpp:2557-2612 [core::reduce] with the overloads of 1241-1262
    (real numbers) and 1301-1319 (complex numbers), and of the splitting of the shifts in [Qmc::sample], 2769-2778 and 2914.
    Simplifications: floating point numbers are real numbers; unsigned integers are natural numbers; the vector of previous iterations is a
    list with the last element first; logging is left out. *)
From Coq Require Export List Arith Reals. Export ListNotations.
(** qmc.hpp, types/result.hpp: struct result *)
Record result (T : Type) := { integral : T; error : T; res_n : nat; res_m : nat; iterations : nat; evaluations : nat }.
Arguments integral {T}. Arguments error {T}. Arguments res_n {T}. Arguments res_m {T}. Arguments iterations {T}. Arguments evaluations {T}.
Section Reduce.
Variable T : Type.
Variables (zero : T) (tadd tsub tmul tdiv : T -> T -> T) (cast : nat -> T).
Variables (compute_variance : T -> T -> T -> T -> T) (compute_error compute_variance_from_error : T -> T).
(** 2594-2597 *)
Definition shift_sum (r : list T) (m k : nat) : T :=
  fold_left (fun sum i => tadd sum (nth (k * length r / m + i) r zero)) (seq 0 (length r / m)) zero.
(** 2590-2602; [k] counts from [previous_m] + 1 *)
Definition shift_step (r : list T) (m previous_m : nat) (s : T * T) (k : nat) : T * T :=
  let (mean, variance) := s in
  let sum := shift_sum r m k in
  let delta := tsub sum mean in
  let mean' := tadd mean (tdiv delta (cast (k + previous_m + 1))) in
  (mean', compute_variance mean' variance sum delta).
(** 2567-2586 *)
Definition restore (n : nat) (previous : list (result T)) : T * T * nat * nat * nat * list (result T) :=
  match previous with
  | [] => (zero, zero, 0, 0, 0, [])
  | p :: rest =>
      if Nat.eqb (res_n p) n
      then (tmul (integral p) (cast n),
            tmul (compute_variance_from_error (error p)) (tmul (tmul (tmul (cast (res_m p - 1)) (cast (res_m p))) (cast (res_n p))) (cast (res_n p))),
            res_m p, iterations p, evaluations p, rest)
      else (zero, zero, 0, iterations p, evaluations p, previous)
  end.
(** 2587-2610 *)
Definition reduce (r : list T) (n m : nat) (previous : list (result T)) : result T * list (result T) :=
  let '(mean0, variance0, previous_m, previous_num_iterations, previous_num_evaluations, previous') := restore n previous in
  let (mean, variance) := fold_left (shift_step r m previous_m) (seq 0 m) (mean0, variance0) in
  let res := {| integral := tdiv mean (cast n);
                error := compute_error (tdiv variance (tmul (tmul (tmul (cast (m + previous_m - 1)) (cast (m + previous_m))) (cast n)) (cast n)));
                res_n := n; res_m := m + previous_m; iterations := 1 + previous_num_iterations; evaluations := n * m + previous_num_evaluations |} in
  (res, res :: previous').
(** 2769-2778: the numbers of shifts of the iterations of [sample] *)
Definition shift_numbers (m maxmperpackage : nat) : list nat :=
  let its := (m + maxmperpackage - 1) / maxmperpackage in
  map (fun it => if Nat.eqb it (its - 1) then (if Nat.eqb (m mod maxmperpackage) 0 then Nat.min m maxmperpackage else m mod maxmperpackage)
                 else Nat.min m maxmperpackage) (seq 0 its).
(** 2771-2914: [rows] stands for the vectors [r] of all shifts that the workers fill; iteration [it] takes its number of them *)
Fixpoint sample_loop (n : nat) (shifts : list nat) (rows : list (list T)) (res : option (result T)) (previous : list (result T))
  : option (result T) * list (result T) :=
  match shifts with
  | [] => (res, previous)
  | s :: rest => let (res', previous') := reduce (concat (firstn s rows)) n s previous in sample_loop n rest (skipn s rows) (Some res') previous'
  end.
Definition sample (n m maxmperpackage : nat) (rows : list (list T)) (previous : list (result T)) :=
  sample_loop n (shift_numbers m maxmperpackage) rows None previous.
End Reduce.
(** 1241-1262: real numbers *)
Section Real.
Local Open Scope R_scope.
Definition variance_real (mean variance sum delta : R) : R := variance + delta * (sum - mean).
Definition error_real (variance : R) : R := sqrt (Rabs variance).
Definition variance_from_error_real (err : R) : R := err * err.
Definition reduce_real := reduce R 0 Rplus Rminus Rmult Rdiv INR variance_real error_real variance_from_error_real.
Definition sample_real := sample R 0 Rplus Rminus Rmult Rdiv INR variance_real error_real variance_from_error_real.
(** 1301-1319: complex numbers with the arithmetic of std::complex *)
Definition cplus (a b : R * R) : R * R := (fst a + fst b, snd a + snd b).
Definition cminus (a b : R * R) : R * R := (fst a - fst b, snd a - snd b).
Definition cmult (a b : R * R) : R * R := (fst a * fst b - snd a * snd b, fst a * snd b + snd a * fst b).
Definition cdivide (a b : R * R) : R * R :=
  let d := fst b * fst b + snd b * snd b in ((fst a * fst b + snd a * snd b) / d, (snd a * fst b - fst a * snd b) / d).
Definition variance_complex (mean variance sum delta : R * R) : R * R :=
  cplus variance (fst delta * (fst sum - fst mean), snd delta * (snd sum - snd mean)).
Definition error_complex (variance : R * R) : R * R := (sqrt (Rabs (fst variance)), sqrt (Rabs (snd variance))).
Definition variance_from_error_complex (err : R * R) : R * R := (fst err * fst err, snd err * snd err).
Definition reduce_complex :=
  reduce (R * R) (0, 0) cplus cminus cmult cdivide (fun n => (INR n, 0)) variance_complex error_complex variance_from_error_complex.
Definition sample_complex :=
  sample (R * R) (0, 0) cplus cminus cmult cdivide (fun n => (INR n, 0)) variance_complex error_complex variance_from_error_complex.
End Real.
