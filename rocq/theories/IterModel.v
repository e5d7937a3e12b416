(** Model of the integration loop of /repo/pySecDec/disteval.py, [do_eval]: proposals of new lattices (lines 650-695),
    [iterate_integration] (699-828).
    Simplification: floating point numbers are real numbers, an infinite variance is [None]; a kernel is a record instead of
    one column of many arrays; the workers are an oracle (per pass: what was obtained, and whether the deadline was hit). *)
From Verif Require Export AdjustModel GenVecModel DistModel.
Local Open Scope R_scope.

Definition C2 : Type := (R * R)%type.
Record kern := mkK {
  k_dim : Z;                    (* dims *)
  k_lat : R;                    (* lattices *)
  k_old : option R;             (* oldlattices; None is nan *)
  k_gen : option (list Z);      (* genvecs *)
  k_tau : R;                    (* kern_db/kern_di, line 685 *)
  k_val : C2;                   (* kern_val *)
  k_var : option C2 }.          (* kern_var *)
Definition csumR (l : list C2) : C2 := fold_right cadd (0, 0) l.
Definition meanR (l : list R) : R := fold_right Rplus 0 l / INR (length l).
(** [np.var]: mean of the squared deviations *)
Definition np_var (l : list R) : R := meanR (map (fun x => (x - meanR l) ^ 2) l).
(** lines 759-762: the new value and variance from the sums returned by the workers, one for each shift *)
Definition new_val (lat : R) (s : list C2) : C2 := (meanR (map fst s) / lat, meanR (map snd s) / lat).
Definition new_variance (lat : R) (s : list C2) : C2 :=
  (np_var (map fst s) / (lat ^ 2 * INR (length s)), np_var (map snd s) / (lat ^ 2 * INR (length s))).
(** numpy's [<=] of complex numbers (lexicographic), with an infinite right hand side *)
Definition cle (x : C2) (y : option C2) : bool :=
  match y with None => true | Some y => Rltb (fst x) (fst y) || ((if Req_EM_T (fst x) (fst y) then true else false) && Rleb (snd x) (snd y)) end.
(** line 702 [mask_todo] *)
Definition todo (k : kern) : bool := match k_old k with None => true | Some o => if Req_EM_T (k_lat k) o then false else true end.
(** lines 755-781 for one kernel; [obtained] are the results of all shifts, or None if one is missing (nan) *)
Definition update (k : kern) (obtained : option (list C2)) : kern :=
  if todo k then
    match obtained with
    | None => k
    | Some s => if cle (new_variance (k_lat k) s) (k_var k)
                then mkK (k_dim k) (k_lat k) (k_old k) (k_gen k) (k_tau k) (new_val (k_lat k) s) (Some (new_variance (k_lat k) s)) else k
    end
  else k.

(** ** proposals *)
Definition clip (x lo hi : R) : R := Rmin (Rmax x lo) hi.
Definition absvar (k : kern) : R := match k_var k with Some v => fst v + snd v | None => 0 (* not reached: propose is only called when all are known *) end.
Definition abs2 (z : C2) : R := fst z ^ 2 + snd z ^ 2.
(** lines 653-666 [propose_lattices1]; None: precision reached; 1/5 and 1/10000 are perkern_epsrel and perkern_epsabs (650-651) *)
Definition kern_maxvar (k : kern) : R := Rmax ((1 / 10000) ^ 2) (abs2 (k_val k) * (1 / 5) ^ 2).
Definition propose1 (ks : list kern) : option (list R) :=
  if forallb (fun k => Rleb (absvar k) (kern_maxvar k)) ks then None
  else Some (map (fun k =>
    let n := k_lat k * sqrt (absvar k / kern_maxvar k) in
    let n := clip n (k_lat k) (k_lat k * 20) in
    if Rltb (k_lat k) n && Rltb n (k_lat k * 2) then k_lat k * 2 else n) ks).
(** an amplitude: weights of the kernels, epsrel, epsabs *)
Record amp := mkA { a_W : list C2; a_epsrel : R; a_epsabs : R }.
Definition amp_abserr (ks : list kern) (A : amp) : R :=
  let v := amp_var (a_W A) (map (fun k => match k_var k with Some v => v | None => (0, 0) end) ks) in sqrt (fst v + snd v).
Definition amp_absval (ks : list kern) (A : amp) : R := sqrt (abs2 (amp_val (a_W A) (map k_val ks))).
Definition amp_maxerr (ks : list kern) (A : amp) : R :=
  Rmax (a_epsabs A) (Rmax (amp_absval ks A) (amp_abserr ks A) * a_epsrel A).
Definition maxlattice (k : kern) : R := match max_lattice_size (k_dim k) with Returns m => IZR m | _ => 0 end.
(** lines 668-695 [propose_lattices2]; [Some None]: precision reached, [None]: an assertion of adjust_n fails *)
Definition propose2 (amps : list amp) (candidates : nat) (ks : list kern) : option (option (list R)) :=
  if forallb (fun A => Rleb (amp_abserr ks A) (amp_maxerr ks A)) amps then Some None
  else
    let comps := map (fun k => mkC 0 (absvar k * k_lat k ^ 2) (k_tau k) (k_lat k) (maxlattice k) 0) ks in
    match adjust_n 2 (Nat.ltb 0 candidates) comps (map (fun A => (map abs2 (a_W A), amp_maxerr ks A ^ 2)) amps) with
    | None => None
    | Some l =>
        let n := map (fun p => clip (cnmin (fst p)) (k_lat (snd p)) (k_lat (snd p) * 20)) (combine l ks) in
        if existsb (fun p => Rleb (k_lat (snd p) * 20) (fst p)) (combine n ks)
        then Some (Some (map (fun p =>
               let n := if Rleb (k_lat (snd p) * 20) (fst p) then k_lat (snd p) * 20 else fst p in
               if Rltb n (k_lat (snd p) * 2) then k_lat (snd p) else n) (combine n ks)))
        else Some (Some n)
    end.
(** lines 810-815: the standard lattice for a proposal; a number of points that is not an integer is looked up by its ceiling,
    and a failure (ValueError) keeps the proposal without a generating vector, whatever [lattice_candidates] is *)
Definition ceilR (x : R) : Z := (- Int_part (- x))%Z.
Definition standard (k : kern) (n : R) : R * option (list Z) :=
  match generating_vector (k_dim k) (ceilR n) with Returns (m, z) => (IZR m, Some z) | _ => (n, None) end.

(** ** lines 701-828, one pass of the loop after the results have been collected *)
Inductive input := Deadline (obtained : list (option (list C2))) | Drained (obtained : list (list C2)).
Inductive reason := OutOfTime | PrecisionReached | NoMoreLattices.
Inductive passed := Continue (ks : list kern) | Stop (r : reason) (ks : list kern) | Failed.
Definition obtained_of (i : input) : list (option (list C2)) := match i with Deadline l => l | Drained l => map Some l end.
Definition evaluate (i : input) (ks : list kern) : list kern := map (fun p => update (fst p) (snd p)) (combine ks (obtained_of i)).
(** lines 704, 736-738: the kernels sent to the workers, with the number of points *)
Definition evaluated (ks : list kern) : list (nat * R) := map (fun p => (fst p, k_lat (snd p))) (filter (fun p => todo (snd p)) (combine (seq 0 (length ks)) ks)).
Definition settle (k : kern) : kern := mkK (k_dim k) (k_lat k) (Some (k_lat k)) (k_gen k) (k_tau k) (k_val k) (k_var k).
Definition advance (standard_lattices : bool) (k : kern) (n : R) : kern :=
  let q := if standard_lattices then standard k n else (n, None) in
  mkK (k_dim k) (fst q) (Some (k_lat k)) (snd q) (k_tau k) (k_val k) (k_var k).
Definition pass (propose : list kern -> option (option (list R))) (standard_lattices : bool) (i : input) (ks : list kern) : passed :=
  let ks := evaluate i ks in
  match i with
  | Deadline _ => Stop OutOfTime ks
  | Drained _ =>
      match propose ks with
      | None => Failed
      | Some None => Stop PrecisionReached (map settle ks)
      | Some (Some n) =>
          let ks' := map (fun p => advance standard_lattices (fst p) (snd p)) (combine ks n) in
          if forallb (fun p => if Req_EM_T (k_lat (fst p)) (k_lat (snd p)) then true else false) (combine ks' ks)
          then Stop NoMoreLattices ks else Continue ks'
      end
  end.
(** ** lines 699-828; [log] is the history of evaluations: for every pass the kernels that were evaluated *)
Fixpoint iterate (propose : list kern -> option (option (list R))) (standard_lattices : bool) (inputs : list input) (ks : list kern) (log : list (list (nat * R))) : option (passed * list (list (nat * R))) :=
  match inputs with
  | [] => None (* still running *)
  | i :: rest => let log := log ++ [evaluated ks] in
                 match pass propose standard_lattices i ks with
                 | Continue ks' => iterate propose standard_lattices rest ks' log
                 | r => Some (r, log)
                 end
  end.
(** lines 578-588: the initial state *)
Definition start (npoints0 : Z) (dims : list Z) (taus : list R) : option (list kern) :=
  fold_right (fun p acc => match generating_vector (fst p) npoints0, acc with
    | Returns (m, z), Some l => Some (mkK (fst p) (IZR m) None (Some z) (snd p) (0, 0) None :: l)
    | _, _ => None end) (Some []) (combine dims taus).

(** ** lines 722-733: the choice among the random candidates for a generating vector *)
Definition signedMax (x : C2) : R := if Rltb (Rabs (snd x)) (Rabs (fst x)) then fst x else snd x.
(** insertion sort; [np.median] of an odd number of values is the middle one of the sorted values *)
Fixpoint insertR (x : R) (l : list R) : list R := match l with [] => [x] | y :: r => if Rleb x y then x :: l else y :: insertR x r end.
Definition sortR (l : list R) : list R := fold_right insertR [] l.
Definition medianR (l : list R) : R :=
  let s := sortR l in let m := Nat.div2 (length l) in
  if Nat.odd (length l) then nth m s 0 else (nth (m - 1) s 0 + nth m s 0) / 2.
(** the last candidate whose value is the median *)
Definition pick_candidate (cands : list (C2 * list Z)) (current : option (list Z)) : option (list Z) :=
  let med := medianR (map (fun c => signedMax (fst c)) cands) in
  fold_left (fun g c => if Req_EM_T (signedMax (fst c)) med then Some (snd c) else g) cands current.
(** line 435 *)
Definition make_odd (lattice_candidates : nat) : nat := if Nat.ltb 0 lattice_candidates && Nat.even lattice_candidates then S lattice_candidates else lattice_candidates.

(** ** lines 609-617 [schedule_kernel]: every shift asks for the sum over the first [int(lattices[idx])] points of the lattice *)
Definition points (lat : R) : nat := Z.to_nat (Int_part lat).
