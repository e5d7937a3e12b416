(** Model of the worker threads of the QMC integrator, /repo/pySecDecContrib/qmc.hpp:2667-2745 [sample_worker], 2752-2767 and 2826-2886
    ([sample]: packages, result slots, serial and threaded execution), 2137-2187 [generic::compute] and 1729-1753 [compute_kernel] (the
    accesses to the result vector), 2043-2053 [teardown_sample], 2929-3006 [evaluate_worker].
    Threads are interleaved step by step.  Taking work from the queue is one step, since it is protected by the mutex; every access to the
    shared result vector is a step of its own, so [r += x] is a load followed by a store.  A CUDA worker accumulates in a buffer on its
    device, which no other thread can see, and copies the sums at the end.  The value of the integrand for shift [k] and lattice point
    [offset] is [f k offset]. *)
From Coq Require Export List Arith Reals. Export ListNotations.
Definition upd {A} (f : nat -> A) (i : nat) (v : A) : nat -> A := fun j => if Nat.eqb j i then v else f j.
(** accesses to the result vector: [r[s] += v] and [r[s] = v] *)
Inductive access := Add (s : nat) (v : R) | Put (s : nat) (v : R).
Section Workers.
Variable P : Type.
(** the work on the packages [i], ..., [i + c - 1] by thread [t]: effect on the device buffer and accesses to the result vector *)
Variable launch : nat -> nat -> nat -> P -> P * list access.
(** 2737-2741 *)
Variable teardown : nat -> P -> list access.
Record worker := { work_this_iteration : nat; private : P; todo : list access; register : option R; closing : bool }.
Record state := { work_queue : nat; memory : nat -> R; workers : nat -> worker }.
Definition finished (w : worker) : Prop := closing w = true /\ todo w = [].
(** one step of thread [t]; None if it has finished *)
Definition step (t : nat) (s : state) : option state :=
  let w := workers s t in
  match todo w with
  | Add a v :: rest =>
      match register w with
      | None => Some {| work_queue := work_queue s; memory := memory s;
                        workers := upd (workers s) t {| work_this_iteration := work_this_iteration w; private := private w; todo := todo w;
                                                        register := Some (memory s a); closing := closing w |} |}
      | Some x => Some {| work_queue := work_queue s; memory := upd (memory s) a (x + v)%R;
                          workers := upd (workers s) t {| work_this_iteration := work_this_iteration w; private := private w; todo := rest;
                                                          register := None; closing := closing w |} |}
      end
  | Put a v :: rest => Some {| work_queue := work_queue s; memory := upd (memory s) a v;
                               workers := upd (workers s) t {| work_this_iteration := work_this_iteration w; private := private w; todo := rest;
                                                               register := register w; closing := closing w |} |}
  | [] =>
      if closing w then None
      else
        (** 2697-2715 *)
        if Nat.eqb (work_queue s) 0 then
          Some {| work_queue := 0; memory := memory s;
                  workers := upd (workers s) t {| work_this_iteration := work_this_iteration w; private := private w; todo := teardown t (private w);
                                                  register := None; closing := true |} |}
        else
          let c := if Nat.leb (work_this_iteration w) (work_queue s) then work_this_iteration w else work_queue s in
          let q := if Nat.leb (work_this_iteration w) (work_queue s) then work_queue s - work_this_iteration w else 0 in
          let (p, l) := launch t q c (private w) in
          Some {| work_queue := q; memory := memory s;
                  workers := upd (workers s) t {| work_this_iteration := c; private := p; todo := l; register := None; closing := false |} |}
  end.
(** an execution: the thread that takes each step; None if one of them has finished already *)
Fixpoint execute (schedule : list nat) (s : state) : option state :=
  match schedule with [] => Some s | t :: r => match step t s with Some s' => execute r s' | None => None end end.
End Workers.
Arguments work_this_iteration {P}. Arguments private {P}. Arguments todo {P}. Arguments register {P}. Arguments closing {P}.
Arguments work_queue {P}. Arguments memory {P}. Arguments workers {P}. Arguments finished {P}.
(** ** sample *)
(** 2752-2756 *)
Definition total_work_packages (n maxnperpackage : nat) : nat :=
  let points_per_package := Nat.min maxnperpackage n in
  n / points_per_package + (if Nat.eqb (n mod points_per_package) 0 then 0 else 1).
(** 2148 and 1738: [for (offset = i; offset < n; offset += total)] *)
Fixpoint offsets (fuel n total offset : nat) : list nat :=
  match fuel with O => [] | S fuel => if Nat.ltb offset n then offset :: offsets fuel n total (offset + total) else [] end.
Section Sample.
Variables (f : nat -> nat -> R) (n m total : nat).
(** 2146-2172: the accesses of package [i] with [r_element = &r[t]] *)
Definition compute (t r_size_over_m i : nat) : list access :=
  flat_map (fun k => map (fun o => Add (t + k * r_size_over_m) (f k o)) (offsets n n total i)) (seq 0 m).
(** 2833-2836 *)
Definition serial_accesses : list access := flat_map (compute 0 1) (seq 0 total).
Definition apply_access (r : nat -> R) (a : access) : nat -> R := match a with Add s v => upd r s (r s + v)%R | Put s v => upd r s v end.
Definition serial : nat -> R := fold_left apply_access serial_accesses (fun _ => 0%R).
(** [lanes t]: number of CUDA threads of the device of worker [t]; None for a worker on the CPU *)
Variables (lanes : nat -> option nat) (r_size_over_m : nat).
(** 1733-1750: the buffer [d_r] of row [k], column [j] *)
Definition kernel (work_offset work : nat) (d_r : nat -> nat -> R) : nat -> nat -> R :=
  fun k j => if Nat.ltb k m then (if Nat.ltb j work then fold_left (fun s o => (s + f k o)%R) (offsets n n total (work_offset + j)) (d_r k j) else d_r k j) else d_r k j.
Definition launch_sample (t i c : nat) (d_r : nat -> nat -> R) : (nat -> nat -> R) * list access :=
  match lanes t with
  | None => (d_r, compute t r_size_over_m i)
  | Some _ => (kernel i c d_r, [])
  end.
(** 2047-2051 *)
Definition teardown_sample (t : nat) (d_r : nat -> nat -> R) : list access :=
  match lanes t with
  | None => []
  | Some b => map (fun k => Put (t + k * r_size_over_m) (fold_left Rplus (map (d_r k) (seq 0 b)) 0%R)) (seq 0 m)
  end.
(** 2678-2692, 2854-2880 and 1973: initial state *)
Definition start_worker (t : nat) : worker (nat -> nat -> R) :=
  {| work_this_iteration := match lanes t with None => 1 | Some b => b end; private := fun _ _ => 0%R; todo := []; register := None; closing := false |}.
Definition start_sample : state (nat -> nat -> R) := {| work_queue := total; memory := fun _ => 0%R; workers := start_worker |}.
End Sample.
(** ** evaluate: [r[i] = f i] *)
Section Evaluate.
Variables (f : nat -> R) (n : nat) (lanes : nat -> option nat).
(** 2979-3000: on the CPU one point at a time, on a device a block that is copied back *)
Definition launch_evaluate (t i c : nat) (p : unit) : unit * list access :=
  match lanes t with
  | None => (tt, [Put i (f i)])
  | Some _ => (tt, map (fun j => Put (i + j) (f (i + j))) (seq 0 c))
  end.
Definition teardown_evaluate (t : nat) (p : unit) : list access := [].
Definition start_evaluate : state unit :=
  {| work_queue := n; memory := fun _ => 0%R;
     workers := fun t => {| work_this_iteration := match lanes t with None => 1 | Some b => b end; private := tt; todo := []; register := None; closing := false |} |}.
End Evaluate.
