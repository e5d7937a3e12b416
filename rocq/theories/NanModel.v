(** Model of the integration jobs of one pass of disteval: /repo/pySecDec/disteval.py:597-625 ([shift_done_cb], [schedule_kernel]) on top of the scheduler
    (173-228) and the workers (71-141), when every kernel of the pass is scheduled (726-729) and results come back in any order.
    The tokens of all workers are numbered together (a token is a pair of worker and serial number in the code; that answers reach the callback of their token is C48).
    The median construction of lattices (627-651) uses the same protocol with other callbacks and is not modelled; neither are the timing counters kern_db, kern_di, kern_dt. *)
From Coq Require Export List Arith ZArith QArith Lia Bool.
Export ListNotations.
Open Scope nat_scope.
Section Nan.
(** lattice, generating vector, random shift, value *)
Variables L G R V : Type.
(** the arguments of an integrate call (617-622); shifts per kernel; lattices and generating vectors are fixed during a pass *)
Record job := mkJob { j_kernel : nat; j_lattice : L; j_genvec : G; j_shift : R; j_deformp : list Q }.
Variable nshifts : nat.
Variable lattices : nat -> L.
Variable genvecs : nat -> G.
(** an outstanding request: token, worker, and the callback: None is the ignoring lambda of line 92, Some (j, s) is shift_done_cb for job j with the argument shift = s *)
Record request := mkReq { r_token : nat; r_worker : nat; r_cb : option (job * nat) }.
Record state := mkSt {
  out : list request;                    (* the callbacks of all workers *)
  next : nat;                            (* the next token *)
  pend : Z;                              (* par.npending *)
  tag : nat -> nat -> option nat;        (* shift_tag *)
  rnd : nat -> nat -> option R;          (* shift_rnd *)
  defp : nat -> list Q;                  (* deformp *)
  val : nat -> nat -> option V;          (* shift_val; None is NaN *)
  todo : list nat;                       (* kernels of the pass not scheduled yet *)
  dead : nat -> bool }.                  (* workers whose reader has exited *)
Definition upd2 {A} (f : nat -> nat -> A) (i s : nat) (a : A) : nat -> nat -> A := fun i' s' => if Nat.eqb i i' && Nat.eqb s s' then a else f i' s'.
Definition upd1 {A} (f : nat -> A) (i : nat) (a : A) : nat -> A := fun i' => if Nat.eqb i i' then a else f i'.
(** 211-219 and 90-94: cancel_cb; a token that is still registered (even if it was cancelled before) lowers npending *)
Definition silence (t : nat) (r : request) : request := if Nat.eqb (r_token r) t then mkReq (r_token r) (r_worker r) None else r.
Definition cancel (st : state) (t : nat) : state :=
  if existsb (fun r => Nat.eqb (r_token r) t) (out st) then
    mkSt (map (silence t) (out st)) (next st) (pend st - 1)%Z (tag st) (rnd st) (defp st) (val st) (todo st) (dead st)
  else st.
(** 600-601: for s in range(nshifts): par.cancel_cb(shift_tag[idx, s]) *)
Definition cancel_shifts (st : state) (i : nat) (ss : list nat) : state := fold_left (fun st s => match tag st i s with Some t => cancel st t | None => st end) ss st.
(** 613-622: one job of schedule_kernel; the random numbers and the choice of the worker are arguments *)
Definition schedule_shift (st : state) (i s : nat) (r : R) (w : nat) : state :=
  let j := mkJob i (lattices i) (genvecs i) r (defp st i) in
  mkSt (out st ++ [mkReq (next st) w (Some (j, s))]) (S (next st)) (pend st + 1)%Z (upd2 (tag st) i s (Some (next st))) (upd2 (rnd st) i s (Some r)) (defp st) (val st) (todo st) (dead st).
Definition schedule_shifts (st : state) (i : nat) (r : nat -> R) (w : nat -> nat) (ss : list nat) : state := fold_left (fun st s => schedule_shift st i s (r s) (w s)) ss st.
Definition schedule_kernel (st : state) (i : nat) (r : nat -> R) (w : nat -> nat) : state := schedule_shifts st i r w (seq 0 nshifts).
(** 602: tuple(p*0.9 for p in deformp[idx]) *)
Definition reduce (d : list Q) : list Q := map (fun p => p * (9 # 10))%Q d.
(** the answer to the k-th outstanding request is read: it leaves the callbacks; 205-209 npending; then shift_done_cb *)
Definition remove_nth {A} (k : nat) (l : list A) : list A := firstn k l ++ skipn (S k) l.
Definition take (st : state) (k : nat) (live : bool) : state :=
  mkSt (remove_nth k (out st)) (next st) (if live then pend st - 1 else pend st)%Z (tag st) (rnd st) (defp st) (val st) (todo st) (dead st).
(** 604-605 *)
Definition store (st : state) (i s : nat) (v : V) : state := mkSt (out st) (next st) (pend st) (tag st) (rnd st) (defp st) (upd2 (val st) i s (Some v)) (todo st) (dead st).
(** 599-603 *)
Definition retry (st : state) (i : nat) (r : nat -> R) (w : nat -> nat) : state :=
  let st1 := cancel_shifts st i (seq 0 nshifts) in
  let st2 := mkSt (out st1) (next st1) (pend st1) (tag st1) (rnd st1) (upd1 (defp st1) i (reduce (defp st1 i))) (val st1) (todo st1) (dead st1) in
  schedule_kernel st2 i r w.
Definition kill_reader (st : state) (w : nat) : state := mkSt (out st) (next st) (pend st) (tag st) (rnd st) (defp st) (val st) (todo st) (upd1 (dead st) w true).
(** what a worker may answer: a number, or None for NaN *)
Variable result : job -> option V -> Prop.
Inductive step : state -> state -> Prop :=
  (** 726-729: the next kernel of the pass; other tasks run in between (asyncio.sleep(0)) *)
| S_schedule st i rest r w : todo st = i :: rest ->
    step st (schedule_kernel (mkSt (out st) (next st) (pend st) (tag st) (rnd st) (defp st) (val st) rest (dead st)) i r w)
  (** the answer to a cancelled request *)
| S_ignored st k t w : nth_error (out st) k = Some (mkReq t w None) -> dead st w = false -> step st (take st k false)
| S_value st k t w j s v : nth_error (out st) k = Some (mkReq t w (Some (j, s))) -> dead st w = false -> result j (Some v) -> step st (store (take st k true) (j_kernel j) s v)
| S_nan st k t w j s r w' : nth_error (out st) k = Some (mkReq t w (Some (j, s))) -> dead st w = false -> result j None -> step st (retry (take st k true) (j_kernel j) r w')
  (** the worker answers with an error: unpacking None raises inside the callback and ends the reader of this worker (135-140) *)
| S_error st k t w j s : nth_error (out st) k = Some (mkReq t w (Some (j, s))) -> dead st w = false -> step st (kill_reader (take st k true) w).
Inductive steps : nat -> state -> state -> Prop :=
| steps_O s : steps 0 s s
| steps_S n s t u : steps n s t -> step t u -> steps (S n) s u.
(** the start of a pass (716-729): nothing pending; requests cancelled in earlier passes may still be unanswered; all values are NaN (750) *)
Definition pass_start (st : state) : Prop :=
  (forall r, In r (out st) -> r_cb r = None /\ r_token r < next st) /\ NoDup (map r_token (out st)) /\ pend st = 0%Z /\ NoDup (todo st) /\
  (forall i s, In i (todo st) -> val st i s = None) /\ (forall w, dead st w = false).
(** 738: the kernels that count as done after the wait *)
Definition counted (st : state) (i : nat) : bool := forallb (fun s => match val st i s with Some _ => true | None => false end) (seq 0 nshifts).
End Nan.
