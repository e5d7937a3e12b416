(** Model of the message layer of /repo/pySecDec/disteval.py: [Worker] (lines 71-141) and [RandomScheduler] (173-228).
    Requests are numbered in the order in which they are issued; the number of a request stands for its contents.
    Fields marked "ghost" are not in the code: they record the history for the statements. *)
From Coq Require Export List Arith ZArith Lia Permutation Bool.
Export ListNotations.

(** python dictionaries with integer keys *)
Definition dget {V} (k : nat) (d : list (nat * V)) : option V := option_map snd (find (fun p => Nat.eqb (fst p) k) d).
Definition ddel {V} (k : nat) (d : list (nat * V)) : list (nat * V) := filter (fun p => negb (Nat.eqb (fst p) k)) d.
Definition dset {V} (k : nat) (v : V) (d : list (nat * V)) : list (nat * V) := (k, v) :: ddel k d.

Section Worker.
Variable C : Type. (* callbacks together with their arguments *)
(** disteval.py:73-78 and what is on its way *)
Record worker := mkW {
  serial : nat;                          (* self.serial *)
  callbacks : list (nat * option C);     (* self.callbacks; None is the ignoring lambda of line 92 *)
  wire : list (nat * nat);               (* messages not yet answered by the process: token and request *)
  issued : list C;                       (* ghost: the callback of each request *)
  log : list (C * nat);                  (* ghost: callbacks run, with the request whose answer they got *)
  cancelled : list nat;                  (* ghost: requests for which cancel_cb returned True *)
  dropped : list nat;                    (* ghost: answered after being cancelled *)
  reader_dead : bool }.                  (* the reader task has exited *)
Definition worker0 : worker := mkW 0 [] [] [] [] [] [] false.
(** disteval.py:83-88 [call_cb]: new state and token *)
Definition call_cb (w : worker) (c : C) : worker * nat :=
  let token := S (serial w) in
  (mkW token (dset token (Some c) (callbacks w)) (wire w ++ [(token, length (issued w))]) (issued w ++ [c]) (log w) (cancelled w) (dropped w) (reader_dead w), token).
(** disteval.py:90-94 [cancel_cb] *)
Definition cancel_cb (w : worker) (token : nat) : worker * bool :=
  match dget token (callbacks w) with
  | Some _ => (mkW (serial w) (dset token None (callbacks w)) (wire w) (issued w) (log w)
                   (map snd (filter (fun p => Nat.eqb (fst p) token) (wire w)) ++ cancelled w) (dropped w) (reader_dead w), true)
  | None => (w, false)
  end.
(** disteval.py:104-122 [multicall]: the tokens start at the current serial number *)
Definition multicall (w : worker) (cs : list C) : worker :=
  let s0 := serial w in
  let toks := seq s0 (length cs) in
  mkW (s0 + length cs) (fold_left (fun d q => dset (fst q) (Some (snd q)) d) (combine toks cs) (callbacks w))
      (wire w ++ combine toks (seq (length (issued w)) (length cs))) (issued w ++ cs) (log w) (cancelled w) (dropped w) (reader_dead w).
(** disteval.py:124-141 [_reader]: the process answers the [i]-th outstanding message (any order is possible) and the answer
    is read; an unknown token ends the reader (KeyError caught by the final except), later answers are never read *)
Definition reply (w : worker) (i : nat) : worker :=
  match nth_error (wire w) i with
  | None => w
  | Some (t, r) =>
      let wire' := firstn i (wire w) ++ skipn (S i) (wire w) in
      if reader_dead w then mkW (serial w) (callbacks w) wire' (issued w) (log w) (cancelled w) (dropped w) true
      else match dget t (callbacks w) with
           | None => mkW (serial w) (callbacks w) wire' (issued w) (log w) (cancelled w) (dropped w) true
           | Some None => mkW (serial w) (ddel t (callbacks w)) wire' (issued w) (log w) (cancelled w) (r :: dropped w) false
           | Some (Some c) => mkW (serial w) (ddel t (callbacks w)) wire' (issued w) ((c, r) :: log w) (cancelled w) (dropped w) false
           end
  end.
End Worker.
Arguments mkW {C}. Arguments serial {C}. Arguments callbacks {C}. Arguments wire {C}. Arguments issued {C}. Arguments log {C}. Arguments cancelled {C}. Arguments dropped {C}. Arguments reader_dead {C}.
Arguments worker0 {C}. Arguments call_cb {C}. Arguments cancel_cb {C}. Arguments multicall {C}. Arguments reply {C}.

(** the future of a multicall, disteval.py:105-115: [results], [ntodo], and the future: pending, done or failed; an exception
    raised inside the callback (a second [set_exception]) ends the reader: [None] *)
Inductive future (A E : Type) := Pending | Done (r : list (option A)) | Failed (e : E).
Arguments Pending {A E}. Arguments Done {A E}. Arguments Failed {A E}.
Record mstate (A E : Type) := mkM { results : list (option A); ntodo : Z; fut : future A E }.
Arguments mkM {A E}. Arguments results {A E}. Arguments ntodo {A E}. Arguments fut {A E}.
Definition multicall_start {A E} (n : nat) : mstate A E := mkM (repeat None n) (Z.of_nat n) Pending.
Fixpoint set_nth {A} (i : nat) (v : A) (l : list A) : list A := match l, i with [], _ => [] | _ :: r, O => v :: r | x :: r, S j => x :: set_nth j v r end.
Definition multicall_return {A E} (m : mstate A E) (answer : A + E) (i : nat) : option (mstate A E) :=
  match answer with
  | inl res =>
      let rs := set_nth i (Some res) (results m) in
      let n := (ntodo m - 1)%Z in
      if Z.eqb n 0 then match fut m with Pending => Some (mkM rs n (Done rs)) | _ => None end else Some (mkM rs n (fut m))
  | inr e => match fut m with Pending => Some (mkM (results m) (ntodo m) (Failed e)) | _ => None end
  end.

(** * disteval.py:173-228 RandomScheduler: the callbacks registered by the scheduler are [(true, c)], those of direct worker
    calls [(false, c)]; the random choice of the worker is an argument *)
Section Scheduler.
Variable C : Type.
Record sched := mkS { workers : list (worker (bool * C)); npending : Z; drained : bool; waiting : bool (* ghost-free: a drain() is suspended *) }.
Definition upd_worker (s : sched) (k : nat) (w : worker (bool * C)) : list (worker (bool * C)) := set_nth k w (workers s).
(** disteval.py:193-203 [call_cb], [call_cb_unweighted] *)
Definition s_call_cb (s : sched) (k : nat) (c : C) : sched :=
  match nth_error (workers s) k with
  | Some w => mkS (upd_worker s k (fst (call_cb w (true, c)))) (npending s + 1) (drained s) (waiting s)
  | None => s
  end.
(** disteval.py:188-191 [call] (through [Worker.call]) or any other direct use of a worker *)
Definition s_direct (s : sched) (k : nat) (c : C) : sched :=
  match nth_error (workers s) k with
  | Some w => mkS (upd_worker s k (fst (call_cb w (false, c)))) (npending s) (drained s) (waiting s)
  | None => s
  end.
(** a direct [Worker.multicall] *)
Definition s_multicall (s : sched) (k : nat) (cs : list C) : sched :=
  match nth_error (workers s) k with
  | Some w => mkS (upd_worker s k (multicall w (map (pair false) cs))) (npending s) (drained s) (waiting s)
  | None => s
  end.
(** disteval.py:182-184 [add_worker] *)
Definition s_add_worker (s : sched) : sched := mkS (workers s ++ [worker0]) (npending s) (drained s) (waiting s).
(** an answer is read; [_cb] (disteval.py:205-209) when the callback is the scheduler's *)
Definition s_reply (s : sched) (k i : nat) : sched :=
  match nth_error (workers s) k with
  | None => s
  | Some w =>
      let w' := reply w i in
      let ran := match log w' with q :: r => if Nat.eqb (length (log w')) (S (length (log w))) then fst (fst q) else false | [] => false end in
      if ran then let n := (npending s - 1)%Z in mkS (upd_worker s k w') n (if Z.eqb n 0 then true else drained s) (waiting s)
      else mkS (upd_worker s k w') (npending s) (drained s) (waiting s)
  end.
(** disteval.py:211-219 [cancel_cb] *)
Definition s_cancel (s : sched) (k token : nat) : sched :=
  match nth_error (workers s) k with
  | None => s
  | Some w => let (w', ok) := cancel_cb w token in
              if ok then let n := (npending s - 1)%Z in mkS (upd_worker s k w') n (if Z.eqb n 0 then true else drained s) (waiting s)
              else s
  end.
(** disteval.py:186-187 [queue_size] and 80-81 *)
Definition queue_size (w : worker (bool * C)) : nat := length (callbacks w).
Definition s_queue_size (s : sched) : nat := list_sum (map queue_size (workers s)).
(** disteval.py:222, the assertion of [drain] *)
Definition drain_assert (s : sched) : bool := Z.leb (npending s) (Z.of_nat (s_queue_size s)).
(** disteval.py:221-225 [drain]: one evaluation of the loop condition, at the call or when the event wakes it up; the result
    says whether drain() returns *)
Definition drain_check (s : sched) : sched * bool :=
  if Z.ltb 0 (npending s) then (mkS (workers s) (npending s) false true, false) else (mkS (workers s) (npending s) (drained s) false, true).
End Scheduler.
Arguments mkS {C}. Arguments workers {C}. Arguments npending {C}. Arguments drained {C}. Arguments waiting {C}.
Arguments s_multicall {C}. Arguments s_add_worker {C}. Arguments queue_size {C}. Arguments s_queue_size {C}. Arguments drain_assert {C}.
Arguments s_call_cb {C}. Arguments s_direct {C}. Arguments s_reply {C}. Arguments s_cancel {C}. Arguments drain_check {C}.
