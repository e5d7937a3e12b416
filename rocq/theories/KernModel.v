(** Model of the lattice summation kernels:
    - /repo/pySecDecContrib/bin/export_sector:453-510 [DIST_SECTOR_ORDER_CPP] (the same loop in disteval/builtin.cpp:7-160),
    - export_sector:604-666 [DIST_SECTOR_ORDER_CU], the sum kernel disteval/builtin.cu:11-32 and the loop over batches
      disteval/cudaworker.cpp:394-450,
    - /repo/pySecDecContrib/qmc.hpp:2137-2187 [core::generic::compute].
    Simplifications: doubles are real numbers except in mulmod; the integrand is an arbitrary function of the point which fails when
    a sign check fails (the kernel then returns NaN, here None); results are real; [body] stands for the code after "return(". *)
From Coq Require Export List ZArith Reals.
From Verif Require Export MulmodModel.
Export ListNotations.
Local Open Scope Z_scope.

(** common_cpu.h:51-52 and 161-163 *)
Definition warponce_i (a b : Z) : Z := if 0 <=? a - b then a - b else a.
Definition warponce (a b : R) : R := if Rle_dec 0 (a - b) then (a - b)%R else a.
Definition sumR (l : list R) : R := fold_right Rplus 0%R l.
Definition prodR (l : list R) : R := fold_right Rmult 1%R l.
(** NaN is absorbing *)
Definition plus (a b : option R) : option R := match a, b with Some x, Some y => Some (x + y)%R | _, _ => None end.
Definition sumO (l : list (option R)) : option R := fold_right plus (Some 0%R) l.

Section Kernel.
Variables (w f : R -> R) (body : list R -> option R).
Variables (n : Z) (genvec : list Z) (shift : list R).

(** export_sector:486: the lattice indices at the start *)
Definition start (index : Z) : list Z := map (fun z => mulmod z index n) genvec.
(** 491: all variables advanced by one lattice point *)
Definition advance (li : list Z) : list Z := map (fun q => warponce_i (fst q + snd q) n) (combine li genvec).
(** 492-494 *)
Definition coords (li : list Z) : list R := map (fun q => warponce (IZR (fst q) * / IZR n + snd q) 1) (combine li shift).
(** 496-498 *)
Definition weight (x : list R) : R := prodR (map w x).
(** ** CPU *)
Variable vecsize : nat.
Fixpoint lanes (k : nat) (li : list Z) : list (list Z) := match k with O => [] | S k => li :: lanes k (advance li) end.
(** 499-501: the weight of lane [k] is set to zero beyond [index2] *)
Definition masked (index index2 : Z) (k : nat) (v : R) : R :=
  if andb (Nat.leb 1 k) (index2 <=? index + Z.of_nat k) then 0%R else v.
(** 502-505: one vector; the sign checks look at all lanes *)
Fixpoint vec (index index2 : Z) (k : nat) (ls : list (list Z)) : option (list R) :=
  match ls with
  | [] => Some []
  | li :: r =>
      let x := coords li in
      match body (map f x), vec index index2 (S k) r with
      | Some v, Some vs => Some ((masked index index2 k (weight x) * v)%R :: vs)
      | _, _ => None
      end
  end.
(** 488-507; the loop ends after at most [fuel] vectors *)
Fixpoint cpu_loop (fuel : nat) (index index2 : Z) (li : list Z) (acc : list R) : option (list R) :=
  match fuel with
  | O => Some acc
  | S fuel =>
      if index <? index2 then
        match vec index index2 0 (lanes vecsize li) with
        | Some vs => cpu_loop fuel (index + Z.of_nat vecsize) index2 (Nat.iter vecsize advance li) (map (fun q => (fst q + snd q)%R) (combine acc vs))
        | None => None
        end
      else Some acc
  end.
Definition cpu (index1 index2 : Z) : option R :=
  match cpu_loop (Z.to_nat (index2 - index1)) index1 index2 (start index1) (repeat 0%R vecsize) with
  | Some acc => Some (sumR acc)
  | None => None
  end.
(** ** CUDA *)
Variables (threads per_thread : nat).
(** export_sector:641-655: the loop of one thread; the first failing sign check makes the sum NaN *)
Fixpoint thread_loop (fuel : nat) (index index2 : Z) (li : list Z) : option R :=
  match fuel with
  | O => Some 0%R
  | S fuel =>
      if index <? index2 then
        let x := coords li in
        match body (map f x) with
        | Some v => plus (Some (weight x * v)%R) (thread_loop fuel (index + 1) index2 (advance li))
        | None => None
        end
      else Some 0%R
  end.
Definition thread (index1 index2 : Z) (bid tid : nat) : option R :=
  let index := index1 + Z.of_nat ((bid * threads + tid) * per_thread) in
  thread_loop per_thread index index2 (map (fun z => mulmod index z n) genvec).
(** 657-660: the sum over the threads of a block *)
Definition block (index1 index2 : Z) (bid : nat) : option R := sumO (map (thread index1 index2 bid) (seq 0 threads)).
(** builtin.cu:11-32: block [bid] of the sum kernel; [buffer] has [n] entries *)
Definition sum_kernel (buffer : list (option R)) (bid : nat) : option R :=
  sumO (map (fun tid => sumO (map (fun e => nth ((bid * threads + tid) * per_thread + e) buffer (Some 0%R)) (seq 0 per_thread))) (seq 0 threads)).
(** cudaworker.cpp:425-431 *)
Definition ceil_div (a b : nat) : nat := ((a + b - 1) / b)%nat.
Fixpoint reduce (fuel : nat) (buffer : list (option R)) : option R :=
  match fuel with
  | O => None
  | S fuel =>
      if Nat.leb (length buffer) 1 then nth 0 buffer (Some 0%R)
      else reduce fuel (map (sum_kernel buffer) (seq 0 (ceil_div (length buffer) (threads * per_thread))))
  end.
(** one batch, 416-446 *)
Definition batch (i1 i2 : Z) : option R :=
  let blocks := ceil_div (Z.to_nat (i2 - i1)) (threads * per_thread) in
  reduce (S blocks) (map (block i1 i2) (seq 0 blocks)).
Variable blocksperbatch : nat.
(** 416-417, 447-448 *)
Fixpoint cuda_loop (fuel : nat) (i1 index2 : Z) (acc : option R) : option R :=
  match fuel with
  | O => acc
  | S fuel =>
      if i1 <? index2 then
        let i' := i1 + Z.of_nat (blocksperbatch * (threads * per_thread)) in
        let i2 := if i' <? index2 then i' else index2 in
        cuda_loop fuel i' index2 (plus acc (batch i1 i2))
      else acc
  end.
Definition cuda (index1 index2 : Z) : option R := cuda_loop (Z.to_nat (index2 - index1)) index1 index2 (Some 0%R).
(** ** the QMC library: work package [i] of [total] (qmc.hpp:2150-2182); [func] contains the transform *)
Variable func : list R -> R.
(** 2158: modf of a positive number *)
Definition sample (offset : Z) : list R :=
  map (fun q => let y := (mul_mod offset (fst q) n / IZR n + snd q)%R in (y - IZR (Int_part y))%R) (combine genvec shift).
(** without batching *)
Fixpoint package_loop (fuel : nat) (offset total : Z) (r : R) : R :=
  match fuel with
  | O => r
  | S fuel => if offset <? n then package_loop fuel (offset + total) total (r + func (sample offset))%R else r
  end.
Definition package (i total : Z) (r : R) : R := package_loop (Z.to_nat n) i total r.
(** with batching: the array of points is filled at position [offset / total], then [batchsize] entries are used *)
Definition batchsize (i total : Z) : Z := n / total + (if i <? n mod total then 1 else 0).
Fixpoint setnth {A} (k : nat) (v : A) (l : list A) : list A := match l, k with [], _ => [] | _ :: r, O => v :: r | y :: r, S k => y :: setnth k v r end.
Fixpoint fill_loop (fuel : nat) (offset total : Z) (x : list (list R)) : list (list R) :=
  match fuel with
  | O => x
  | S fuel => if offset <? n then fill_loop fuel (offset + total) total (setnth (Z.to_nat (offset / total)) (sample offset) x) else x
  end.
Definition package_batched (i total : Z) (r : R) : R :=
  let x := fill_loop (Z.to_nat n) i total (repeat (repeat 0%R (length genvec)) (Z.to_nat (batchsize i total))) in
  fold_left (fun r p => (r + func p)%R) x r.
End Kernel.
