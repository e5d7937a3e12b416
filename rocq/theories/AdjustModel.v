(** Model of /repo/pySecDec/disteval.py:287-346, [adjust_1d_n] and [adjust_n].
    Simplification: real numbers instead of floating point numbers (no rounding, no overflow). *)
From Coq Require Export Reals List Lra Lia ZArith Bool.
Export ListNotations.
Local Open Scope R_scope.

(** one integral: the entries of W2, w, tau, nmin, nmax and n at one position *)
Record comp := mkC { cW2 : R; cw : R; ctau : R; cnmin : R; cnmax : R; cn : R }.
Definition set_n (x : comp) (n : R) : comp := mkC (cW2 x) (cw x) (ctau x) (cnmin x) (cnmax x) n.
Definition Rltb (x y : R) : bool := if Rlt_dec x y then true else false.
Definition Rleb (x y : R) : bool := if Rle_dec x y then true else false.
(** [W2 @ (w/n**a)] *)
Definition total (a : R) (l : list comp) : R := fold_right Rplus 0 (map (fun x => cW2 x * (cw x / Rpower (cn x) a)) l).
(** what [adjust_1d_n] does: return an array of real numbers, or of truncated ones, or fail *)
Inductive answer := ReturnFloat (l : list comp) | ReturnInt (l : list comp) | AssertionError.
(** selection by a mask *)
Definition masked := list (comp * bool).
Definition sel (m : masked) : list comp := map fst (filter (fun q : comp * bool => snd q) m).
Definition unsel (m : masked) : list comp := map fst (filter (fun q : comp * bool => negb (snd q)) m).
(** [n[mask2] *= c] *)
Definition scale_rest (c : R) (m : masked) : masked := map (fun q : comp * bool => if snd q then q else (set_n (fst q) (cn (fst q) * c), snd q)) m.
(** [n[mask] = v[mask]] *)
Definition put (v : comp -> R) (m : masked) : masked := map (fun q : comp * bool => if snd q then (set_n (fst q) (v (fst q)), snd q) else q) m.
Definition remask (add : comp -> bool) (m : masked) : masked := map (fun q : comp * bool => (fst q, snd q || add (fst q))) m.
(** disteval.py:300-318: enforce nmax; [inl] is an early return or a failed assertion, [inr] the array after the loop.
    The fuel bounds the number of passes; each pass enlarges the mask. *)
Fixpoint cap_loop (fuel : nat) (a V : R) (m : masked) : option (answer + list comp) :=
  match fuel with
  | O => None
  | S f =>
      let m := put cnmax m in
      if Nat.eqb (length (sel m)) 0 then Some (inr (map fst m))
      else if Nat.eqb (length (sel m)) (length m) then Some (inl (ReturnFloat (map fst m)))
      else
        let VV := V - total a (sel m) in
        if Rltb VV 0 then Some (inl (ReturnFloat (map fst m)))
        else if negb (Rltb 0 VV) then Some (inl AssertionError)
        else
          let m := scale_rest (Rpower (1 / VV * total a (unsel m)) (1 / a)) m in
          let add := fun x => Rltb (cnmax x) (cn x) in
          if negb (existsb add (map fst m)) then Some (inr (map fst m)) else cap_loop f a V (remask add m)
  end.
(** disteval.py:320-330: enforce nmin; a target exceeded by the raised ones ([VV] clipped to 0) would make the others infinite
    and the following assertions fail *)
Fixpoint raise_loop (fuel : nat) (a V : R) (m : masked) : option (answer + list comp) :=
  match fuel with
  | O => None
  | S f =>
      let m := put cnmin m in
      if Nat.eqb (length (sel m)) 0 then Some (inr (map fst m))
      else if Nat.eqb (length (sel m)) (length m) then Some (inl (ReturnFloat (map fst m)))
      else
        let VV := Rmax (V - total a (sel m)) 0 in
        if negb (Rltb 0 VV) then Some (inl AssertionError)
        else
          let m := scale_rest (Rpower (1 / VV * total a (unsel m)) (1 / a)) m in
          let add := fun x => Rltb (cn x) (cnmin x) in
          if negb (existsb add (map fst m)) then Some (inr (map fst m)) else raise_loop f a V (remask add m)
  end.
Definition start_mask (test : comp -> bool) (l : list comp) : masked := map (fun x => (x, test x)) l.
(** disteval.py:294-298: the solution without bounds *)
Definition unbounded (a V : R) (l : list comp) : list comp :=
  let l := map (fun x => set_n x (Rpower (cw x / ctau x * cW2 x) (1 / (a + 1)))) l in
  let c := Rpower (1 / V * total a l) (1 / a) in
  map (fun x => set_n x (cn x * c)) l.
(** disteval.py:287-333 *)
Definition positiveb (x : comp) : bool := Rltb 0 (cW2 x) && Rltb 0 (cw x) && Rltb 0 (ctau x) && Rltb 0 (cnmin x).
Definition adjust_1d_n (a V : R) (allow_medianQMC : bool) (l : list comp) : option answer :=
  let l := map (fun x => set_n x (cnmin x)) l in
  if negb (forallb positiveb l) then Some AssertionError
  else if Rleb (total a l) V then Some (ReturnFloat l)
  else
    let l := unbounded a V l in
    let capped := if allow_medianQMC then Some (inr l) else cap_loop (S (length l)) a V (start_mask (fun x => Rltb (cnmax x) (cn x)) l) in
    match capped with
    | None => None
    | Some (inl r) => Some r
    | Some (inr l) =>
        match raise_loop (S (length l)) a V (start_mask (fun x => Rltb (cn x) (cnmin x)) l) with
        | None => None
        | Some (inl r) => Some r
        | Some (inr l) => if forallb (fun x => Rleb (cnmin x) (cn x)) l then Some (ReturnInt l) else Some AssertionError
        end
    end.
(** [.astype(int)]: truncation of a nonnegative number *)
Definition truncR (x : R) : R := IZR (Int_part x).
(** the array that is returned *)
Definition returned (r : answer) : option (list R) :=
  match r with ReturnFloat l => Some (map cn l) | ReturnInt l => Some (map (fun x => truncR (cn x)) l) | AssertionError => None end.
(** disteval.py:336-346 [adjust_n]: the amplitudes one after the other, last first; an amplitude is its row of W2 (a weight for
    each integral) and its V; the state is n (stored in [cnmin], the lower bound of the next call), cW2 is replaced by the row *)
Definition use_row (row : list R) (l : list comp) : list comp := map (fun p => mkC (fst p) (cw (snd p)) (ctau (snd p)) (cnmin (snd p)) (cnmax (snd p)) (cn (snd p))) (combine row l).
Definition active (x : comp) : bool := negb (if Req_EM_T (cw x) 0 then true else false) && negb (if Req_EM_T (cW2 x) 0 then true else false).
(** [n[mask] = values] *)
Fixpoint assign (l : list comp) (v : list R) : list comp :=
  match l with
  | [] => []
  | x :: r => if active x then match v with y :: s => mkC (cW2 x) (cw x) (ctau x) y (cnmax x) (cn x) :: assign r s | [] => x :: r end else x :: assign r v
  end.
Definition adjust_row (a : R) (allow : bool) (l : list comp) (rowV : list R * R) : option (list comp) :=
  let l := use_row (fst rowV) l in
  let act := filter active l in
  if Nat.eqb (length act) 0 then Some l
  else match adjust_1d_n a (snd rowV) allow act with
       | None => None
       | Some r => match returned r with None => None | Some v => Some (assign l v) end
       end.
Definition adjust_n (a : R) (allow : bool) (l : list comp) (rows : list (list R * R)) : option (list comp) :=
  fold_right (fun rowV acc => match acc with None => None | Some l => adjust_row a allow l rowV end) (Some l) rows.
