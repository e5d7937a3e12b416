(** Model of /repo/pySecDec/formset.py: the memory estimate of FORM's buffers, its scaling to a budget, and the numbers with suffixes; and of
    the use make_package makes of it (/repo/pySecDec/code_writer/make_package.py:242-254, 362-368).  Python integers are [Z]; the scale factors
    are exact rationals where Python uses doubles (all factors of the search are dyadic with at most 51 bits; the product with a size is rounded
    by Python when it exceeds 53 bits: not modelled). *)
From Verif Require Export TextModel.
From Coq Require Export QArith Qround.
Open Scope Z_scope.
(** formset.py:283-328, the attributes that [calc] reads (the others, bracketindexsize ... subtermsinsmall, are never read) *)
Record setup := mkSetup { compresssize : Z; filepatches : Z; hidesize : Z; largesize : Z; maxtermsize : Z; numstorecaches : Z; scratchsize : Z; sizestorecache : Z;
  smallextension : Z; smallsize : Z; sortiosize : Z; termsinsmall : Z; threadbucketsize : Z; threads : Z; threadscratchoutsize : Z; threadscratchsize : Z; workspace : Z }.
(** formset.py:325-328 *)
Definition ptrsize : Z := 8.
Definition possize : Z := 8.
Definition wordsize : Z := 4.
(** formset.py:281-328 [Setup.__init__((4, 2, 0))]: the version make_package asks for *)
Definition default_setup : setup := mkSetup 90000 256 0 50000000 40000 4 50000000 32768 20000000 10000000 100000 100000 500 (-1) 2500000 100000 40000000.
(** formset.py:115-124; Python's // rounds down, as [Z.div] *)
Definition round_down (x n : Z) : Z := x / n * n.
Definition round_up (x n : Z) : Z := (x + (n - 1)) / n * n.
(** formset.py:359-435: the part of [calc] that raises parameters *)
Definition norm (s : setup) : setup :=
  let maxtermsize' := Z.max (maxtermsize s) 200 in
  let compresssize' := Z.max (compresssize s) (2 * maxtermsize' * wordsize) in
  let sortiosize1 := Z.max (sortiosize s) (maxtermsize' * wordsize) in
  let scratchsize' := Z.max (scratchsize s) (4 * maxtermsize' * wordsize ^ 2) in
  let hidesize' := if hidesize s >? 0 then Z.max (hidesize s) (4 * maxtermsize' * wordsize ^ 2) else hidesize s in
  let threadscratchsize' := Z.max (threadscratchsize s) (4 * maxtermsize' * wordsize ^ 2) in
  let threadscratchoutsize' := Z.max (threadscratchoutsize s) (4 * maxtermsize' * wordsize ^ 2) in
  let filepatches1 := Z.max (filepatches s) (threads s) in
  let termsinsmall' := round_up (termsinsmall s) 16 in
  let n := 10 * 10 in
  let largesize1 := if threads s >=? 0 then
                      (let minbufsize := threads s * (1 + n) * maxtermsize' * wordsize in
                       if largesize s + smallextension s <? minbufsize then minbufsize - smallextension s else largesize s)
                    else largesize s in
  let filepatches' := Z.max filepatches1 4 in
  let smallsize' := Z.max (smallsize s) (16 * maxtermsize' * wordsize) in
  let smallextension1 := Z.max (smallextension s) (smallsize' * 3 / 2) in
  let largesize2 := if largesize1 >? 0 then Z.max largesize1 (2 * smallsize') else largesize1 in
  let compinc := 2 in
  let minbufsize := filepatches' * (sortiosize1 + (compinc + 2 * maxtermsize') * wordsize) in
  let short := largesize2 + smallextension1 <? minbufsize in
  let smallextension' := if short && (largesize2 =? 0) then minbufsize else smallextension1 in
  let largesize' := if short && negb (largesize2 =? 0) then minbufsize - smallextension1 else largesize2 in
  let iotry := (largesize' + smallextension') / filepatches' / wordsize - 2 * maxtermsize' - compinc in
  let sortiosize' := Z.max sortiosize1 iotry in
  mkSetup compresssize' filepatches' hidesize' largesize' maxtermsize' (numstorecaches s) scratchsize' (sizestorecache s)
          smallextension' smallsize' sortiosize' termsinsmall' (threadbucketsize s) (threads s) threadscratchoutsize' threadscratchsize' (workspace s).
(** formset.py:497-538 [_thread_alloc_sort]; largepatches is not used by it *)
Definition thread_alloc_sort (maxterm large small smallext terms file sortio : Z) : Z :=
  let file := Z.max file 4 in
  let small := Z.max small (16 * maxterm * wordsize) in
  let smallext := Z.max smallext (small * 3 / 2) in
  let large := if large >? 0 then Z.max large (2 * small) else large in
  let compinc := 2 in
  let minbufsize := file * (sortio + (compinc + 2 * maxterm) * wordsize) in
  let short := large + smallext <? minbufsize in
  let smallext' := if short && (large =? 0) then minbufsize else smallext in
  let large' := if short && negb (large =? 0) then minbufsize - smallext else large in
  let iotry := (large' + smallext') / file / wordsize - 2 * maxterm - compinc in
  large' + smallext' + 3 * terms * ptrsize + Z.max sortio iotry.
(** formset.py:437-495: the estimate for parameters that have been raised *)
Definition mem_main (s : setup) : Z :=
  (scratchsize s * 2 + (if hidesize s >? 0 then hidesize s else scratchsize s)) + workspace s * wordsize + (compresssize s + 10) * wordsize
  + (largesize s + smallextension s + 3 * termsinsmall s * ptrsize + sortiosize s)
  + (possize * 2 * ptrsize + wordsize + sizestorecache s) * numstorecaches s.
Definition thread_buckets (s : setup) : Z :=
  let b := ((threadbucketsize s + 1) * maxtermsize s + 2) * wordsize in
  let b := if threadbucketsize s >=? 250 then b / 4 else if threadbucketsize s >=? 90 then b / 3 else if threadbucketsize s >=? 40 then b / 2 else b in
  b / wordsize.
Definition mem_threads (s : setup) : Z :=
  let t := threads s in
  if t >=? 1 then
    (threadscratchoutsize s + threadscratchsize s * 2) * t + workspace s * wordsize * t + (compresssize s + 10) * wordsize * t
    + thread_alloc_sort (maxtermsize s) (largesize s / t) (smallsize s / t) (smallextension s / t) (termsinsmall s) (filepatches s / t) (sortiosize s) * t
    + (possize * 2 * ptrsize + wordsize + sizestorecache s) * numstorecaches s * t
    + (2 * thread_buckets s * wordsize + (threadbucketsize s + 1) * possize) * 2 * t
    + (if t >=? 3 then (workspace s * wordsize / 8 + 2 * maxtermsize s * wordsize) * (t - 2) else 0)
  else 0.
(** formset.py:357-495 [calc]: it returns the estimate and leaves the raised parameters in the object *)
Definition calc (s : setup) : Z * setup := let s' := norm s in (mem_main s' + mem_threads s', s').
(** formset.py:167-190 [round_human_readable] without text.  [ilog10] is int(math.floor(math.log10(x))) computed exactly.
    Below 100 Python rounds to a negative power of ten in floating point: not modelled (the number is returned unchanged). *)
Fixpoint ilog10_aux (fuel : nat) (x : Z) : Z := match fuel with O => 0 | S f => if x <? 10 then 0 else 1 + ilog10_aux f (x / 10) end.
Definition ilog10 (x : Z) : Z := ilog10_aux (Z.to_nat (Z.log2 x)) x.
Definition round_off (up : bool) (x n : Z) : Z := if up then round_up x n else round_down x n.
Definition three_figures (x : Z) (up : bool) : Z := if x <? 100 then x else round_off up x (10 ^ (ilog10 x - 2)).
Definition human_value (x : Z) (up : bool) : Z :=
  let x := three_figures x up in
  let xx := round_off up x (1000 ^ 4) in if xx =? x then xx else
  let xx := round_off up x (1000 ^ 3) in if xx =? x then xx else
  let xx := round_off up x (1000 ^ 2) in if xx =? x then xx else
  let xx := round_off up x 1000 in if xx =? x then xx else x.
Definition human_text (x : Z) (up : bool) : text :=
  let x := three_figures x up in
  let xx := round_off up x (1000 ^ 4) in if xx =? x then zdec (xx / 1000 ^ 4) ++ txt "T" else
  let xx := round_off up x (1000 ^ 3) in if xx =? x then zdec (xx / 1000 ^ 3) ++ txt "G" else
  let xx := round_off up x (1000 ^ 2) in if xx =? x then zdec (xx / 1000 ^ 2) ++ txt "M" else
  let xx := round_off up x 1000 in if xx =? x then zdec (xx / 1000) ++ txt "K" else zdec x.
(** formset.py:127-156 [metric_prefix], [parse_number].  [float(s)] is modelled for texts of digits with a sign, where its value is exact
    (up to 2^53); decimal points, exponents and white space are not modelled. *)
Definition metric (c : ascii) : option Z :=
  if orb (Ascii.eqb c "k") (Ascii.eqb c "K") then Some 1000 else if orb (Ascii.eqb c "m") (Ascii.eqb c "M") then Some (1000 ^ 2) else
  if orb (Ascii.eqb c "g") (Ascii.eqb c "G") then Some (1000 ^ 3) else if orb (Ascii.eqb c "t") (Ascii.eqb c "T") then Some (1000 ^ 4) else None.
Definition parse_number (t : text) : option Z :=
  match rev t with
  | c :: r => match metric c with Some k => option_map (fun z => z * k) (pyint (rev r)) | None => pyint t end
  | [] => None
  end.
(** ** scaling to a budget *)
(** formset.py:559-560 *)
Definition scale_base (s : setup) : setup :=
  mkSetup (compresssize s) (filepatches s) (hidesize s) (largesize s) (maxtermsize s) (numstorecaches s) (scratchsize s) (sizestorecache s) (smallextension s) (smallsize s)
          (sortiosize s) (termsinsmall s) (threadbucketsize s) (threads s) (threadscratchoutsize s) (threadscratchsize s) (Z.max (workspace s) (maxtermsize s * 250)).
(** int(size * x): towards zero *)
Definition scaled (n : Z) (x : Q) : Z := Z.quot (n * Qnum x) (Zpos (Qden x)).
(** formset.py:562-569 *)
Definition scale_by (s : setup) (x : Q) : setup :=
  mkSetup (compresssize s) (filepatches s) (hidesize s) (scaled (largesize s) x) (maxtermsize s) (numstorecaches s) (scaled (scratchsize s) x) (sizestorecache s) (smallextension s)
          (scaled (smallsize s) x) (sortiosize s) (scaled (termsinsmall s) x) (threadbucketsize s) (threads s) (threadscratchoutsize s) (threadscratchsize s) (workspace s).
(** formset.py:562-573 [f]: excess over the budget, and the parameters after [calc] *)
Definition excess (s0 : setup) (total : Z) (human : bool) (x : Q) : Z * setup :=
  let '(m, sp) := calc (scale_by s0 x) in
  let m := if human then human_value m true else m in
  (- (total - m), sp).
(** formset.py:578-620: the state of the search: x1, y1 and, once found, x2, y2 *)
Record search := mkSearch { x1 : Q; y1 : Z; upper : option (Q * Z) }.
Definition half (x : Q) : Q := Qred (x * (1 # 2)).
Definition double (x : Q) : Q := Qred (x * 2).
(** 583-611, one pass *)
Definition search_step (f : Q -> Z) (st : search) : search :=
  match upper st with
  | None =>
      if y1 st <? 0 then
        let x := double (x1 st) in let y := f x in
        if y >? 0 then mkSearch (x1 st) (y1 st) (Some (x, y)) else mkSearch x y None
      else
        let x := half (x1 st) in let y := f x in
        if y <? 0 then mkSearch x y (Some (x1 st, y1 st)) else mkSearch x y None
  | Some (x2, y2) =>
      let x := half (x1 st + x2) in let y := f x in
      if y <? 0 then mkSearch x y (Some (x2, y2)) else mkSearch (x1 st) (y1 st) (Some (x, y))
  end.
(** 612-618: the assertions *)
Definition search_ok (st : search) : bool :=
  match upper st with None => true | Some (x2, y2) => negb (Qle_bool x2 (x1 st)) && (y1 st <? y2) end.
(** 583-618; [None] is an AssertionError *)
Fixpoint search_loop (f : Q -> Z) (n : nat) (st : search) : option search :=
  match n with O => Some st | S n => let st' := search_step f st in if search_ok st' then search_loop f n st' else None end.
(** formset.py:540-619 [scale]; [None] is an AssertionError *)
Definition scale (s : setup) (total : Z) (lowest : Q) (human : bool) : option setup :=
  let s0 := scale_base s in
  let f := excess s0 total human in
  let '(miny, minsp) := f lowest in
  if miny >=? 0 then Some minsp else
  match search_loop (fun x => fst (f x)) 50 (mkSearch 1 (fst (f 1%Q)) None) with
  | None => None
  | Some st => Some (snd (f (x1 st)))
  end.
(** ** make_package *)
(** make_package.py:243-245 *)
Definition package_setup (work_space form_threads : Z) : setup :=
  let d := default_setup in
  mkSetup (compresssize d) (filepatches d) (hidesize d) (largesize d) (maxtermsize d) (numstorecaches d) (scratchsize d) (sizestorecache d) (smallextension d) (smallsize d)
          (sortiosize d) (termsinsmall d) (threadbucketsize d) form_threads (threadscratchoutsize d) (threadscratchsize d) work_space.
(** make_package.py:246-254: the parameters, and the memory of the warning if it is printed *)
Definition package_memory (work_space form_threads : Z) (memory_use : option Z) : option (setup * option Z) :=
  let s := package_setup work_space form_threads in
  match memory_use with
  | None => Some (s, None)
  | Some requested =>
      match scale s requested 1 false with
      | None => None
      | Some sp => let '(obtained, sp') := calc sp in Some (sp', if obtained >? requested then Some obtained else None)
      end
  end.
(** make_package.py:362-368 and the template codegen/form.set: the six values that are written, in the order of the file, and FORMTHREADS of Makefile.conf:34 *)
Definition written (s : setup) : list Z * Z := ([workspace s; smallsize s; largesize s; termsinsmall s; scratchsize s; sortiosize s], threads s).
