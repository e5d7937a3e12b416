(** Specification of the memory budget of FORM, independent of the way formset.py computes it. *)
From Verif Require Export FsetModel.
Open Scope Z_scope.
(** the relations between the buffers that FORM's start-up code (RecalcSetups, AllocSort) enforces; words are 4 bytes *)
Record form_accepts (s : setup) : Prop := {
  ok_term : 200 <= maxtermsize s;
  ok_compress : 8 * maxtermsize s <= compresssize s;
  ok_sortio : 4 * maxtermsize s <= sortiosize s;
  ok_scratch : 64 * maxtermsize s <= scratchsize s;
  ok_hide : hidesize s <= 0 \/ 64 * maxtermsize s <= hidesize s;
  ok_tscratch : 64 * maxtermsize s <= threadscratchsize s;
  ok_tscratchout : 64 * maxtermsize s <= threadscratchoutsize s;
  ok_patches : 4 <= filepatches s /\ threads s <= filepatches s;
  ok_terms : (16 | termsinsmall s);
  ok_small : 64 * maxtermsize s <= smallsize s;
  ok_ext : 3 * smallsize s <= 2 * smallextension s + 1;
  ok_large : largesize s <= 0 \/ 2 * smallsize s <= largesize s;
  (** every thread can hold 101 terms *)
  ok_thread_buffers : 404 * maxtermsize s * threads s <= largesize s + smallextension s \/ threads s < 0;
  (** the patches of a merge fit into the sort buffer *)
  ok_merge : filepatches s * (sortiosize s + 4 * (2 + 2 * maxtermsize s)) <= largesize s + smallextension s;
  (** ... and they use it *)
  ok_used : largesize s + smallextension s < 4 * filepatches s * (sortiosize s + 2 * maxtermsize s + 3) }.
(** parameters that make sense: no negative buffer *)
Definition sizes_ok (s : setup) : Prop := 0 <= largesize s /\ 0 <= smallextension s.
(** nothing the user asked for is made smaller, and nothing else is touched *)
Record raised (s t : setup) : Prop := {
  up_compress : compresssize s <= compresssize t; up_patches : filepatches s <= filepatches t; up_hide : hidesize s <= hidesize t; up_large : largesize s <= largesize t;
  up_term : maxtermsize s <= maxtermsize t; up_scratch : scratchsize s <= scratchsize t; up_ext : smallextension s <= smallextension t; up_small : smallsize s <= smallsize t;
  up_sortio : sortiosize s <= sortiosize t; up_terms : termsinsmall s <= termsinsmall t < termsinsmall s + 16; up_tout : threadscratchoutsize s <= threadscratchoutsize t;
  up_tscratch : threadscratchsize s <= threadscratchsize t;
  same_caches : numstorecaches t = numstorecaches s; same_cachesize : sizestorecache t = sizestorecache s; same_buckets : threadbucketsize t = threadbucketsize s;
  same_threads : threads t = threads s; same_work : workspace t = workspace s }.
(** the parameters FORM starts from when it reads the six lines of form.set and is called with -w: the values of the file, FORM's defaults for the rest *)
Definition form_reads (w : list Z * Z) : option setup :=
  match w with
  | ([ws; small; large; terms; scratch; sortio], t) =>
      let d := default_setup in
      Some (mkSetup (compresssize d) (filepatches d) (hidesize d) large (maxtermsize d) (numstorecaches d) scratch (sizestorecache d) (smallextension d) small sortio terms
                    (threadbucketsize d) t (threadscratchoutsize d) (threadscratchsize d) ws)
  | _ => None
  end.
(** the four parameters that are scaled, multiplied by x and rounded towards zero; everything else as before *)
Definition is_scaling (s t : setup) (x : Q) : Prop :=
  (forall n m, In (n, m) [(largesize s, largesize t); (smallsize s, smallsize t); (termsinsmall s, termsinsmall t); (scratchsize s, scratchsize t)] ->
     (inject_Z m <= inject_Z n * x < inject_Z (m + 1))%Q) /\
  compresssize t = compresssize s /\ filepatches t = filepatches s /\ hidesize t = hidesize s /\ maxtermsize t = maxtermsize s /\ numstorecaches t = numstorecaches s /\
  sizestorecache t = sizestorecache s /\ smallextension t = smallextension s /\ sortiosize t = sortiosize s /\ threadbucketsize t = threadbucketsize s /\ threads t = threads s /\
  threadscratchoutsize t = threadscratchoutsize s /\ threadscratchsize t = threadscratchsize s /\ workspace t = workspace s.
(** powers of ten around a number *)
Definition figures (x e : Z) : Prop := 0 <= e /\ 10 ^ e <= x < 10 ^ (e + 1).
