(** Model of /repo/pySecDecContrib/bin/formwrapper: it runs FORM, and when FORM reports that its WorkSpace is too small, raises WorkSpace in the file form.set of
    the current directory and runs FORM again.  The Makefile of a package (templates/make_package/Makefile:48) runs one wrapper per sector, in parallel, all in
    the same directory.  Line ends are single newlines (Python's universal newlines are not modelled). *)
From Verif Require Export TextModel.
Open Scope Z_scope.
Definition newline : ascii := "010"%char.
(** [for line in f]: the lines with their newlines *)
Fixpoint file_lines_aux (cur t : text) : list text :=
  match t with
  | [] => match cur with [] => [] | _ => [cur] end
  | c :: r => if Ascii.eqb c newline then (cur ++ [c]) :: file_lines_aux [] r else file_lines_aux (cur ++ [c]) r
  end.
Definition file_lines (t : text) : list text := file_lines_aux [] t.
Definition lower_char (c : ascii) : ascii := let n := nat_of_ascii c in if andb (Nat.leb 65 n) (Nat.leb n 90) then ascii_of_nat (n + 32) else c.
(** the longest run of digits *)
Fixpoint take_digits (t : text) : text * text := match t with c :: r => if is_digit c then let '(a, b) := take_digits r in (c :: a, b) else ([], t) | [] => ([], []) end.
(** formwrapper:23, 44-48 [rx_workspace.match(line)]: "WorkSpace ([0-9]+)\n?" in either case at the start of the line; the group as a number *)
Definition workspace_line (l : text) : option Z :=
  if starts (txt "workspace ") (map lower_char l) then
    match fst (take_digits (skipn 10 l)) with [] => None | d => pyint d end
  else None.
(** formwrapper:22, 31-33 [rx_overflow.search(line)]: "Workspace overflow. ([0-9]+) " anywhere in the line; the dot matches any character *)
Definition overflow_here (t : text) : option Z :=
  if starts (txt "Workspace overflow") t then
    match skipn 18 t with
    | _ :: c :: r => if Ascii.eqb c " " then match take_digits r with ([], _) => None | (d, e :: _) => if Ascii.eqb e " " then pyint d else None | (_, []) => None end else None
    | _ => None
    end
  else None.
Fixpoint overflow_line (l : text) : option Z := match overflow_here l with Some z => Some z | None => match l with [] => None | _ :: r => overflow_line r end end.
(** formwrapper:27, 29-33: the last report in the output *)
Definition reported (out : list text) : option Z := fold_left (fun acc l => match overflow_line l with Some z => Some z | None => acc end) out None.
(** formwrapper:39 *)
Definition raise_ws (w : Z) : Z := Z.max (w * 3) (10 * 1000 * 1000).
(** formwrapper:38, 40-52: the lines that are kept and the current value; a file that cannot be read counts as empty *)
Definition kept_lines (f : option text) : list text := match f with None => [] | Some t => filter (fun l => match workspace_line l with None => true | Some _ => false end) (file_lines t) end.
Definition current_ws (f : option text) (w : Z) : Z :=
  match f with None => w | Some t => fold_left (fun acc l => match workspace_line l with Some z => z | None => acc end) (file_lines t) w end.
(** formwrapper:57-64: the new content *)
Definition new_content (f : option text) (newws : Z) : text := concat (kept_lines f ++ [txt "WorkSpace " ++ zdec newws ++ [newline]]).
(** ** the processes *)
(** Ready: about to start FORM (29).  Running: FORM has read form.set and uses this work space.  Reading: FORM has ended with this report (38).  Staged: the new
    content is in a temporary file of its own (tempfile.mkstemp), not yet renamed (65).  Done: exited with FORM's code (36).  Dead: killed at any point. *)
Inductive phase := Ready | Running (w : Z) | Reading (w : Z) | Staged (w : Z) (content : text) | Done | Dead.
Record system := mkSystem { file : option text; procs : list phase }.
Section Form.
(** FORM's own default; the work space that every process needs *)
Variable form_default : Z.
Variable need : nat -> Z.
(** FORM reads the last WorkSpace line of form.set *)
Definition form_workspace (f : option text) : Z := current_ws f form_default.
(** FORM complains exactly when the work space it uses is too small, and reports its size *)
Definition form_says (n w : Z) (out : list text) : Prop :=
  (n <= w -> forall l, In l out -> overflow_line l = None) /\
  (w < n -> (exists l, In l out /\ overflow_line l = Some w) /\ forall l, In l out -> overflow_line l = None \/ overflow_line l = Some w).
Fixpoint set_nth {A} (i : nat) (a : A) (l : list A) : list A := match i, l with O, _ :: r => a :: r | S i, b :: r => b :: set_nth i a r | _, [] => [] end.
Inductive step : system -> system -> Prop :=
  (** 29: FORM is started and reads form.set *)
| S_start f ps i : nth_error ps i = Some Ready -> step (mkSystem f ps) (mkSystem f (set_nth i (Running (form_workspace f)) ps))
  (** 30-36: its output is read to the end *)
| S_done f ps i w out : nth_error ps i = Some (Running w) -> form_says (need i) w out -> reported out = None -> step (mkSystem f ps) (mkSystem f (set_nth i Done ps))
| S_overflow f ps i w out r : nth_error ps i = Some (Running w) -> form_says (need i) w out -> reported out = Some r -> step (mkSystem f ps) (mkSystem f (set_nth i (Reading r) ps))
  (** 38-56: form.set is read; it may already be large enough *)
| S_keep f ps i w : nth_error ps i = Some (Reading w) -> (current_ws f w >=? raise_ws w) = true -> step (mkSystem f ps) (mkSystem f (set_nth i Ready ps))
  (** 38-64: ... or the new content is written to a temporary file *)
| S_stage f ps i w : nth_error ps i = Some (Reading w) -> (current_ws f w >=? raise_ws w) = false -> step (mkSystem f ps) (mkSystem f (set_nth i (Staged w (new_content f (raise_ws w))) ps))
  (** 65: os.rename *)
| S_rename f ps i w c : nth_error ps i = Some (Staged w c) -> step (mkSystem f ps) (mkSystem (Some c) (set_nth i Ready ps))
  (** a process may be killed at any point: the temporary file stays, form.set is not touched *)
| S_kill f ps i p : nth_error ps i = Some p -> p <> Done -> p <> Dead -> step (mkSystem f ps) (mkSystem f (set_nth i Dead ps)).
Inductive steps : nat -> system -> system -> Prop :=
| steps_O s : steps 0 s s
| steps_S n s t u : steps n s t -> step t u -> steps (S n) s u.
(** n wrappers are started on one file *)
Definition start (n : nat) (f : option text) : system := mkSystem f (repeat Ready n).
End Form.
