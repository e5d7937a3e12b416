(** C87: the wrapper that enlarges FORM's work space, any number of them in one directory, killed at any point. *)
From Verif Require Import WrapInv FsetModel.
Open Scope Z_scope.
(** the file does not exist, or it is a text file: its last line is ended *)
Definition text_file (f : option text) : Prop := match f with None => True | Some t => t = [] \/ exists q, t = q ++ [newline] end.
(** the lines that do not set WorkSpace *)
Definition other_lines (f : option text) : list text := match f with None => [] | Some t => filter (fun l => match workspace_line l with None => true | Some _ => false end) (file_lines t) end.
Lemma text_whole f : text_file f -> Forall whole (kept_lines f).
Proof.
  destruct f as [t|]; [|intros _; constructor]. intro H. assert (F : Forall whole (file_lines t)).
  { apply lines_whole; [intros []|reflexivity|]. intro N. destruct H as [->|H]; [contradiction|exact H]. }
  cbn [kept_lines]. apply Forall_forall. intros l Hl. apply filter_In in Hl. rewrite Forall_forall in F. apply F, Hl.
Qed.
Section S.
Variables (D : Z) (need : nat -> Z) (n : nat) (f0 : option text).
Hypotheses (HD : 0 <= D) (H0 : text_file f0).
(** at every moment form.set is the file of the start or a complete new file: the other lines in their order, then one WorkSpace line with three times (at least
    10^7) a work space that was too small for one of the processes *)
Theorem C87_file k s : steps D need k (start n f0) s ->
  file s = f0 \/
  exists w i, (i < n)%nat /\ form_workspace D f0 <= w < need i /\ file s = Some (concat (other_lines f0 ++ [txt "WorkSpace " ++ zdec (Z.max (3 * w) 10000000) ++ [newline]])).
Proof.
  intro H. destruct (steps_ok D need f0 (text_whole f0 H0) n k s H) as (_ & [F|(w & i & Hi & L & W & F)] & _); [left; exact F|right]. exists w, i. split; [exact Hi|]. split; [split; [exact (level_v0 D f0 HD w L)|exact W]|].
  rewrite F. unfold set_text. change (other_lines f0) with (kept_lines f0). replace (raise_ws w) with (Z.max (3 * w) 10000000) by (unfold raise_ws; lia). reflexivity.
Qed.
(** ... so no other line is ever lost, added, moved or changed; the work space never falls below that of the start, and is never raised for nothing *)
Theorem C87_lines k s : steps D need k (start n f0) s -> other_lines (file s) = other_lines f0.
Proof. intro H. destruct (steps_ok D need f0 (text_whole f0 H0) n k s H) as (_ & F & _). exact (kept_same D need f0 (text_whole f0 H0) n (file s) F). Qed.
Theorem C87_range k s m : steps D need k (start n f0) s -> (forall i, (i < n)%nat -> need i <= m) ->
  form_workspace D f0 <= form_workspace D (file s) <= Z.max (form_workspace D f0) (Z.max (3 * (m - 1)) 10000000).
Proof.
  intros H Hm. destruct (steps_ok D need f0 (text_whole f0 H0) n k s H) as (_ & F & _). pose proof (level_v0 D f0 HD _ (file_value D need f0 (text_whole f0 H0) n _ F)).
  split; [assumption|]. destruct F as [->|(w & i & Hi & L & W & F)]; [lia|]. rewrite F. unfold form_workspace at 1. rewrite set_current; [|exact (text_whole f0 H0)|unfold raise_ws; lia]. specialize (Hm i Hi). unfold raise_ws. lia.
Qed.
(** a wrapper that exits has run FORM with enough work space *)
Theorem C87_exit k s t i w : steps D need k (start n f0) s -> step D need s t -> nth_error (procs s) i = Some (Running w) -> nth_error (procs t) i = Some Done -> need i <= w.
Proof.
  intros _ H Hs Ht. destruct H as [f ps j H|f ps j w' out H HS R|f ps j w' out r H HS R|f ps j w' H C|f ps j w' H C|f ps j w' c H|f ps j p H N1 N2]; cbn [procs] in *; apply set_nth_inv in Ht; destruct Ht as [[-> E]|E]; try discriminate; try (rewrite Hs in E; discriminate).
  rewrite Hs in H. injection H as <-. exact (says_none _ _ _ HS R).
Qed.
(** whatever the schedule, and whichever processes are killed, the wrappers stop: the number of steps of all of them together is bounded *)
Theorem C87_terminates k s K : (forall i, (i < n)%nat -> need i <= Nat.iter K raise_ws (form_workspace D f0)) -> steps D need k (start n f0) s -> (k <= 4 * n * (4 * n + 1) ^ K)%nat.
Proof. intros HK H. pose proof (steps_bound D need f0 HD (text_whole f0 H0) n K HK k s H). lia. Qed.
(** K grows with the logarithm of the need *)
Theorem C87_raises m K : m <= 10000000 * 3 ^ Z.of_nat K -> m <= Nat.iter (S K) raise_ws (form_workspace D f0).
Proof.
  intro H. eapply Z.le_trans; [exact H|]. clear H. induction K as [|K IH]; [cbn; unfold raise_ws; lia|]. rewrite Nat2Z.inj_succ, Z.pow_succ_r by lia.
  change (Nat.iter (S (S K)) raise_ws (form_workspace D f0)) with (raise_ws (Nat.iter (S K) raise_ws (form_workspace D f0))). unfold raise_ws at 1. lia.
Qed.
End S.
(** FORM's message is recognised *)
Lemma message_here z r : 0 <= z -> overflow_here (txt "Workspace overflow. " ++ zdec z ++ " "%char :: r) = Some z.
Proof.
  intro H. unfold overflow_here. assert (E : txt "Workspace overflow. " ++ zdec z ++ " "%char :: r = txt "Workspace overflow" ++ (txt ". " ++ zdec z ++ " "%char :: r)) by reflexivity.
  rewrite E. assert (P : forall p t, starts p (p ++ t) = true) by (induction p as [|c p IH]; intro t; cbn; [reflexivity|rewrite Ascii.eqb_refl; apply IH]). rewrite P.
  change (skipn 18 (txt "Workspace overflow" ++ txt ". " ++ zdec z ++ " "%char :: r)) with (txt ". " ++ zdec z ++ " "%char :: r). cbn [txt list_ascii_of_string app]. change (Ascii.eqb " " " ") with true. cbv iota.
  rewrite take_digits_all; [|apply zdec_digits, H|intros c q X; injection X as <- _; reflexivity]. destruct (zdec z) as [|c d] eqn:Z0; [elim (zdec_nonempty z Z0)|]. rewrite <- Z0. change (Ascii.eqb " " " ") with true. cbv iota. apply pyint_zdec.
Qed.
Theorem C87_message z before after : 0 <= z -> ~ In "W"%char before -> overflow_line (before ++ txt "Workspace overflow. " ++ zdec z ++ txt " " ++ after) = Some z.
Proof.
  intros H. induction before as [|c b IH]; intro N.
  - cbn [app]. pose proof (message_here z after H) as M. change (txt " " ++ after) with (" "%char :: after). change (txt "Workspace overflow. " ++ zdec z ++ " "%char :: after) with ("W"%char :: (txt "orkspace overflow. " ++ zdec z ++ " "%char :: after)) in *. cbn [overflow_line]. rewrite M. reflexivity.
  - cbn [app overflow_line]. assert (X : overflow_here (c :: b ++ txt "Workspace overflow. " ++ zdec z ++ txt " " ++ after) = None).
    { unfold overflow_here. cbn [txt list_ascii_of_string starts]. destruct (Ascii.eqb "W" c) eqn:E; [apply Ascii.eqb_eq in E; subst; elim N; left; reflexivity|]. reflexivity. }
    rewrite X. apply IH. intro Y. apply N. right; exact Y.
Qed.
(** as long as a wrapper is neither finished nor killed it can go on: together with C87_terminates, every schedule that lets it ends with all of them finished or killed *)
Theorem C87_progress D need n f0 k s i p : 0 <= D -> text_file f0 -> steps D need k (start n f0) s -> nth_error (procs s) i = Some p -> p <> Done -> p <> Dead ->
  exists t, step D need s t /\ nth_error (procs t) i <> Some Dead.
Proof.
  intros HD H0 H E N1 N2. destruct (steps_ok D need f0 (text_whole f0 H0) n k s H) as (L & F & P). specialize (P i p E). destruct s as [f ps]; cbn [file procs] in *.
  assert (G : forall q, q <> Dead -> nth_error (set_nth i q ps) i <> Some Dead). { intros q Hq X. rewrite set_nth_get, Nat.eqb_refl, E in X. cbn in X. injection X as X. exact (Hq X). }
  destruct p as [|w|w|w c| |]; try contradiction.
  - eexists. split; [apply S_start, E|apply G; discriminate].
  - destruct (Z_lt_le_dec w (need i)) as [T|T].
    + set (msg := [] ++ txt "Workspace overflow. " ++ zdec w ++ txt " " ++ txt "bytes is not enough."). assert (M : overflow_line msg = Some w) by (apply C87_message; [exact (level_nonneg D f0 HD w P)|intros []]).
      eexists. split; [apply (S_overflow D need f ps i w [msg] w E)|apply G; discriminate].
      * split; [intro; lia|]. intros _. split; [exists msg; split; [left; reflexivity|exact M]|]. intros l [<-|[]]. right; exact M.
      * unfold reported; cbn [fold_left]. rewrite M. reflexivity.
    + eexists. split; [apply (S_done D need f ps i w [] E)|apply G; discriminate]; [|reflexivity]. split; [intros _ l []|intro; lia].
  - destruct (current_ws f w >=? raise_ws w) eqn:C; eexists; split; [exact (S_keep D need f ps i w E C)|apply G; discriminate|exact (S_stage D need f ps i w E C)|apply G; discriminate].
  - eexists. split; [eapply S_rename, E|apply G; discriminate].
Qed.
(** one wrapper alone: when it is done the work space of the file is the first of the sequence w, max(3w, 10^7), ... that is enough *)
Theorem C87_alone D need f0 k s : 0 <= D -> text_file f0 -> steps D need k (start 1 f0) s -> procs s = [Done] ->
  exists j, form_workspace D (file s) = Nat.iter j raise_ws (form_workspace D f0) /\ need O <= form_workspace D (file s) /\ forall j', (j' < j)%nat -> Nat.iter j' raise_ws (form_workspace D f0) < need O.
Proof.
  intros HD H0 H E.
  assert (J : exists p, procs s = [p] /\ exists j, form_workspace D (file s) = value D f0 j /\ (forall j', (j' < j)%nat -> value D f0 j' < need O) /\
    match p with Running w => w = value D f0 j | Reading w => w = value D f0 j /\ w < need O | Staged w c => w = value D f0 j /\ w < need O | Done => need O <= value D f0 j | _ => True end).
  { clear E. remember (start 1 f0) as a eqn:Ea. induction H as [a|k a t u H IH St]; subst.
    - exists Ready. split; [reflexivity|]. exists O. split; [reflexivity|]. split; [intros; lia|exact I].
    - specialize (IH eq_refl). destruct IH as (p & Ep & j & V & Lo & Q). destruct (steps_ok D need f0 (text_whole f0 H0) 1 k t H) as (_ & F & PP).
      destruct St as [f ps i Hp|f ps i w out Hp HS R|f ps i w out r Hp HS R|f ps i w Hp C|f ps i w Hp C|f ps i w c Hp|f ps i q Hp N1 N2]; cbn [file procs] in *; subst ps;
        (destruct i as [|[|i]]; cbn in Hp; try discriminate; injection Hp as ->); cbn [set_nth].
      + eexists. split; [reflexivity|]. exists j. split; [exact V|]. split; [exact Lo|exact V].
      + exists Done. split; [reflexivity|]. exists j. split; [exact V|]. split; [exact Lo|]. rewrite <- Q. exact (says_none _ _ _ HS R).
      + destruct (says_report _ _ _ _ HS R) as [-> W]. eexists. split; [reflexivity|]. exists j. split; [exact V|]. split; [exact Lo|]. split; [exact Q|exact W].
      + exists Ready. split; [reflexivity|]. exists j. split; [exact V|]. split; [exact Lo|exact I].
      + eexists. split; [reflexivity|]. exists j. split; [exact V|]. split; [exact Lo|exact Q].
      + specialize (PP O (Staged w c) eq_refl). destruct PP as (_ & _ & ->). exists Ready. split; [reflexivity|]. destruct Q as [-> W]. exists (S j).
        split; [unfold form_workspace; rewrite set_current by first [exact (text_whole f0 H0)|unfold raise_ws; lia]; reflexivity|].
        split; [|exact I]. intros j' Hj. destruct (Nat.eq_dec j' j) as [->|]; [exact W|]. apply Lo. lia.
      + exists Dead. split; [reflexivity|]. exists j. split; [exact V|]. split; [exact Lo|exact I]. }
  destruct J as (p & Ep & j & V & Lo & Q). rewrite E in Ep. injection Ep as <-. exists j. split; [exact V|]. split; [rewrite V; exact Q|exact Lo].
Qed.
(** the file of a package: FORM reads the work space that make_package chose, and the other five lines survive *)
Definition form_set (s : setup) : text := concat (map (fun kv => txt (fst kv) ++ txt " " ++ zdec (snd kv) ++ [newline])
  [("WorkSpace", workspace s); ("SmallSize", smallsize s); ("LargeSize", largesize s); ("TermsInSmall", termsinsmall s); ("ScratchSize", scratchsize s); ("SortIOSize", sortiosize s)]%string).
Lemma line_whole (k : string) z : ~ In newline (txt k) -> whole (txt k ++ txt " " ++ zdec z ++ [newline]).
Proof.
  intro H. exists (txt k ++ txt " " ++ zdec z). split; [rewrite <- !app_assoc; reflexivity|]. intro X. apply in_app_or in X. destruct X as [X|X]; [exact (H X)|]. apply in_app_or in X. destruct X as [[X|[]]|X]; [discriminate|].
  pose proof (zdec_expo z) as F. rewrite Forall_forall in F. specialize (F _ X). discriminate.
Qed.
Theorem C87_package s D : 0 <= workspace s -> text_file (Some (form_set s)) /\ form_workspace D (Some (form_set s)) = workspace s /\
  other_lines (Some (form_set s)) = map (fun kv => txt (fst kv) ++ txt " " ++ zdec (snd kv) ++ [newline])
    [("SmallSize", smallsize s); ("LargeSize", largesize s); ("TermsInSmall", termsinsmall s); ("ScratchSize", scratchsize s); ("SortIOSize", sortiosize s)]%string.
Proof.
  intro H. assert (L : file_lines (form_set s) = map (fun kv => txt (fst kv) ++ txt " " ++ zdec (snd kv) ++ [newline])
    [("WorkSpace", workspace s); ("SmallSize", smallsize s); ("LargeSize", largesize s); ("TermsInSmall", termsinsmall s); ("ScratchSize", scratchsize s); ("SortIOSize", sortiosize s)]%string).
  { apply lines_concat. cbn [map fst snd]. repeat (constructor; [apply line_whole; cbn; intuition discriminate|]). constructor. }
  split; [|split].
  - right. unfold form_set. cbn [map fst snd concat]. rewrite app_nil_r. eexists. rewrite !app_assoc. reflexivity.
  - unfold form_workspace, current_ws. rewrite L. cbn [map fst snd fold_left]. change (txt "WorkSpace" ++ txt " " ++ zdec (workspace s) ++ [newline]) with (txt "WorkSpace " ++ zdec (workspace s) ++ [newline]). rewrite workspace_new by exact H. reflexivity.
  - unfold other_lines. rewrite L. cbn [map fst snd filter]. change (txt "WorkSpace" ++ txt " " ++ zdec (workspace s) ++ [newline]) with (txt "WorkSpace " ++ zdec (workspace s) ++ [newline]). rewrite workspace_new by exact H. reflexivity.
Qed.
(** ** what does not hold *)
Definition line_ws (z : Z) : text := txt "WorkSpace " ++ zdec z ++ [newline].
Definition msg (z : Z) : text := txt "Workspace overflow. " ++ zdec z ++ txt " bytes".
(** with several wrappers the work space can fall again: a wrapper that read the file earlier renames its smaller value over a larger one *)
Definition big (i : nat) : Z := 100000000.
Theorem C87_decreases_refuted : exists k s k' t, steps 40000000 big k (start 2 (Some (line_ws 10000000))) s /\ steps 40000000 big k' s t /\
  form_workspace 40000000 (file s) = 90000000 /\ form_workspace 40000000 (file t) = 30000000.
Proof.
  assert (Says : forall w, overflow_line (msg w) = Some w -> w < big 0 -> forall i, form_says (big i) w [msg w]).
  { intros w M L i. split; [unfold big in *; lia|]. intros _. split; [exists (msg w); split; [left; reflexivity|exact M]|]. intros l [<-|[]]. right; exact M. }
  set (F := fun z => Some (line_ws z)).
  eexists _, (mkSystem (F 90000000) [Ready; Staged 10000000 (line_ws 30000000)]), _, (mkSystem (F 30000000) [Ready; Ready]). split; [|split; [|split; reflexivity]].
  - eapply steps_S; [|eapply (S_rename _ _ (F 30000000) [Staged 30000000 (line_ws 90000000); Staged 10000000 (line_ws 30000000)] 0); reflexivity].
    eapply steps_S; [|eapply (S_stage _ _ (F 30000000) [Reading 30000000; Staged 10000000 (line_ws 30000000)] 0); reflexivity].
    eapply steps_S; [|apply (S_overflow _ _ (F 30000000) [Running 30000000; Staged 10000000 (line_ws 30000000)] 0 30000000 [msg 30000000]); [reflexivity|apply Says; reflexivity|reflexivity]].
    eapply steps_S; [|apply (S_start _ _ (F 30000000) [Ready; Staged 10000000 (line_ws 30000000)] 0); reflexivity].
    eapply steps_S; [|eapply (S_rename _ _ (F 10000000) [Staged 10000000 (line_ws 30000000); Staged 10000000 (line_ws 30000000)] 0); reflexivity].
    eapply steps_S; [|eapply (S_stage _ _ (F 10000000) [Staged 10000000 (line_ws 30000000); Reading 10000000] 1); reflexivity].
    eapply steps_S; [|eapply (S_stage _ _ (F 10000000) [Reading 10000000; Reading 10000000] 0); reflexivity].
    eapply steps_S; [|apply (S_overflow _ _ (F 10000000) [Reading 10000000; Running 10000000] 1 10000000 [msg 10000000]); [reflexivity|apply Says; reflexivity|reflexivity]].
    eapply steps_S; [|apply (S_overflow _ _ (F 10000000) [Running 10000000; Running 10000000] 0 10000000 [msg 10000000]); [reflexivity|apply Says; reflexivity|reflexivity]].
    eapply steps_S; [|apply (S_start _ _ (F 10000000) [Running 10000000; Ready] 1); reflexivity].
    eapply steps_S; [|apply (S_start _ _ (F 10000000) [Ready; Ready] 0); reflexivity]. apply steps_O.
  - eapply steps_S; [apply steps_O|]. eapply (S_rename _ _ (F 90000000) [Ready; Staged 10000000 (line_ws 30000000)] 1). reflexivity.
Qed.
(** a form.set whose last line is not ended is spoilt: the new line is glued to it, and the setting of that line is lost *)
Theorem C87_last_line_refuted : other_lines (Some (txt "LargeSize 5")) = [txt "LargeSize 5"] /\ new_content (Some (txt "LargeSize 5")) (raise_ws 10000000) = txt "LargeSize 5WorkSpace 30000000" ++ [newline] /\
  forall D, form_workspace D (Some (new_content (Some (txt "LargeSize 5")) (raise_ws 10000000))) = D.
Proof. repeat split. Qed.
(** ** concrete cases *)
Example ex_text : text_file (Some (form_set (package_setup 50000000 1))). Proof. refine (proj1 (C87_package (package_setup 50000000 1) 0 _)). discriminate. Qed.
(** twelve sectors that need 2 GB of work space: C87_terminates applies with K = 6 *)
Example ex_raises : forall i : nat, (i < 12)%nat -> 2000000000 + Z.of_nat i <= Nat.iter 6 raise_ws (form_workspace 40000000 (Some (form_set (package_setup 50000000 1)))).
Proof. intros i H. assert (E : Nat.iter 6 raise_ws (form_workspace 40000000 (Some (form_set (package_setup 50000000 1)))) = 36450000000) by (vm_compute; reflexivity). lia. Qed.
Example ex_new : new_content (Some (txt "WorkSpace 50000000" ++ [newline] ++ txt "SmallSize 10" ++ [newline])) (raise_ws 50000000) = txt "SmallSize 10" ++ [newline] ++ txt "WorkSpace 150000000" ++ [newline].
Proof. reflexivity. Qed.
Print Assumptions C87_terminates.
Print Assumptions C87_alone.
Print Assumptions C87_decreases_refuted.
