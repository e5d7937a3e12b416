From Verif Require Export WrapModel TextProofs.
Open Scope Z_scope.
(** ** lines *)
(** a whole line: it ends with its only newline *)
Definition whole (l : text) : Prop := exists b, l = b ++ [newline] /\ ~ In newline b.
Lemma lines_one b cur r : ~ In newline b -> file_lines_aux cur (b ++ newline :: r) = (cur ++ b ++ [newline]) :: file_lines_aux [] r.
Proof.
  revert cur. induction b as [|c b IH]; intros cur H; cbn [app file_lines_aux].
  - reflexivity.
  - destruct (Ascii.eqb c newline) eqn:E; [apply Ascii.eqb_eq in E; subst; elim H; left; reflexivity|]. rewrite IH by (intro X; apply H; right; exact X). rewrite <- app_assoc. reflexivity.
Qed.
Lemma lines_concat ls : Forall whole ls -> file_lines (concat ls) = ls.
Proof.
  unfold file_lines. induction 1 as [|l ls (b & -> & Hb) _ IH]; [reflexivity|]. cbn [concat]. rewrite <- app_assoc. cbn [app]. rewrite lines_one by exact Hb. cbn [app]. rewrite IH. reflexivity.
Qed.
Lemma lines_back t : forall cur, concat (file_lines_aux cur t) = cur ++ t.
Proof.
  induction t as [|c r IH]; intro cur; cbn [file_lines_aux]. { destruct cur; cbn [concat]; rewrite ?app_nil_r; reflexivity. }
  destruct (Ascii.eqb c newline); cbn [concat]; rewrite IH, <- ?app_assoc; reflexivity.
Qed.
(** the lines of a file that ends with a newline are whole *)
Lemma lines_whole t : forall cur, ~ In newline cur -> (t = [] -> cur = []) -> (t <> [] -> exists q, t = q ++ [newline]) -> Forall whole (file_lines_aux cur t).
Proof.
  induction t as [|c r IH]; intros cur Hc H1 H2; cbn [file_lines_aux]. { rewrite (H1 eq_refl). constructor. }
  destruct (H2 ltac:(discriminate)) as [q Hq]. destruct (Ascii.eqb c newline) eqn:E.
  - apply Ascii.eqb_eq in E. subst c. constructor; [exists cur; split; [reflexivity|exact Hc]|]. apply IH; [intros []|reflexivity|]. intro Hr. destruct q as [|c q]; [injection Hq as ->; contradiction|]. injection Hq as -> ->. exists q. reflexivity.
  - apply IH.
    + intro X. apply in_app_or in X. destruct X as [X|[X|[]]]; [exact (Hc X)|]. subst c. discriminate.
    + intros ->. destruct q as [|d [|e q]]; cbn in Hq; [injection Hq as ->; discriminate|injection Hq; intros; discriminate|discriminate].
    + intro Hr. destruct q as [|d q]; [injection Hq as -> ->; contradiction|]. injection Hq as -> ->. exists q. reflexivity.
Qed.
(** ** numbers *)
Lemma take_digits_all d : forall r, Forall (fun c => is_digit c = true) d -> (forall c q, r = c :: q -> is_digit c = false) -> take_digits (d ++ r) = (d, r).
Proof.
  induction d as [|c d IH]; intros r H Hr.
  - cbn [app]. destruct r as [|c q]; [reflexivity|]. cbn. rewrite (Hr c q eq_refl). reflexivity.
  - inversion H as [|? ? Hc Hd]; subst. cbn [app take_digits]. rewrite Hc, (IH r Hd Hr). reflexivity.
Qed.
Lemma zdec_digits z : 0 <= z -> Forall (fun c => is_digit c = true) (zdec z).
Proof. intro H. destruct (zdec_cases z) as (u & [[_ ->]|[E _]]); [apply uint_chars0|]. destruct z; cbn in E; [discriminate|discriminate|lia]. Qed.
Lemma skip_digits d (r : text) : Forall (fun c => is_digit c = true) d -> d <> [] -> exists c q, d = c :: q.
Proof. destruct d; [contradiction|eauto]. Qed.
Lemma workspace_new z : 0 <= z -> workspace_line (txt "WorkSpace " ++ zdec z ++ [newline]) = Some z.
Proof.
  intro H. unfold workspace_line. rewrite map_app. change (map lower_char (txt "WorkSpace ")) with (txt "workspace "). 
  assert (P : forall p t, starts p (p ++ t) = true) by (induction p as [|c p IH]; intro t; cbn; [reflexivity|rewrite Ascii.eqb_refl; apply IH]). rewrite P.
  change (skipn 10 (txt "WorkSpace " ++ zdec z ++ [newline])) with (zdec z ++ [newline]).
  rewrite take_digits_all; [|apply zdec_digits, H|intros c q E; injection E as <- _; reflexivity]. cbn [fst]. destruct (zdec z) as [|c d] eqn:E; [elim (zdec_nonempty z E)|]. rewrite <- E. apply pyint_zdec.
Qed.
Lemma whole_new z : whole (txt "WorkSpace " ++ zdec z ++ [newline]).
Proof.
  exists (txt "WorkSpace " ++ zdec z). split; [rewrite <- app_assoc; reflexivity|]. intro H. apply in_app_or in H. destruct H as [H|H].
  - cbn in H. repeat (destruct H as [H|H]; [discriminate|]). exact H.
  - pose proof (zdec_expo z) as F. rewrite Forall_forall in F. specialize (F _ H). discriminate.
Qed.
Lemma all_digits_nonneg d z : Forall (fun c => is_digit c = true) d -> pyint d = Some z -> 0 <= z.
Proof.
  destruct d as [|c r]; [discriminate|]. intros H. inversion H as [|? ? Hc Hr]; subst. unfold pyint.
  destruct (Ascii.eqb c "+") eqn:E; [apply Ascii.eqb_eq in E; subst; discriminate|].
  assert (M : Ascii.eqb c "-" = false) by (destruct (Ascii.eqb c "-") eqn:X; [apply Ascii.eqb_eq in X; subst; discriminate|reflexivity]).
  cbn [string_of_list_ascii]. unfold DecimalString.NilZero.int_of_string. rewrite M. destruct (DecimalString.NilZero.uint_of_string _) as [u|]; [|discriminate]. cbn [option_map]. intro X. injection X as <-.
  cbn. unfold Z.of_uint. destruct (Pos.of_uint u); lia.
Qed.
Lemma take_digits_digits t : Forall (fun c => is_digit c = true) (fst (take_digits t)).
Proof. induction t as [|c r IH]; [constructor|]. cbn [take_digits]. destruct (is_digit c) eqn:E; [|constructor]. destruct (take_digits r) as [a b]. cbn [fst] in *. constructor; assumption. Qed.
Lemma workspace_nonneg l z : workspace_line l = Some z -> 0 <= z.
Proof.
  unfold workspace_line. destruct (starts _ _); [|discriminate]. pose proof (take_digits_digits (skipn 10 l)) as F. destruct (fst (take_digits (skipn 10 l))) as [|c d]; [discriminate|]. intro H. exact (all_digits_nonneg _ _ F H).
Qed.
(** ** the current value *)
Notation pick := (fun acc l => match workspace_line l with Some z => z | None => acc end).
Lemma pick_none ls : Forall (fun l => workspace_line l = None) ls -> forall w, fold_left pick ls w = w.
Proof. induction 1 as [|l ls H _ IH]; intro w; [reflexivity|]. cbn [fold_left]. rewrite H. apply IH. Qed.
Lemma pick_cases ls : forall w w', fold_left pick ls w = fold_left pick ls w' \/ fold_left pick ls w = w.
Proof. induction ls as [|l ls IH]; intros w w'; [right; reflexivity|]. cbn [fold_left]. destruct (workspace_line l); [left; reflexivity|apply IH]. Qed.
Lemma pick_nonneg ls : forall w, 0 <= w -> 0 <= fold_left pick ls w.
Proof. induction ls as [|l ls IH]; intros w H; [exact H|]. cbn [fold_left]. destruct (workspace_line l) eqn:E; apply IH; [exact (workspace_nonneg _ _ E)|exact H]. Qed.
Lemma current_cases f w w' : current_ws f w = current_ws f w' \/ current_ws f w = w.
Proof. destruct f as [t|]; [apply pick_cases|right; reflexivity]. Qed.
Lemma current_nonneg f w : 0 <= w -> 0 <= current_ws f w.
Proof. destruct f as [t|]; [apply pick_nonneg|auto]. Qed.
Lemma kept_none f : Forall (fun l => workspace_line l = None) (kept_lines f).
Proof. destruct f as [t|]; [|constructor]. apply Forall_forall. intros l H. apply filter_In in H. destruct H as [_ H]. destruct (workspace_line l); [discriminate|reflexivity]. Qed.
Definition set_text (ls : list text) (z : Z) : text := concat (ls ++ [txt "WorkSpace " ++ zdec z ++ [newline]]).
Lemma set_lines ls z : Forall whole ls -> file_lines (set_text ls z) = ls ++ [txt "WorkSpace " ++ zdec z ++ [newline]].
Proof. intro H. apply lines_concat. apply Forall_app. split; [exact H|]. constructor; [apply whole_new|constructor]. Qed.
Lemma set_current ls z w : Forall whole ls -> 0 <= z -> current_ws (Some (set_text ls z)) w = z.
Proof. intros H Hz. unfold current_ws. rewrite set_lines by exact H. rewrite fold_left_app. cbn [fold_left]. rewrite workspace_new by exact Hz. reflexivity. Qed.
Lemma filter_all {A} (p : A -> bool) l : Forall (fun x => p x = true) l -> filter p l = l.
Proof. induction 1 as [|x l H _ IH]; [reflexivity|]. cbn. rewrite H, IH. reflexivity. Qed.
Lemma set_kept ls z : Forall whole ls -> Forall (fun l => workspace_line l = None) ls -> 0 <= z -> kept_lines (Some (set_text ls z)) = ls.
Proof.
  intros H Hn Hz. unfold kept_lines. rewrite set_lines by exact H. rewrite filter_app. cbn [filter]. rewrite workspace_new by exact Hz. rewrite app_nil_r. apply filter_all.
  eapply Forall_impl; [|exact Hn]. cbv beta. intros l ->. reflexivity.
Qed.
(** ** the report *)
Lemma reported_none out : (forall l, In l out -> overflow_line l = None) -> reported out = None.
Proof.
  unfold reported. intro H. assert (X : forall acc, fold_left (fun acc l => match overflow_line l with Some z => Some z | None => acc end) out acc = acc); [|apply X].
  induction out as [|l out IH]; intro acc; [reflexivity|]. cbn [fold_left]. rewrite (H l (or_introl eq_refl)). apply IH. intros x Hx. apply H. right; exact Hx.
Qed.
Lemma reported_some out w : (exists l, In l out /\ overflow_line l = Some w) -> (forall l, In l out -> overflow_line l = None \/ overflow_line l = Some w) -> reported out = Some w.
Proof.
  unfold reported. set (g := fun (acc : option Z) l => match overflow_line l with Some z => Some z | None => acc end).
  assert (K : forall ls, (forall l, In l ls -> overflow_line l = None \/ overflow_line l = Some w) -> fold_left g ls (Some w) = Some w).
  { induction ls as [|l ls IH]; intro H; [reflexivity|]. cbn [fold_left]. unfold g at 2. destruct (H l (or_introl eq_refl)) as [->| ->]; apply IH; intros x Hx; apply H; right; exact Hx. }
  assert (G : forall ls acc, (exists l, In l ls /\ overflow_line l = Some w) -> (forall l, In l ls -> overflow_line l = None \/ overflow_line l = Some w) -> fold_left g ls acc = Some w); [|intros A B; apply G; assumption].
  induction ls as [|l ls IH]; intros acc (x & Hx & Ex) H; [elim Hx|]. cbn [fold_left]. destruct Hx as [->|Hx].
  - unfold g at 2. rewrite Ex. apply K. intros y Hy. apply H. right; exact Hy.
  - apply IH; [exists x; split; assumption|]. intros y Hy. apply H. right; exact Hy.
Qed.
Lemma says_report n w out r : form_says n w out -> reported out = Some r -> r = w /\ w < n.
Proof. intros [A B] H. destruct (Z_lt_le_dec w n) as [L|L]; [|rewrite (reported_none out (A L)) in H; discriminate]. destruct (B L) as [E U]. rewrite (reported_some out w E U) in H. injection H as <-. split; [reflexivity|exact L]. Qed.
Lemma says_none n w out : form_says n w out -> reported out = None -> n <= w.
Proof. intros [A B] H. destruct (Z_lt_le_dec w n) as [L|L]; [|exact L]. destruct (B L) as [E U]. rewrite (reported_some out w E U) in H. discriminate. Qed.
(** ** lists *)
Lemma set_nth_len {A} i (a : A) l : List.length (set_nth i a l) = List.length l.
Proof. revert l. induction i as [|i IH]; intros [|b l]; cbn; try reflexivity. rewrite IH. reflexivity. Qed.
Lemma set_nth_get {A} i (a : A) l j : nth_error (set_nth i a l) j = if Nat.eqb i j then option_map (fun _ => a) (nth_error l j) else nth_error l j.
Proof. revert l j. induction i as [|i IH]; intros [|b l] [|j]; cbn; try reflexivity. - destruct (Nat.eqb i j); reflexivity. - apply IH. Qed.
Lemma set_nth_inv {A} i (a b : A) l j : nth_error (set_nth i a l) j = Some b -> (i = j /\ b = a) \/ nth_error l j = Some b.
Proof. rewrite set_nth_get. destruct (Nat.eqb_spec i j) as [->|]; [|right; assumption]. destruct (nth_error l j); [|discriminate]. cbn. intro H. injection H as <-. left; split; reflexivity. Qed.
