(** C47: splitting of long FORM definitions (model FormModel, specification FormSpec). *)
From Coq Require Import Lia Lra.
From Verif Require Import FormModel FormSpec ExprArith ExprSmooth ExprSimp ExprMore FormProofs.
Local Open Scope list_scope.

(** A name of a part of a split expression begins with the internal prefix and "fDUMMY". *)
Definition reserved (s : text) : Prop := exists r, s = internal_prefix ++ txt "fDUMMY" ++ r.
(** Whatever the lengths and the limit: executing the generated statements in order on an expression in which no part names are used
    (apart from the split name itself) replaces exactly the calls of the name, at all arguments, by an expression without names which has the value of the original. *)
Theorem C47_split : forall nv len limit n name e lines, wf nv e -> FormModel.split nv len limit n name e = Some lines ->
  exists c, (forall x, closed (c x)) /\ (forall x, dom x e -> value (c x) = eval x e) /\
    forall t, (forall s, occurs s t -> s = name \/ ~ reserved s) -> run lines t = subst name c t.
Proof.
  intros nv len limit n name e lines W H. destruct (split_good nv len limit n name e lines W H) as (c & Cc & Cv & Cr). exists c. split; [exact Cc|]. split; [exact Cv|].
  intros t Ht. apply Cr. intros s Hs B. destruct (Ht s Hs) as [->|N]; [apply (not_below_self _ B)|apply N, (below_prefix _ _ B)].
Qed.
(** In particular for one call. *)
Theorem C47_call : forall nv len limit n name e lines x, wf nv e -> FormModel.split nv len limit n name e = Some lines -> dom x e ->
  closed (run lines (TName name x)) /\ value (run lines (TName name x)) = eval x e.
Proof.
  intros nv len limit n name e lines x W H D. destruct (C47_split _ _ _ _ _ _ _ W H) as (c & Cc & Cv & Cr). rewrite Cr by (intros s Hs; left; cbn in Hs; congruence).
  cbn [subst]. destruct (text_dec name name) as [_|N]; [|congruence]. split; [apply Cc|apply Cv, D].
Qed.

(** The left hand sides are the name and pairwise different reserved names. *)
Definition under (name s : text) : Prop := s = name \/ below name s.
Lemma below_inv b s : below b s -> (exists j, s = part b j) \/ exists s' j, s = part s' j /\ below b s'.
Proof. destruct 1; eauto. Qed.
Lemma below_same a b s : below a s -> below b s -> cnt a = cnt b -> a = b.
Proof.
  intros A. induction A as [i|s i A IH]; intros B E; destruct (below_inv _ _ B) as [[j Ej]|(s' & j & Ej & B')]; apply part_inj in Ej as [Ej _]; subst.
  - reflexivity.
  - apply below_cnt in B'. lia.
  - apply below_cnt in A. lia.
  - apply IH; assumption.
Qed.
Lemma under_same a b s : under a s -> under b s -> cnt a = cnt b -> a = b.
Proof. intros [->|A] [->|B] E; [reflexivity|apply below_cnt in B; lia|apply below_cnt in A; lia|apply (below_same a b s); assumption]. Qed.
Lemma NoDup_app' {A} (l m : list A) : NoDup l -> NoDup m -> (forall a, In a l -> ~ In a m) -> NoDup (l ++ m).
Proof. intros H. induction H as [|a l Ha H IH]; intros M D; cbn; [exact M|]. constructor; [rewrite in_app_iff; intros [?|I]; [tauto|apply (D a); [now left|exact I]]|apply IH; [exact M|intros b Hb; apply D; now right]]. Qed.
Definition tidy_names (name : text) (lines : list (text * rhs)) : Prop := NoDup (map fst lines) /\ Forall (under name) (map fst lines).
Lemma parts_names rec name : (forall nm e lines, rec nm e = Some lines -> tidy_names nm lines) -> forall l i lines, parts rec name i l = Some lines ->
  NoDup (map fst lines) /\ Forall (fun s => exists j, (i <= j)%nat /\ under (part name j) s) (map fst lines).
Proof.
  intros R l. induction l as [|e l IH]; intros i lines H; cbn [parts] in H; [injection H as <-; split; constructor|].
  destruct (rec (part name i) e) as [a|] eqn:Ea; [|discriminate]. destruct (parts rec name (S i) l) as [b|] eqn:Eb; [|discriminate]. injection H as <-.
  destruct (R _ _ _ Ea) as [N1 U1]. destruct (IH _ _ Eb) as [N2 U2]. rewrite map_app. rewrite Forall_forall in *. split.
  - apply NoDup_app'; [exact N1|exact N2|]. intros s H1 H2. destruct (U2 s H2) as (j & Hj & Uj). pose proof (under_same _ _ _ (U1 s H1) Uj) as E. rewrite !cnt_part in E. specialize (E eq_refl). apply part_inj in E. lia.
  - intros s Hs. apply in_app_iff in Hs as [Hs|Hs]; [exists i; split; [lia|apply U1, Hs]|]. destruct (U2 s Hs) as (j & Hj & Uj). exists j. split; [lia|exact Uj].
Qed.
Lemma cons_names name r lines : NoDup (map fst lines) -> Forall (fun s => exists j, (0 <= j)%nat /\ under (part name j) s) (map fst lines) -> tidy_names name ((name, r) :: lines).
Proof.
  intros N U. assert (B : Forall (below name) (map fst lines)). { apply Forall_impl with (2 := U). intros s (j & _ & [->|Uj]); [apply below_part|apply (below_trans _ j), Uj]. }
  split; cbn [map fst].
  - constructor; [|exact N]. intros I. rewrite Forall_forall in B. apply (not_below_self _ (B _ I)).
  - constructor; [now left|]. apply Forall_impl with (2 := B). intros s Hs. now right.
Qed.
Lemma leaf_names name r : tidy_names name [(name, r)].
Proof. apply cons_names; constructor. Qed.
Lemma split_names nv len limit n : forall name e lines, FormModel.split nv len limit n name e = Some lines -> tidy_names name lines.
Proof.
  induction n as [|n IH]; intros name e lines H; cbn [FormModel.split] in H; [discriminate|]. destruct (is_num e); [discriminate|]. destruct (Nat.leb (len e) limit); [injection H as <-; apply leaf_names|].
  assert (P : forall l (r : rhs) lines, match parts (FormModel.split nv len limit n) name 0 l with Some c => Some ((name, r) :: c) | None => None end = Some lines -> tidy_names name lines).
  { intros l r lines' E. destruct (parts _ name 0 l) as [c|] eqn:Ec; [|discriminate]. injection E as <-. destruct (parts_names _ _ IH _ _ _ Ec). apply cons_names; assumption. }
  destruct (match e with Rule terms cache => to_sum nv terms cache | _ => Some e end) as [e'|]; [|discriminate]. clear e.
  destruct e' as [r|[|[c k] [|t p]]|p a|p|l|l|terms cache|b a|a|a]; try (injection H as <-; apply leaf_names); try (apply (P _ _ _ H)).
  destruct (FormModel.split nv len limit n (part name 0) c) as [r|] eqn:Er; [|discriminate]. injection H as <-. destruct (IH _ _ _ Er) as [N U]. apply cons_names; [exact N|].
  apply Forall_impl with (2 := U). intros s Hs. exists 0%nat. split; [lia|exact Hs].
Qed.
Theorem C47_names_distinct : forall nv len limit n name e lines, FormModel.split nv len limit n name e = Some lines ->
  NoDup (map fst lines) /\ Forall (fun s => s = name \/ reserved s) (map fst lines).
Proof.
  intros nv len limit n name e lines H. destruct (split_names _ _ _ _ _ _ _ H) as [N U]. split; [exact N|]. apply Forall_impl with (2 := U). intros s [->|B]; [now left|right; apply (below_prefix _ _ B)].
Qed.

(** Every expression that is written out is short, unless it is of a class that cannot be split (for which a warning is printed). *)
Definition unsplittable (e : expr) : Prop := match e with EPol _ _ | LPol _ | Pow _ _ | Log _ | Exp _ => True | _ => False end.
Definition short (len : expr -> nat) (limit : nat) (l : text * rhs) : Prop := match snd l with RExpr e => (len e <= limit)%nat \/ unsplittable e | _ => True end.
Lemma parts_short rec (P : text * rhs -> Prop) : (forall nm e lines, rec nm e = Some lines -> Forall P lines) -> forall l name i lines, parts rec name i l = Some lines -> Forall P lines.
Proof.
  intros R l. induction l as [|e l IH]; intros name i lines H; cbn [parts] in H; [injection H as <-; constructor|]. destruct (rec (part name i) e) as [a|] eqn:Ea; [|discriminate]. destruct (parts rec name (S i) l) as [b|] eqn:Eb; [|discriminate]. injection H as <-.
  apply Forall_app. split; [apply (R _ _ _ Ea)|apply (IH _ _ _ Eb)].
Qed.
Theorem C47_short : forall nv len limit n name e lines, FormModel.split nv len limit n name e = Some lines -> Forall (short len limit) lines.
Proof.
  intros nv len limit n. induction n as [|n IH]; intros name e lines H; cbn [FormModel.split] in H; [discriminate|]. destruct (is_num e) eqn:Ne; [discriminate|].
  destruct (Nat.leb_spec (len e) limit) as [L|L]; [injection H as <-; constructor; [left; exact L|constructor]|].
  assert (P : forall l (r : rhs) lines, match r with RExpr _ => False | _ => True end -> match parts (FormModel.split nv len limit n) name 0 l with Some c => Some ((name, r) :: c) | None => None end = Some lines -> Forall (short len limit) lines).
  { intros l r lines' Hr E. destruct (parts _ name 0 l) as [c|] eqn:Ec; [|discriminate]. injection E as <-. constructor; [destruct r; tauto || exact I|apply (parts_short _ _ IH _ _ _ _ Ec)]. }
  assert (Q : match e with Rule terms cache => to_sum nv terms cache | _ => Some e end = match e with Rule terms cache => to_sum nv terms cache | _ => Some e end) by reflexivity.
  revert H. destruct (match e with Rule terms cache => to_sum nv terms cache | _ => Some e end) as [e'|] eqn:E'; [|discriminate]. clear Q. intros H.
  assert (K : (is_num e' = false) /\ forall t c, e' <> Rule t c). { destruct e; try (injection E' as <-; split; [exact Ne|discriminate]). unfold to_sum in E'. destruct (option_all _); [|discriminate]. injection E' as <-. split; [reflexivity|discriminate]. }
  destruct K as [K1 K2]. clear E' Ne L e.
  destruct e' as [r|[|[c k] [|t p]]|p a|p|l|l|terms cache|b a|a|a]; try discriminate; try (exfalso; eapply K2; reflexivity); try (injection H as <-; apply Forall_cons; [right; exact I|apply Forall_nil]); try (eapply P; [|exact H]; exact I).
  { cbn in H. injection H as <-. apply Forall_cons; [exact I|apply Forall_nil]. }
  destruct (FormModel.split nv len limit n (part name 0) c) as [r|] eqn:Er; [|discriminate]. injection H as <-. constructor; [exact I|apply (IH _ _ _ Er)].
Qed.

(** The recursion terminates with a result when the single terms with a number as coefficient are within the limit. *)
Fixpoint fits (nv : nat) (len : expr -> nat) (limit : nat) (e : expr) : Prop :=
  match e with
  | Pol p => allP (fun t => match t with (c, k) => if is_num c then (len (Pol [(c, k)]) <= limit)%nat else fits nv len limit c end) p
  | Sum l | Prod l => allP (fits nv len limit) l
  | Rule terms cache => allP (fun t => (len (cst nv (IZR (fst t))) <= limit)%nat) terms /\ allP (allP (fun t => match t with (_, c) => fits nv len limit c end)) cache
  | _ => True
  end.
Section Ok.
Variables (nv : nat) (len : expr -> nat) (limit : nat).
Definition okn (e : expr) : Prop := forall name, ev (fun n => exists lines, FormModel.split nv len limit n name e = Some lines).
Lemma parts_ev l : Forall okn l -> forall name i, ev (fun n => exists lines, parts (FormModel.split nv len limit n) name i l = Some lines).
Proof.
  induction 1 as [|e l H _ IH]; intros name i; [apply ev_now; intros n; exists []; reflexivity|]. apply (ev_imp _ _ (fun n H => H)). refine (ev_imp _ _ _ (ev_and _ _ (H (part name i)) (IH name (S i)))).
  intros n [[a Ea] [b Eb]]. exists (a ++ b). cbn [parts]. rewrite Ea, Eb. reflexivity.
Qed.
Lemma okn_short e : is_num e = false -> (len e <= limit)%nat -> okn e.
Proof. intros N L name. exists 1%nat. intros [|n] Hn; [lia|]. exists [(name, RExpr e)]. cbn [FormModel.split]. rewrite N. apply Nat.leb_le in L. rewrite L. reflexivity. Qed.
(** a result exists if it exists for an expression over the limit *)
Lemma okn_long e : is_num e = false -> ((limit < len e)%nat -> okn e) -> okn e.
Proof. intros N H. destruct (Nat.leb_spec (len e) limit); [apply okn_short; assumption|apply H; assumption]. Qed.
Lemma okn_other e : is_num e = false -> unsplittable e -> okn e.
Proof. intros N U name. exists 1%nat. intros [|n] Hn; [lia|]. exists [(name, RExpr e)]. cbn [FormModel.split]. rewrite N. destruct (Nat.leb (len e) limit); [reflexivity|]. destruct e; try contradiction; reflexivity. Qed.
Lemma okn_sum l : Forall okn l -> okn (Sum l).
Proof.
  intros H. apply okn_long; [reflexivity|]. intros L name. refine (ev_S _ _ _ (parts_ev l H name 0)). intros n [c Ec]. eexists. cbn [FormModel.split is_num]. apply Nat.leb_gt in L. rewrite L, Ec. reflexivity.
Qed.
Lemma okn_prod l : Forall okn l -> okn (Prod l).
Proof.
  intros H. apply okn_long; [reflexivity|]. intros L name. refine (ev_S _ _ _ (parts_ev l H name 0)). intros n [c Ec]. eexists. cbn [FormModel.split is_num]. apply Nat.leb_gt in L. rewrite L, Ec. reflexivity.
Qed.
Definition term_fits (t : expr * list Z) : Prop := match t with (c, k) => if is_num c then (len (Pol [(c, k)]) <= limit)%nat else okn c end.
Lemma okn_pol m : forall p, (List.length p <= m)%nat -> Forall term_fits p -> okn (Pol p).
Proof.
  induction m as [|m IH]; intros p Hm H; apply okn_long; try reflexivity; intros L name; apply Nat.leb_gt in L.
  - destruct p; [|cbn in Hm; lia]. exists 1%nat. intros [|n] Hn; [lia|]. eexists. cbn [FormModel.split is_num]. rewrite L. reflexivity.
  - destruct p as [|[c k] [|t p]].
    + exists 1%nat. intros [|n] Hn; [lia|]. eexists. cbn [FormModel.split is_num]. rewrite L. reflexivity.
    + apply Forall_cons_iff in H as [H _]. unfold term_fits in H. destruct (is_num c); [apply Nat.leb_gt in L; lia|]. refine (ev_S _ _ _ (H (part name 0))). intros n [r Er]. eexists. cbn [FormModel.split is_num]. rewrite L, Er. reflexivity.
    + set (q := (c, k) :: t :: p) in *. assert (Lq : (2 <= List.length q)%nat) by (cbn; lia). pose proof (chunk_size_lt _ Lq) as S1.
      assert (F : Forall okn (map (fun i => Pol (chunk (chunk_size (List.length q)) i q)) (seq 0 (chunk_count (List.length q))))).
      { apply Forall_forall. intros e He. apply in_map_iff in He as (i & <- & _). apply IH; [pose proof (chunk_length (chunk_size (List.length q)) q i); lia|]. apply Forall_forall. intros u Hu. rewrite Forall_forall in H. apply H, (chunk_incl _ _ _ _ Hu). }
      refine (ev_S _ _ _ (parts_ev _ F name 0)). intros n [r Er]. eexists. cbn [FormModel.split is_num]. rewrite L. unfold q in *. rewrite Er. reflexivity.
Qed.
Lemma option_all_Forall {A B} (f : A -> option B) (P : B -> Prop) l m : option_all (map f l) = Some m -> (forall a b, In a l -> f a = Some b -> P b) -> Forall P m.
Proof.
  revert m. induction l as [|a l IH]; intros m E H; cbn [map option_all] in E; [injection E as <-; constructor|]. destruct (f a) as [b|] eqn:Ef; [|discriminate]. destruct (option_all (map f l)) as [s|]; [|discriminate]. injection E as <-.
  constructor; [apply (H a); [now left|exact Ef]|apply IH; [reflexivity|intros c d Hc; apply H; now right]].
Qed.
Lemma fits_okn e : wf nv e -> fits nv len limit e -> okn e.
Proof.
  induction e as [r|p IH|p a _ _|p _|l IH|l IH|terms cache IH|b a _ _|a _|a _] using expr_rect'; intros W F; try (apply okn_other; [reflexivity|exact I]).
  - destruct W.
  - destruct W as [_ W]. cbn [fits] in F. apply allP_Forall in W, F. apply (okn_pol _ p (Nat.le_refl _)). rewrite Forall_forall in *. intros [c k] Ht. specialize (F _ Ht). specialize (W _ Ht). cbn in F, W. unfold term_fits. destruct (is_num c) eqn:N; [exact F|]. destruct W as [_ [W|W]]; [congruence|]. apply (IH _ Ht W F).
  - destruct W as [_ W]. cbn [fits] in F. apply allP_Forall in W, F. apply okn_sum. rewrite Forall_forall in *. auto.
  - destruct W as [_ W]. cbn [fits] in F. apply allP_Forall in W, F. apply okn_prod. rewrite Forall_forall in *. auto.
  - apply okn_long; [reflexivity|]. intros L name. destruct (to_sum_ok nv terms cache W) as (s & Es & Ws & _). pose proof Es as Es'. unfold to_sum in Es'. destruct (option_all _) as [l|] eqn:El; [|discriminate]. injection Es' as <-.
    destruct F as [F1 F2]. apply allP_Forall in F1, F2. destruct W as (_ & _ & _ & W). apply allP_Forall in W.
    assert (K : Forall okn l).
    { refine (option_all_Forall _ _ _ _ El _). intros [z ns] e He Ee. cbn [snd fst] in Ee. match type of Ee with match ?o with _ => _ end = _ => destruct o as [fs|] eqn:Ef; [|discriminate] end. injection Ee as <-. apply okn_prod. constructor.
      - apply okn_short; [reflexivity|]. rewrite Forall_forall in F1. apply (F1 _ He).
      - refine (option_all_Forall _ _ _ _ Ef _). intros [m col] e Hc Ec. cbn [fst snd] in Ec. pose proof (lookup_In _ _ _ Ec) as Hin. apply in_combine_r in Hc. rewrite Forall_forall in IH, F2, W. specialize (IH _ Hc). specialize (F2 _ Hc). destruct (W _ Hc) as [_ Wc]. apply allP_Forall in F2, Wc. rewrite Forall_forall in IH, F2, Wc.
        apply (IH _ Hin); [apply (Wc _ Hin)|apply (F2 _ Hin)]. }
    refine (ev_S _ _ _ (parts_ev _ K name 0)). intros n [c Ec]. eexists. cbn [FormModel.split is_num]. apply Nat.leb_gt in L. rewrite L, Es, Ec. reflexivity.
Qed.
End Ok.
Theorem C47_succeeds : forall nv len limit name e, wf nv e -> fits nv len limit e ->
  exists n0, forall n, (n0 <= n)%nat -> exists lines, FormModel.split nv len limit n name e = Some lines.
Proof. intros nv len limit name e W F. exact (fits_okn nv len limit e W F name). Qed.
(** Otherwise it ends with an error: a number has no method clear_cache. *)
Theorem C47_number_coefficient_refuted : forall nv len limit n name r k, (limit < len (Pol [(Num r, k)]))%nat -> FormModel.split nv len limit n name (Pol [(Num r, k)]) = None.
Proof. intros nv len limit [|n] name r k L; [reflexivity|]. cbn [FormModel.split is_num]. apply Nat.leb_gt in L. rewrite L. destruct n; reflexivity. Qed.

(** An example: a product over the limit with a polynomial of two terms over the limit. *)
Definition exlen (e : expr) : nat := match e with Prod _ => 30 | Pol (_ :: _ :: _) => 20 | _ => 10 end.
Definition exform : expr := Prod [Pol [(Num 2, [1%Z]); (Num 3, [2%Z])]; LPol [(Num 1, [1%Z])]].
Lemma exform_ok : wf 1 exform /\ fits 1 exlen 10 exform.
Proof. split; cbn; repeat split; try discriminate; auto. Qed.
Example C47_ex : exists lines, FormModel.split 1 exlen 10 3 (txt "f") exform = Some lines /\ List.length lines = 5%nat /\
  nth 2 (map fst lines) [] = txt "SecDecInternalfDUMMYSecDecInternalfDUMMYfPart0Part0" /\
  closed (run lines (TName (txt "f") (fun _ => 1%R))) /\ value (run lines (TName (txt "f") (fun _ => 1%R))) = eval (fun _ => 1%R) exform.
Proof.
  eexists. split; [reflexivity|]. split; [reflexivity|]. split; [reflexivity|].
  apply (C47_call 1 exlen 10 3 (txt "f") exform _ (fun _ => 1%R) (proj1 exform_ok) eq_refl). cbn. repeat split; try (left; lia). rewrite ?pow1, ?Rmult_1_l, ?Rmult_1_r; lra.
Qed.
