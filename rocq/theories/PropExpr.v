(** Properties C06, C07, C10 and the expression part of C04: derivatives, simplification, product rule and substitution of expression trees. *)
From Verif Require Import SortProofs ExprSpec ExprSmooth ExprMixed ExprArith ExprOrd ExprSimp ExprDerive ExprMore.
Local Open Scope R_scope.

(** * C07: simplify *)
(** The calls end: with enough fuel the result no longer depends on the fuel.  The value is the same wherever the expression is defined. *)
Theorem C07_simplify : forall nv e, wf nv e ->
  exists e', (exists n0, forall n, (n0 <= n)%nat -> simplify nv n e = Some e') /\ wf nv e' /\
    forall x, dom x e -> dom x e' /\ eval x e' = eval x e.
Proof. intros nv e W. destruct (simp_ok nv e W) as (e' & E & W' & _ & V & _). exists e'. split; [exact E|]. split; [exact W'|exact V]. Qed.
(** whatever fuel gave an answer, the answer is right *)
Theorem C07_simplify_any : forall nv e n e', wf nv e -> simplify nv n e = Some e' -> wf nv e' /\ forall x, dom x e -> dom x e' /\ eval x e' = eval x e.
Proof.
  intros nv e n e' W H. destruct (C07_simplify nv e W) as (f & (n0 & E) & R). specialize (E (Nat.max n n0) ltac:(lia)).
  rewrite (simplify_mono nv n (Nat.max n n0) e e' ltac:(lia) H) in E. injection E as ->. exact R.
Qed.
(** a simplified polynomial has no two terms with the same exponents *)
Theorem C07_no_duplicates : forall nv e n p, wf nv e -> simplify nv n e = Some (Pol p) -> NoDup (map snd p).
Proof.
  intros nv e n p W H. destruct (simp_ok nv e W) as (f & (n0 & E) & _ & _ & _ & N). specialize (E (Nat.max n n0) ltac:(lia)). rewrite (simplify_mono nv n (Nat.max n n0) e (Pol p) ltac:(lia) H) in E. injection E as <-. apply N. reflexivity.
Qed.
(** ** without the restriction on ExponentiatedPolynomial the value changes: (1+1)^1 * x becomes x *)
Definition twice_x : expr := Prod [EPol [(Num 1, [0%Z]); (Num 1, [0%Z])] (Num 1); Pol [(Num 1, [1%Z])]].
Definition just_x : expr := Pol [(Num 1, [1%Z])].
Lemma req_refl {A} (r : R) (a b : A) : (if Req_EM_T r r then a else b) = a. Proof. destruct (Req_EM_T r r); [reflexivity|congruence]. Qed.
Lemma req_10 {A} (a b : A) : (if Req_EM_T 1 0 then a else b) = b. Proof. destruct (Req_EM_T 1 0); [lra|reflexivity]. Qed.
Lemma simp_x m : simplify 1 (S m) (Pol [(Num 1, [1%Z])]) = Some (Pol [(Num 1, [1%Z])]).
Proof. cbn. unfold merged. cbn. rewrite req_10. reflexivity. Qed.
Theorem C07_duplicate_terms_refuted :
  (forall n, (3 <= n)%nat -> simplify 1 n twice_x = Some just_x) /\
  (forall x, 0 < x 0%nat -> dom x twice_x /\ eval x twice_x = 2 * x 0%nat /\ eval x just_x = x 0%nat) /\
  (exists x, dom x twice_x /\ eval x just_x <> eval x twice_x).
Proof.
  assert (V : forall x, 0 < x 0%nat -> dom x twice_x /\ eval x twice_x = 2 * x 0%nat /\ eval x just_x = x 0%nat).
  { intros x Hx. assert (M0 : mono x 0 [0%Z] = 1) by (cbn [mono powerRZ]; ring). assert (M1 : mono x 0 [1%Z] = x 0%nat) by (cbn [mono]; rewrite powerRZ_1; ring).
    split; [cbn [twice_x dom allP fold_right row_ok]; repeat split; try (left; lia); left; cbn [eval map sumR fold_right]; rewrite M0; lra|].
    unfold twice_x, just_x. cbn [eval map sumR prodR fold_right]. rewrite M0, M1. split; [|ring]. replace (1 * 1 + (1 * 1 + 0)) with 2 by ring. rewrite gpow_1. ring. }
  assert (E : forall m, simplify 1 (S (S (S m))) twice_x = Some just_x).
  { intros m. change (simplify 1 (S (S (S m))) twice_x) with (simp_step 1 (simplify 1 (S (S m))) twice_x). unfold twice_x. cbn [simp_step].
    assert (E1 : forall j, simplify 1 (S j) (EPol [(Num 1, [0%Z]); (Num 1, [0%Z])] (Num 1)) = Some (Pol [(Num 1, [0%Z]); (Num 1, [0%Z])])).
    { intros j. change (simplify 1 (S j) (EPol [(Num 1, [0%Z]); (Num 1, [0%Z])] (Num 1))) with (exponentiated 1 (simplify 1 j) [(Num 1, [0%Z]); (Num 1, [0%Z])] (Num 1)). unfold exponentiated. cbn [is_num is_const]. rewrite req_10, req_refl. reflexivity. }
    assert (L : option_all (map (simplify 1 (S (S m))) [EPol [(Num 1, [0%Z]); (Num 1, [0%Z])] (Num 1); Pol [(Num 1, [1%Z])]]) = Some [Pol [(Num 1, [0%Z]); (Num 1, [0%Z])]; Pol [(Num 1, [1%Z])]]).
    { cbn [map]. apply option_all_cons; [apply E1|]. apply option_all_cons; [apply simp_x|reflexivity]. }
    rewrite L.
    assert (PP : prod_pass 1 [Pol [(Num 1, [0%Z]); (Num 1, [0%Z])]; Pol [(Num 1, [1%Z])]] = inl (true, [Pol [(Num 1, [1%Z])]], Some (Pol [(Num 1, [0%Z]); (Num 1, [0%Z])]))).
    { cbn [prod_pass prod_item all_rows_zero forallb snd zero_row Z.eqb andb all_coeffs fst is_const]. rewrite req_refl, req_10. reflexivity. }
    rewrite PP. change (simplify 1 (S (S m)) (Prod [Pol [(Num 1, [1%Z])]])) with (simp_step 1 (simplify 1 (S m)) (Prod [Pol [(Num 1, [1%Z])]])). cbn [simp_step].
    assert (L2 : option_all (map (simplify 1 (S m)) [Pol [(Num 1, [1%Z])]]) = Some [Pol [(Num 1, [1%Z])]]) by (cbn [map]; apply option_all_cons; [apply simp_x|reflexivity]).
    rewrite L2. assert (PP2 : prod_pass 1 [Pol [(Num 1, [1%Z])]] = inl (false, [Pol [(Num 1, [1%Z])]], None)) by (cbn [prod_pass prod_item all_rows_zero forallb snd zero_row Z.eqb andb all_coeffs fst is_const]; rewrite req_10; reflexivity).
    rewrite PP2. reflexivity. }
  split; [intros [|[|[|n]]] H; try lia; apply E|]. split; [exact V|]. exists (fun _ => 1). destruct (V (fun _ => 1) ltac:(lra)) as (D & V1 & V2). split; [exact D|]. rewrite V1, V2. lra.
Qed.

(** * C06: derive *)
(** [sympy_zero] is the test of line 1438 done by sympy: it must only be true for expressions that are zero *)
Definition sound (zero_test : expr -> bool) : Prop := forall e x, zero_test e = true -> dom x e -> eval x e = 0.
Theorem C06_derive : forall nv zero_test i e, sound zero_test -> (i < nv)%nat -> wf nv e ->
  exists e', (exists n0, forall n, (n0 <= n)%nat -> derive nv zero_test i n e = Some e') /\ wf nv e' /\
    forall x, dom x e -> dom x e' /\ derivable_pt_lim (fun t => eval (upd x i t) e) (x i) (eval x e').
Proof. intros nv z i e S Hi W. destruct (derive_ok nv z S i Hi e W) as (e' & E & W' & V). exists e'. split; [exact E|]. split; [exact W'|exact V]. Qed.
Theorem C06_derive_any : forall nv zero_test i e n e', sound zero_test -> (i < nv)%nat -> wf nv e -> derive nv zero_test i n e = Some e' ->
  wf nv e' /\ forall x, dom x e -> dom x e' /\ derivable_pt_lim (fun t => eval (upd x i t) e) (x i) (eval x e').
Proof.
  intros nv z i e n e' S Hi W H. destruct (C06_derive nv z i e S Hi W) as (f & (n0 & E) & R). specialize (E (Nat.max n n0) ltac:(lia)). rewrite (derive_mono nv z i n (Nat.max n n0) e e' ltac:(lia) H) in E. injection E as ->. exact R.
Qed.

(** * C10: ProductRule *)
Inductive call := Derive (i : nat) | Simplify.
Fixpoint directions (cs : list call) : list nat := match cs with [] => [] | Derive i :: r => i :: directions r | Simplify :: r => directions r end.
Section Calls.
Variables (nv : nat) (zero_test : expr -> bool).
Fixpoint calls (n : nat) (cs : list call) (e : expr) : option expr :=
  match cs with
  | [] => Some e
  | Derive i :: r => match derive nv zero_test i n e with Some e => calls n r e | None => None end
  | Simplify :: r => match simplify nv n e with Some e => calls n r e | None => None end
  end.
(** a history: [ProductRule(f_1, ..., f_k)] and then the calls *)
Definition history (n : nat) (fs : list expr) (cs : list call) : option expr :=
  match rule_of nv (simplify nv n) fs with Some e => calls n cs e | None => None end.
End Calls.
Lemma rule_of_ok nv l : wf nv (Prod l) -> exists e, ev (fun n => rule_of nv (simplify nv n) l = Some e) /\ wf nv e /\ forall x, dom x (Prod l) -> dom x e /\ eval x e = eval x (Prod l).
Proof.
  intros [N W]. rewrite allP_Forall in W. destruct (ev_all (simplify nv) (res nv) l) as (l' & E & F). { apply Forall_forall. intros e He. rewrite Forall_forall in W. apply (simp_ok nv e (W e He)). }
  destruct (list_res nv l l' F) as (R1 & R2 & R3 & R4 & R5). specialize (R4 N). exists (Rule [(1%Z, map (fun _ : expr => zeros nv) l')] (map (fun e => [(zeros nv, e)]) l')).
  split; [eapply ev_imp; [|exact E]; cbv beta; intros n Hn; unfold rule_of; rewrite Hn; reflexivity|].
  split.
  { apply wf_rule. split; [destruct l'; [congruence|discriminate]|]. split; [discriminate|]. split.
    - constructor; [|constructor]. cbn [snd]. clear. unfold proper. induction l' as [|e l' IHl]; cbn [map]; constructor; [cbn [lookup]; rewrite roweqb_refl; discriminate|exact IHl].
    - apply Forall_map. eapply Forall_impl; [|exact R1]. cbv beta. intros e We. split; [|constructor; [exact We|constructor]]. exists e. split; [cbn [lookup]; rewrite roweqb_refl; reflexivity|]. constructor; [|constructor]. cbn [fst snd]. split; [|auto]. apply mixed_zero. }
  intros x D. cbn [dom] in D. rewrite allP_Forall in D. destruct (R3 x D) as (D1 & _ & V1). split; [apply dom_rule; unfold cdom; apply Forall_map; eapply Forall_impl; [|exact D1]; intros e He; constructor; [exact He|constructor]|].
  rewrite eval_rule. unfold rsum. cbn [map fst snd]. rewrite sumR_cons. change (sumR []) with 0. change (eval x (Prod l)) with (lprod x l). rewrite <- V1. unfold rval, lprod. rewrite Rmult_1_l, Rplus_0_r. f_equal. clear. induction l' as [|e l' IHl]; [reflexivity|]. cbn [map combine fst snd lookup]. rewrite roweqb_refl. f_equal. exact IHl.
Qed.
Lemma calls_ok nv z U F cs : sound z -> opens U -> Forall (fun i => (i < nv)%nat) (directions cs) -> forall e p, wf nv e -> (forall x, U x -> dom x e) -> along U F p (fun x => eval x e) ->
  exists e', ev (fun n => calls nv z n cs e = Some e') /\ wf nv e' /\ (forall x, U x -> dom x e') /\ along U F (rev (directions cs) ++ p) (fun x => eval x e').
Proof.
  intros S HU. induction cs as [|[i|] cs IH]; intros HC e p W D A.
  - exists e. split; [exists 0%nat; reflexivity|]. auto.
  - cbn [directions] in HC. apply Forall_cons_iff in HC as [Hi HC]. destruct (derive_ok nv z S i Hi e W) as (e1 & E1 & W1 & V1).
    destruct (IH HC e1 (i :: p) W1) as (e' & E' & W' & D' & A'); [intros x Hx; apply V1, D, Hx| |].
    { exists (fun x => eval x e). split; [exact A|]. intros x Hx. apply V1, D, Hx. }
    exists e'. split; [eapply ev_imp; [|apply (ev_and _ _ E1 E')]; cbv beta; intros n [H1 H2]; cbn [calls]; rewrite H1; exact H2|]. split; [exact W'|]. split; [exact D'|]. cbn [directions rev]. rewrite <- app_assoc. exact A'.
  - destruct (simp_ok nv e W) as (e1 & E1 & W1 & _ & V1 & _). destruct (IH HC e1 p W1) as (e' & E' & W' & D' & A'); [intros x Hx; apply V1, D, Hx| |].
    { apply (along_ext U F p (fun x => eval x e)); [|exact A]. intros x Hx. symmetry. apply V1, D, Hx. }
    exists e'. split; [eapply ev_imp; [|apply (ev_and _ _ E1 E')]; cbv beta; intros n [H1 H2]; cbn [calls]; rewrite H1; exact H2|]. auto.
Qed.
(** [along U F p G]: G is the iterated derivative of F, the last direction of p first *)
Theorem C10_history : forall nv zero_test fs cs, sound zero_test -> fs <> [] -> Forall (wf nv) fs -> Forall (fun i => (i < nv)%nat) (directions cs) ->
  exists e', (exists n0, forall n, (n0 <= n)%nat -> history nv zero_test n fs cs = Some e') /\ wf nv e' /\
    (forall x, dom x (Prod fs) -> dom x e') /\
    along (fun x => dom x (Prod fs)) (fun x => prodR (map (eval x) fs)) (rev (directions cs)) (fun x => eval x e').
Proof.
  intros nv z fs cs S N W HC. destruct (rule_of_ok nv fs) as (e & E & We & V); [split; [exact N|apply allP_Forall, W]|].
  destruct (calls_ok nv z (fun x => dom x (Prod fs)) (fun x => prodR (map (eval x) fs)) cs S (proj1 (all_good (Prod fs))) HC e [] We) as (e' & E' & W' & D' & A'); [intros x Hx; apply V, Hx|intros x Hx; apply V, Hx|].
  exists e'. split; [eapply ev_imp; [|apply (ev_and _ _ E E')]; cbv beta; intros n [H1 H2]; unfold history; rewrite H1; exact H2|]. rewrite app_nil_r in A'. auto.
Qed.
(** the value depends only on how often each variable was differentiated, not on the order of the calls *)
Theorem C10_order : forall nv zero_test fs cs cs' n n' e e', sound zero_test -> fs <> [] -> Forall (wf nv) fs -> Forall (fun i => (i < nv)%nat) (directions cs) ->
  Permutation (directions cs) (directions cs') -> history nv zero_test n fs cs = Some e -> history nv zero_test n' fs cs' = Some e' ->
  forall x, dom x (Prod fs) -> eval x e = eval x e'.
Proof.
  intros nv z fs cs cs' n n' e e' S N W HC HP H H' x D.
  assert (HC' : Forall (fun i => (i < nv)%nat) (directions cs')) by (eapply Permutation_Forall; [exact HP|exact HC]).
  assert (MC : forall m m' l f g, (m <= m')%nat -> calls nv z m l f = Some g -> calls nv z m' l f = Some g).
  { intros m m' l. induction l as [|[i|] l IH]; intros f g L; cbn [calls]; [auto| |].
    - destruct (derive nv z i m f) as [h|] eqn:E; [|discriminate]. rewrite (derive_mono nv z i m m' f h L E). apply IH, L.
    - destruct (simplify nv m f) as [h|] eqn:E; [|discriminate]. rewrite (simplify_mono nv m m' f h L E). apply IH, L. }
  assert (M : forall m m' l g, (m <= m')%nat -> history nv z m fs l = Some g -> history nv z m' fs l = Some g).
  { intros m m' l g L. unfold history, rule_of. destruct (option_all (map (simplify nv m) fs)) as [k|] eqn:E; [|discriminate]. rewrite (option_all_ext (simplify nv m) (simplify nv m') fs (fun a r => simplify_mono nv m m' a r L) k E). apply MC, L. }
  assert (X : forall m l g g', history nv z m fs l = Some g -> (exists n0, forall k, (n0 <= k)%nat -> history nv z k fs l = Some g') -> g = g').
  { intros m l g g' A (n0 & B). specialize (B (Nat.max m n0) ltac:(lia)). rewrite (M m (Nat.max m n0) l g ltac:(lia) A) in B. congruence. }
  destruct (C10_history nv z fs cs S N W HC) as (f & Ef & _ & _ & Af). destruct (C10_history nv z fs cs' S N W HC') as (f' & Ef' & _ & _ & Af').
  pose proof (X _ _ _ _ H Ef) as ->. pose proof (X _ _ _ _ H' Ef') as ->.
  destruct (all_good (Prod fs)) as [O G]. apply (along_fun (fun x => dom x (Prod fs)) (fun x => prodR (map (eval x) fs)) O (rev (directions cs')) (fun x => eval x f) (fun x => eval x f')); [|exact Af'|exact D].
  apply (along_perm (fun x => dom x (Prod fs)) (fun x => prodR (map (eval x) fs)) O G (rev (directions cs))); [|exact Af]. rewrite <- !Permutation_rev. exact HP.
Qed.
Theorem C10_to_sum : forall nv terms cache, wf nv (Rule terms cache) ->
  exists s, to_sum nv terms cache = Some s /\ wf nv s /\ forall x, dom x (Rule terms cache) -> dom x s /\ eval x s = eval x (Rule terms cache).
Proof. exact to_sum_ok. Qed.

(** * C04: replace on expression trees *)
(** The value 0 is only right when no polynomial has an expression as coefficient ([flat]), see below. *)
Theorem C04_replace_nested : forall nv i v e, (i < nv)%nat -> wf nv e -> (v <> 0 \/ flat e) ->
  exists e', replace nv i v e = Some e' /\ (forall x, dom (upd x i v) e -> dom x e' /\ eval x e' = eval (upd x i v) e) /\
    (forall x t, dom (upd x i v) e -> eval (upd x i t) e' = eval x e').
Proof.
  intros nv i v e Hi W HV. destruct (replace_ok nv i v Hi e W HV) as (e' & E & R). exists e'. split; [exact E|]. split; [exact R|].
  intros x t D. destruct (R x D) as [_ V]. destruct (R (upd x i t)) as [_ V']; [rewrite upd_upd; exact D|]. rewrite V, V', upd_upd. reflexivity.
Qed.
(** ** the coefficient x of the term x * x^0 is not replaced when the value is 0 *)
Definition nested_x : expr := Pol [(just_x, [0%Z])].
Theorem C04_nested_zero_refuted : wf 1 nested_x /\ replace 1 0 0 nested_x = Some nested_x /\
  forall x, dom x nested_x /\ eval x nested_x = x 0%nat /\ eval (upd x 0 0) nested_x = 0.
Proof.
  assert (V : forall x, eval x nested_x = x 0%nat) by (intros x; unfold nested_x, just_x; cbn [eval map sumR fold_right mono]; rewrite powerRZ_1, powerRZ_O; ring).
  split; [unfold nested_x, just_x; repeat split; cbn; try discriminate; auto; right; repeat split; try discriminate; auto|].
  split; [unfold nested_x; cbn [replace]; unfold pol_replace; cbn [map fst snd]; rewrite req_refl; reflexivity|].
  intros x. split; [unfold nested_x, just_x; cbn; repeat split; left; lia|]. split; [apply V|rewrite V; apply upd_at].
Qed.

(** * concrete cases *)
(** (x + y)^y * log(1 + x), and exp(x * y)^(2 + x) *)
Definition ex1 : expr := Prod [EPol [(Num 1, [1; 0]%Z); (Num 1, [0; 1]%Z)] (Pol [(Num 1, [0; 1]%Z)]); LPol [(Num 1, [0; 0]%Z); (Num 1, [1; 0]%Z)]].
Definition ex2 : expr := Pow (Exp (Pol [(Num 1, [1; 1]%Z)])) (Pol [(Num 2, [0; 0]%Z); (Num 1, [1; 0]%Z)]).
Lemma ex_wf : wf 2 ex1 /\ wf 2 ex2.
Proof.
  split; unfold ex1, ex2; cbn [wf allP fold_right terms_ok fst snd is_num].
  - repeat split; try discriminate; try reflexivity; auto.
    + left. cbn. repeat constructor; cbn; intuition discriminate.
    + right. repeat split; try discriminate; try reflexivity; auto.
  - repeat split; try discriminate; try reflexivity; auto.
Qed.
Lemma ex_dom : dom (fun _ => 1) ex1 /\ dom (fun _ => 1) ex2.
Proof.
  split; unfold ex1, ex2; cbn [dom allP fold_right row_ok eval map sumR mono]; repeat split; try (left; lia); try (cbn [powerRZ]; try lra).
  - left. rewrite !pow_1. lra.
  - rewrite !pow_1. lra.
  - apply exp_pos.
Qed.
Lemma sound_no : sound (fun _ => false). Proof. intros e x H. discriminate. Qed.
Example C06_ex : exists e', (exists n0, forall n, (n0 <= n)%nat -> derive 2 (fun _ => false) 0 n ex1 = Some e') /\ derivable_pt_lim (fun t => eval (upd (fun _ => 1) 0 t) ex1) 1 (eval (fun _ => 1) e').
Proof. destruct (C06_derive 2 _ 0 ex1 sound_no ltac:(lia) (proj1 ex_wf)) as (e' & E & _ & V). exists e'. split; [exact E|]. exact (proj2 (V _ (proj1 ex_dom))). Qed.
Example C10_ex : exists e', (exists n0, forall n, (n0 <= n)%nat -> history 2 (fun _ => false) n [ex1; ex2] [Derive 0; Simplify; Derive 1; Derive 0] = Some e') /\ dom (fun _ => 1) e'.
Proof.
  destruct (C10_history 2 _ [ex1; ex2] [Derive 0; Simplify; Derive 1; Derive 0] sound_no) as (e' & E & _ & D & _); [discriminate|constructor; [apply ex_wf|constructor; [apply ex_wf|constructor]]|cbn [directions]; repeat constructor; lia|].
  exists e'. split; [exact E|]. apply D. pose proof ex_dom. cbn [dom allP fold_right]. tauto.
Qed.
Example C04_nested_ex : exists e', replace 2 1 3 ex1 = Some e' /\ eval (fun _ => 1) e' = eval (upd (fun _ => 1) 1 3) ex1.
Proof.
  destruct (C04_replace_nested 2 1 3 ex1 ltac:(lia) (proj1 ex_wf)) as (e' & E & V & _); [left; lra|]. exists e'. split; [exact E|]. apply V.
  unfold ex1; cbn [dom allP fold_right row_ok eval map sumR mono]; unfold upd; cbn [Nat.eqb]; repeat split; try (left; lia); cbn [powerRZ]; try left; rewrite ?pow_1; cbn; lra.
Qed.
Print Assumptions C06_derive.
Print Assumptions C07_simplify.
Print Assumptions C10_order.
Print Assumptions C04_replace_nested.
