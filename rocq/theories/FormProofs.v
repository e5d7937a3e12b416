(** Proofs for FormModel: names of the parts, sequences of substitutions. *)
From Coq Require Import DecimalString DecimalNat DecimalFacts Lia.
From Verif Require Import FormModel FormSpec ExprArith ExprSmooth ExprSimp ExprMore.
Local Open Scope list_scope.

(** ** decimal digits *)
Definition digit (c : ascii) : Prop := In c (txt "0123456789").
Lemma digits_uint u : Forall digit (txt (NilEmpty.string_of_uint u)).
Proof. induction u; cbn; try constructor; try exact IHu; unfold digit; cbn; tauto. Qed.
Lemma digits i : Forall digit (dec i).
Proof. unfold dec, NilZero.string_of_uint. destruct (Nat.to_uint i); try apply digits_uint. cbn. repeat constructor. Qed.
Lemma dec_inj i j : dec i = dec j -> i = j.
Proof.
  unfold dec, txt. intros E. apply (f_equal string_of_list_ascii) in E. rewrite !string_of_list_ascii_of_string in E.
  assert (NZ : forall k, Nat.to_uint k <> Decimal.Nil) by (intros k H; pose proof (DecimalNat.Unsigned.of_to k) as O; rewrite H in O; cbn in O; subst k; discriminate H).
  apply (f_equal NilZero.uint_of_string) in E. rewrite !NilZero.usu in E by apply NZ. injection E as E. apply DecimalNat.Unsigned.to_uint_inj, E.
Qed.
(** ** names of parts *)
Lemma split_last (P : ascii -> Prop) c : ~ P c -> forall d d' a a', Forall P d -> Forall P d' -> a ++ c :: d = a' ++ c :: d' -> a = a' /\ d = d'.
Proof.
  intros N d d' a. induction a as [|y a IH]; intros [|y' a'] Hd Hd' E; cbn in E; inversion E; subst.
  - auto.
  - exfalso. apply N. rewrite Forall_forall in Hd. apply Hd, in_elt.
  - exfalso. apply N. rewrite Forall_forall in Hd'. apply Hd', in_elt.
  - match goal with H : _ ++ _ = _ |- _ => destruct (IH a' Hd Hd' H) as [-> ->] end. auto.
Qed.
Lemma part_inj a b i j : part a i = part b j -> a = b /\ i = j.
Proof.
  unfold part. intros E. apply app_inv_head in E. apply app_inv_head in E.
  assert (ND : ~ digit "t"%char) by (unfold digit; cbn; intuition discriminate).
  change (txt "Part") with (txt "Par" ++ ["t"%char]) in E. rewrite <- !app_assoc in E. cbn [app] in E.
  rewrite !(app_assoc _ (txt "Par")) in E. destruct (split_last digit _ ND _ _ _ _ (digits i) (digits j) E) as [E1 E2].
  apply app_inv_tail in E1. split; [exact E1|apply dec_inj, E2].
Qed.
Arguments part : simpl never.
Definition cnt (s : text) : nat := count_occ ascii_dec s "D"%char.
Lemma cnt_dec i : cnt (dec i) = 0%nat.
Proof. apply count_occ_not_In. intros H. pose proof (digits i) as D. rewrite Forall_forall in D. specialize (D _ H). unfold digit in D; cbn in D. intuition discriminate. Qed.
Lemma cnt_part name i : cnt (part name i) = S (S (cnt name)).
Proof. unfold part, cnt. rewrite !count_occ_app. fold (cnt (dec i)) (cnt name). rewrite cnt_dec. vm_compute (count_occ _ internal_prefix _). vm_compute (count_occ _ (txt "fDUMMY") _). vm_compute (count_occ _ (txt "Part") _). lia. Qed.
Inductive below (name : text) : text -> Prop :=
| below_part i : below name (part name i)
| below_below s i : below name s -> below name (part s i).
Lemma below_cnt name s : below name s -> (cnt name < cnt s)%nat.
Proof. induction 1; rewrite cnt_part; lia. Qed.
Lemma below_trans name i s : below (part name i) s -> below name s.
Proof. induction 1; [apply below_below, below_part|apply below_below; assumption]. Qed.
Lemma below_prefix name s : below name s -> exists r, s = internal_prefix ++ txt "fDUMMY" ++ r.
Proof. intros H. destruct H; eexists; unfold part; reflexivity. Qed.
Lemma not_below_self name : ~ below name name.
Proof. intros H. apply below_cnt in H. lia. Qed.
Lemma not_below_sibling name i j : ~ below (part name i) (part name j).
Proof. intros H. apply below_cnt in H. rewrite !cnt_part in H. lia. Qed.

(** ** trees *)
Lemma fterm_ind' (P : fterm -> Prop) : (forall s x, P (TName s x)) -> (forall e x, P (TExpr e x)) -> (forall k x, P (TMono k x)) ->
  (forall l, Forall P l -> P (TSum l)) -> (forall l, Forall P l -> P (TProd l)) -> forall t, P t.
Proof.
  intros H1 H2 H3 H4 H5. fix IH 1. intros [s x|e x|k x|l|l]; [apply H1|apply H2|apply H3|apply H4|apply H5];
  induction l as [|t l IHl]; constructor; (apply IH || exact IHl).
Qed.
Lemma occurs_list s l : fold_right (fun t Q => occurs s t \/ Q) False l <-> Exists (occurs s) l.
Proof. induction l as [|t l IH]; cbn; [split; [tauto|intros H; inversion H]|]. rewrite IH. split; [intros [H|H]; [now left|now right]|intros H; inversion H; auto]. Qed.
Lemma closed_occurs t : closed t <-> forall s, ~ occurs s t.
Proof.
  induction t as [s x|e x|k x|l IH|l IH] using fterm_ind'; cbn [closed occurs].
  - split; [tauto|]. intros H. apply (H s). reflexivity.
  - tauto.
  - tauto.
  - rewrite allP_Forall. split.
    + intros H s. rewrite occurs_list. intros E. rewrite Exists_exists in E. rewrite Forall_forall in *. destruct E as (t & Ht & Ho). apply (proj1 (IH t Ht) (H t Ht) s Ho).
    + intros H. rewrite Forall_forall in *. intros t Ht. apply (IH t Ht). intros s Ho. apply (H s). rewrite occurs_list, Exists_exists. eauto.
  - rewrite allP_Forall. split.
    + intros H s. rewrite occurs_list. intros E. rewrite Exists_exists in E. rewrite Forall_forall in *. destruct E as (t & Ht & Ho). apply (proj1 (IH t Ht) (H t Ht) s Ho).
    + intros H. rewrite Forall_forall in *. intros t Ht. apply (IH t Ht). intros s Ho. apply (H s). rewrite occurs_list, Exists_exists. eauto.
Qed.
Definition sigma := text -> option (point -> fterm).
Fixpoint ms (g : sigma) (t : fterm) : fterm :=
  match t with
  | TName s x => match g s with Some c => c x | None => t end
  | TExpr _ _ | TMono _ _ => t
  | TSum l => TSum (map (ms g) l)
  | TProd l => TProd (map (ms g) l)
  end.
Lemma map_ext_Forall {A B} (f g : A -> B) l : Forall (fun a => f a = g a) l -> map f l = map g l.
Proof. induction 1; cbn; [reflexivity|]. congruence. Qed.
Lemma ms_id g t : (forall s, occurs s t -> g s = None) -> ms g t = t.
Proof.
  induction t as [s x|e x|k x|l IH|l IH] using fterm_ind'; cbn [ms occurs]; intros H; try reflexivity.
  - rewrite (H s eq_refl). reflexivity.
  - f_equal. rewrite <- (map_id l) at 2. apply map_ext_Forall. rewrite Forall_forall in *. intros t Ht. apply IH; [exact Ht|]. intros s Hs. apply H. rewrite occurs_list, Exists_exists. eauto.
  - f_equal. rewrite <- (map_id l) at 2. apply map_ext_Forall. rewrite Forall_forall in *. intros t Ht. apply IH; [exact Ht|]. intros s Hs. apply H. rewrite occurs_list, Exists_exists. eauto.
Qed.
Definition same (a b : option (point -> fterm)) : Prop := match a, b with Some c, Some d => forall x, c x = d x | None, None => True | _, _ => False end.
Lemma ms_ext g h t : (forall s, occurs s t -> same (g s) (h s)) -> ms g t = ms h t.
Proof.
  induction t as [s x|e x|k x|l IH|l IH] using fterm_ind'; cbn [ms occurs]; intros H; try reflexivity.
  - specialize (H s eq_refl). unfold same in H. destruct (g s), (h s); try tauto. apply H.
  - f_equal. apply map_ext_Forall. rewrite Forall_forall in *. intros t Ht. apply IH; [exact Ht|]. intros s Hs. apply H. rewrite occurs_list, Exists_exists. eauto.
  - f_equal. apply map_ext_Forall. rewrite Forall_forall in *. intros t Ht. apply IH; [exact Ht|]. intros s Hs. apply H. rewrite occurs_list, Exists_exists. eauto.
Qed.
Lemma same_refl a : same a a. Proof. destruct a; cbn; auto. Qed.
Lemma ms_comp g h t : ms h (ms g t) = ms (fun s => match g s with Some c => Some (fun x => ms h (c x)) | None => h s end) t.
Proof.
  induction t as [s x|e x|k x|l IH|l IH] using fterm_ind'; cbn [ms]; try reflexivity.
  - destruct (g s) as [c|]; [reflexivity|]. reflexivity.
  - f_equal. rewrite map_map. apply map_ext_Forall, IH.
  - f_equal. rewrite map_map. apply map_ext_Forall, IH.
Qed.
Definition one (name : text) (c : point -> fterm) : sigma := fun s => if text_dec s name then Some c else None.
Lemma subst_ms name c t : subst name c t = ms (one name c) t.
Proof.
  induction t as [s x|e x|k x|l IH|l IH] using fterm_ind'; cbn [ms subst]; try reflexivity.
  - unfold one. destruct (text_dec s name); reflexivity.
  - f_equal. apply map_ext_Forall, IH.
  - f_equal. apply map_ext_Forall, IH.
Qed.
Lemma occurs_ms g s t : occurs s (ms g t) -> (occurs s t /\ g s = None) \/ exists s' x c, g s' = Some c /\ occurs s (c x).
Proof.
  induction t as [s' x|e x|k x|l IH|l IH] using fterm_ind'; cbn [ms occurs]; try tauto.
  - destruct (g s') as [c|] eqn:E; [intros H; right; eauto|]. cbn. intros ->. auto.
  - rewrite !occurs_list, !Exists_exists. intros (t & Ht & Ho). apply in_map_iff in Ht as (u & <- & Hu). rewrite Forall_forall in IH. destruct (IH u Hu Ho) as [[? ?]|?]; [left; split; eauto|right; assumption].
  - rewrite !occurs_list, !Exists_exists. intros (t & Ht & Ho). apply in_map_iff in Ht as (u & <- & Hu). rewrite Forall_forall in IH. destruct (IH u Hu Ho) as [[? ?]|?]; [left; split; eauto|right; assumption].
Qed.
Lemma run_app a b t : run (a ++ b) t = run b (run a t).
Proof. apply fold_left_app. Qed.
Lemma run_cons s r b t : run ((s, r) :: b) t = run b (subst s (call r) t).
Proof. reflexivity. Qed.

(** ** the substitution for consecutive parts *)
Fixpoint sig (name : text) (i : nat) (cs : list (point -> fterm)) : sigma :=
  match cs with [] => fun _ => None | c :: r => fun s => if text_dec s (part name i) then Some c else sig name (S i) r s end.
Lemma sig_none name i cs s : ~ below name s -> sig name i cs s = None.
Proof. revert i. induction cs as [|c cs IH]; intros i H; cbn [sig]; [reflexivity|]. destruct (text_dec s (part name i)) as [->|_]; [exfalso; apply H, below_part|]. apply IH, H. Qed.
Lemma sig_low name i cs j : (j < i)%nat -> sig name i cs (part name j) = None.
Proof. revert i. induction cs as [|c cs IH]; intros i H; cbn [sig]; [reflexivity|]. destruct (text_dec (part name j) (part name i)) as [E|_]; [apply part_inj in E; lia|]. apply IH. lia. Qed.
Lemma sig_closed name i cs s c : Forall (fun c => forall x, closed (c x)) cs -> sig name i cs s = Some c -> forall x, closed (c x).
Proof. intros H. revert i. induction H as [|d cs Hd H IH]; intros i; cbn [sig]; [discriminate|]. destruct (text_dec s (part name i)); [intros [= ->]; exact Hd|apply IH]. Qed.
Lemma sig_calls name x cs : forall i, map (fun j => ms (sig name i cs) (TName (part name j) x)) (seq i (List.length cs)) = map (fun c => c x) cs.
Proof.
  induction cs as [|c cs IH]; intros i; cbn [List.length seq map]; [reflexivity|]. f_equal.
  - cbn [ms sig]. destruct (text_dec (part name i) (part name i)); [reflexivity|congruence].
  - rewrite <- (IH (S i)). apply map_ext_in. intros j Hj. apply in_seq in Hj. cbn [ms sig]. destruct (text_dec (part name j) (part name i)) as [E|_]; [apply part_inj in E; lia|]. reflexivity.
Qed.
Definition avoid (name : text) (t : fterm) : Prop := forall s, occurs s t -> ~ below name s.

(** ** chunks *)
Lemma chunk_size_pos n : (1 <= chunk_size n)%nat.
Proof. unfold chunk_size. destruct (Nat.eqb_spec (n / 10) 0); lia. Qed.
Lemma chunk_size_lt n : (2 <= n)%nat -> (chunk_size n < n)%nat.
Proof. intros H. unfold chunk_size. destruct (Nat.eqb_spec (n / 10) 0); [lia|]. apply Nat.div_lt; lia. Qed.
Lemma chunk_count_ok n : (1 <= n)%nat -> let s := chunk_size n in let m := chunk_count n in (n <= m * s /\ (m - 1) * s < n /\ 1 <= m)%nat.
Proof.
  intros H. cbn zeta. unfold chunk_count. pose proof (chunk_size_pos n) as P. set (s := chunk_size n) in *. set (m := ((n + s - 1) / s)%nat).
  pose proof (Nat.div_mod (n + s - 1) s ltac:(lia)) as D. pose proof (Nat.mod_upper_bound (n + s - 1) s ltac:(lia)) as M. fold m in D. rewrite Nat.mul_comm in D.
  assert (1 <= m)%nat by (destruct m; lia). split; [lia|]. split; [|assumption]. rewrite Nat.mul_sub_distr_r. lia.
Qed.
Lemma chunks_concat s (p : terms_t) m : forall i, (1 <= s)%nat -> (List.length p <= (i + m) * s)%nat -> concat (map (fun j => chunk s j p) (seq i m)) = skipn (i * s) p.
Proof.
  induction m as [|m IH]; intros i Hs H; cbn [seq map concat].
  - rewrite skipn_all2; [reflexivity|]. lia.
  - rewrite IH by lia. unfold chunk. rewrite <- (firstn_skipn s (skipn (i * s) p)) at 2. f_equal.
    cbn [Nat.mul]. rewrite <- (firstn_skipn (i * s) p) at 1.
    assert (SS : forall (l : terms_t) a b, skipn (a + b) l = skipn a (skipn b l)).
    { clear. induction l as [|y l IHl]; intros a b; [now rewrite !skipn_nil|]. destruct b; [now rewrite Nat.add_0_r|]. rewrite Nat.add_succ_r. cbn. apply IHl. }
    rewrite firstn_skipn. apply SS.
Qed.
Lemma chunk_nonempty s (p : terms_t) i : (1 <= s)%nat -> (i * s < List.length p)%nat -> chunk s i p <> [].
Proof. intros Hs H E. apply (f_equal (@List.length _)) in E. unfold chunk in E. rewrite firstn_length, skipn_length in E. cbn in E. lia. Qed.
Lemma chunk_incl s (p : terms_t) i t : In t (chunk s i p) -> In t p.
Proof. unfold chunk. intros H. rewrite <- (firstn_skipn (i * s) p). apply in_or_app. right. rewrite <- (firstn_skipn s). apply in_or_app. left. exact H. Qed.
Lemma chunk_length s (p : terms_t) i : (List.length (chunk s i p) <= s)%nat.
Proof. unfold chunk. rewrite firstn_length. lia. Qed.

(** ** the main lemma *)
Definition good (nv : nat) (name : text) (e : expr) (lines : list (text * rhs)) : Prop :=
  exists c, (forall x, closed (c x)) /\ (forall x, dom x e -> value (c x) = eval x e) /\ forall t, avoid name t -> run lines t = subst name c t.
Lemma good_parts nv rec name : (forall nm e lines, wf nv e -> rec nm e = Some lines -> good nv nm e lines) ->
  forall l i lines, Forall (wf nv) l -> parts rec name i l = Some lines ->
  exists cs, Forall2 (fun c e => forall x, dom x e -> value (c x) = eval x e) cs l /\ Forall (fun c => forall x, closed (c x)) cs /\
    forall t, (forall s j, occurs s t -> ~ below (part name j) s) -> run lines t = ms (sig name i cs) t.
Proof.
  intros R l. induction l as [|e l IH]; intros i lines W H; cbn [parts] in H.
  - injection H as <-. exists []. split; [constructor|]. split; [constructor|]. intros t _. cbn. symmetry. apply ms_id. reflexivity.
  - destruct (rec (part name i) e) as [a|] eqn:Ea; [|discriminate]. destruct (parts rec name (S i) l) as [b|] eqn:Eb; [|discriminate]. injection H as <-. apply Forall_cons_iff in W as [W1 W].
    destruct (R _ _ _ W1 Ea) as (c & Cc & Cv & Cr). destruct (IH _ _ W Eb) as (cs & Hv & Hc & Hr). exists (c :: cs). split; [constructor; assumption|]. split; [constructor; assumption|].
    intros t Ht. rewrite run_app, Cr by (intros s Hs; apply Ht, Hs). rewrite Hr.
    + rewrite subst_ms, ms_comp. apply ms_ext. intros s Hs. unfold one. cbn [sig]. destruct (text_dec s (part name i)) as [->|_]; [|apply same_refl]. intros x. apply ms_id. intros s' Hs'. exfalso. apply (proj1 (closed_occurs _) (Cc x) s' Hs').
    + intros s j Hs. rewrite subst_ms in Hs. apply occurs_ms in Hs as [[Hs _]|(s' & x & d & E & Hs)]; [apply Ht, Hs|]. exfalso. unfold one in E. destruct (text_dec s' (part name i)); [|discriminate]. injection E as <-. apply (proj1 (closed_occurs _) (Cc x) s Hs).
Qed.
Lemma value_map (cs : list (point -> fterm)) l x : Forall2 (fun c e => forall x, dom x e -> value (c x) = eval x e) cs l -> Forall (dom x) l ->
  map value (map (fun c => c x) cs) = map (eval x) l.
Proof. induction 1 as [|c e cs l H _ IH]; intros D; cbn; [reflexivity|]. apply Forall_cons_iff in D as [D1 D]. rewrite (H x D1), (IH D). reflexivity. Qed.
Lemma closed_map (cs : list (point -> fterm)) x : Forall (fun c => forall x, closed (c x)) cs -> Forall closed (map (fun c => c x) cs).
Proof. induction 1; cbn; constructor; auto. Qed.
(** one statement whose right hand side contains calls of parts only, followed by the definitions of the parts *)
Lemma good_step nv name e r lines cs : (forall s x, occurs s (call r x) -> exists j, s = part name j) ->
  (forall t, (forall s j, occurs s t -> ~ below (part name j) s) -> run lines t = ms (sig name 0 cs) t) ->
  (forall x, closed (ms (sig name 0 cs) (call r x))) -> (forall x, dom x e -> value (ms (sig name 0 cs) (call r x)) = eval x e) ->
  good nv name e ((name, r) :: lines).
Proof.
  intros Hr Hl Hc Hv. exists (fun x => ms (sig name 0 cs) (call r x)). split; [exact Hc|]. split; [exact Hv|]. intros t At. rewrite run_cons, Hl.
  - rewrite !subst_ms, ms_comp. apply ms_ext. intros s Hs. unfold one. destruct (text_dec s name) as [->|_]; [intros x; reflexivity|]. rewrite sig_none by (apply At, Hs). exact I.
  - intros s j Hs. rewrite subst_ms in Hs. apply occurs_ms in Hs as [[Hs _]|(s' & x & c & E & Hs)].
    + intros B. apply (At s Hs). apply (below_trans _ j), B.
    + unfold one in E. destruct (text_dec s' name); [|discriminate]. injection E as <-. destruct (Hr s x Hs) as (i & ->). apply not_below_sibling.
Qed.
Lemma occurs_calls s x (l : list text) : Exists (occurs s) (map (fun s => TName s x) l) -> In s l.
Proof. intros H. apply Exists_exists in H as (t & Ht & Ho). apply in_map_iff in Ht as (u & <- & Hu). cbn in Ho. subst. exact Hu. Qed.
Lemma good_sum nv rec name l lines : (forall nm e lines, wf nv e -> rec nm e = Some lines -> good nv nm e lines) -> Forall (wf nv) l -> parts rec name 0 l = Some lines ->
  forall e, (forall x, dom x e -> Forall (dom x) l /\ sumR (map (eval x) l) = eval x e) -> good nv name e ((name, RSum (map (part name) (seq 0 (List.length l)))) :: lines).
Proof.
  intros R W H e E. destruct (good_parts nv rec name R l 0 lines W H) as (cs & Hv & Hc & Hr).
  assert (L : List.length cs = List.length l) by (clear - Hv; induction Hv; cbn; congruence).
  assert (M : forall x, ms (sig name 0 cs) (call (RSum (map (part name) (seq 0 (List.length l)))) x) = TSum (map (fun c => c x) cs)).
  { intros x. cbn [call ms]. f_equal. rewrite !map_map, <- L. apply sig_calls. }
  apply (good_step nv name e _ lines cs).
  - intros s x Ho. cbn [call occurs] in Ho. apply occurs_list, occurs_calls, in_map_iff in Ho as (j & <- & _). eauto.
  - exact Hr.
  - intros x. rewrite M. cbn [closed]. apply allP_Forall, closed_map, Hc.
  - intros x D. rewrite M. cbn [value]. destruct (E x D) as [D' <-]. rewrite (value_map cs l x Hv D'). reflexivity.
Qed.
Lemma good_prod nv rec name l lines : (forall nm e lines, wf nv e -> rec nm e = Some lines -> good nv nm e lines) -> Forall (wf nv) l -> parts rec name 0 l = Some lines ->
  good nv name (Prod l) ((name, RProd (map (part name) (seq 0 (List.length l)))) :: lines).
Proof.
  intros R W H. destruct (good_parts nv rec name R l 0 lines W H) as (cs & Hv & Hc & Hr).
  assert (L : List.length cs = List.length l) by (clear - Hv; induction Hv; cbn; congruence).
  assert (M : forall x, ms (sig name 0 cs) (call (RProd (map (part name) (seq 0 (List.length l)))) x) = TProd (map (fun c => c x) cs)).
  { intros x. cbn [call ms]. f_equal. rewrite !map_map, <- L. apply sig_calls. }
  apply (good_step nv name _ _ lines cs).
  - intros s x Ho. cbn [call occurs] in Ho. apply occurs_list, occurs_calls, in_map_iff in Ho as (j & <- & _). eauto.
  - exact Hr.
  - intros x. rewrite M. cbn [closed]. apply allP_Forall, closed_map, Hc.
  - intros x D. rewrite M. cbn [value]. cbn [dom] in D. apply allP_Forall in D. rewrite (value_map cs l x Hv D). reflexivity.
Qed.
Lemma good_leaf nv name e : good nv name e [(name, RExpr e)].
Proof. exists (fun x => TExpr e x). split; [intros x; exact I|]. split; [reflexivity|]. intros t _. reflexivity. Qed.
Lemma sum_chunks x (ls : list terms_t) : sumR (map (eval x) (map Pol ls)) = eval x (Pol (concat ls)).
Proof. induction ls as [|p ls IH]; cbn [map concat]; [reflexivity|]. rewrite sumR_cons, IH. cbn [eval]. rewrite map_app, sumR_app. reflexivity. Qed.
Lemma chunks_ok nv p : wf nv (Pol p) -> let l := map (fun i => Pol (chunk (chunk_size (List.length p)) i p)) (seq 0 (chunk_count (List.length p))) in
  Forall (wf nv) l /\ forall x, dom x (Pol p) -> Forall (dom x) l /\ sumR (map (eval x) l) = eval x (Pol p).
Proof.
  intros W l. destruct W as [Np W]. apply allP_Forall in W. assert (L : (1 <= List.length p)%nat) by (destruct p; [congruence|cbn; lia]).
  destruct (chunk_count_ok _ L) as (C1 & C2 & C3). pose proof (chunk_size_pos (List.length p)) as P. set (s := chunk_size (List.length p)) in *. set (m := chunk_count (List.length p)) in *. split.
  - apply Forall_forall. intros e He. apply in_map_iff in He as (i & <- & Hi). apply in_seq in Hi. split.
    + apply chunk_nonempty; [exact P|]. apply Nat.le_lt_trans with ((m - 1) * s)%nat; [apply Nat.mul_le_mono_r; lia|exact C2].
    + apply allP_Forall, Forall_forall. intros t Ht. rewrite Forall_forall in W. apply W, (chunk_incl _ _ _ _ Ht).
  - intros x D. cbn [dom] in D. apply allP_Forall in D. split.
    + apply Forall_forall. intros e He. apply in_map_iff in He as (i & <- & Hi). cbn [dom]. apply allP_Forall, Forall_forall. intros t Ht. rewrite Forall_forall in D. apply D, (chunk_incl _ _ _ _ Ht).
    + unfold l. rewrite <- (map_map (fun i => chunk s i p) Pol), sum_chunks, chunks_concat by (cbn; lia). reflexivity.
Qed.
Theorem split_good nv len limit n : forall name e lines, wf nv e -> FormModel.split nv len limit n name e = Some lines -> good nv name e lines.
Proof.
  induction n as [|n IH]; intros name e lines W H; cbn [FormModel.split] in H; [discriminate|].
  destruct (is_num e) eqn:Ne; [discriminate|]. destruct (Nat.leb (len e) limit); [injection H as <-; apply good_leaf|].
  assert (SUM : forall l e', Forall (wf nv) l -> (forall x, dom x e' -> Forall (dom x) l /\ sumR (map (eval x) l) = eval x e') ->
    match parts (FormModel.split nv len limit n) name 0 l with Some c => Some ((name, RSum (map (part name) (seq 0 (List.length l)))) :: c) | None => None end = Some lines -> good nv name e' lines).
  { intros l e' Wl V E. destruct (parts (FormModel.split nv len limit n) name 0 l) as [c|] eqn:Ec; [|discriminate]. injection E as <-. apply (good_sum nv _ name l c IH Wl Ec), V. }
  destruct e as [r|p|p a|p|l|l|terms cache|b a|a|a]; try discriminate; try (injection H as <-; apply good_leaf).
  - destruct p as [|[c k] p]; [destruct W as [W _]; congruence|]. destruct p as [|t p].
    + destruct (FormModel.split nv len limit n (part name 0) c) as [r|] eqn:Er; [|discriminate]. injection H as <-. destruct W as [_ W]. apply allP_Forall in W. apply Forall_cons_iff in W as [[_ W] _].
      assert (Wc : wf nv c). { destruct W as [W|W]; [|exact W]. destruct n; cbn in Er; [discriminate|]. rewrite W in Er. discriminate. }
      destruct (IH _ _ _ Wc Er) as (d & Dc & Dv & Dr).
      assert (M : forall x, ms (sig name 0 [d]) (call (RTerm (part name 0) k) x) = TProd [d x; TMono k x]). { intros x. cbn [call ms map sig]. destruct (text_dec (part name 0) (part name 0)); [reflexivity|congruence]. }
      apply (good_step nv name _ _ r [d]).
      * intros s x Ho. cbn in Ho. destruct Ho as [<-|[[]|[]]]. eauto.
      * intros t At. rewrite Dr by (intros s Hs; apply At, Hs). rewrite subst_ms. apply ms_ext. intros s _. apply same_refl.
      * intros x. rewrite M. cbn. auto.
      * intros x D. rewrite M. cbn [value map prodR fold_right eval sumR]. cbn [dom allP fold_right] in D. rewrite Dv by apply D. ring.
    + destruct (chunks_ok nv _ W) as [Wl V]. cbn zeta in H. apply (SUM _ _ Wl V). rewrite map_length, seq_length. exact H.
  - destruct W as [_ W]. apply allP_Forall in W. apply (SUM l (Sum l) W); [|exact H]. intros x D. cbn [dom] in D. apply allP_Forall in D. split; [exact D|reflexivity].
  - destruct W as [_ W]. apply allP_Forall in W. destruct (parts (FormModel.split nv len limit n) name 0 l) as [c|] eqn:Ec; [|discriminate]. injection H as <-. apply (good_prod nv _ name l c IH W Ec).
  - destruct (to_sum_ok nv terms cache W) as (s & Es & Ws & V). rewrite Es in H. unfold to_sum in Es. destruct (option_all _) as [l|]; [|discriminate]. injection Es as <-. destruct Ws as [_ Ws]. apply allP_Forall in Ws. apply (SUM l _ Ws); [|exact H].
    intros x D. destruct (V x D) as [D' E']. cbn [dom] in D'. apply allP_Forall in D'. split; [exact D'|exact E'].
Qed.
