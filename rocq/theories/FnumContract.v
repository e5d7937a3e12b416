From Verif Require Import FieldBase MiscModel FnumModel FnumSpec FnumProofs.
Local Open Scope fld_scope.
Notation act := unmatched_metrics.
Lemma act_app a b : act (a ++ b) = act a ++ act b.
Proof. unfold unmatched_metrics. rewrite filter_app, map_app. reflexivity. Qed.
Lemma act_cons x y u r : act ((x, y, u) :: r) = (if u then [(x, y)] else []) ++ act r.
Proof. unfold unmatched_metrics. cbn [filter snd]. destruct u; reflexivity. Qed.
Definition disj (q r : nat * nat) : Prop := fst q <> fst r /\ fst q <> snd r /\ snd q <> fst r /\ snd q <> snd r.
Lemma disj_sym q r : disj q r -> disj r q.
Proof. unfold disj. intuition congruence. Qed.
Lemma join_none mu nu rho sigma : join mu nu rho sigma = None -> disj (mu, nu) (rho, sigma).
Proof.
  unfold join, disj. cbn [fst snd]. destruct (Nat.eqb_spec mu rho); [discriminate|]. destruct (Nat.eqb_spec mu sigma); [discriminate|].
  destruct (Nat.eqb_spec nu rho); [discriminate|]. destruct (Nat.eqb_spec nu sigma); [discriminate|]. tauto.
Qed.
Lemma inner_some mu nu before : forall before', inner mu nu before = Some before' -> exists rho sigma x y rest,
  join mu nu rho sigma = Some (x, y) /\ Permutation (act before) ((rho, sigma) :: rest) /\ Permutation (act before') ((x, y) :: rest).
Proof.
  induction before as [|((rho, sigma), u) r IH]; intros before' H; cbn [inner] in H; [discriminate|].
  destruct u.
  - destruct (join mu nu rho sigma) as [(x, y)|] eqn:E.
    + injection H as <-. exists rho, sigma, x, y, (act r). rewrite !act_cons. split; [exact E|split; reflexivity].
    + destruct (inner mu nu r) as [r'|]; cbn in H; [|discriminate]. injection H as <-.
      destruct (IH _ eq_refl) as (rho' & sigma' & x & y & rest & H1 & H2 & H3).
      exists rho', sigma', x, y, ((rho, sigma) :: rest). rewrite !act_cons. cbn [app]. split; [exact H1|].
      rewrite H2, H3. split; apply perm_swap.
  - destruct (inner mu nu r) as [r'|]; cbn in H; [|discriminate]. injection H as <-.
    destruct (IH _ eq_refl) as (rho' & sigma' & x & y & rest & H1 & H2 & H3).
    exists rho', sigma', x, y, rest. rewrite !act_cons. cbn [app]. tauto.
Qed.
Lemma inner_none mu nu before : inner mu nu before = None -> Forall (fun q => disj (mu, nu) q) (act before).
Proof.
  induction before as [|((rho, sigma), u) r IH]; intros H; cbn [inner] in H; [constructor|]. rewrite act_cons.
  destruct u.
  - destruct (join mu nu rho sigma) as [(x, y)|] eqn:E; [discriminate|]. destruct (inner mu nu r); [discriminate|].
    constructor; [apply join_none, E|apply IH; reflexivity].
  - destruct (inner mu nu r); [discriminate|]. apply IH. reflexivity.
Qed.
Lemma FOP_snoc {A} (R : A -> A -> Prop) l x : ForallOrdPairs R l -> Forall (fun y => R y x) l -> ForallOrdPairs R (l ++ [x]).
Proof.
  induction 1 as [|a l Ha Hl IH]; intros H; cbn; [constructor; constructor|]. inversion H; subst. constructor; [|apply IH; assumption].
  apply Forall_app. split; [assumption|]. constructor; [assumption|constructor].
Qed.
(** a round that matches nothing *)
Lemma sweep_false after : forall before s, sweep before after = (s, false) -> s = before ++ after /\
  (ForallOrdPairs disj (act before) -> ForallOrdPairs disj (act s)).
Proof.
  induction after as [|((mu, nu), u) r IH]; intros before s H; cbn [sweep] in H.
  - injection H as <-. rewrite app_nil_r. split; [reflexivity|tauto].
  - destruct u.
    + destruct (inner mu nu before) eqn:E; [destruct (sweep _ r); discriminate|]. apply IH in H as [-> H2]. rewrite <- app_assoc.
      split; [reflexivity|]. intros Hb. rewrite <- app_assoc in H2. apply H2. rewrite act_app. apply FOP_snoc; [exact Hb|].
      apply inner_none in E. apply Forall_impl with (2 := E). intros q. apply disj_sym.
    + apply IH in H as [-> H2]. rewrite <- app_assoc. split; [reflexivity|]. intros Hb. rewrite <- app_assoc in H2. apply H2.
      rewrite act_app. cbn. rewrite app_nil_r. exact Hb.
Qed.

Section C.
Variable F : Fld.
Add Field Fc : (f_th F).
Variables (d : nat) (w : nat -> F).
Hypothesis Hw : forall i, i < d -> w i <> 0.
Notation ok := (in_range d).
Notation tv := (tensor_value F d w).
Notation occ := (occurrences F).
Notation amt ms vs := (at_most_twice (occ ms vs)).
Lemma occ_cons x y ms vs : occ ((x, y) :: ms) vs = x :: y :: occ ms vs. Proof. reflexivity. Qed.
Lemma amt_perm ms ms' vs vs' : Permutation ms ms' -> Permutation vs vs' -> amt ms vs -> amt ms' vs'.
Proof.
  intros Hm Hv H n. rewrite <- (perm_cnt (occ ms vs) (occ ms' vs')); [apply H|]. unfold occurrences.
  apply Permutation_app; [apply Permutation_flat_map; exact Hm|apply Permutation_map; exact Hv].
Qed.
Ltac counts H n := let X := fresh in pose proof (H n) as X; unfold at_most_twice in X; rewrite ?occ_cons in X; cbn [count_occ] in X; rewrite ?occ_cons; cbn [count_occ].
Ltac decide_all := repeat match goal with
  | H : context [if Nat.eq_dec ?x ?y then _ else _] |- _ => destruct (Nat.eq_dec x y)
  | |- context [if Nat.eq_dec ?x ?y then _ else _] => destruct (Nat.eq_dec x y) end.
Lemma tv_flip2 q x y ms vs e : ok e -> tv (q :: (x, y) :: ms) vs e = tv (q :: (y, x) :: ms) vs e.
Proof.
  intros He. rewrite (tv_perm F d w (q :: (x, y) :: ms) vs ((x, y) :: q :: ms) vs) by (try exact He; try apply perm_swap; reflexivity).
  rewrite tv_flip by exact He. apply tv_perm; [exact He|apply perm_swap|reflexivity].
Qed.
Lemma shared a b c ms vs : amt ((a, b) :: (a, c) :: ms) vs -> a <> b /\ a <> c /\ count_occ Nat.eq_dec (occ ms vs) a = 0%nat.
Proof.
  intros H. pose proof (H a) as X. rewrite !occ_cons in X. cbn [count_occ] in X.
  repeat match type of X with context [if ?t then _ else _] => destruct t end; try congruence; try lia. all: repeat split; try congruence; lia.
Qed.
Lemma cnt_flip x y q ms vs n : count_occ Nat.eq_dec (occ (q :: (x, y) :: ms) vs) n = count_occ Nat.eq_dec (occ (q :: (y, x) :: ms) vs) n.
Proof. destruct q. rewrite !occ_cons. cbn [count_occ]. destruct (Nat.eq_dec x n), (Nat.eq_dec y n); reflexivity. Qed.
Lemma cnt_flip1 x y ms vs n : count_occ Nat.eq_dec (occ ((x, y) :: ms) vs) n = count_occ Nat.eq_dec (occ ((y, x) :: ms) vs) n.
Proof. rewrite !occ_cons. cbn [count_occ]. destruct (Nat.eq_dec x n), (Nat.eq_dec y n); reflexivity. Qed.
Lemma join_step mu nu rho sigma x y ms vs e : ok e -> join mu nu rho sigma = Some (x, y) -> amt ((mu, nu) :: (rho, sigma) :: ms) vs ->
  tv ((mu, nu) :: (rho, sigma) :: ms) vs e = tv ((x, y) :: ms) vs e /\ amt ((x, y) :: ms) vs.
Proof.
  intros He HJ Ha. unfold join in HJ.
  assert (Hle : forall n, count_occ Nat.eq_dec (occ ((x, y) :: ms) vs) n <= count_occ Nat.eq_dec (occ ((mu, nu) :: (rho, sigma) :: ms) vs) n).
  { intros n. rewrite !occ_cons. cbn [count_occ].
    destruct (Nat.eqb_spec mu rho); [injection HJ as <- <-; decide_all; lia|].
    destruct (Nat.eqb_spec mu sigma); [injection HJ as <- <-; decide_all; lia|].
    destruct (Nat.eqb_spec nu rho); [injection HJ as <- <-; decide_all; lia|].
    destruct (Nat.eqb_spec nu sigma); [injection HJ as <- <-; decide_all; lia|discriminate]. }
  split; [|intros n; specialize (Ha n); specialize (Hle n); lia].
  destruct (Nat.eqb_spec mu rho) as [->|].
  { injection HJ as <- <-. destruct (shared _ _ _ _ _ Ha) as (H1 & H2 & H3). apply metric_metric; assumption. }
  destruct (Nat.eqb_spec mu sigma) as [->|].
  { injection HJ as <- <-. rewrite tv_flip2 by exact He. rewrite (tv_flip F d w rho nu) by exact He.
    assert (Ha' : amt ((sigma, nu) :: (sigma, rho) :: ms) vs) by (intros k; rewrite cnt_flip; apply Ha).
    destruct (shared _ _ _ _ _ Ha') as (H1 & H2 & H3). apply metric_metric; assumption. }
  destruct (Nat.eqb_spec nu rho) as [->|].
  { injection HJ as <- <-. rewrite tv_flip by exact He.
    assert (Ha' : amt ((rho, mu) :: (rho, sigma) :: ms) vs) by (intros k; rewrite cnt_flip1; apply Ha).
    destruct (shared _ _ _ _ _ Ha') as (H1 & H2 & H3). apply metric_metric; assumption. }
  destruct (Nat.eqb_spec nu sigma) as [->|]; [|discriminate].
  injection HJ as <- <-. rewrite tv_flip by exact He. rewrite tv_flip2 by exact He. rewrite (tv_flip F d w rho mu) by exact He.
  assert (Ha' : amt ((sigma, mu) :: (sigma, rho) :: ms) vs) by (intros k; rewrite cnt_flip, cnt_flip1; apply Ha).
  destruct (shared _ _ _ _ _ Ha') as (H1 & H2 & H3). apply metric_metric; assumption.
Qed.
Lemma sweep_step vs e : ok e -> forall after before s m, sweep before after = (s, m) -> amt (act before ++ act after) vs ->
  tv (act before ++ act after) vs e = tv (act s) vs e /\ amt (act s) vs /\ length (act s) + (if m then 1 else 0) <= length (act before) + length (act after).
Proof.
  intros He. induction after as [|((mu, nu), u) r IH]; intros before s m H Ha; cbn [sweep] in H.
  - injection H as <- <-. cbn [unmatched_metrics filter map length] in *. rewrite app_nil_r in *. split; [reflexivity|split; [exact Ha|lia]].
  - destruct u.
    + rewrite act_cons in *. cbn [app] in *. destruct (inner mu nu before) as [b'|] eqn:E.
      * destruct (sweep (b' ++ [(mu, nu, false)]) r) as (s1, m1) eqn:Es. cbn [fst] in H. injection H as <- <-.
        apply inner_some in E as (rho & sigma & x & y & rest & HJ & P1 & P2).
        assert (P : Permutation (act before ++ (mu, nu) :: act r) ((mu, nu) :: (rho, sigma) :: rest ++ act r)).
        { rewrite <- Permutation_middle. constructor. rewrite P1. reflexivity. }
        assert (P' : Permutation ((x, y) :: rest ++ act r) (act (b' ++ [(mu, nu, false)]) ++ act r)).
        { rewrite act_app. cbn [unmatched_metrics filter snd map]. rewrite app_nil_r, P2. reflexivity. }
        apply (amt_perm _ _ vs vs P (Permutation_refl _)) in Ha. destruct (join_step _ _ _ _ _ _ _ vs e He HJ Ha) as [V A1].
        apply (amt_perm _ _ vs vs P' (Permutation_refl _)) in A1. destruct (IH _ _ _ Es A1) as (V2 & A2 & L2).
        split; [|split; [exact A2|]].
        -- rewrite (tv_perm F d w _ vs _ vs e He P (Permutation_refl _)), V, <- V2. apply tv_perm; [exact He|exact P'|reflexivity].
        -- rewrite act_app, app_length in L2. cbn [unmatched_metrics filter snd map length] in L2 |- *.
           rewrite (Permutation_length P1). rewrite (Permutation_length P2) in L2. cbn [length] in *. destruct m1; lia.
      * specialize (IH (before ++ [(mu, nu, true)]) s m H). rewrite act_app in IH. cbn [unmatched_metrics filter snd map fst] in IH.
        rewrite <- app_assoc in IH. cbn [app] in IH. destruct (IH Ha) as (V & A & Lx). split; [exact V|split; [exact A|]].
        rewrite app_length in Lx. cbn [length] in *. unfold unmatched_metrics in *. lia.
    + rewrite act_cons in *. cbn [app] in *. specialize (IH (before ++ [(mu, nu, false)]) s m H). rewrite act_app in IH.
      cbn [unmatched_metrics filter snd map fst] in IH. rewrite app_nil_r in IH. apply IH, Ha.
Qed.
Lemma rounds_ok vs e : ok e -> forall fuel s, length (act s) < fuel -> amt (act s) vs ->
  tv (act s) vs e = tv (act (match_rounds fuel s)) vs e /\ amt (act (match_rounds fuel s)) vs /\ ForallOrdPairs disj (act (match_rounds fuel s)).
Proof.
  intros He. induction fuel as [|fuel IH]; intros s Hl Ha; [lia|]. cbn [match_rounds].
  destruct (sweep [] s) as (s', m) eqn:E. destruct (sweep_step vs e He s [] s' m E Ha) as (V & A & Lx). cbn [unmatched_metrics filter map app] in V.
  destruct m.
  - cbn in Lx. destruct (IH s') as (V2 & A2 & D2); [unfold unmatched_metrics in *; lia|exact A|]. split; [etransitivity; [exact V|exact V2]|split; assumption].
  - split; [exact V|split; [exact A|]]. apply (proj2 (sweep_false s [] s' E)). constructor.
Qed.
(** ** vectors *)
Lemma use_some a s : forall b s', use_metric a s = Some (b, s') -> exists rest, act s' = rest /\
  (Permutation (act s) ((a, b) :: rest) \/ Permutation (act s) ((b, a) :: rest)).
Proof.
  induction s as [|((x, y), u) r IH]; intros b s' H; cbn [use_metric] in H; [discriminate|]. destruct u; cbn [andb] in H.
  - destruct (Nat.eqb_spec x a) as [->|]; [injection H as <- <-; exists (act r); rewrite !act_cons; split; [reflexivity|left; reflexivity]|].
    destruct (Nat.eqb_spec y a) as [->|]; [injection H as <- <-; exists (act r); rewrite !act_cons; split; [reflexivity|right; reflexivity]|].
    destruct (use_metric a r) as [(c, r')|]; cbn in H; [|discriminate]. injection H as <- <-.
    destruct (IH _ _ eq_refl) as (rest & H1 & H2). exists ((x, y) :: rest). rewrite !act_cons, H1. cbn [app]. split; [reflexivity|].
    destruct H2 as [H2|H2]; rewrite H2; [left|right]; apply perm_swap.
  - destruct (use_metric a r) as [(c, r')|]; cbn in H; [|discriminate]. injection H as <- <-.
    destruct (IH _ _ eq_refl) as (rest & H1 & H2). exists rest. rewrite !act_cons. cbn [app]. split; [exact H1|exact H2].
Qed.
Lemma use_none a s : use_metric a s = None -> Forall (fun q => fst q <> a /\ snd q <> a) (act s).
Proof.
  induction s as [|((x, y), u) r IH]; intros H; cbn [use_metric] in H; [constructor|]. rewrite act_cons. destruct u; cbn [andb app] in *.
  - destruct (Nat.eqb_spec x a); [discriminate|]. destruct (Nat.eqb_spec y a); [discriminate|].
    destruct (use_metric a r) as [(c, r')|]; [discriminate|]. constructor; [split; assumption|apply IH; reflexivity].
  - destruct (use_metric a r) as [(c, r')|]; [discriminate|]. apply IH. reflexivity.
Qed.
Lemma FOP_perm l l' : Permutation l l' -> ForallOrdPairs disj l -> ForallOrdPairs disj l'.
Proof.
  induction 1 as [|a l l' P IH|a b l|l1 l2 l3 P1 IH1 P2 IH2]; intros H; [exact H| | |tauto].
  - inversion H; subst. constructor; [eapply Permutation_Forall; eassumption|apply IH; assumption].
  - inversion H as [|? ? H1 H2]; subst. inversion H2 as [|? ? H3 H4]; subst. inversion H1; subst.
    constructor; [constructor; [apply disj_sym; assumption|assumption]|constructor; assumption].
Qed.
Definition apart (vs : list (vec F * nat)) (ms : list (nat * nat)) : Prop := forall q v, In q ms -> In v vs -> fst q <> snd v /\ snd q <> snd v.
Lemma vectors_ok e : ok e -> forall vs s vs0 vs' s', contract_vectors F vs s = (vs', s') -> amt (act s) (vs ++ vs0) -> ForallOrdPairs disj (act s) ->
  tv (act s) (vs ++ vs0) e = tv (act s') (vs' ++ vs0) e /\ amt (act s') (vs' ++ vs0) /\ ForallOrdPairs disj (act s') /\ apart vs' (act s') /\ incl (act s') (act s).
Proof.
  intros He. induction vs as [|(v, a) vs IH]; intros s vs0 vs' s' H Ha HD; cbn [contract_vectors] in H.
  { injection H as <- <-. split; [reflexivity|split; [exact Ha|split; [exact HD|split; [intros q x _ []|intros q Hq; exact Hq]]]]. }
  destruct (use_metric a s) as [(b, s1)|] eqn:E.
  - destruct (contract_vectors F vs s1) as (r', s2) eqn:E2. injection H as <- <-.
    apply use_some in E as (rest & <- & HP).
    assert (Hflip : amt ((a, b) :: act s1) ((v, a) :: vs ++ vs0) /\ tv (act s) (((v, a) :: vs) ++ vs0) e = tv ((a, b) :: act s1) ((v, a) :: vs ++ vs0) e
       /\ Forall (fun q => fst q <> a /\ snd q <> a /\ fst q <> b /\ snd q <> b) (act s1) /\ ForallOrdPairs disj (act s1) /\ incl (act s1) (act s)).
    { destruct HP as [HP|HP].
      - split; [apply (amt_perm _ _ _ _ HP (Permutation_refl _)) in Ha; exact Ha|]. split; [apply tv_perm; [exact He|exact HP|reflexivity]|].
        apply (FOP_perm _ _ HP) in HD. inversion HD as [|? ? H1 H2]; subst. split; [|split; [exact H2|]].
        + apply Forall_impl with (2 := H1). unfold disj. cbn. intuition congruence.
        + intros q Hq. apply (Permutation_in _ (Permutation_sym HP)). right. exact Hq.
      - split; [apply (amt_perm _ _ _ _ HP (Permutation_refl _)) in Ha; intros n; rewrite cnt_flip1; apply Ha|].
        split; [rewrite tv_flip by exact He; apply tv_perm; [exact He|exact HP|reflexivity]|].
        apply (FOP_perm _ _ HP) in HD. inversion HD as [|? ? H1 H2]; subst. split; [|split; [exact H2|]].
        + apply Forall_impl with (2 := H1). unfold disj. cbn. intuition congruence.
        + intros q Hq. apply (Permutation_in _ (Permutation_sym HP)). right. exact Hq. }
    destruct Hflip as (A1 & V1 & Dj & HD1 & Hi1).
    assert (Hab : a <> b /\ count_occ Nat.eq_dec (occ (act s1) (vs ++ vs0)) a = 0%nat).
    { pose proof (A1 a) as X. rewrite occ_cons in X. unfold occurrences in X |- *. cbn [map snd] in X. cbn [count_occ] in X.
      rewrite !count_occ_app in *. cbn [count_occ] in X. destruct (Nat.eq_dec a a); [|congruence]. destruct (Nat.eq_dec b a); [lia|]. split; [congruence|lia]. }
    destruct Hab as [Hab H0]. pose proof (eq_trans V1 (metric_vector F d w Hw a b v (act s1) (vs ++ vs0) e He Hab H0)) as V1'. clear V1. rename V1' into V1.
    assert (Pm : Permutation ((v, b) :: vs ++ vs0) (vs ++ ((v, b) :: vs0))) by apply Permutation_middle.
    assert (A2 : amt (act s1) (vs ++ ((v, b) :: vs0))).
    { apply (amt_perm _ _ _ _ (Permutation_refl _) Pm). intros n. pose proof (A1 n) as X. rewrite occ_cons in X. unfold occurrences in X |- *.
      cbn [map snd count_occ] in X. rewrite !count_occ_app in *. cbn [map snd count_occ] in *. destruct (Nat.eq_dec a n), (Nat.eq_dec b n); lia. }
    destruct (IH s1 ((v, b) :: vs0) r' s2 E2 A2 HD1) as (V2 & A3 & D3 & Ap & Hi).
    assert (Pm2 : Permutation (r' ++ (v, b) :: vs0) (((v, b) :: r') ++ vs0)) by (symmetry; apply Permutation_middle).
    split; [|split; [|split; [exact D3|split]]].
    + rewrite V1. rewrite (tv_perm F d w _ _ _ _ e He (Permutation_refl _) Pm), V2. apply tv_perm; [exact He|reflexivity|exact Pm2].
    + apply (amt_perm _ _ _ _ (Permutation_refl _) Pm2), A3.
    + intros q x Hq [<-|Hx]; [|apply Ap; assumption]. cbn [snd]. rewrite Forall_forall in Dj. pose proof (Dj q (Hi q Hq)) as Y. tauto.
    + intros q Hq. apply Hi1, Hi, Hq.
  - destruct (contract_vectors F vs s) as (r', s2) eqn:E2. injection H as <- <-.
    assert (Pm : Permutation (((v, a) :: vs) ++ vs0) (vs ++ ((v, a) :: vs0))) by apply Permutation_middle.
    assert (A2 : amt (act s) (vs ++ ((v, a) :: vs0))) by (apply (amt_perm _ _ _ _ (Permutation_refl _) Pm), Ha).
    destruct (IH s ((v, a) :: vs0) r' s2 E2 A2 HD) as (V2 & A3 & D3 & Ap & Hi).
    assert (Pm2 : Permutation (r' ++ (v, a) :: vs0) (((v, a) :: r') ++ vs0)) by (symmetry; apply Permutation_middle).
    apply use_none in E. split; [|split; [|split; [exact D3|split; [|exact Hi]]]].
    + rewrite (tv_perm F d w _ _ _ _ e He (Permutation_refl _) Pm), V2. apply tv_perm; [exact He|reflexivity|exact Pm2].
    + apply (amt_perm _ _ _ _ (Permutation_refl _) Pm2), A3.
    + intros q x Hq [<-|Hx]; [|apply Ap; assumption]. cbn [snd]. rewrite Forall_forall in E. apply (E q (Hi q Hq)).
Qed.
(** ** traces *)
Lemma traces_ok vs e : ok e -> forall l acc, amt (acc ++ l) vs -> tv (acc ++ l) vs e = npow (natF d) (traces l) * tv (acc ++ proper l) vs e.
Proof.
  intros He. induction l as [|(x, y) l IH]; intros acc Ha.
  - cbn. ring.
  - unfold traces, proper. cbn [filter fst snd]. destruct (Nat.eqb_spec x y) as [->|Hn]; cbn [negb length].
    + assert (P : Permutation (acc ++ (y, y) :: l) ((y, y) :: acc ++ l)) by (symmetry; apply Permutation_middle).
      rewrite (tv_perm F d w _ _ _ _ e He P (Permutation_refl vs)). apply (amt_perm _ _ _ _ P (Permutation_refl vs)) in Ha.
      rewrite metric_trace; [|exact Hw|exact He|].
      * fold (traces l). fold (proper l). rewrite IH; [cbn [npow]; ring|]. intros n. pose proof (Ha n) as X. rewrite occ_cons in X. cbn [count_occ] in X. decide_all; lia.
      * pose proof (Ha y) as X. rewrite occ_cons in X. cbn [count_occ] in X. destruct (Nat.eq_dec y y); [lia|congruence].
    + fold (traces l). fold (proper l). specialize (IH (acc ++ [(x, y)])). rewrite <- !app_assoc in IH. cbn [app] in IH. apply IH, Ha.
Qed.
Theorem contract_value ms ps es e : ok e -> amt ms (ps ++ es) -> let c := contract F (natF d) ms ps es in
  tv ms (ps ++ es) e = coef c * tv (metrics c) (vectors c) e.
Proof.
  intros He Ha. unfold contract.
  assert (Eact : act (map (fun q => (q, true)) ms) = ms).
  { clear. induction ms as [|(x, y) ms IH]; [reflexivity|]. cbn [map]. rewrite act_cons, IH. reflexivity. }
  set (s0 := map (fun q => (q, true)) ms) in *. assert (Hl : length (act s0) < S (length s0)) by (rewrite Eact; unfold s0; rewrite map_length; lia).
  rewrite <- Eact in Ha. destruct (rounds_ok (ps ++ es) e He _ s0 Hl Ha) as (V & A & D0). fold (match_metrics s0) in *.
  destruct (contract_vectors F ps (match_metrics s0)) as (ps', s1) eqn:E1. destruct (contract_vectors F es s1) as (es', s2) eqn:E2.
  destruct (vectors_ok e He _ _ es _ _ E1 A D0) as (V1 & A1 & D1 & Ap1 & I1).
  assert (Pc : Permutation (ps' ++ es) (es ++ ps')) by apply Permutation_app_comm.
  destruct (vectors_ok e He _ _ ps' _ _ E2 (amt_perm _ _ _ _ (Permutation_refl _) Pc A1) D1) as (V2 & A2 & D2 & Ap2 & I2).
  cbn [coef metrics vectors]. rewrite <- Eact at 1. rewrite V. change (match_rounds (S (length s0)) s0) with (match_metrics s0). rewrite V1, (tv_perm F d w _ _ _ _ e He (Permutation_refl _) Pc), V2.
  assert (Pc2 : Permutation (es' ++ ps') (ps' ++ es')) by apply Permutation_app_comm.
  rewrite (tv_perm F d w _ _ _ _ e He (Permutation_refl _) Pc2).
  apply (traces_ok (ps' ++ es') e He (act s2) []). apply (amt_perm _ _ _ _ (Permutation_refl _) Pc2), A2.
Qed.
Lemma cnt_disj (l : list (nat * nat)) n : Forall (fun q => fst q <> n /\ snd q <> n) l -> count_occ Nat.eq_dec (flat_map (fun q => [fst q; snd q]) l) n = 0%nat.
Proof.
  induction 1 as [|q l [H1 H2] Hl IH]; [reflexivity|]. cbn [flat_map app count_occ]. destruct (Nat.eq_dec (fst q) n); [contradiction|]. destruct (Nat.eq_dec (snd q) n); [contradiction|exact IH].
Qed.
Theorem contract_complete ms ps es e : ok e -> amt ms (ps ++ es) -> let c := contract F (natF d) ms ps es in
  Forall (fun q => fst q <> snd q /\ count_occ Nat.eq_dec (occ (metrics c) (vectors c)) (fst q) = 1%nat /\ count_occ Nat.eq_dec (occ (metrics c) (vectors c)) (snd q) = 1%nat) (metrics c).
Proof.
  intros He Ha. unfold contract.
  assert (Eact : act (map (fun q => (q, true)) ms) = ms).
  { clear. induction ms as [|(x, y) ms IH]; [reflexivity|]. cbn [map]. rewrite act_cons, IH. reflexivity. }
  set (s0 := map (fun q => (q, true)) ms) in *. assert (Hl : length (act s0) < S (length s0)) by (rewrite Eact; unfold s0; rewrite map_length; lia).
  rewrite <- Eact in Ha. destruct (rounds_ok (ps ++ es) e He _ s0 Hl Ha) as (V & A & D0). fold (match_metrics s0) in *.
  destruct (contract_vectors F ps (match_metrics s0)) as (ps', s1) eqn:E1. destruct (contract_vectors F es s1) as (es', s2) eqn:E2.
  destruct (vectors_ok e He _ _ es _ _ E1 A D0) as (V1 & A1 & D1 & Ap1 & I1).
  assert (Pc : Permutation (ps' ++ es) (es ++ ps')) by apply Permutation_app_comm.
  destruct (vectors_ok e He _ _ ps' _ _ E2 (amt_perm _ _ _ _ (Permutation_refl _) Pc A1) D1) as (V2 & A2 & D2 & Ap2 & I2).
  cbn [coef metrics vectors]. apply Forall_forall. intros q Hq. pose proof Hq as Hq0. unfold proper in Hq. apply filter_In in Hq as [Hq Hn].
  apply negb_true_iff, Nat.eqb_neq in Hn. split; [exact Hn|].
  assert (HDp : ForallOrdPairs disj (proper (act s2))).
  { clear - D2. induction D2 as [|r l Hr Hl IH]; [constructor|]. unfold proper. cbn [filter]. destruct (negb (Nat.eqb (fst r) (snd r))); [|exact IH].
    constructor; [|exact IH]. apply Forall_forall. intros z Hz. apply filter_In in Hz. rewrite Forall_forall in Hr. apply Hr. tauto. }
  apply in_split in Hq0 as (l1 & l2 & El). rewrite El in HDp |- *.
  assert (Hv : forall n, n = fst q \/ n = snd q -> count_occ Nat.eq_dec (map snd (ps' ++ es')) n = 0%nat).
  { intros n Hnq. apply count_occ_not_In. rewrite in_map_iff. intros (v & <- & Hv). apply in_app_iff in Hv as [Hv|Hv].
    - destruct (Ap1 q v (I2 q Hq) Hv). destruct Hnq; congruence.
    - destruct (Ap2 q v Hq Hv). destruct Hnq; congruence. }
  apply (FOP_perm _ (q :: l1 ++ l2)) in HDp; [|symmetry; apply Permutation_middle]. assert (Hdj : Forall (disj q) (l1 ++ l2)) by (inversion HDp; assumption).
  assert (Hc : forall n, n = fst q \/ n = snd q -> count_occ Nat.eq_dec (flat_map (fun q => [fst q; snd q]) (l1 ++ l2)) n = 0%nat).
  { intros n Hnq. apply cnt_disj. apply Forall_impl with (2 := Hdj). unfold disj. destruct Hnq as [->| ->]; intuition congruence. }
  unfold occurrences. split; rewrite count_occ_app, Hv by tauto; rewrite flat_map_app, count_occ_app; cbn [flat_map app count_occ];
    pose proof (Hc (fst q) (or_introl eq_refl)) as X1; pose proof (Hc (snd q) (or_intror eq_refl)) as X2; rewrite flat_map_app, count_occ_app in X1, X2;
    decide_all; try congruence; lia.
Qed.
End C.
