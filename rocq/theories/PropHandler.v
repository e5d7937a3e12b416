(** Properties C65 (the refinement loops of WeightedIntegralHandler) and C66 (repeating failing integrations). *)
From Coq Require Import Lra.
From Verif Require Import AmpProofs PropAmp.
Local Open Scope nat_scope.

Section Handler.
Context {A : Type} (err : A -> option R).
Notation integral := (integral A).
Notation world := (world A).
Implicit Types (l : list integral) (x : integral) (sums : list sum).
(** the largest number of points that any sum allows *)
Definition limit sums : nat := list_max (map maxeval sums).
Lemma limit_ge sums s : In s sums -> maxeval s <= limit sums.
Proof. intros H. unfold limit. pose proof (proj1 (list_max_le (map maxeval sums) (list_max (map maxeval sums))) (le_n _)) as F. rewrite Forall_forall in F. apply F, in_map, H. Qed.
(** during a pass only the requested number of points changes; a request above the current number is only made for
    integrals that may be refined and are below the limit *)
Definition asked (M : nat) (x0 x : integral) : Prop :=
  num x = num x0 /\ refine x = refine x0 /\ res x = res x0 /\ how x = how x0 /\ num x <= next x /\ (num x < next x -> refine x = true /\ num x < M /\ next x <= M).
Lemma asked_set M x0 x n b : asked M x0 x -> (num x < n -> refine x = true /\ num x < M /\ n <= M) -> asked M x0 (set_next x n b).
Proof.
  intros (H1 & H2 & H3 & H4 & H5 & H6) H. unfold asked, set_next. cbn [num next refine res how]. repeat (split; [assumption|]). destruct b; (split; [lia|]); intros L.
  - assert (num x < n) as L' by lia. destruct (H L') as (Q1 & Q2 & Q3). repeat split; [exact Q1|exact Q2|lia].
  - destruct (Nat.lt_ge_cases (num x) (next x)) as [L1|L1].
    + destruct (H6 L1) as (Q1 & Q2 & Q3). repeat split; [exact Q1|exact Q2|]. destruct (Nat.lt_ge_cases (num x) n) as [L2|L2]; [destruct (H L2)|]; lia.
    + destruct (Nat.lt_ge_cases (num x) n) as [L2|L2]; [destruct (H L2) as (Q1 & Q2 & Q3); repeat split; [exact Q1|exact Q2|lia]|lia].
Qed.
Lemma upd_Forall2 (P : integral -> integral -> Prop) l0 l i f : Forall2 P l0 l -> (forall x0 x, P x0 x -> nth_error l i = Some x -> P x0 (f x)) -> Forall2 P l0 (upd i f l).
Proof.
  intros H Hf. unfold upd. destruct (nth_error l i) as [x|] eqn:E; [|exact H]. revert i E Hf. induction H as [|a b l0 l Hab H IH]; intros i E Hf; [destruct i; discriminate|].
  destruct i as [|i]; cbn in *; [injection E as <-; constructor; [apply Hf; [exact Hab|reflexivity]|exact H]|]. constructor; [exact Hab|]. apply IH; [exact E|]. intros x0 y Hy Hi. apply Hf; assumption.
Qed.
Lemma upd_nth l i f j : nth_error (upd i f l) j = if Nat.eqb j i then option_map f (nth_error l i) else nth_error l j.
Proof.
  unfold upd. revert i j. induction l as [|a l IH]; intros i j; [destruct i as [|i], j as [|j]; cbn; try reflexivity; destruct (Nat.eqb j i); reflexivity|]. destruct i as [|i]; cbn [nth_error]; [destruct j; reflexivity|].
  destruct j as [|j]; [destruct (nth_error l i); reflexivity|]. specialize (IH i j). cbn [Nat.eqb]. destruct (nth_error l i); cbn; exact IH.
Qed.
Lemma upd_length l i f : length (upd i f l) = length l.
Proof.
  unfold upd. destruct (nth_error l i) eqn:E; [|reflexivity]. assert (i < length l) by (apply nth_error_Some; congruence). rewrite app_length. cbn [length]. rewrite firstn_length, skipn_length. lia.
Qed.
Lemma nth_ext_error {B} (l m : list B) : (forall j, nth_error l j = nth_error m j) -> l = m.
Proof.
  revert m. induction l as [|a l IH]; intros [|b m] H; [reflexivity|specialize (H 0); discriminate|specialize (H 0); discriminate|]. pose proof (H 0) as H0. injection H0 as ->. f_equal. apply IH. intros j. exact (H (S j)).
Qed.
(** some integral gets more points *)
Definition active l : Prop := exists i x, nth_error l i = Some x /\ num x < next x.
Lemma active_upd l i f : active l -> (forall x, nth_error l i = Some x -> num x < next x -> num (f x) < next (f x)) -> active (upd i f l).
Proof.
  intros (j & x & H & L) Hf. destruct (Nat.eq_dec j i) as [->|N].
  - exists i, (f x). rewrite upd_nth, Nat.eqb_refl, H. split; [reflexivity|]. apply Hf; assumption.
  - exists j, x. rewrite upd_nth. destruct (Nat.eqb_spec j i); [contradiction|]. auto.
Qed.
(** generic double loop over the terms of the sums *)
Lemma loop_inv {S : Type} (P : S -> Prop) (f : sum -> S -> nat -> S) sums st :
  P st -> (forall s i st, In s sums -> In i (members s) -> P st -> P (f s st i)) -> P (fold_left (fun st s => fold_left (f s) (members s) st) sums st).
Proof.
  intros H Hf. revert st H. assert (G : forall ss, incl ss sums -> forall st, P st -> P (fold_left (fun st s => fold_left (f s) (members s) st) ss st)).
  { induction ss as [|s ss IH]; intros I st H; [exact H|]. cbn [fold_left]. apply IH; [intros z Hz; apply I; right; exact Hz|]. assert (Is : In s sums) by (apply I; left; reflexivity).
    assert (G : forall ms, incl ms (members s) -> forall st, P st -> P (fold_left (f s) ms st)).
    { induction ms as [|i ms IHm]; intros Im st' H'; [exact H'|]. cbn [fold_left]. apply IHm; [intros z Hz; apply Im; right; exact Hz|]. apply Hf; [exact Is|apply Im; left; reflexivity|exact H']. }
    apply G; [apply incl_refl|exact H]. }
  apply G, incl_refl.
Qed.
Notation state := (list integral * bool)%type.
Definition inv (M : nat) l0 (st : state) : Prop := Forall2 (asked M) l0 (fst st) /\ (snd st = true -> active (fst st)).
Lemma min_prec_inv sums want l0 st : inv (limit sums) l0 st -> inv (limit sums) l0 (ensure_min_prec want sums st).
Proof.
  intros H. unfold ensure_min_prec. apply loop_inv; [exact H|]. clear st H. intros s i st Is Ii [H1 H2]. unfold min_prec_term. destruct (nth_error (fst st) i) as [x|] eqn:E; [|split; assumption].
  destruct (refine x && (num x <? maxeval s)) eqn:G; [|split; assumption]. apply andb_true_iff in G as [G1 G2]. apply Nat.ltb_lt in G2. destruct (want s i x) as [new|]; [|split; assumption]. destruct (Nat.ltb_spec (num x) new) as [L|L]; [|split; assumption].
  pose proof (limit_ge sums s Is) as LG. set (p := if maxeval s <? new then maxeval s else new). assert (Lp : num x < p <= maxeval s) by (unfold p; destruct (Nat.ltb_spec (maxeval s) new); lia).
  split; cbn [fst snd].
  - apply upd_Forall2; [exact H1|]. intros x0 y Hy Ey. rewrite E in Ey. injection Ey as <-. apply asked_set; [exact Hy|]. intros _. repeat split; [exact G1|lia|lia].
  - intros _. exists i, (set_next x p false). rewrite upd_nth, Nat.eqb_refl, E. split; [reflexivity|]. cbn. lia.
Qed.
Lemma error_goal_inv sums want l0 st : inv (limit sums) l0 st -> inv (limit sums) l0 (ensure_error_goal want sums st).
Proof.
  intros H. unfold ensure_error_goal. apply loop_inv; [exact H|]. clear st H. intros s i st Is Ii [H1 H2]. unfold error_goal_term. destruct (nth_error (fst st) i) as [x|] eqn:E; [|split; assumption].
  destruct (refine x) eqn:G; [|split; assumption]. destruct (want s i x) as [new|]; [|split; assumption]. pose proof (limit_ge sums s Is) as LG. cbv zeta. set (p := Nat.min (maxeval s) (Nat.max (next x) new)). assert (Lp : p <= maxeval s) by (unfold p; lia).
  split; cbn [fst snd].
  - apply upd_Forall2; [exact H1|]. intros x0 y Hy Ey. rewrite E in Ey. injection Ey as <-. apply asked_set; [exact Hy|]. intros L. repeat split; [exact G|lia|lia].
  - intros B. apply orb_true_iff in B as [B|B].
    + apply active_upd; [apply H2, B|]. intros y Hy L. cbn. lia.
    + apply Nat.ltb_lt in B. exists i, (set_next x p false). rewrite upd_nth, Nat.eqb_refl, E. split; [reflexivity|]. cbn. lia.
Qed.
(** the increase factor leaves room *)
Definition growing sums : Prop := forall s n, In s sums -> 1 <= n -> n < max_next s n.
Lemma increase_inv sums l0 st : growing sums -> Forall (fun x => 1 <= num x) l0 -> inv (limit sums) l0 st -> inv (limit sums) l0 (ensure_maxincreasefac sums (fst st), snd st).
Proof.
  intros G F H. unfold ensure_maxincreasefac. assert (X : inv (limit sums) l0 (fold_left (fun l s => fold_left (fun l i => upd i (fun x => if max_next s (num x) <? next x then set_next x (max_next s (num x)) true else x) l) (members s) l) sums (fst st), snd st)); [|exact X].
  apply (loop_inv (fun l => inv (limit sums) l0 (l, snd st)) (fun s l i => upd i (fun x => if max_next s (num x) <? next x then set_next x (max_next s (num x)) true else x) l)); [destruct st; exact H|].
  clear H. intros s i l Is Ii [H1 H2]. cbn [fst snd] in *. assert (N : forall x, In x l -> 1 <= num x).
  { intros x Hx. clear - H1 F Hx. induction H1 as [|a b l0 l H H1 IH]; [destruct Hx|]. apply Forall_cons_iff in F as [F1 F2]. destruct Hx as [<-|Hx]; [destruct H as [-> _]; exact F1|apply IH; assumption]. }
  split; cbn [fst snd].
  - apply upd_Forall2; [exact H1|]. intros x0 x Hx E. destruct (Nat.ltb_spec (max_next s (num x)) (next x)) as [L|L]; [|exact Hx]. apply asked_set; [exact Hx|]. intros L'. destruct Hx as (_ & _ & _ & _ & _ & Hx). specialize (Hx ltac:(lia)). destruct Hx as (Q1 & Q2 & Q3). repeat split; [exact Q1|exact Q2|lia].
  - intros B. apply active_upd; [apply H2, B|]. intros x Hx L. destruct (Nat.ltb_spec (max_next s (num x)) (next x)) as [L1|L1]; [|exact L]. cbn. specialize (G s (num x) Is (N x (nth_error_In _ _ Hx))). lia.
Qed.
Lemma numbered_map l (g : nat -> integral -> integral) i x : nth_error l i = Some x -> nth_error (map (fun ix => g (fst ix) (snd ix)) (numbered l)) i = Some (g i x).
Proof.
  unfold numbered. assert (X : forall k, nth_error l i = Some x -> nth_error (map (fun ix => g (fst ix) (snd ix)) (combine (seq k (length l)) l)) i = Some (g (k + i) x)).
  { revert i. induction l as [|a l IH]; intros i k E; [destruct i; discriminate|]. destruct i as [|i]; cbn in *; [injection E as ->; rewrite Nat.add_0_r; reflexivity|]. rewrite (IH i (S k) E). rewrite Nat.add_succ_r. reflexivity. }
  intros E. rewrite (X 0 E). reflexivity.
Qed.
Lemma numbered_in l i x : In (i, x) (numbered l) -> nth_error l i = Some x.
Proof.
  unfold numbered. assert (X : forall k, In (i, x) (combine (seq k (length l)) l) -> k <= i /\ nth_error l (i - k) = Some x).
  { induction l as [|a l IH]; intros k H; [destruct H|]. cbn in H. destruct H as [[= -> ->]|H]; [rewrite Nat.sub_diag; split; [lia|reflexivity]|]. destruct (IH (S k) H) as [H1 H2]. split; [lia|]. replace (i - k) with (S (i - S k)) by lia. exact H2. }
  intros H. destruct (X 0 H) as [_ H']. rewrite Nat.sub_0_r in H'. exact H'.
Qed.
Lemma numbered_Forall2 (P Q : integral -> integral -> Prop) l0 l g : Forall2 P l0 l -> (forall x0 x i, P x0 x -> In x l -> Q x0 (g i x)) -> Forall2 Q l0 (map (fun ix => g (fst ix) (snd ix)) (numbered l)).
Proof.
  intros H HQ. unfold numbered. generalize 0 as k. induction H as [|a b l0 l Hab H IH]; intros k; [constructor|]. cbn. constructor; [apply HQ; [exact Hab|left; reflexivity]|]. apply IH. intros. apply HQ; [assumption|right; assumption].
Qed.
(** time pressure can only lower a request *)
Definition reducing (w : world) : Prop := match time w with Stop => True | Reduce rounds => Forall (fun red => forall i x, red i x <= next x) rounds end.
Lemma clock_inv M w l0 st : reducing w -> inv M l0 st -> inv M l0 (wall_clock (time w) st).
Proof.
  unfold reducing. intros HR H. destruct (time w) as [|rounds]; cbn [wall_clock].
  - destruct H as [H1 _]. split; cbn [fst snd]; [|discriminate]. clear - H1. induction H1 as [|a b l0 l H H1 IH]; [constructor|]. cbn. constructor; [|exact IH]. apply asked_set; [exact H|lia].
  - revert st H. induction HR as [|red rounds Hr HR IH]; intros st H; [exact H|]. cbn [fold_left]. apply IH. clear IH HR. destruct H as [H1 H2]. unfold reduce. split; cbn [fst snd].
    + apply (numbered_Forall2 (asked M) (asked M) l0 (fst st) (fun i x => if num x <? next x then set_next x (red i x) true else x)); [exact H1|]. intros x0 x i Hx _. destruct (Nat.ltb_spec (num x) (next x)) as [L|L]; [|exact Hx].
      apply asked_set; [exact Hx|]. intros L2. destruct Hx as (_ & _ & _ & _ & _ & Hx). destruct (Hx L) as (Q1 & Q2 & Q3). specialize (Hr i x). repeat split; [exact Q1|exact Q2|lia].
    + intros B. apply existsb_exists in B as ([i x] & B1 & B2). cbn [fst snd] in B2. apply andb_true_iff in B2 as [B2 B3]. apply numbered_in in B1. exists i, (set_next x (red i x) true).
      rewrite (numbered_map _ (fun i x => if num x <? next x then set_next x (red i x) true else x) i x B1). rewrite B2. split; [reflexivity|]. apply Nat.ltb_lt in B3. cbn. lia.
Qed.
(** ** progress of the computations *)
Definition measure (M : nat) x : nat := if refine x then M - num x else 0.
Definition total (M : nat) l : nat := list_sum (map (measure M) l).
(** the integrator reports at least as many evaluations as requested (this matters for Vegas, Suave and Cuhre only) *)
Definition honest (out : nat -> integral -> A * nat) : Prop := forall i x, how x = Cuba false -> next x <= snd (out i x).
Lemma compute_progress M x r m : asked M x x -> (how x = Cuba false -> next x <= m) -> let x' := fst (fst (compute err x (Some (r, m)))) in
  next x' = num x' /\ num x <= num x' /\ measure M x' <= measure M x /\ (num x < next x -> measure M x' < measure M x).
Proof.
  intros (_ & _ & _ & _ & H5 & H6) Hm. cbv zeta. destruct (Nat.lt_ge_cases (num x) (next x)) as [L|L].
  - destruct (H6 L) as (R & LM & _). unfold compute. rewrite R. apply Nat.ltb_lt in L. rewrite L. apply Nat.ltb_lt in L. cbn [andb]. unfold compute_impl. destruct (how x) as [keys med|dv|] eqn:K.
    + set (n := get_next_n keys med (next x)). unfold get_result. unfold set_next. destruct (Nat.ltb_spec n (next x)) as [Ln|Ln]; cbn [num next refine res how].
      * destruct (num x <=? 0); [|destruct (gt _ _)]; cbn [fst snd num next refine res how]; unfold measure; cbn [refine num next]; rewrite ?R; repeat split; lia.
      * destruct (num x <=? 0); [|destruct (gt _ _)]; cbn [fst snd num next refine res how]; unfold measure; cbn [refine num next]; rewrite ?R; repeat split; lia.
    + destruct dv; cbn [num next refine res how set_next fst snd]; unfold measure; cbn [refine num next]; rewrite ?R; [repeat split; lia|]. specialize (Hm eq_refl). repeat split; lia.
    + cbn [num next refine res how set_next fst snd]; unfold measure; cbn [refine num next]; rewrite ?R. repeat split; lia.
  - rewrite compute_idle by (destruct (Nat.ltb_spec (num x) (next x)); [lia|apply andb_false_r]). cbn [fst]. repeat split; lia.
Qed.
(** between two passes *)
Definition settled x : Prop := next x = num x /\ 1 <= num x.
Lemma settled_asked M l : Forall settled l -> Forall2 (asked M) l l.
Proof. induction 1 as [|x l [H1 H2] H IH]; constructor; [|exact IH]. unfold asked. do 4 (split; [reflexivity|]). split; [lia|]. intros X. exfalso. lia. Qed.
Lemma asked_self M x0 x : asked M x0 x -> asked M x x.
Proof. intros (H1 & H2 & H3 & H4 & H5 & H6). unfold asked. do 4 (split; [reflexivity|]). split; assumption. Qed.
Lemma evaluate_progress M out l0 l : honest out -> Forall settled l0 -> Forall2 (asked M) l0 l -> let l' := evaluate_integrals err out l in
  length l' = length l0 /\ Forall settled l' /\ total M l' <= total M l0 /\ (active l -> total M l' < total M l0).
Proof.
  intros Hh F H. cbv zeta. unfold evaluate_integrals, numbered. unfold active, total. generalize 0 as k. induction H as [|x0 x l0 l Hx H IH]; intros k.
  - cbn. repeat split; [constructor|lia|]. intros (i & x & E & _). destruct i; discriminate.
  - apply Forall_cons_iff in F as [[F1 F2] F3]. destruct (IH F3 (S k)) as (I0 & I1 & I2 & I3). clear IH. cbn [length seq combine map fst snd list_sum fold_right].
    destruct (compute_progress M x (fst (out k x)) (snd (out k x)) (asked_self M x0 x Hx) (Hh k x)) as (P1 & P2 & P3 & P4). rewrite <- surjective_pairing in P1, P2, P3, P4.
    assert (Mx : measure M x = measure M x0) by (destruct Hx as (Hx1 & Hx2 & _); unfold measure; rewrite Hx1, Hx2; reflexivity).
    assert (Nx : num x = num x0) by apply Hx. repeat split.
    + f_equal. exact I0.
    + constructor; [split; [exact P1|lia]|exact I1].
    + unfold list_sum in *. cbn [fold_right]. lia.
    + intros (i & y & E & L). unfold list_sum in *. cbn [fold_right]. destruct i as [|i]; cbn in E; [injection E as <-; specialize (P4 L); lia|]. specialize (I3 (ex_intro _ i (ex_intro _ y (conj E L)))). lia.
Qed.
Lemma asked_num M l0 l : Forall2 (asked M) l0 l -> Forall settled l0 -> Forall (fun x => 1 <= num x) l0.
Proof. intros _ H. eapply Forall_impl; [|exact H]. intros x [_ H']. exact H'. Qed.
Lemma pass1_ok sums w l : growing sums -> honest (outs w) -> reducing w -> Forall settled l ->
  exists st, inv (limit sums) l st /\ pass1 err sums w l = (evaluate_integrals err (outs w) (fst st), snd st).
Proof.
  intros G H R F. eexists. split; [|unfold pass1; reflexivity]. apply clock_inv; [exact R|]. apply increase_inv; [exact G|eapply Forall_impl; [|exact F]; intros x [_ Hx]; exact Hx|]. apply min_prec_inv. split; [apply settled_asked, F|discriminate].
Qed.
Lemma pass2_ok all sums w l : growing sums -> honest (outs w) -> reducing w -> Forall settled l ->
  exists st, inv (limit sums) l st /\ pass2 err all sums w l = (evaluate_integrals err (outs w) (fst st), snd st).
Proof.
  intros G H R F. eexists. split; [|unfold pass2; reflexivity]. apply clock_inv; [exact R|]. apply increase_inv; [exact G|eapply Forall_impl; [|exact F]; intros x [_ Hx]; exact Hx|].
  assert (I : inv (limit sums) l (ensure_error_goal (wants w) sums (l, false))) by (apply error_goal_inv; split; [apply settled_asked, F|discriminate]). destruct all; [apply error_goal_inv|]; exact I.
Qed.
Lemma repeat_ok sums pass ws : (forall w l, honest (outs w) -> reducing w -> Forall settled l -> exists st, inv (limit sums) l st /\ pass w l = (evaluate_integrals err (outs w) (fst st), snd st)) ->
  (forall k, honest (outs (ws k)) /\ reducing (ws k)) -> forall n fuel k l, Forall settled l -> total (limit sums) l < n -> n <= fuel -> exists l' k', repeat_pass pass fuel k ws l = Some (l', k') /\ Forall settled l' /\ length l' = length l /\ total (limit sums) l' <= total (limit sums) l.
Proof.
  intros HP HW. induction n as [|n IH]; intros fuel k l F T L; [lia|]. destruct fuel as [|fuel]; [lia|]. cbn [repeat_pass]. destruct (HW k) as [W1 W2]. destruct (HP (ws k) l W1 W2 F) as (st & [I1 I2] & E). rewrite E.
  destruct (evaluate_progress (limit sums) (outs (ws k)) l (fst st) W1 F I1) as (P0 & P1 & P2 & P3). destruct (snd st) eqn:B; [|eauto 10].
  specialize (P3 (I2 eq_refl)). destruct (IH fuel (S k) _ P1 ltac:(lia) ltac:(lia)) as (l' & k' & Q1 & Q2 & Q3 & Q4). exists l', k'. repeat split; [exact Q1|exact Q2|congruence|lia].
Qed.
Lemma total_le M l : total M l <= length l * M.
Proof. unfold total. induction l as [|x l IH]; cbn; [lia|]. assert (measure M x <= M) by (unfold measure; destruct (refine x); lia). unfold list_sum in *. lia. Qed.
(** ** the refinement ends *)
(** a positive minimum and every integral occurs in some sum *)
Definition covered sums l : Prop := (forall s, In s sums -> 1 <= mineval s) /\ forall i, i < length l -> exists s, In s sums /\ In i (members s).
Lemma loop_le sums : forall l i x, nth_error l i = Some x -> exists y, nth_error (ensure_mineval sums l) i = Some y /\ num y = num x /\ refine y = refine x /\ res y = res x /\ how y = how x /\ next x <= next y /\ next y <= max (next x) (max (num x) (list_max (map mineval sums))) /\ (num x <= next x -> num y <= next y) /\ (forall s, In s sums -> In i (members s) -> mineval s <= next y).
Proof.
  intros l i x E. unfold ensure_mineval.
  assert (G : forall ss, incl ss sums -> forall l, nth_error l i = Some x \/ True -> forall z, nth_error l i = Some z -> exists y, nth_error (fold_left (fun l s => fold_left (fun l i => upd i (fun x => set_next x (mineval s) false) l) (members s) l) ss l) i = Some y /\ num y = num z /\ refine y = refine z /\ res y = res z /\ how y = how z /\ next z <= next y /\ next y <= max (next z) (max (num z) (list_max (map mineval sums))) /\ (num z <= next z -> num y <= next y) /\ (forall s, In s ss -> In i (members s) -> mineval s <= next y)).
  { induction ss as [|s ss IH]; intros I l1 _ z Ez; [exists z; cbn; repeat split; auto; [lia|intros s []]|]. cbn [fold_left].
    assert (Ms : mineval s <= list_max (map mineval sums)). { pose proof (proj1 (list_max_le (map mineval sums) (list_max (map mineval sums))) (le_n _)) as F. rewrite Forall_forall in F. apply F, in_map, I. left. reflexivity. }
    assert (G : forall ms l1 z, nth_error l1 i = Some z -> exists y, nth_error (fold_left (fun l i => upd i (fun x => set_next x (mineval s) false) l) ms l1) i = Some y /\ num y = num z /\ refine y = refine z /\ res y = res z /\ how y = how z /\ next z <= next y /\ next y <= max (next z) (max (num z) (list_max (map mineval sums))) /\ (num z <= next z -> num y <= next y) /\ (In i ms -> mineval s <= next y)).
    { clear - Ms. induction ms as [|m ms IH]; intros l1 z Ez; [exists z; cbn; repeat split; auto; [lia|intros []]|]. cbn [fold_left]. destruct (Nat.eq_dec m i) as [->|N].
      - destruct (IH (upd i (fun x => set_next x (mineval s) false) l1) (set_next z (mineval s) false)) as (y & Q0 & Q1 & Q2 & Q3 & Q4 & Q5 & Q6 & Q7 & Q8); [rewrite upd_nth, Nat.eqb_refl, Ez; reflexivity|].
        exists y. cbn [set_next num next refine res how] in *. repeat split; auto; try lia.
      - destruct (IH (upd m (fun x => set_next x (mineval s) false) l1) z) as (y & Q0 & Q1 & Q2 & Q3 & Q4 & Q5 & Q6 & Q7 & Q8); [rewrite upd_nth; destruct (Nat.eqb_spec i m); [congruence|exact Ez]|].
        exists y. repeat split; auto. intros [->|Hi]; [contradiction|auto]. }
    destruct (G (members s) l1 z Ez) as (y & Q0 & Q1 & Q2 & Q3 & Q4 & Q5 & Q6 & Q7 & Q8). destruct (IH ltac:(intros a Ha; apply I; right; exact Ha) _ (or_intror Logic.I) y Q0) as (v & V0 & V1 & V2 & V3 & V4 & V5 & V6 & V7 & V8).
    exists v. repeat split; try congruence; try lia; auto. intros t [->|Ht] Hi; [specialize (Q8 Hi); lia|apply V8; assumption]. }
  exact (G sums (incl_refl _) l (or_intror Logic.I) x E).
Qed.
Lemma mineval_length sums l : length (ensure_mineval sums l) = length l.
Proof.
  unfold ensure_mineval. apply (loop_inv (fun l' => length l' = length l) (fun s l i => upd i (fun x => set_next x (mineval s) false) l)); [reflexivity|]. intros s i l' _ _ H. rewrite upd_length. exact H.
Qed.
(** For all answers of the integrators, all extrapolations and any time pressure the evaluation of an amplitude of fresh
    integrals ends after a bounded number of passes, with a result for every integral. *)
Definition positive_table x : Prop := match how x with Qmc keys _ => lattice_table keys | _ => True end.
Definition reports (out : nat -> integral -> A * nat) : Prop := forall i x, match how x with Cuba _ => 1 <= snd (out i x) | _ => True end.
Lemma first_settled sums first l : covered sums l -> reports first -> Forall (fun x => refine x = true /\ positive_table x /\ num x <= next x) l -> Forall settled (evaluate_integrals err first (ensure_mineval sums l)).
Proof.
  intros [C1 C2] HR F. apply Forall_forall. intros y Hy. unfold evaluate_integrals in Hy. apply in_map_iff in Hy as ([i x] & <- & Hx). apply numbered_in in Hx. cbn [fst snd].
  assert (Li : i < length l) by (rewrite <- (mineval_length sums l); apply nth_error_Some; congruence). destruct (nth_error l i) as [z|] eqn:Ez; [|apply nth_error_None in Ez; lia].
  destruct (loop_le sums l i z Ez) as (y & Q0 & Q1 & Q2 & Q3 & Q4 & Q5 & Q6 & Q7 & Q8). rewrite Hx in Q0. injection Q0 as <-. rewrite Forall_forall in F. destruct (F z (nth_error_In _ _ Ez)) as (F1 & F2 & F3).
  destruct (C2 i Li) as (s & Hs & Hi). specialize (Q8 s Hs Hi). specialize (C1 s Hs). specialize (Q7 F3). specialize (HR i x). rewrite F1 in Q2. unfold positive_table in F2. rewrite <- Q4 in F2.
  destruct (first i x) as [r m] eqn:Ef. cbn [snd] in HR. destruct (Nat.lt_ge_cases (num x) (next x)) as [L|L].
  - destruct (compute_busy err x (Some (r, m)) Q2 L) as (x' & n & E & B1 & B2 & B3 & _ & B5). rewrite E. cbn [fst]. specialize (B5 r m eq_refl). split; [lia|]. destruct (how x) as [keys med|dv|] eqn:K.
    + destruct (compute_qmc err x (Some (r, m)) keys med K Q2 L) as (x2 & E2 & D2 & _ & _). rewrite E in E2. injection E2 as <- _. rewrite B5, D2. destruct F2 as (S & N & P). destruct (get_next_spec keys med (next x) S) as [(k & Ek & K1 & K2 & K3)|(K1 & K2 & K3)]; [lia|]. destruct med; [rewrite K2 by reflexivity; lia|]. destruct (K3 eq_refl N) as [K4 _]. rewrite Forall_forall in P. specialize (P _ K4). lia.
    + unfold compute, compute_impl in E. rewrite Q2, K in E. apply Nat.ltb_lt in L. rewrite L in E. cbn [andb] in E. injection E as <- _. destruct dv; cbn [num next set_next] in *; lia.
    + unfold compute, compute_impl in E. rewrite Q2, K in E. apply Nat.ltb_lt in L. rewrite L in E. cbn [andb] in E. injection E as <- _. cbn [num next] in *. apply Nat.ltb_lt in L. lia.
  - rewrite compute_idle by (destruct (Nat.ltb_spec (num x) (next x)); [lia|apply andb_false_r]). cbn [fst]. split; lia.
Qed.
Theorem C65_terminates : forall all sums first (ws : nat -> world) l,
  Forall (fun x => refine x = true /\ positive_table x /\ num x <= next x) l -> covered sums l -> growing sums ->
  reports first -> (forall k, honest (outs (ws k)) /\ reducing (ws k)) ->
  exists l', refine_integrals err all sums (S (length l * limit sums)) first ws l = Some l' /\ length l' = length l /\ Forall (fun x => exists r, get_result x = Some r) l'.
Proof.
  intros all sums first ws l F C G R HW. unfold refine_integrals. set (l1 := evaluate_integrals err first (ensure_mineval sums l)). pose proof (first_settled sums first l C R F) as S1. fold l1 in S1.
  assert (L1 : length l1 = length l). { unfold l1, evaluate_integrals, numbered. rewrite map_length, combine_length, seq_length, mineval_length. lia. }
  pose proof (total_le (limit sums) l1) as T1. rewrite L1 in T1.
  destruct (repeat_ok sums (pass1 err sums) ws (fun w l H1 H2 H3 => pass1_ok sums w l G H1 H2 H3) HW (S (length l * limit sums)) (S (length l * limit sums)) 0 l1 S1 ltac:(lia) (le_n _)) as (l2 & k2 & E2 & S2 & L2 & T2). rewrite E2.
  destruct (repeat_ok sums (pass2 err all sums) ws (fun w l H1 H2 H3 => pass2_ok all sums w l G H1 H2 H3) HW (S (length l * limit sums)) (S (length l * limit sums)) k2 l2 S2 ltac:(lia) (le_n _)) as (l3 & k3 & E3 & S3 & L3 & T3). rewrite E3.
  exists l3. split; [reflexivity|]. split; [congruence|]. eapply Forall_impl; [|exact S3]. intros x [_ Hx]. unfold get_result. destruct (Nat.leb_spec (num x) 0); [lia|]. eexists. reflexivity.
Qed.
(** ** what holds when a loop ends *)
Lemma loop_quiet (f : sum -> state -> nat -> state) (Q : sum -> nat -> integral -> Prop) sums l :
  (forall s i, snd (f s (l, false) i) = false -> f s (l, false) i = (l, false) /\ forall x, nth_error l i = Some x -> Q s i x) ->
  (forall s st i, snd st = true -> snd (f s st i) = true) ->
  snd (fold_left (fun st s => fold_left (f s) (members s) st) sums (l, false)) = false ->
  fold_left (fun st s => fold_left (f s) (members s) st) sums (l, false) = (l, false) /\ forall s i x, In s sums -> In i (members s) -> nth_error l i = Some x -> Q s i x.
Proof.
  intros H1 H2.
  assert (K1 : forall s ms st, snd st = true -> snd (fold_left (f s) ms st) = true). { intros s ms. induction ms as [|m ms IH]; intros st Hs; [exact Hs|]. cbn. apply IH, H2, Hs. }
  assert (K2 : forall ss st, snd st = true -> snd (fold_left (fun st s => fold_left (f s) (members s) st) ss st) = true). { intros ss. induction ss as [|s ss IH]; intros st Hs; [exact Hs|]. cbn. apply IH, K1, Hs. }
  assert (K3 : forall s ms, snd (fold_left (f s) ms (l, false)) = false -> fold_left (f s) ms (l, false) = (l, false) /\ forall i x, In i ms -> nth_error l i = Some x -> Q s i x).
  { intros s ms. induction ms as [|m ms IH]; intros Hs; [split; [reflexivity|intros i x []]|]. cbn [fold_left] in *. destruct (snd (f s (l, false) m)) eqn:B; [rewrite K1 in Hs by exact B; discriminate|]. destruct (H1 s m B) as [E1 E2]. rewrite E1 in *. destruct (IH Hs) as [I1 I2]. split; [exact I1|]. intros i x [->|Hi] Hx; [apply E2, Hx|apply I2; assumption]. }
  induction sums as [|s ss IH]; intros Hs; [split; [reflexivity|intros s i x []]|]. cbn [fold_left] in *. destruct (snd (fold_left (f s) (members s) (l, false))) eqn:B; [rewrite K2 in Hs by exact B; discriminate|]. destruct (K3 s (members s) B) as [E1 E2]. rewrite E1 in *. destruct (IH Hs) as [I1 I2]. split; [exact I1|]. intros t i x [->|Ht] Hi Hx; [apply E2; assumption|eapply I2; eassumption].
Qed.
Lemma quiet_increase sums l : growing sums -> Forall settled l -> ensure_maxincreasefac sums l = l.
Proof.
  intros G F. unfold ensure_maxincreasefac. apply (loop_inv (fun l' => l' = l) (fun s l i => upd i (fun x => if max_next s (num x) <? next x then set_next x (max_next s (num x)) true else x) l)); [reflexivity|]. intros s i l' Is Ii ->. apply nth_ext_error. intros j. rewrite upd_nth. destruct (Nat.eqb_spec j i) as [->|N]; [|reflexivity].
  destruct (nth_error l i) as [x|] eqn:E; [|reflexivity]. cbn [option_map]. rewrite Forall_forall in F. destruct (F x (nth_error_In _ _ E)) as [S1 S2]. specialize (G s (num x) Is S2). destruct (Nat.ltb_spec (max_next s (num x)) (next x)); [lia|reflexivity].
Qed.
Lemma quiet_evaluate out l : Forall settled l -> evaluate_integrals err out l = l.
Proof.
  intros F. unfold evaluate_integrals, numbered. generalize 0 as k. induction F as [|x l [S1 S2] F IH]; intros k; [reflexivity|]. cbn. rewrite IH. f_equal. rewrite compute_idle; [reflexivity|]. destruct (Nat.ltb_spec (num x) (next x)); [lia|apply andb_false_r].
Qed.
(** Without time pressure the first loop ends only when every integral of every sum that can still be refined and has
    fewer points than allowed is precise enough or would not get more points. *)
Theorem C65_goal_min_prec : forall sums (w : world) l l', growing sums -> Forall settled l -> time w = Reduce [] -> pass1 err sums w l = (l', false) ->
  l' = l /\ forall s i x, In s sums -> In i (members s) -> nth_error l' i = Some x -> refine x = true -> num x < maxeval s -> match wants w s i x with Some new => new <= num x | None => True end.
Proof.
  intros sums w l l' G F T E. unfold pass1 in E. rewrite T in E. cbn [wall_clock fold_left fst snd] in E. injection E as E1 E2.
  destruct (loop_quiet (min_prec_term (wants w)) (fun s i x => refine x = true -> num x < maxeval s -> match wants w s i x with Some new => new <= num x | None => True end) sums l) as [Q1 Q2]; [| |exact E2|].
  - intros s i. unfold min_prec_term. cbn [fst snd]. destruct (nth_error l i) as [x|] eqn:Ex; [|intros _; split; [reflexivity|discriminate]]. destruct (refine x) eqn:R; cbn [andb]; [|intros _; split; [reflexivity|intros y [= <-] X; congruence]].
    destruct (Nat.ltb_spec (num x) (maxeval s)) as [L|L]; [|intros _; split; [reflexivity|intros y [= <-]; lia]]. destruct (wants w s i x) as [new|] eqn:W; [|intros _; split; [reflexivity|intros y [= <-] _ _; rewrite W; exact I]]. destruct (Nat.ltb_spec (num x) new); [discriminate|]. intros _. split; [reflexivity|]. intros y [= <-] _ _. rewrite W. assumption.
  - intros s st i Hs. unfold min_prec_term. destruct (nth_error (fst st) i) as [x|]; [|exact Hs]. destruct (refine x && (num x <? maxeval s)); [|exact Hs]. destruct (wants w s i x) as [new|]; [|exact Hs]. destruct (num x <? new); [reflexivity|exact Hs].
  - unfold ensure_min_prec in E1. rewrite Q1 in E1. cbn [fst] in E1. rewrite quiet_increase in E1 by assumption. rewrite quiet_evaluate in E1 by assumption. subst l'. split; [reflexivity|]. exact Q2.
Qed.
(** The same for the error goals of the sums. *)
Theorem C65_goal_error : forall sums (w : world) l l', growing sums -> Forall settled l -> time w = Reduce [] -> pass2 err false sums w l = (l', false) ->
  l' = l /\ forall s i x, In s sums -> In i (members s) -> nth_error l' i = Some x -> refine x = true -> num x < maxeval s -> match wants w s i x with Some new => new <= num x | None => True end.
Proof.
  intros sums w l l' G F T E. unfold pass2 in E. rewrite T in E. cbn [wall_clock fold_left fst snd] in E. injection E as E1 E2.
  destruct (loop_quiet (error_goal_term (wants w)) (fun s i x => refine x = true -> num x < maxeval s -> match wants w s i x with Some new => new <= num x | None => True end) sums l) as [Q1 Q2]; [| |exact E2|].
  - intros s i. unfold error_goal_term. cbn [fst snd]. destruct (nth_error l i) as [x|] eqn:Ex; [|intros _; split; [reflexivity|discriminate]]. destruct (refine x) eqn:R; [|intros _; split; [reflexivity|intros y [= <-] X; congruence]].
    destruct (wants w s i x) as [new|] eqn:W; [|intros _; split; [reflexivity|intros y [= <-] _ _; rewrite W; exact I]]. cbv zeta. cbn [snd orb]. intros B. apply Nat.ltb_ge in B. rewrite Forall_forall in F. destruct (F x (nth_error_In _ _ Ex)) as [S1 S2]. split.
    + f_equal; [|apply Nat.ltb_ge; exact B]. apply nth_ext_error. intros j. rewrite upd_nth. destruct (Nat.eqb_spec j i) as [->|N]; [|reflexivity]. rewrite Ex. cbn [option_map]. f_equal. destruct x as [a b c d e]. unfold set_next. cbn [num next refine res how] in *. f_equal. lia.
    + intros y [= <-] _ L. rewrite W. lia.
  - intros s st i Hs. unfold error_goal_term. destruct (nth_error (fst st) i) as [x|]; [|exact Hs]. destruct (refine x); [|exact Hs]. destruct (wants w s i x) as [new|]; [|exact Hs]. cbn [snd]. rewrite Hs. reflexivity.
  - unfold ensure_error_goal in E1. rewrite Q1 in E1. cbn [fst] in E1. rewrite quiet_increase in E1 by assumption. rewrite quiet_evaluate in E1 by assumption. subst l'. split; [reflexivity|]. exact Q2.
Qed.
(** When the time is up no integral is computed any more and the loop ends. *)
Theorem C65_time_up : forall all sums (w : world) l, growing sums -> Forall settled l -> time w = Stop -> pass1 err sums w l = (l, false) /\ pass2 err all sums w l = (l, false).
Proof.
  intros all sums w l G F T.
  assert (X : forall st, inv (limit sums) l st -> (evaluate_integrals err (outs w) (fst (wall_clock (time w) st)), snd (wall_clock (time w) st)) = (l, false)).
  { intros st [H1 _]. rewrite T. cbn [wall_clock fst snd]. f_equal. assert (E : map (fun x => set_next x (num x) true) (fst st) = l).
    - clear - H1 F. induction H1 as [|x0 x l0 l Hx H1 IH]; [reflexivity|]. apply Forall_cons_iff in F as [[S1 S2] F]. cbn. rewrite IH by exact F. f_equal. destruct Hx as (A1 & A2 & A3 & A4 & _). destruct x as [a b c d e], x0 as [a0 b0 c0 d0 e0]. unfold set_next. cbn in *. subst. f_equal. lia.
    - rewrite E. apply quiet_evaluate, F. }
  assert (N : Forall (fun x => 1 <= num x) l) by (eapply Forall_impl; [|exact F]; intros x [_ Hx]; exact Hx).
  assert (I0 : inv (limit sums) l (l, false)) by (split; [apply settled_asked, F|discriminate]).
  split.
  - unfold pass1. apply X. apply increase_inv; [exact G|exact N|]. apply min_prec_inv, I0.
  - unfold pass2. apply X. apply increase_inv; [exact G|exact N|]. destruct all; [apply error_goal_inv|]; apply error_goal_inv, I0.
Qed.
(** ** the number of points stays bounded *)
Lemma get_next_mono keys med d d' : lattice_table keys -> d <= d' -> get_next_n keys med d <= get_next_n keys med d'.
Proof.
  intros (S & N & _) L. destruct (get_next_spec keys med d S) as [(k & E & K1 & K2 & K3)|(K1 & K2 & K3)]; destruct (get_next_spec keys med d' S) as [(k' & E' & K1' & K2' & K3')|(K1' & K2' & K3')].
  - rewrite E, E'. apply K3; [exact K1'|lia].
  - rewrite E. destruct med; [rewrite K2' by reflexivity; specialize (K1' k K1); lia|]. destruct (K3' eq_refl N) as [_ Q]. apply Q, K1.
  - specialize (K1 k' K1'). lia.
  - destruct med; [rewrite K2, K2' by reflexivity; exact L|]. destruct (K3 eq_refl N) as [Q1 Q2], (K3' eq_refl N) as [Q3 Q4]. apply Q4, Q1.
Qed.
(** largest possible request *)
Definition request_limit sums x : nat := max (next x) (max (num x) (max (list_max (map mineval sums)) (limit sums))).
Definition points_limit sums x : nat := match how x with Qmc keys med => max (num x) (get_next_n keys med (request_limit sums x)) | _ => 0 end.
Definition is_qmc x : Prop := exists keys med, how x = Qmc keys med /\ lattice_table keys.
Definition bounded sums (x0 x : integral) : Prop := how x = how x0 /\ num x <= points_limit sums x0.
Lemma compute_bounded sums x0 x r m : is_qmc x0 -> bounded sums x0 x -> (num x < next x -> next x <= request_limit sums x0) -> bounded sums x0 (fst (fst (compute err x (Some (r, m))))).
Proof.
  intros (keys & med & K & T) [H1 H2] H3. destruct (refine x && (num x <? next x)) eqn:E; [|rewrite compute_idle by exact E; split; assumption]. apply andb_true_iff in E as [E1 E2]. apply Nat.ltb_lt in E2.
  destruct (compute_qmc err x (Some (r, m)) keys med) as (x' & C1 & C2 & _ & C4); [congruence|assumption|assumption|]. destruct (compute_facts err x (Some (r, m))) as (_ & _ & D). { unfold ok. lia. } rewrite C1 in *. cbn [fst] in *. split; [congruence|]. destruct (C4 r m eq_refl) as (C5 & _). rewrite C5. unfold points_limit in *. rewrite K in *. pose proof (get_next_mono keys med (next x) (request_limit sums x0) T (H3 E2)). lia.
Qed.
Lemma evaluate_bounded sums out l0 l : Forall is_qmc l0 -> Forall2 (fun x0 x => bounded sums x0 x /\ (num x < next x -> next x <= request_limit sums x0)) l0 l -> Forall2 (bounded sums) l0 (evaluate_integrals err out l).
Proof.
  intros F H. unfold evaluate_integrals, numbered. generalize 0 as k. induction H as [|x0 x l0 l [Hb Hn] H IH]; intros k; [constructor|]. apply Forall_cons_iff in F as [F1 F2]. cbn. constructor; [|apply IH, F2]. rewrite (surjective_pairing (out k x)). apply compute_bounded; assumption.
Qed.
Lemma bounded_pass sums l0 l l1 : Forall2 (bounded sums) l0 l -> Forall2 (asked (limit sums)) l l1 -> Forall2 (fun x0 x => bounded sums x0 x /\ (num x < next x -> next x <= request_limit sums x0)) l0 l1.
Proof.
  intros H. revert l1. induction H as [|x0 x l0 l [B1 B2] H IH]; intros l1 A1; inversion A1 as [|? y ? l2 Y1 Y2]; subst; constructor; [|apply IH; assumption].
  destruct Y1 as (Y1 & _ & _ & Y4 & Y5 & Y6). split; [split; [congruence|lia]|]. intros L. destruct (Y6 L) as (_ & _ & Q). unfold request_limit. lia.
Qed.
Lemma repeat_bounded sums pass ws l0 : (forall w l, honest (outs w) -> reducing w -> Forall settled l -> exists st, inv (limit sums) l st /\ pass w l = (evaluate_integrals err (outs w) (fst st), snd st)) ->
  (forall k, honest (outs (ws k)) /\ reducing (ws k)) -> Forall is_qmc l0 -> forall fuel k l l' k', Forall settled l -> Forall2 (bounded sums) l0 l -> repeat_pass pass fuel k ws l = Some (l', k') -> Forall settled l' /\ Forall2 (bounded sums) l0 l'.
Proof.
  intros HP HW FQ. induction fuel as [|fuel IH]; intros k l l' k' F B E; [discriminate|]. cbn [repeat_pass] in E. destruct (HW k) as [W1 W2]. destruct (HP (ws k) l W1 W2 F) as (st & [I1 I2] & E'). rewrite E' in E.
  destruct (evaluate_progress (limit sums) (outs (ws k)) l (fst st) W1 F I1) as (_ & P1 & _). pose proof (evaluate_bounded sums (outs (ws k)) l0 (fst st) FQ (bounded_pass sums l0 l (fst st) B I1)) as B'. destruct (snd st); [eapply IH; eassumption|]. injection E as <- <-. split; assumption.
Qed.
(** An integral computed by the QMC never uses more points than the lattice for the largest of the first request, mineval and maxeval. *)
Theorem C65_points : forall all sums fuel first (ws : nat -> world) l l',
  Forall (fun x => refine x = true /\ is_qmc x /\ num x <= next x) l -> covered sums l -> growing sums -> (forall k, honest (outs (ws k)) /\ reducing (ws k)) ->
  refine_integrals err all sums fuel first ws l = Some l' -> Forall2 (fun x0 x => num x <= points_limit sums x0) l l'.
Proof.
  intros all sums fuel first ws l l' F C G HW E. assert (FQ : Forall is_qmc l) by (eapply Forall_impl; [|exact F]; intros x (_ & Hx & _); exact Hx).
  assert (HR : Forall (fun x => refine x = true /\ positive_table x /\ num x <= next x) l). { eapply Forall_impl; [|exact F]. intros x (Q1 & (keys & med & K & T) & Q3). repeat split; [exact Q1| |exact Q3]. unfold positive_table. rewrite K. exact T. }
  set (l1 := evaluate_integrals err first (ensure_mineval sums l)).
  assert (Q : forall i x, nth_error (ensure_mineval sums l) i = Some x -> is_qmc x).
  { intros i x Ex. assert (Li : i < length l) by (rewrite <- (mineval_length sums l); apply nth_error_Some; congruence). destruct (nth_error l i) as [z|] eqn:Ez; [|apply nth_error_None in Ez; lia]. destruct (loop_le sums l i z Ez) as (y & Q0 & _ & _ & _ & Q4 & _). rewrite Ex in Q0. injection Q0 as <-. rewrite Forall_forall in FQ. destruct (FQ z (nth_error_In _ _ Ez)) as (keys & med & K & T). exists keys, med. split; [congruence|exact T]. }
  assert (S1 : Forall settled l1).
  { (* the number of evaluations reported does not matter for the QMC *)
    assert (E1 : l1 = evaluate_integrals err (fun i x => (fst (first i x), S (snd (first i x)))) (ensure_mineval sums l)).
    { unfold l1, evaluate_integrals. apply map_ext_in. intros [i x] Hx. apply numbered_in in Hx. cbn [fst snd]. destruct (Q i x Hx) as (keys & med & K & _). destruct (first i x) as [r m]. cbn [fst snd]. unfold compute, compute_impl. rewrite K. reflexivity. }
    rewrite E1. apply first_settled; [exact C| |exact HR]. intros i x. destruct (how x); cbn; try exact I. lia. }
  assert (B1 : Forall2 (bounded sums) l l1).
  { apply evaluate_bounded; [exact FQ|]. assert (L : length l = length (ensure_mineval sums l)) by (symmetry; apply mineval_length).
    assert (X : forall i x, nth_error l i = Some x -> exists y, nth_error (ensure_mineval sums l) i = Some y /\ bounded sums x y /\ (num y < next y -> next y <= request_limit sums x)).
    { intros i x Ex. destruct (loop_le sums l i x Ex) as (y & Q0 & Q1 & Q2 & Q3 & Q4 & Q5 & Q6 & Q7 & Q8). exists y. split; [exact Q0|]. split; [split; [exact Q4|]|].
      - rewrite Forall_forall in FQ. destruct (FQ x (nth_error_In _ _ Ex)) as (keys & med & K & T). unfold points_limit. rewrite K. lia.
      - intros _. unfold request_limit. lia. }
    clear - L X. revert L X. generalize (ensure_mineval sums l) as m. induction l as [|a l IH]; intros [|b m] L X; cbn in L; try lia; [constructor|]. destruct (X 0 a eq_refl) as (y & [= ->] & Y). constructor; [exact Y|]. apply IH; [lia|]. intros i x Ex. exact (X (S i) x Ex). }
  unfold refine_integrals in E. fold l1 in E. destruct (repeat_pass (pass1 err sums) fuel 0 ws l1) as [[l2 k2]|] eqn:E2; [|discriminate].
  destruct (repeat_bounded sums (pass1 err sums) ws l (fun w l H1 H2 H3 => pass1_ok sums w l G H1 H2 H3) HW FQ fuel 0 l1 l2 k2 S1 B1 E2) as [S2 B2]. destruct (repeat_pass (pass2 err all sums) fuel k2 ws l2) as [[l3 k3]|] eqn:E3; [|discriminate]. injection E as <-.
  destruct (repeat_bounded sums (pass2 err all sums) ws l (fun w l H1 H2 H3 => pass2_ok all sums w l G H1 H2 H3) HW FQ fuel k2 l2 l3 k3 S2 B2 E3) as [S3 B3]. clear - B3. induction B3 as [|a b l m [_ H] B IH]; constructor; assumption.
Qed.
End Handler.
(** ** deviation: without room for growth the first loop never ends *)
Theorem C65_increase_factor_one_refuted : exists sums (ws : nat -> world R) l, (forall s n, In s sums -> max_next s n = n) /\ (forall k, honest (outs (ws k)) /\ reducing (ws k)) /\
  forall fuel, refine_integrals Some false sums fuel (fun _ _ => (1%R, 0)) ws l = None.
Proof.
  pose (s := mkSum [0] 10 100 (fun n => n)). pose (w := mkW (fun _ (x : integral R) => (1%R, next x)) (fun _ _ _ => Some 50) (fun _ _ _ => None) (Reduce [])). exists [s], (fun _ => w), [fresh (Qmc [10; 20; 40] false) 10 0%R].
  split; [intros t n [<-|[]]; reflexivity|]. split; [intros k; split; [intros i x _; cbn; lia|constructor]|]. intros fuel. unfold refine_integrals.
  pose (x1 := mkI 10 10 true 1%R (Qmc [10; 20; 40] false)). change (evaluate_integrals Some (fun _ _ => (1%R, 0)) (ensure_mineval [s] [fresh (Qmc [10; 20; 40] false) 10 0%R])) with [x1].
  assert (P : pass1 Some [s] w [x1] = ([x1], true)) by reflexivity. assert (X : forall f k, repeat_pass (pass1 Some [s]) f k (fun _ => w) [x1] = None). { induction f as [|f IH]; intros k; [reflexivity|]. cbn [repeat_pass]. rewrite P. apply IH. }
  rewrite X. reflexivity.
Qed.
(** concrete case of the hypotheses *)
Example C65_ex : let sums := [mkSum [0; 1] 10 100 (fun n => 20 * n); mkSum [1] 10 50 (fun n => 3 * n)] in let l := [fresh (Qmc [10; 20; 40] false) 10 0%R; fresh (Cuba false) 100 0%R] in
  Forall (fun x => refine x = true /\ positive_table x /\ num x <= next x) l /\ covered sums l /\ growing sums /\ limit sums = 100.
Proof.
  cbv zeta. split; [repeat constructor; cbn; try lia; discriminate|]. split; [|split; [|reflexivity]].
  - split; [intros s [<-|[<-|[]]]; cbn; lia|]. intros i Hi. cbn in Hi. exists (mkSum [0; 1] 10 100 (fun n => 20 * n)). split; [left; reflexivity|]. cbn. lia.
  - intros s n [<-|[<-|[]]] Hn; cbn [max_next]; lia.
Qed.

(** * C66: the loop around a failing integration *)
Section Retry.
Context {A : Type} (err : A -> option R).
Local Open Scope R_scope.
Lemma shrink_facts mn fac p : 0 < mn -> 0 < fac < 1 -> fst (shrink mn fac p) <= p /\ (mn <= p -> mn <= fst (shrink mn fac p)) /\ (p <= mn -> fst (shrink mn fac p) = p) /\ (snd (shrink mn fac p) = false <-> p <= mn).
Proof.
  intros H1 H2. unfold shrink. destruct (Rlt_dec mn p) as [L|L]; cbn [fst snd].
  - assert (p * fac <= p) by (rewrite <- (Rmult_1_r p) at 2; apply Rmult_le_compat_l; lra). destruct (Rlt_dec (p * fac) mn); repeat split; try lra; try discriminate.
  - repeat split; lra.
Qed.
(** The integration is repeated only finitely often. *)
Theorem C66_ends : forall mn fac (outs : nat -> option (A * nat)) s pars, 0 < mn -> 0 < fac < 1 -> exists fuel r, attempts err mn fac fuel 0 outs s pars = Some r.
Proof.
  intros mn fac outs s pars H1 H2.
  assert (X : forall N k s pars, Forall (fun p => p * fac ^ N <= mn) pars -> exists r, attempts err mn fac (S N) k outs s pars = Some r).
  { induction N as [|N IH]; intros k t q F.
    - cbn. destruct (compute err t (outs k)) as [[t' [|]] c]; [eexists; reflexivity|]. destruct (existsb snd (map (shrink mn fac) q)) eqn:E; [|eexists; reflexivity]. exfalso. apply existsb_exists in E as (y & Hy & By). apply in_map_iff in Hy as (p & <- & Hp). rewrite Forall_forall in F. specialize (F p Hp). cbn in F. destruct (shrink_facts mn fac p H1 H2) as (_ & _ & _ & Q). assert (snd (shrink mn fac p) = false) by (apply Q; lra). congruence.
    - cbn [attempts]. destruct (compute err t (outs k)) as [[t' [|]] c]; [eexists; reflexivity|]. destruct (existsb snd (map (shrink mn fac) q)) eqn:E; [|eexists; reflexivity].
      destruct (IH (S k) t' (map fst (map (shrink mn fac) q))) as (r & Er); [|exists r; exact Er]. rewrite map_map. apply Forall_forall. intros y Hy. apply in_map_iff in Hy as (p & <- & Hp). rewrite Forall_forall in F. specialize (F p Hp). cbn [pow] in F.
      assert (PN : 0 < fac ^ N) by (apply pow_lt; lra). assert (PN1 : fac ^ N <= 1) by (clear - H2; induction N as [|N IH]; cbn; [lra|]; assert (0 < fac ^ N) by (apply pow_lt; lra); nra).
      unfold shrink. destruct (Rlt_dec mn p) as [L|L]; cbn [fst]; [destruct (Rlt_dec (p * fac) mn)|]; nra. }
  assert (N : exists N, Forall (fun p => p * fac ^ N <= mn) pars).
  { clear - H1 H2. induction pars as [|p q IH]; [exists 0%nat; constructor|]. destruct IH as [N F]. destruct (pow_lt_1_zero fac ltac:(rewrite Rabs_pos_eq; lra) (mn / (Rabs p + 1)) ltac:(apply Rdiv_lt_0_compat; [lra|pose proof (Rabs_pos p); lra])) as [N0 HN].
    exists (max N N0). assert (G : forall M, 0 < fac ^ M <= 1). { induction M as [|M IH]; cbn; [lra|]. nra. }
    constructor.
    - specialize (HN (max N N0) ltac:(lia)). destruct (G (max N N0)) as [G1 G2]. rewrite Rabs_pos_eq in HN by lra. pose proof (Rle_abs p). pose proof (Rabs_pos p). assert (fac ^ max N N0 * (Rabs p + 1) < mn) by (apply (Rmult_lt_compat_r (Rabs p + 1)) in HN; [|lra]; unfold Rdiv in HN; rewrite Rmult_assoc, Rinv_l, Rmult_1_r in HN by lra; exact HN). nra.
    - eapply Forall_impl; [|exact F]. cbv beta. intros y Hy. replace (max N N0) with (N + (max N N0 - N))%nat by lia. rewrite pow_add. destruct (G N) as [G1 G2], (G (max N N0 - N)%nat) as [G3 G4]. destruct (Rle_dec 0 (y * fac ^ N)); nra. }
  destruct N as [N F]. exists (S N). apply X, F.
Qed.
(** Parameters never grow, those above the minimum do not fall below it, and the loop gives up only when all of them are
    at or below the minimum and the integration still fails. *)
Theorem C66_parameters : forall mn fac (outs : nat -> option (A * nat)) fuel k s pars s' pars' v, 0 < mn -> 0 < fac < 1 ->
  attempts err mn fac fuel k outs s pars = Some (s', pars', v) ->
  Forall2 (fun p p' => p' <= p /\ (mn <= p -> mn <= p')) pars pars' /\
  match v with
  | GaveUp => Forall (fun p => p <= mn) pars' /\ exists t j, snd (fst (compute err t (outs j))) = false /\ s' = fst (fst (compute err t (outs j)))
  | Finished => exists t j, snd (fst (compute err t (outs j))) = true /\ s' = fst (fst (compute err t (outs j)))
  end.
Proof.
  intros mn fac outs fuel k s pars s' pars' v H1 H2. revert k s pars. induction fuel as [|fuel IH]; intros k s pars E; [discriminate|]. cbn [attempts] in E. destruct (compute err s (outs k)) as [[t b] c] eqn:C. destruct b.
  - injection E as <- <- <-. split; [clear; induction pars; constructor; [lra|assumption]|]. exists s, k. rewrite C. split; reflexivity.
  - assert (Z : Forall2 (fun p p' => p' <= p /\ (mn <= p -> mn <= p')) pars (map fst (map (shrink mn fac) pars))) by (clear - H1 H2; induction pars as [|p q IH]; cbn; constructor; [destruct (shrink_facts mn fac p H1 H2) as (Q1 & Q2 & _); split; assumption|exact IH]).
    destruct (existsb snd (map (shrink mn fac) pars)) eqn:X.
    + destruct (IH (S k) t (map fst (map (shrink mn fac) pars)) E) as [I1 I2]. split; [|exact I2]. clear - Z I1. revert pars' I1. induction Z as [|p q l m [Z1 Z2] Z IH]; intros pars' I1; inversion I1 as [|? y ? n [Y1 Y2] Y3]; subst; constructor; [split; [lra|auto]|apply IH; assumption].
    + injection E as <- <- <-. split; [exact Z|]. split; [|exists s, k; rewrite C; split; reflexivity]. apply Forall_forall. intros y Hy. rewrite map_map in Hy. apply in_map_iff in Hy as (p & <- & Hp). destruct (shrink_facts mn fac p H1 H2) as (_ & _ & Q3 & Q4).
      destruct (snd (shrink mn fac p)) eqn:B; [|apply proj1 in Q4; specialize (Q4 eq_refl); rewrite Q3 by exact Q4; exact Q4]. exfalso. assert (Y : existsb snd (map (shrink mn fac) pars) = true); [|congruence]. apply existsb_exists. exists (shrink mn fac p). split; [apply in_map, Hp|exact B].
Qed.
End Retry.
(** with a factor that does not reduce, a failing integration is repeated for ever *)
Theorem C66_factor_one_refuted : exists (s : integral R), forall fuel k, attempts Some (/ 100)%R 1%R fuel k (fun _ => None) s [1%R] = None.
Proof.
  exists (fresh (Cuba false) 100 0%R). induction fuel as [|fuel IH]; intros k; [reflexivity|]. cbn -[Nat.ltb]. change (0 <? 100) with true. cbn -[Nat.ltb]. unfold shrink. destruct (Rlt_dec (/ 100) 1) as [_|N]; [|exfalso; lra]. destruct (Rlt_dec (1 * 1) (/ 100)) as [N|_]; [exfalso; lra|]. cbn -[Nat.ltb]. rewrite Rmult_1_r. apply IH.
Qed.
Example C66_ex : (0 < / 100)%R /\ (0 < / 2 < 1)%R. Proof. lra. Qed.
Print Assumptions C65_terminates.
