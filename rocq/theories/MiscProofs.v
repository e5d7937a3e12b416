From Verif Require Export MiscSpec.
Local Open Scope nat_scope.

(** * generic list lemmas *)
Lemma NoDup_app_intro {A} (l1 l2 : list A) :
  NoDup l1 -> NoDup l2 -> (forall x, In x l1 -> In x l2 -> False) -> NoDup (l1 ++ l2).
Proof.
  induction l1 as [|a l1 IH]; intros H1 H2 Hd; [exact H2|].
  inversion H1 as [|? ? Ha H1']; subst. cbn. constructor.
  - rewrite in_app_iff. intros [H|H]; [exact (Ha H)|apply (Hd a); [left; reflexivity|exact H]].
  - apply IH; [exact H1'|exact H2|]. intros x Hx. apply Hd. right. exact Hx.
Qed.
Lemma NoDup_flat_map {A B} (f : A -> list B) (l : list A) :
  NoDup l -> (forall x, In x l -> NoDup (f x)) ->
  (forall x y b, In x l -> In y l -> In b (f x) -> In b (f y) -> x = y) -> NoDup (flat_map f l).
Proof.
  induction l as [|a l IH]; intros Hn Hf Hd; [constructor|]. cbn.
  inversion Hn as [|? ? Ha Hn']; subst. apply NoDup_app_intro.
  - apply Hf. left. reflexivity.
  - apply IH; [exact Hn'| |].
    + intros x Hx. apply Hf. right. exact Hx.
    + intros x y b Hx Hy. apply Hd; right; assumption.
  - intros b H1 H2. apply in_flat_map in H2 as (y & Hy & Hb).
    assert (a = y) by (eapply (Hd a y b); [left; reflexivity|right; exact Hy|exact H1|exact Hb]).
    subst. exact (Ha Hy).
Qed.
Lemma NoDup_map_inj {A B} (f : A -> B) (l : list A) :
  (forall x y, In x l -> In y l -> f x = f y -> x = y) -> NoDup l -> NoDup (map f l).
Proof.
  induction l as [|a l IH]; intros Hi Hn; [constructor|]. inversion Hn as [|? ? Ha Hn']; subst. cbn. constructor.
  - intros H. apply in_map_iff in H as (y & E & Hy). apply Ha.
    rewrite (Hi a y); [exact Hy|left; reflexivity|right; exact Hy|symmetry; exact E].
  - apply IH; [|exact Hn']. intros x y Hx Hy. apply Hi; right; assumption.
Qed.
Lemma flat_map_map {A B C} (f : B -> list C) (g : A -> B) l : flat_map f (map g l) = flat_map (fun x => f (g x)) l.
Proof. induction l as [|a l IH]; [reflexivity|]. cbn. rewrite IH. reflexivity. Qed.
Lemma map_flat_map {A B C} (f : B -> C) (g : A -> list B) l : map f (flat_map g l) = flat_map (fun x => map f (g x)) l.
Proof. induction l as [|a l IH]; [reflexivity|]. cbn. rewrite map_app, IH. reflexivity. Qed.
Lemma flat_map_ext_in {A B} (f g : A -> list B) l : (forall x, In x l -> f x = g x) -> flat_map f l = flat_map g l.
Proof.
  induction l as [|a l IH]; intros H; [reflexivity|]. cbn. rewrite H by (left; reflexivity).
  rewrite IH; [reflexivity|]. intros x Hx. apply H. right. exact Hx.
Qed.
Lemma StronglySorted_app_intro {A} (R : A -> A -> Prop) l1 l2 :
  StronglySorted R l1 -> StronglySorted R l2 -> (forall a b, In a l1 -> In b l2 -> R a b) -> StronglySorted R (l1 ++ l2).
Proof.
  induction l1 as [|a l1 IH]; intros H1 H2 Hx; [exact H2|]. inversion H1 as [|? ? H1' Ha]; subst. cbn. constructor.
  - apply IH; [exact H1'|exact H2|]. intros b c Hb Hc. apply Hx; [right; exact Hb|exact Hc].
  - apply Forall_app. split; [exact Ha|]. apply Forall_forall. intros b Hb. apply Hx; [left; reflexivity|exact Hb].
Qed.
Lemma StronglySorted_map {A B} (R : B -> B -> Prop) (S : A -> A -> Prop) (f : A -> B) l :
  (forall a b, In a l -> In b l -> S a b -> R (f a) (f b)) -> StronglySorted S l -> StronglySorted R (map f l).
Proof.
  intros H Hs. induction Hs as [|a l Hs IH Ha]; [constructor|]. cbn. constructor.
  - apply IH. intros x y Hx Hy. apply H; right; assumption.
  - apply Forall_forall. intros b Hb. apply in_map_iff in Hb as (y & <- & Hy).
    apply H; [left; reflexivity|right; exact Hy|]. rewrite Forall_forall in Ha. apply Ha. exact Hy.
Qed.
Lemma StronglySorted_flat_map {A B} (R : B -> B -> Prop) (S : A -> A -> Prop) (f : A -> list B) l :
  StronglySorted S l -> (forall a, In a l -> StronglySorted R (f a)) ->
  (forall a b x y, In a l -> In b l -> S a b -> In x (f a) -> In y (f b) -> R x y) -> StronglySorted R (flat_map f l).
Proof.
  intros Hs. induction Hs as [|a l Hs IH Ha]; intros H1 H2; [constructor|]. cbn.
  apply StronglySorted_app_intro.
  - apply H1. left. reflexivity.
  - apply IH; [intros b Hb; apply H1; right; exact Hb|].
    intros b c x y Hb Hc. apply H2; right; assumption.
  - intros x y Hx Hy. apply in_flat_map in Hy as (b & Hb & Hy).
    rewrite Forall_forall in Ha. eapply (H2 a b); [left; reflexivity|right; exact Hb|apply Ha; exact Hb|exact Hx|exact Hy].
Qed.
Lemma seq_sorted n : forall s, StronglySorted lt (seq s n).
Proof.
  induction n as [|n IH]; intros s; [constructor|]. cbn. constructor; [apply IH|].
  apply Forall_forall. intros x Hx. apply in_seq in Hx. lia.
Qed.

(** * range_step *)
Lemma range_step_spec a b st x : 0 < st ->
  In x (range_step a b st) <-> x < b /\ exists k, x = a + k * st.
Proof.
  intros Hst. unfold range_step. rewrite in_map_iff. split.
  - intros (k & <- & Hk). apply in_seq in Hk. split; [|exists k; reflexivity].
    destruct (Nat.le_gt_cases b a) as [Hba|Hba].
    + replace (b - a + st - 1) with (st - 1) in Hk by lia. rewrite Nat.div_small in Hk by lia. lia.
    + assert (Hlt : k * st < b - a).
      { assert (Hk1 : k + 1 <= (b - a + st - 1) / st) by lia.
        apply (Nat.mul_le_mono_r _ _ st) in Hk1.
        pose proof (Nat.mul_div_le (b - a + st - 1) st ltac:(lia)) as Hd. nia. }
      lia.
  - intros [Hx (k & ->)]. exists k. split; [reflexivity|]. apply in_seq. split; [lia|].
    cbn. apply Nat.div_le_lower_bound; [lia|]. nia.
Qed.
Lemma range_step_sorted a b st : 0 < st -> StronglySorted lt (range_step a b st).
Proof. intros H. unfold range_step. eapply StronglySorted_map; [|apply seq_sorted]. intros x y _ _ Hxy. cbv beta. nia. Qed.
Lemma sorted_lt_NoDup l : StronglySorted lt l -> NoDup l.
Proof.
  intros H. induction H as [|a l H IH Ha]; constructor; [|exact IH].
  intros Hin. rewrite Forall_forall in Ha. specialize (Ha a Hin). lia.
Qed.

(** * combinations, powerset *)
Lemma sublist_nil_l {A} (l : list A) : sublist [] l.
Proof. induction l; constructor; assumption. Qed.
Lemma sublist_length {A} (c l : list A) : sublist c l -> length c <= length l.
Proof. intros H; induction H; cbn; lia. Qed.
Lemma sublist_in {A} (c l : list A) : sublist c l -> forall x, In x c -> In x l.
Proof. intros H; induction H; intros y Hy; [exact Hy|destruct Hy as [->|Hy]; [left|right; apply IHsublist]; auto|right; auto]. Qed.
Lemma combinations_spec {A} (l : list A) : forall r c, In c (combinations r l) <-> sublist c l /\ length c = r.
Proof.
  induction l as [|x l IH]; intros r c; destruct r as [|r]; cbn [combinations].
  - split; [intros [<-|[]]; split; [constructor|reflexivity]|].
    intros [_ H]. destruct c; [left; reflexivity|discriminate].
  - split; [intros []|]. intros [H1 H2]. inversion H1; subst; discriminate.
  - split; [intros [<-|[]]; split; [apply sublist_nil_l|reflexivity]|].
    intros [_ H]. destruct c; [left; reflexivity|discriminate].
  - rewrite in_app_iff, in_map_iff. split.
    + intros [(d & <- & Hd)|H].
      * apply IH in Hd as [H1 H2]. split; [constructor; exact H1|cbn; lia].
      * apply IH in H as [H1 H2]. split; [constructor; exact H1|exact H2].
    + intros [H1 H2]. inversion H1 as [|y d l' Hd|y d l' Hd]; subst.
      * left. exists d. split; [reflexivity|]. apply IH. split; [exact Hd|cbn in H2; lia].
      * right. apply IH. split; [exact Hd|exact H2].
Qed.
Lemma combinations_NoDup {A} (l : list A) : NoDup l -> forall r, NoDup (combinations r l).
Proof.
  induction l as [|x l IH]; intros Hn r; destruct r as [|r]; cbn [combinations]; try (constructor; [intros []|constructor]); [constructor|].
  inversion Hn as [|? ? Hx Hn']; subst. apply NoDup_app_intro.
  - apply NoDup_map_inj; [intros c d _ _ E; injection E; auto|apply IH; exact Hn'].
  - apply IH. exact Hn'.
  - intros c H1 H2. apply in_map_iff in H1 as (d & <- & _). apply combinations_spec in H2 as [H2 _].
    apply Hx. eapply sublist_in; [exact H2|left; reflexivity].
Qed.
Lemma combinations_map {A B} (f : A -> B) (l : list A) : forall r, combinations r (map f l) = map (map f) (combinations r l).
Proof.
  induction l as [|x l IH]; intros r; destruct r as [|r]; cbn [combinations map]; try reflexivity.
  rewrite map_app, !map_map, !IH, map_map. f_equal.
Qed.
Lemma powerset_some {A} (s : list A) m st : 0 < st ->
  powerset s m st = Some (flat_map (fun r => combinations r s) (range_step m (length s + 1) st)).
Proof. intros H. unfold powerset. destruct (Nat.eqb_spec st 0); [lia|reflexivity]. Qed.
Lemma powerset_in {A} (s : list A) m st L : 0 < st -> powerset s m st = Some L ->
  forall c, In c L <-> sublist c s /\ exists k, length c = m + k * st.
Proof.
  intros Hst HL c. rewrite powerset_some in HL by exact Hst. injection HL as <-. rewrite in_flat_map. split.
  - intros (r & Hr & Hc). apply range_step_spec in Hr as [_ (k & ->)]; [|exact Hst].
    apply combinations_spec in Hc as [H1 H2]. split; [exact H1|]. exists k. exact H2.
  - intros [H1 (k & H2)]. exists (length c). split.
    + apply range_step_spec; [exact Hst|]. split; [apply sublist_length in H1; lia|]. exists k. exact H2.
    + apply combinations_spec. split; [exact H1|reflexivity].
Qed.
Lemma powerset_NoDup {A} (s : list A) m st L : 0 < st -> powerset s m st = Some L -> NoDup s -> NoDup L.
Proof.
  intros Hst HL Hn. rewrite powerset_some in HL by exact Hst. injection HL as <-. apply NoDup_flat_map.
  - apply sorted_lt_NoDup, range_step_sorted, Hst.
  - intros r _. apply combinations_NoDup, Hn.
  - intros r r' c _ _ H1 H2. apply combinations_spec in H1 as [_ <-]. apply combinations_spec in H2 as [_ <-]. reflexivity.
Qed.
Lemma powerset_lengths {A} (s : list A) m st L : 0 < st -> powerset s m st = Some L ->
  StronglySorted (fun a b => length a <= length b) L.
Proof.
  intros Hst HL. rewrite powerset_some in HL by exact Hst. injection HL as <-.
  eapply StronglySorted_flat_map; [apply range_step_sorted, Hst| |].
  - intros r _. assert (H : Forall (fun c => length c = r) (combinations r s)).
    { apply Forall_forall. intros c Hc. apply combinations_spec in Hc. apply Hc. }
    induction H as [|c cs Hc Hcs IH]; constructor; [exact IH|].
    eapply Forall_impl; [|exact Hcs]. cbv beta. intros d Hd. lia.
  - intros a b x y _ _ Hab Hx Hy. apply combinations_spec in Hx as [_ <-]. apply combinations_spec in Hy as [_ <-]. lia.
Qed.
Lemma powerset_map {A B} (f : A -> B) (s : list A) m st :
  powerset (map f s) m st = option_map (map (map f)) (powerset s m st).
Proof.
  unfold powerset. destruct (Nat.eqb st 0); [reflexivity|]. cbn. f_equal. rewrite map_length, map_flat_map.
  apply flat_map_ext_in. intros r _. apply combinations_map.
Qed.
Lemma map_nth_seq {A} (l : list A) d : map (fun i => nth i l d) (seq 0 (length l)) = l.
Proof.
  induction l as [|a l IH]; [reflexivity|]. cbn [length seq map nth]. f_equal.
  rewrite <- seq_shift, map_map. exact IH.
Qed.
(* lexicographic order of the combinations of 0..n-1 of one length *)
Inductive lex_lt_nat : list nat -> list nat -> Prop :=
| ln_head x y a b : x < y -> lex_lt_nat (x :: a) (y :: b)
| ln_tail x a b : lex_lt_nat a b -> lex_lt_nat (x :: a) (x :: b).
Lemma combinations_lex (l : list nat) : StronglySorted lt l -> forall r, StronglySorted lex_lt_nat (combinations r l).
Proof.
  intros Hs. induction Hs as [|x l Hs IH Hx]; intros r; destruct r as [|r]; cbn [combinations];
    try solve [repeat constructor].
  apply StronglySorted_app_intro.
  - eapply StronglySorted_map; [|apply IH]. intros a b _ _ Hab. apply ln_tail. exact Hab.
  - apply IH.
  - intros a b Ha Hb. apply in_map_iff in Ha as (c & <- & _). apply combinations_spec in Hb as [Hb Hl].
    destruct b as [|y b]; [discriminate|]. constructor. rewrite Forall_forall in Hx. apply Hx.
    eapply sublist_in; [exact Hb|left; reflexivity].
Qed.

(** * rangecomb *)
Lemma arange_in l h x : In x (arange l h) <-> (l <= x < h)%Z.
Proof.
  unfold arange. rewrite in_map_iff. split.
  - intros (k & <- & Hk). apply in_seq in Hk. lia.
  - intros H. exists (Z.to_nat (x - l)). split; [lia|]. apply in_seq. lia.
Qed.
Lemma arange_sorted l h : StronglySorted Z.lt (arange l h).
Proof. unfold arange. eapply StronglySorted_map; [|apply seq_sorted]. intros a b _ _ H. cbv beta. lia. Qed.
Lemma product_in {A} (ls : list (list A)) : forall v, In v (product ls) <-> Forall2 (fun x l => In x l) v ls.
Proof.
  induction ls as [|l ls IH]; intros v; cbn [product].
  - split; [intros [<-|[]]; constructor|]. intros H; inversion H; left; reflexivity.
  - rewrite in_flat_map. split.
    + intros (x & Hx & Hv). apply in_map_iff in Hv as (w & <- & Hw). constructor; [exact Hx|]. apply IH. exact Hw.
    + intros H. inversion H as [|x l' w ls' Hx Hw]; subst. exists x. split; [exact Hx|].
      apply in_map_iff. exists w. split; [reflexivity|]. apply IH. exact Hw.
Qed.
Lemma lexlt_cons_head x y a b : (x < y)%Z -> lexlt (x :: a) (y :: b).
Proof. intros H. unfold lexlt, lexltb. cbn. apply Z.compare_lt_iff in H. rewrite H. reflexivity. Qed.
Lemma lexlt_cons_tail x a b : lexlt a b -> lexlt (x :: a) (x :: b).
Proof. unfold lexlt, lexltb. cbn. rewrite Z.compare_refl. auto. Qed.
Lemma product_lex ls : Forall (StronglySorted Z.lt) ls -> StronglySorted lexlt (product ls).
Proof.
  intros H. induction H as [|l ls Hl _ IH]; [constructor; constructor|]. cbn [product].
  eapply StronglySorted_flat_map; [exact Hl| |].
  - intros x _. eapply StronglySorted_map; [|exact IH]. intros a b _ _ Hab. apply lexlt_cons_tail. exact Hab.
  - intros x y a b _ _ Hxy Ha Hb. apply in_map_iff in Ha as (a' & <- & _). apply in_map_iff in Hb as (b' & <- & _).
    apply lexlt_cons_head. exact Hxy.
Qed.
Lemma rangecomb_in low high L : rangecomb low high = Some L ->
  forall v, In v L <-> length v = length low /\ forall i, i < length low -> (nth i low 0 <= nth i v 0 <= nth i high 0)%Z.
Proof.
  unfold rangecomb. destruct (Nat.eqb_spec (length low) (length high)) as [E|]; [|discriminate].
  intros HL v. injection HL as <-. rewrite product_in.
  revert high E v. induction low as [|l low IH]; intros high E v; destruct high as [|h high]; try discriminate; cbn [combine map].
  - split.
    + intros H; inversion H; subst. split; [reflexivity|]. cbn. intros i Hi. lia.
    + intros [H _]. destruct v; [constructor|discriminate].
  - split.
    + intros H. inversion H as [|x l' w ls' Hx Hw]; subst. apply IH in Hw as [Hlen Hw]; [|cbn in E; lia].
      split; [cbn; lia|]. intros [|i] Hi; cbn [nth].
      * cbn in Hx. apply arange_in in Hx. lia.
      * apply Hw. cbn in Hi. lia.
    + intros [Hlen Hv]. destruct v as [|x w]; [discriminate|]. constructor.
      * cbn. apply arange_in. specialize (Hv 0 ltac:(cbn; lia)). cbn in Hv. lia.
      * apply IH; [cbn in E; lia|]. split; [cbn in Hlen; lia|]. intros i Hi. apply (Hv (S i)). cbn. lia.
Qed.
Lemma rangecomb_sorted low high L : rangecomb low high = Some L -> StronglySorted lexlt L.
Proof.
  unfold rangecomb. destruct (Nat.eqb (length low) (length high)); [|discriminate]. intros H. injection H as <-.
  apply product_lex. apply Forall_forall. intros l Hl. apply in_map_iff in Hl as (p & <- & _). apply arange_sorted.
Qed.
Lemma product_length {A} (ls : list (list A)) : length (product ls) = fold_right Nat.mul 1 (map (@length A) ls).
Proof.
  induction ls as [|l ls IH]; [reflexivity|]. cbn [product map fold_right]. rewrite <- IH. clear IH.
  induction l as [|x l IHl]; [reflexivity|]. cbn [flat_map]. rewrite app_length, map_length, IHl. cbn. lia.
Qed.

(** * missing *)
Section Missing.
Context {A : Type} (eqb : A -> A -> bool) (eqb_spec : forall x y, eqb x y = true <-> x = y).
Lemma list_remove_some x l r : list_remove eqb x l = Some r -> exists l1 l2, l = l1 ++ x :: l2 /\ r = l1 ++ l2 /\ ~ In x l1.
Proof.
  revert r. induction l as [|y l IH]; intros r H; [discriminate|]. cbn in H.
  destruct (eqb y x) eqn:E.
  - injection H as <-. apply eqb_spec in E. subst. exists [], l. repeat split. intros [].
  - destruct (list_remove eqb x l) as [r'|]; [|discriminate]. injection H as <-.
    destruct (IH r' eq_refl) as (l1 & l2 & -> & -> & Hn). exists (y :: l1), l2. repeat split.
    intros [->|H]; [|exact (Hn H)]. assert (eqb x x = true) by (apply eqb_spec; reflexivity). congruence.
Qed.
Lemma list_remove_none x l : list_remove eqb x l = None <-> ~ In x l.
Proof.
  induction l as [|y l IH]; [split; [intros _ []|reflexivity]|]. cbn. destruct (eqb y x) eqn:E.
  - split; [discriminate|]. intros H. exfalso. apply H. left. apply eqb_spec. exact E.
  - destruct (list_remove eqb x l) as [r|].
    + split; [discriminate|]. intros H. exfalso. destruct IH as [_ IH].
      assert (Hn : ~ In x l) by (intros Hi; apply H; right; exact Hi). specialize (IH Hn). discriminate.
    + split; [|reflexivity]. intros _ [->|H]; [|apply IH; [reflexivity|exact H]].
      assert (eqb x x = true) by (apply eqb_spec; reflexivity). congruence.
Qed.
Lemma missing_perm part : forall full m, missing eqb full part = Some m -> Permutation full (part ++ m).
Proof.
  induction part as [|x part IH]; intros full m H; cbn in H; [injection H as <-; reflexivity|].
  destruct (list_remove eqb x full) as [f'|] eqn:E; [|discriminate].
  apply list_remove_some in E as (l1 & l2 & -> & -> & _). cbn. rewrite <- (IH _ _ H).
  symmetry. apply Permutation_middle.
Qed.
Lemma missing_total part : forall full rest, Permutation full (part ++ rest) -> exists m, missing eqb full part = Some m.
Proof.
  induction part as [|x part IH]; intros full rest H; [eexists; reflexivity|]. cbn [missing missing_loop].
  unfold missing. cbn. destruct (list_remove eqb x full) as [f'|] eqn:E.
  - apply list_remove_some in E as (l1 & l2 & -> & -> & _). cbn in H.
    apply (IH _ rest). apply Permutation_cons_inv with x. rewrite <- H. apply Permutation_middle.
  - apply list_remove_none in E. exfalso. apply E. eapply Permutation_in; [symmetry; exact H|left; reflexivity].
Qed.
Lemma missing_sublist part : forall full m, missing eqb full part = Some m -> sublist m full.
Proof.
  assert (Htr : forall (a b : list A), sublist a b -> forall c, sublist b c -> sublist a c).
  { intros a b Hab c Hbc. revert a Hab. induction Hbc; intros a Hab; [exact Hab| |constructor; auto].
    inversion Hab; subst; constructor; auto. }
  assert (Hre : forall l : list A, sublist l l) by (induction l; constructor; assumption).
  induction part as [|x part IH]; intros full m H; cbn in H; [injection H as <-; apply Hre|].
  destruct (list_remove eqb x full) as [f'|] eqn:E; [|discriminate].
  apply list_remove_some in E as (l1 & l2 & -> & -> & _). eapply Htr; [apply (IH _ _ H)|].
  clear - Hre. induction l1 as [|y l1 IH]; cbn; constructor; [apply Hre|exact IH].
Qed.
End Missing.
(** deleting, for each element, its first [count part] occurrences *)
Fixpoint drop_first {A} (eqb : A -> A -> bool) (part full : list A) : list A :=
  match full with
  | [] => []
  | y :: r => match list_remove eqb y part with
              | Some part' => drop_first eqb part' r
              | None => y :: drop_first eqb part r
              end
  end.

Lemma drop_first_nil {A} (eqb : A -> A -> bool) full : drop_first eqb [] full = full.
Proof. induction full as [|y r IH]; [reflexivity|]. cbn. rewrite IH. reflexivity. Qed.
Lemma drop_first_cons {A} (eqb : A -> A -> bool) (Hs : forall x y, eqb x y = true <-> x = y) x : forall full part f',
  list_remove eqb x full = Some f' -> drop_first eqb (x :: part) full = drop_first eqb part f'.
Proof.
  induction full as [|y r IH]; intros part f' H; [discriminate|]. cbn in H. destruct (eqb y x) eqn:E.
  - injection H as <-. apply Hs in E. subst. cbn. assert (E : eqb x x = true) by (apply Hs; reflexivity). rewrite E. reflexivity.
  - destruct (list_remove eqb x r) as [r'|] eqn:Er; [|discriminate]. injection H as <-.
    assert (E' : eqb x y = false). { destruct (eqb x y) eqn:E2; [|reflexivity]. apply Hs in E2. symmetry in E2. apply Hs in E2. congruence. }
    cbn. rewrite E'. destruct (list_remove eqb y part) as [p'|]; [|f_equal]; apply IH; reflexivity.
Qed.
Lemma missing_drop_first {A} (eqb : A -> A -> bool) (Hs : forall x y, eqb x y = true <-> x = y) part : forall full m,
  missing eqb full part = Some m -> m = drop_first eqb part full.
Proof.
  induction part as [|x part IH]; intros full m H; [cbn in H; injection H as <-; rewrite drop_first_nil; reflexivity|].
  unfold missing in *. cbn in H. destruct (list_remove eqb x full) as [f'|] eqn:E; [|discriminate].
  rewrite (drop_first_cons eqb Hs _ _ _ _ E). apply IH. exact H.
Qed.

(** * all_pairs *)
Lemma picks_spec {A} (l : list A) : forall pre y r, In (y, r) (picks pre l) <-> exists l1 l2, l = l1 ++ y :: l2 /\ r = pre ++ l1 ++ l2.
Proof.
  induction l as [|x l IH]; intros pre y r; cbn [picks].
  - split; [intros []|]. intros (l1 & l2 & E & _). destruct l1; discriminate.
  - split.
    + intros [H|H].
      * injection H as <- <-. exists [], l. split; reflexivity.
      * apply IH in H as (l1 & l2 & -> & ->). exists (x :: l1), l2. split; [reflexivity|]. rewrite <- app_assoc. reflexivity.
    + intros (l1 & l2 & E & ->). destruct l1 as [|z l1]; cbn in E; injection E as -> ->; [left; reflexivity|].
      right. apply IH. exists l1, l2. split; [reflexivity|]. rewrite <- app_assoc. reflexivity.
Qed.
Lemma picks_fst {A} (l : list A) : forall pre, map fst (picks pre l) = l.
Proof. induction l as [|x l IH]; intros pre; [reflexivity|]. cbn. rewrite IH. reflexivity. Qed.
Lemma picks_len {A} (l : list A) : forall pre y r, In (y, r) (picks pre l) -> S (length r) = length pre + length l.
Proof. intros pre y r H. apply picks_spec in H as (l1 & l2 & -> & ->). rewrite !app_length. cbn. lia. Qed.
Lemma picks_map {A B} (f : A -> B) (l : list A) : forall pre,
  picks (map f pre) (map f l) = map (fun yr => (f (fst yr), map f (snd yr))) (picks pre l).
Proof.
  induction l as [|x l IH]; intros pre; [reflexivity|]. cbn [map picks]. cbn [fst snd]. rewrite map_app.
  f_equal. rewrite <- IH, map_app. reflexivity.
Qed.

Lemma all_pairs_rec_cons {A} f (a b : A) l : all_pairs_rec (S f) (a :: b :: l) =
  flat_map (fun yr => map (cons (a, fst yr)) (all_pairs_rec f (snd yr))) (picks [] (b :: l)).
Proof. reflexivity. Qed.
Lemma all_pairs_rec_sound {A} fuel : forall (l : list A) m, length l <= fuel -> Nat.even (length l) = true ->
  In m (all_pairs_rec fuel l) -> is_matching m l.
Proof.
  induction fuel as [fuel IH] using lt_wf_ind. intros l m Hf He Hm.
  destruct l as [|a l].
  - destruct fuel; cbn in Hm; (destruct Hm as [<-|[]]; apply Permutation_refl).
  - destruct fuel as [|f]; [cbn in Hf; lia|]. destruct l as [|b l]; [discriminate|].
    rewrite all_pairs_rec_cons in Hm. apply in_flat_map in Hm as ((y & r) & Hp & Hm). cbn [fst snd] in Hm.
    apply in_map_iff in Hm as (m' & <- & Hm'). pose proof (picks_len _ _ _ _ Hp) as Hlen. cbn in Hlen.
    apply picks_spec in Hp as (l1 & l2 & E & ->). cbn [app] in *.
    assert (M : is_matching m' (l1 ++ l2)).
    { apply (IH f); [lia| | |exact Hm']; [cbn in Hf; lia|]. replace (length (l1 ++ l2)) with (length l) by lia. exact He. }
    unfold is_matching in *. cbn. constructor. rewrite E. rewrite M. apply Permutation_middle.
Qed.

Definition swapped {A} (p : A * A) : A * A := (snd p, fst p).
Lemma same_pair_refl {A} (p : A * A) : same_pair p p. Proof. left. reflexivity. Qed.
Lemma same_pair_sym {A} (p q : A * A) : same_pair p q -> same_pair q p.
Proof. destruct p, q. intros [H|H]; [left; auto|right]. cbn in *. injection H as -> ->. reflexivity. Qed.
Lemma same_pair_trans {A} (p q r : A * A) : same_pair p q -> same_pair q r -> same_pair p r.
Proof. destruct p, q, r. intros [H|H] [H'|H']; cbn in *; injection H as -> ->; injection H' as -> ->; [left|right|right|left]; reflexivity. Qed.
Lemma Forall2_refl {A} (R : A -> A -> Prop) l : (forall x, R x x) -> Forall2 R l l.
Proof. intros H; induction l; constructor; auto. Qed.
Lemma Forall2_sym {A} (R : A -> A -> Prop) l l' : (forall x y, R x y -> R y x) -> Forall2 R l l' -> Forall2 R l' l.
Proof. intros H F; induction F; constructor; auto. Qed.
Lemma Forall2_trans {A} (R : A -> A -> Prop) l : (forall x y z, R x y -> R y z -> R x z) -> forall l' l'', Forall2 R l l' -> Forall2 R l' l'' -> Forall2 R l l''.
Proof. intros H. induction l; intros l' l'' H1 H2; inversion H1; subst; inversion H2; subst; constructor; eauto. Qed.
Lemma Forall2_perm {A} (R : A -> A -> Prop) l l' m : Forall2 R l l' -> Permutation l' m -> exists m', Permutation l m' /\ Forall2 R m' m.
Proof.
  intros F P. revert l F. induction P; intros l0 F.
  - inversion F; subst. exists []. split; constructor.
  - inversion F as [|a b la lb Hab Fl]; subst. destruct (IHP _ Fl) as (m' & P' & F'). exists (a :: m'). split; constructor; assumption.
  - inversion F as [|a b la lb Hab Fl]; subst. inversion Fl as [|a' b' la' lb' Hab' Fl']; subst.
    exists (a' :: a :: la'). split; [constructor|]. constructor; [assumption|constructor; assumption].
  - destruct (IHP1 _ F) as (m' & P1' & F1). destruct (IHP2 _ F1) as (m'' & P2' & F2). exists m''. split; [etransitivity; eassumption|exact F2].
Qed.
Lemma same_matching_refl {A} (m : list (A * A)) : same_matching m m.
Proof. exists m. split; [reflexivity|apply Forall2_refl, same_pair_refl]. Qed.
Lemma same_matching_sym {A} (m n : list (A * A)) : same_matching m n -> same_matching n m.
Proof.
  intros (m' & P & F). apply (Forall2_sym same_pair) in F; [|apply same_pair_sym].
  apply (Forall2_perm same_pair _ _ m) in F; [|symmetry; exact P]. destruct F as (n' & P' & F'). exists n'. split; assumption.
Qed.
Lemma same_matching_trans {A} (m n o : list (A * A)) : same_matching m n -> same_matching n o -> same_matching m o.
Proof.
  intros (m' & P & F) (n' & P' & F'). apply (Forall2_perm same_pair _ _ n') in F; [|exact P'].
  destruct F as (m'' & P'' & F''). exists m''. split; [etransitivity; eassumption|].
  eapply Forall2_trans; [apply same_pair_trans|exact F''|exact F'].
Qed.
Lemma same_matching_in {A} (m n : list (A * A)) p : same_matching m n -> In p m -> exists q, In q n /\ same_pair p q.
Proof.
  intros (m' & P & F) H. apply (Permutation_in _ P) in H. clear P. induction F as [|a b m' n Hab F IH]; [destruct H|].
  destruct H as [->|H]; [exists b; split; [left; reflexivity|exact Hab]|].
  destruct (IH H) as (q & Hq & E). exists q. split; [right; exact Hq|exact E].
Qed.
Lemma same_matching_unpair {A} (m n : list (A * A)) : same_matching m n -> Permutation (unpair m) (unpair n).
Proof.
  intros (m' & P & F). unfold unpair. rewrite P. clear P. induction F as [|a b m' n Hab F IH]; [reflexivity|]. cbn.
  destruct Hab as [-> | -> ]; cbn; [rewrite IH; reflexivity|]. rewrite IH. constructor.
Qed.
(* the pair that contains a given element *)
Lemma matching_pair_of {A} (m : list (A * A)) a : In a (unpair m) ->
  exists y m', (Permutation m ((a, y) :: m') \/ Permutation m ((y, a) :: m')).
Proof.
  intros H. unfold unpair in H. apply in_flat_map in H as ((u & v) & Hp & [E|[E|[]]]); cbn in E; subst.
  - apply in_split in Hp as (m1 & m2 & ->). exists v, (m1 ++ m2). left. symmetry. apply Permutation_middle.
  - apply in_split in Hp as (m1 & m2 & ->). exists u, (m1 ++ m2). right. symmetry. apply Permutation_middle.
Qed.
Lemma same_matching_perm {A} (m n : list (A * A)) : Permutation m n -> same_matching m n.
Proof. intros P. exists n. split; [exact P|apply Forall2_refl, same_pair_refl]. Qed.
Lemma same_matching_cons {A} (p q : A * A) m n : same_pair p q -> same_matching m n -> same_matching (p :: m) (q :: n).
Proof. intros Hp (m' & P & F). exists (p :: m'). split; constructor; assumption. Qed.
Lemma all_pairs_rec_complete {A} fuel : forall (l : list A) m, length l <= fuel -> is_matching m l ->
  exists m', In m' (all_pairs_rec fuel l) /\ same_matching m m'.
Proof.
  induction fuel as [|f IH]; intros l m Hf Hm.
  - destruct l; [|cbn in Hf; lia]. exists []. split; [left; reflexivity|].
    unfold is_matching in Hm. apply Permutation_sym, Permutation_nil in Hm. destruct m as [|[u v] m]; [apply same_matching_refl|discriminate].
  - destruct l as [|a l].
    { exists []. split; [left; reflexivity|].
      unfold is_matching in Hm. apply Permutation_sym, Permutation_nil in Hm. destruct m as [|[u v] m]; [apply same_matching_refl|discriminate]. }
    assert (Hin : In a (unpair m)) by (eapply Permutation_in; [symmetry; exact Hm|left; reflexivity]).
    apply matching_pair_of in Hin as (y & m1 & HP).
    assert (S1 : same_matching m ((a, y) :: m1)).
    { destruct HP as [HP|HP]; [apply same_matching_perm; exact HP|].
      eapply same_matching_trans; [apply same_matching_perm; exact HP|].
      apply same_matching_cons; [right; reflexivity|apply same_matching_refl]. }
    assert (M1 : Permutation (y :: unpair m1) l).
    { apply (Permutation_cons_inv (a := a)). rewrite <- Hm. symmetry. apply same_matching_unpair in S1. exact S1. }
    destruct l as [|b l]; [apply Permutation_length in M1; discriminate|].
    assert (Hy : In y (b :: l)) by (eapply Permutation_in; [exact M1|left; reflexivity]).
    apply in_split in Hy as (l1 & l2 & E). 
    assert (M2 : is_matching m1 (l1 ++ l2)).
    { unfold is_matching. apply (Permutation_cons_inv (a := y)). rewrite M1, E. symmetry. apply Permutation_middle. }
    destruct (IH (l1 ++ l2) m1) as (m' & Hm' & S'); [|exact M2|].
    { assert (HL : length (b :: l) = length (l1 ++ y :: l2)) by (rewrite E; reflexivity). rewrite app_length in HL. cbn in HL, Hf. rewrite app_length. lia. }
    exists ((a, y) :: m'). split.
    + rewrite all_pairs_rec_cons. apply in_flat_map. exists (y, l1 ++ l2). split.
      * apply picks_spec. exists l1, l2. split; [exact E|reflexivity].
      * cbn [fst snd]. apply in_map. exact Hm'.
    + eapply same_matching_trans; [exact S1|]. apply same_matching_cons; [apply same_pair_refl|exact S'].
Qed.
Lemma same_matching_cons_inv {A} (p : A * A) m n : same_matching (p :: m) (p :: n) -> NoDup (unpair (p :: n)) -> same_matching m n.
Proof.
  intros (m' & P & F) Hn. inversion F as [|q q' m1 n' Hq F']; subst.
  destruct Hq as [->|Hq].
  - exists m1. split; [apply (Permutation_cons_inv (a := p)); exact P|exact F'].
  - (* p is somewhere else in m', so some pair of n equals p up to swap: contradiction unless p itself swapped equals *)
    destruct p as [u v]. cbn in Hq. subst q.
    assert (Hin : In (u, v) ((v, u) :: m1)) by (eapply Permutation_in; [exact P|left; reflexivity]).
    destruct Hin as [E|Hin].
    + injection E as E1 _. subst v. exists m1. split; [apply (Permutation_cons_inv (a := (u, u))); exact P|exact F'].
    + exfalso. assert (HS : same_matching m1 n) by (exists m1; split; [reflexivity|exact F']).
      destruct (same_matching_in _ _ _ HS Hin) as (q & Hqn & Hpq). cbn in Hn. inversion Hn as [|? ? Hu Hn1]; subst.
      apply Hu. right. unfold unpair. apply in_flat_map. exists q. split; [exact Hqn|]. destruct q as [q1 q2].
      destruct Hpq as [E|E]; cbn in E; injection E as <- <-; cbn; auto.
Qed.
Lemma all_pairs_rec_distinct {A} fuel : forall (l : list A), length l <= fuel -> Nat.even (length l) = true -> NoDup l ->
  ForallOrdPairs (fun m n => ~ same_matching m n) (all_pairs_rec fuel l).
Proof.
  induction fuel as [|f IH]; intros l Hf He Hn; [repeat constructor|].
  destruct l as [|a [|b l]]; [repeat constructor|repeat constructor|].
  rewrite all_pairs_rec_cons.
  assert (Hinv : forall y r, In (y, r) (picks [] (b :: l)) -> Permutation (b :: l) (y :: r) /\ length r = length l).
  { intros y r H. pose proof (picks_len _ _ _ _ H) as HL. cbn in HL. apply picks_spec in H as (l1 & l2 & -> & ->). cbn.
    split; [symmetry; apply Permutation_middle|cbn in HL; lia]. }
  assert (Hfst : NoDup (map fst (picks [] (b :: l)))) by (rewrite picks_fst; inversion Hn; assumption).
  revert Hinv Hfst. generalize (picks [] (b :: l)). intros P Hinv Hfst.
  induction P as [|[y r] P IHP]; [constructor|]. cbn [flat_map].
  assert (Happ : forall (X : Type) (R : X -> X -> Prop) x1 x2, ForallOrdPairs R x1 -> ForallOrdPairs R x2 ->
     (forall u v, In u x1 -> In v x2 -> R u v) -> ForallOrdPairs R (x1 ++ x2)).
  { intros X R x1 x2 H1 H2 H3. induction H1 as [|u x1 Hu H1 IH1]; [exact H2|]. cbn. constructor.
    - apply Forall_app. split; [exact Hu|]. apply Forall_forall. intros v Hv. apply H3; [left; reflexivity|exact Hv].
    - apply IH1. intros u' v Hu' Hv. apply H3; [right; exact Hu'|exact Hv]. }
  destruct (Hinv y r (or_introl eq_refl)) as [Pr Lr].
  assert (Nr : NoDup (y :: r)). { eapply Permutation_NoDup; [exact Pr|]. inversion Hn; assumption. }
  assert (Er : Nat.even (length r) = true) by (rewrite Lr; exact He).
  assert (Fr : length r <= f) by (cbn in Hf; lia).
  apply Happ.
  - cbn [fst snd]. assert (Hs : Forall (fun m => is_matching m r) (all_pairs_rec f r)).
    { apply Forall_forall. intros m Hm. eapply all_pairs_rec_sound; [| |exact Hm]; assumption. }
    specialize (IH r Fr Er ltac:(inversion Nr; assumption)).
    revert Hs. induction IH as [|m ms Hm IH IH2]; intros Hs; [constructor|]. cbn. inversion Hs as [|? ? Hs1 Hs2]; subst. constructor.
    + apply Forall_forall. intros n Hn'. apply in_map_iff in Hn' as (n' & <- & Hn'). intros HS.
      rewrite Forall_forall in Hm. apply (Hm n' Hn'). eapply same_matching_cons_inv; [exact HS|].
      rewrite Forall_forall in Hs2. specialize (Hs2 n' Hn'). cbn.
      eapply Permutation_NoDup; [|exact Hn]. constructor. rewrite Pr. constructor. symmetry. exact Hs2.
    + apply IH2. exact Hs2.
  - apply IHP; [intros y' r' H; apply Hinv; right; exact H|]. inversion Hfst; assumption.
  - cbn [fst snd]. intros u v Hu Hv HS. apply in_map_iff in Hu as (u' & <- & Hu').
    apply in_flat_map in Hv as ((y' & r') & Hp' & Hv). cbn [fst snd] in Hv. apply in_map_iff in Hv as (v' & <- & Hv').
    destruct (same_matching_in _ _ (a, y) HS (or_introl eq_refl)) as (q & Hq & Hpq).
    destruct (Hinv y' r' (or_intror Hp')) as [Pr' Lr'].
    assert (Nr' : NoDup (a :: y' :: r')). { eapply Permutation_NoDup; [constructor; exact Pr'|exact Hn]. }
    assert (Mv : is_matching v' r'). { eapply all_pairs_rec_sound; [| |exact Hv']; [cbn in Hf; lia|rewrite Lr'; exact He]. }
    assert (Ha : ~ In a (unpair v')). { intros H. inversion Nr' as [|? ? Ha _]; subst. apply Ha. right. eapply Permutation_in; [exact Mv|exact H]. }
    destruct Hq as [<-|Hq].
    + destruct Hpq as [E|E]; cbn in E.
      * injection E as ->. inversion Hfst as [|? ? Hy _]; subst. apply Hy. apply in_map_iff. exists (y', r'). split; [reflexivity|exact Hp'].
      * injection E as -> ->. inversion Nr' as [|? ? Ha' _]; subst. apply Ha'. left. reflexivity.
    + destruct q as [q1 q2]. apply Ha. unfold unpair. apply in_flat_map. exists (q1, q2). split; [exact Hq|].
      destruct Hpq as [E|E]; cbn in E; injection E as -> ->; cbn; auto.
Qed.
Lemma all_pairs_rec_map {A B} (g : A -> B) fuel : forall (l : list A),
  all_pairs_rec fuel (map g l) = map (map (fun p => (g (fst p), g (snd p)))) (all_pairs_rec fuel l).
Proof.
  induction fuel as [|f IH]; intros l; [reflexivity|]. destruct l as [|a [|b l]]; [reflexivity|reflexivity|].
  rewrite all_pairs_rec_cons. change (map g (a :: b :: l)) with (g a :: g b :: map g l). rewrite all_pairs_rec_cons.
  change (g b :: map g l) with (map g (b :: l)). change (@nil B) with (map g []). rewrite picks_map, flat_map_map, map_flat_map.
  apply flat_map_ext_in. intros [y r] _. cbn [fst snd]. rewrite IH, !map_map. reflexivity.
Qed.
Lemma all_pairs_rec_count {A} n : forall fuel (l : list A), length l = 2 * n -> length l <= fuel ->
  length (all_pairs_rec fuel l) = odd_double_factorial n.
Proof.
  induction n as [|n IH]; intros fuel l Hl Hf.
  - destruct l; [|cbn in Hl; lia]. destruct fuel; reflexivity.
  - destruct l as [|a [|b l]]; [cbn in Hl; lia|cbn in Hl; lia|]. destruct fuel as [|f]; [cbn in Hf; lia|].
    rewrite all_pairs_rec_cons.
    assert (HL : length (picks [] (b :: l)) = 2 * n + 1) by (rewrite <- (map_length fst), picks_fst; cbn in *; lia).
    assert (Hinv : forall y r, In (y, r) (picks [] (b :: l)) -> length r = 2 * n).
    { intros y r H. apply picks_len in H. cbn in *. lia. }
    change (odd_double_factorial (S n)) with ((2 * n + 1) * odd_double_factorial n). rewrite <- HL. clear HL.
    induction (picks [] (b :: l)) as [|[y r] P IHP]; [reflexivity|]. cbn [flat_map fst snd length].
    rewrite app_length, map_length, IHP by (intros; eapply Hinv; right; eassumption).
    rewrite IH; [lia|apply (Hinv y r); left; reflexivity|]. rewrite (Hinv y r) by (left; reflexivity). cbn in *. lia.
Qed.

(** * chunks *)
Lemma skipn_add {A} a : forall b (l : list A), skipn b (skipn a l) = skipn (a + b) l.
Proof. induction a as [|a IH]; intros b l; [reflexivity|]. destruct l; [destruct b; reflexivity|]. apply IH. Qed.
Lemma chunks_unfold {A} n (l : list A) : 0 < n -> l <> [] -> chunks l n = firstn n l :: chunks (skipn n l) n.
Proof.
  intros Hn Hl. unfold chunks. destruct (Nat.eqb_spec n 0); [lia|]. unfold range_step.
  assert (E : (length l - 0 + n - 1) / n = S ((length (skipn n l) - 0 + n - 1) / n)).
  { rewrite skipn_length. assert (HL : 0 < length l) by (destruct l; [congruence|cbn; lia]).
    destruct (Nat.le_gt_cases n (length l)) as [H|H].
    - replace (length l - 0 + n - 1) with (length l - n - 0 + n - 1 + 1 * n) by lia. rewrite Nat.div_add by lia. lia.
    - replace (length l - n - 0 + n - 1) with (n - 1) by lia. rewrite (Nat.div_small (n - 1)) by lia.
      replace (length l - 0 + n - 1) with (length l - 1 + 1 * n) by lia. rewrite Nat.div_add by lia. rewrite Nat.div_small by lia. reflexivity. }
  rewrite E. cbn [seq map]. f_equal. rewrite <- seq_shift, !map_map. apply map_ext. intros k.
  f_equal. rewrite skipn_add. f_equal; lia.
Qed.
Lemma chunks_nil {A} n : chunks (@nil A) n = [].
Proof. unfold chunks, range_step. destruct (Nat.eqb_spec n 0) as [->|H]; [reflexivity|]. cbn. rewrite Nat.div_small by lia. reflexivity. Qed.
Lemma chunks_concat {A} n (l : list A) : concat (chunks l n) = l.
Proof.
  assert (Hpos : forall n, 0 < n -> forall l : list A, concat (chunks l n) = l).
  { clear. intros n Hn l. remember (length l) as k eqn:E. revert l E. induction k as [k IH] using lt_wf_ind. intros l E.
    destruct l as [|a l]; [rewrite chunks_nil; reflexivity|]. rewrite chunks_unfold by (try lia; discriminate).
    cbn [concat]. rewrite (IH (length (skipn n (a :: l)))); [apply firstn_skipn| |reflexivity].
    rewrite skipn_length. subst k. cbn [length]. lia. }
  destruct n as [|n]; [|apply Hpos; lia]. apply (Hpos 1); lia.
Qed.
(** every chunk but the last has exactly [n] elements, the last between 1 and [n] *)
Inductive chunked {A} (n : nat) : list (list A) -> Prop :=
| ck_nil : chunked n []
| ck_last c : 1 <= length c <= n -> chunked n [c]
| ck_cons c cs : length c = n -> cs <> [] -> chunked n cs -> chunked n (c :: cs).
Lemma chunks_shape {A} n (l : list A) : chunked (Nat.max 1 n) (chunks l n).
Proof.
  assert (Hpos : forall n, 0 < n -> forall l : list A, chunked n (chunks l n)).
  { clear. intros n Hn l. remember (length l) as k eqn:E. revert l E. induction k as [k IH] using lt_wf_ind. intros l E.
    destruct l as [|a l]; [rewrite chunks_nil; constructor|]. rewrite chunks_unfold by (try lia; discriminate).
    destruct (skipn n (a :: l)) as [|b r] eqn:Es.
    - rewrite chunks_nil. apply ck_last. rewrite firstn_length.
      assert (HL : length (skipn n (a :: l)) = 0) by (rewrite Es; reflexivity). rewrite skipn_length in HL. cbn [length] in *. lia.
    - assert (HL : length (skipn n (a :: l)) = S (length r)) by (rewrite Es; reflexivity). rewrite skipn_length in HL.
      apply ck_cons.
      + rewrite firstn_length. lia.
      + rewrite chunks_unfold by (try lia; discriminate). discriminate.
      + apply (IH (length (b :: r))); [|reflexivity]. cbn [length] in *. lia. }
  destruct n as [|n]; [apply (Hpos 1); lia|]. replace (Nat.max 1 (S n)) with (S n) by lia. apply Hpos. lia.
Qed.

(** * rec_subs *)
Lemma iter_S {A} (step : A -> A) k e : Nat.iter (S k) step e = step (Nat.iter k step e).
Proof. reflexivity. Qed.
Lemma iter_comm {A} (step : A -> A) k : forall e, Nat.iter k step (step e) = step (Nat.iter k step e).
Proof. induction k as [|k IHk]; intros e; [reflexivity|]. rewrite !iter_S, IHk. reflexivity. Qed.
Lemma rec_subs_fix {A} (eqb : A -> A -> bool) (Hs : forall x y, eqb x y = true <-> x = y) step n : forall e r,
  rec_subs eqb step n e = Some r -> step r = r /\ exists k, k < n /\ r = Nat.iter k step e.
Proof.
  induction n as [|n IH]; intros e r H; [discriminate|]. cbn in H. destruct (eqb (step e) e) eqn:E.
  - apply Hs in E. injection H as <-. split; [rewrite E; exact E|]. exists 0. split; [lia|exact E].
  - apply IH in H as [H (k & Hk & ->)]. split; [exact H|]. exists (S k). split; [lia|].
    rewrite iter_S. apply iter_comm.
Qed.
Lemma rec_subs_none {A} (eqb : A -> A -> bool) (Hs : forall x y, eqb x y = true <-> x = y) step n : forall e,
  rec_subs eqb step n e = None <-> forall k, k < n -> Nat.iter (S k) step e <> Nat.iter k step e.
Proof.
  induction n as [|n IH]; intros e; [split; [intros _ k Hk; lia|reflexivity]|]. cbn [rec_subs]. cbv zeta.
  destruct (eqb (step e) e) eqn:E.
  - split; [discriminate|]. intros H. exfalso. apply Hs in E. apply (H 0); [lia|exact E].
  - rewrite IH. split.
    + intros H [|k] Hk; [cbn; intros E'; apply Hs in E'; congruence|]. specialize (H k ltac:(lia)).
      rewrite !iter_S in H. rewrite !iter_S. rewrite !iter_comm in H. exact H.
    + intros H k Hk. specialize (H (S k) ltac:(lia)). rewrite !iter_S in H. rewrite !iter_S. rewrite !iter_comm. exact H.
Qed.
