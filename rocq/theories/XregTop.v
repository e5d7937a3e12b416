From Coq Require Import List ZArith QArith Qcanon Bool Lia Znumtheory. Import ListNotations.
From Verif Require Import XregModel XregSpec XregProofs.
Local Open Scope Z_scope.
Lemma zdot_inner a : forall b, zdot a b = inner b a.
Proof. unfold zdot. induction a as [|x a IH]; intros [|y b]; try reflexivity. cbn [combine map fold_right fst snd inner]. rewrite IH. ring. Qed.
Lemma zeqb_true a b : zeqb a b = true <-> a = b.
Proof. unfold zeqb. destruct (list_eq_dec Z.eq_dec a b); split; congruence. Qed.
Lemma opp_opp l : map Z.opp (map Z.opp l) = l.
Proof. rewrite map_map. rewrite <- (map_id l) at 2. apply map_ext. intros; lia. Qed.
Lemma in_internal all f : In f (internal_facets all) <-> In f all /\ In (map Z.opp f) all.
Proof.
  unfold internal_facets. rewrite filter_In, existsb_exists. split.
  - intros (H & g & Hg & E). apply zeqb_true in E. subst f. rewrite opp_opp. auto.
  - intros (H & H'). split; [exact H|]. exists (map Z.opp f). split; [exact H'|]. apply zeqb_true. symmetry. apply opp_opp.
Qed.
Lemma first_sign f : (exists x, In x f /\ x <> 0) -> first_positive f = negb (first_positive (map Z.opp f)).
Proof.
  unfold first_positive. induction f as [|y f IH]; intros (x & Hx & Nx); [destruct Hx|]. cbn [map filter]. destruct (y =? 0) eqn:E.
  - replace (- y =? 0) with true by lia. cbn [negb]. apply IH. destruct Hx as [<-|Hx]; [lia|]. eauto.
  - replace (- y =? 0) with false by lia. cbn [negb]. destruct (0 <? y) eqn:E1, (0 <? - y) eqn:E2; cbn; lia.
Qed.
Lemma inner_pos f : forall v, Forall (fun x => 0 <= x) v -> 0 < inner f v -> exists x, In x f /\ 0 < x.
Proof.
  induction f as [|x f IH]; intros [|y v] Hv H; cbn [inner] in H; try lia. inversion Hv as [|? ? Hy Hv']; subst.
  destruct (Z_lt_le_dec 0 x) as [Hx|Hx]; [exists x; split; [left; reflexivity|exact Hx]|]. destruct (IH v Hv') as (z & Hz & Pz); [nia|]. exists z. split; [right; exact Hz|exact Pz].
Qed.
Lemma removelast_snoc {A} (l : list A) x : removelast (l ++ [x]) = l.
Proof. apply removelast_last. Qed.
Section C.
Variable facets_of : list (list Z) -> list (list Z).
Lemma through_zero V : proper_facets V (facets_of V) -> forall f, In f (facets_through_zero facets_of V) ->
  (forall v, In v V -> length f = length v) /\ (exists v, In v V /\ 0 < inner f v).
Proof.
  intros H f Hf. unfold facets_through_zero in Hf. apply in_map_iff in Hf. destruct Hf as (g & <- & Hg). apply filter_In in Hg. destruct Hg as [Hg E].
  destruct (H g Hg) as (nm & off & -> & H1 & v & Hv & Pv). rewrite removelast_snoc. rewrite last_last in E. split.
  - intros w Hw. apply H1, Hw.
  - exists v. split; [exact Hv|]. lia.
Qed.
Variable leading_power : list Z -> Qc. Variable exp_order : Qc. Variable idx n : nat. Variable vertices : list (list Z).
Hypothesis Hn : (idx <= n)%nat.
Hypothesis HL : Forall (fun v => length v = S n) vertices.
Hypothesis Hpos : Forall (Forall (fun x => 0 <= x)) vertices.
Hypothesis Hfac : forall r, In r (regions facets_of leading_power exp_order idx vertices) -> proper_facets (region_vertices idx vertices r) (facets_of (region_vertices idx vertices r)).
Notation all := (all_facets facets_of leading_power exp_order idx vertices).
Lemma delete_length v : length v = S n -> length (delete_at idx v) = n.
Proof. intros L. unfold delete_at. rewrite app_length, firstn_length, skipn_length. lia. Qed.
Lemma region_vertices_ok r v : In v (region_vertices idx vertices r) -> length v = n /\ Forall (fun x => 0 <= x) v.
Proof.
  unfold region_vertices. intros Hv. apply in_map_iff in Hv. destruct Hv as (w & <- & Hw). apply filter_In in Hw. destruct Hw as [Hw _]. rewrite Forall_forall in HL, Hpos.
  split; [apply delete_length, HL, Hw|]. unfold delete_at. apply Forall_app. specialize (Hpos w Hw). split; [|].
  - rewrite <- (firstn_skipn idx w) in Hpos. apply Forall_app in Hpos. apply Hpos.
  - rewrite <- (firstn_skipn (S idx) w) in Hpos. apply Forall_app in Hpos. apply Hpos.
Qed.
Lemma all_ok f : In f all -> length f = n /\ exists x, In x f /\ 0 < x.
Proof.
  unfold all_facets. intros Hf. apply in_flat_map in Hf. destruct Hf as (r & Hr & Hf). destruct (through_zero _ (Hfac r Hr) f Hf) as [H1 (v & Hv & Pv)].
  destruct (region_vertices_ok r v Hv) as [Lv Pos]. split; [rewrite (H1 v Hv); exact Lv|eapply inner_pos; eassumption].
Qed.
Lemma internal_signs f : In f (internal_facets all) -> length f = n /\ (exists x, In x f /\ 0 < x) /\ (exists x, In x f /\ x < 0).
Proof.
  intros Hf. apply in_internal in Hf. destruct Hf as [H1 H2]. destruct (all_ok f H1) as [L P]. destruct (all_ok _ H2) as [_ (x & Hx & Px)]. split; [exact L|]. split; [exact P|].
  apply in_map_iff in Hx. destruct Hx as (y & <- & Hy). exists y. split; [exact Hy|lia].
Qed.
Lemma selected_cover f : In f (internal_facets all) -> In f (selected all) \/ In (map Z.opp f) (selected all).
Proof.
  intros Hf. unfold selected. destruct (internal_signs f Hf) as (_ & (x & Hx & Px) & _). pose proof (first_sign f) as E. destruct (first_positive f) eqn:Ef.
  - left. apply filter_In. split; [exact Hf|exact Ef].
  - right. apply filter_In. split; [apply in_internal; rewrite opp_opp; apply in_internal in Hf; tauto|]. destruct (first_positive (map Z.opp f)); [reflexivity|]. cbn in E. apply E. exists x. split; [exact Hx|lia].
Qed.
Lemma selected_once f : In f (selected all) -> ~ In (map Z.opp f) (selected all).
Proof.
  unfold selected. intros Hf Hf'. apply filter_In in Hf, Hf'. destruct Hf as [Hf E1], Hf' as [_ E2]. destruct (internal_signs f Hf) as (_ & (x & Hx & Px) & _).
  rewrite (first_sign f), E2 in E1; [discriminate|]. exists x. split; [exact Hx|lia].
Qed.
End C.
(** ** padding *)
Lemma pad_after i f : forall s, (i < s)%nat -> pad (fun _ => true) i (seq s (length f)) f = Some f.
Proof. induction f as [|x f IH]; intros s H; [reflexivity|]. cbn [length seq pad andb]. replace (Nat.eqb s i) with false by (symmetry; apply Nat.eqb_neq; lia). cbn [negb]. rewrite IH by lia. reflexivity. Qed.
Lemma pad_insert i f : forall s, (s <= i <= s + length f)%nat -> pad (fun _ => true) i (seq s (S (length f))) f = Some (firstn (i - s) f ++ 0 :: skipn (i - s) f).
Proof.
  induction f as [|x f IH]; intros s H.
  - cbn [length] in H. replace i with s by lia. cbn [length seq pad andb]. rewrite Nat.eqb_refl, Nat.sub_diag. reflexivity.
  - change (seq s (S (length (x :: f)))) with (s :: seq (S s) (S (length f))). cbn [pad andb]. destruct (Nat.eqb_spec s i) as [->|N].
    + cbn [negb]. rewrite Nat.sub_diag. cbn [firstn skipn app]. change (S (length f)) with (length (x :: f)). rewrite pad_after by lia. reflexivity.
    + cbn [negb length] in *. rewrite IH by lia. replace (i - s)%nat with (S (i - S s)) by lia. reflexivity.
Qed.
Lemma all_some_map {A B} (f : A -> option B) g l : (forall x, In x l -> f x = Some (g x)) -> all_some (map f l) = Some (map g l).
Proof. induction l as [|x l IH]; intros H; [reflexivity|]. cbn [map all_some]. rewrite (H x (or_introl eq_refl)), IH by (intros y Hy; apply H; right; exact Hy). reflexivity. Qed.
(** ** the needed variables *)
Lemma needed_nth n constr i : (i < n)%nat -> nth i (needed n constr) false = existsb (fun row => negb (nth i row 0 =? 0)) constr.
Proof.
  intros H. unfold needed. rewrite (nth_indep _ false ((fun i => existsb (fun row => negb (nth i row 0 =? 0)) constr) 0%nat)) by (rewrite map_length, seq_length; exact H).
  rewrite (map_nth (fun i => existsb (fun row => negb (nth i row 0 =? 0)) constr)), seq_nth by exact H. reflexivity.
Qed.
Lemma needed_length n constr : length (needed n constr) = n.
Proof. unfold needed. rewrite map_length, seq_length. reflexivity. Qed.
Lemma needed_true n constr row i : In row constr -> (i < n)%nat -> nth i row 0 <> 0 -> nth i (needed n constr) false = true.
Proof. intros Hr Hi Hx. rewrite needed_nth by exact Hi. apply existsb_exists. exists row. split; [exact Hr|]. apply negb_true_iff, Z.eqb_neq, Hx. Qed.
Lemma agree_nth nb : forall r x, length r = length nb -> agree nb r x <-> forall i, nth i nb false = true -> nth i r 0 = x.
Proof.
  induction nb as [|b nb IH]; intros [|y r] x L; try discriminate.
  - cbn [agree]. split; [|auto]. intros _ i. destruct i; discriminate.
  - cbn [agree]. rewrite IH by (cbn in L; lia). split.
    + intros [H1 H2] [|i] E; [apply H1, E|apply H2, E].
    + intros H. split; [intros ->; apply (H 0%nat); reflexivity|]. intros i E. apply (H (S i) E).
Qed.
Definition constant_on (nb : list bool) (row : list Z) : Prop := exists c, forall i, nth i nb false = true -> nth i row 0 = c.
Lemma split_row nb1 nb2 (row : list Z) : length row = length (nb1 ++ true :: nb2) -> exists r1 x r2, row = r1 ++ x :: r2 /\ length r1 = length nb1.
Proof.
  intros L. rewrite app_length in L. cbn [length] in L. exists (firstn (length nb1) row), (nth (length nb1) row 0), (skipn (S (length nb1)) row). split.
  - rewrite <- (firstn_skipn (length nb1) row) at 1. f_equal. assert (K : (length nb1 < length row)%nat) by lia. clear L. revert K. generalize (length nb1). induction row as [|y row IH]; intros [|k] K; cbn in K; try lia; [reflexivity|]. cbn [skipn nth]. apply IH. lia.
  - rewrite firstn_length. lia.
Qed.
Lemma constant_agree nb1 nb2 r1 x r2 : Forall (fun b => b = false) nb2 -> length r1 = length nb1 -> constant_on (nb1 ++ true :: nb2) (r1 ++ x :: r2) <-> agree nb1 r1 x.
Proof.
  intros HF L. rewrite agree_nth by exact L. split.
  - intros [c H] i Hi. assert (E : x = c). { specialize (H (length nb1)). rewrite app_nth2, Nat.sub_diag in H by lia. specialize (H eq_refl). rewrite app_nth2 in H by lia. rewrite L, Nat.sub_diag in H. exact H. }
    destruct (Nat.lt_ge_cases i (length nb1)) as [K|K]; [|rewrite nth_overflow in Hi by exact K; discriminate]. specialize (H i). rewrite !app_nth1 in H by lia. rewrite (H Hi). congruence.
  - intros H. exists x. intros i Hi. destruct (Nat.lt_trichotomy i (length nb1)) as [K|[K|K]].
    + rewrite app_nth1 in * by lia. apply H, Hi.
    + subst i. rewrite app_nth2 by lia. rewrite L, Nat.sub_diag. reflexivity.
    + exfalso. rewrite app_nth2 in Hi by lia. destruct (i - length nb1)%nat as [|m] eqn:E; [lia|]. cbn [nth] in Hi. rewrite Forall_forall in HF.
      destruct (Nat.lt_ge_cases m (length nb2)) as [K'|K']; [|rewrite nth_overflow in Hi by exact K'; discriminate]. rewrite (HF (nth m nb2 false)) in Hi by (apply nth_In, K'). discriminate.
Qed.
Section S.
Variable pr : Z -> Z.
Hypothesis Hpr : prime_sequence pr.
Theorem search_characterised n constr z : Forall (fun row => length row = n) constr -> (exists row x, In row constr /\ In x row /\ x <> 0) ->
  ((exists e fuel0, forall fuel, (fuel0 <= fuel)%nat -> search pr fuel constr (needed n constr) z = Some e) <-> Forall (fun row => ~ constant_on (needed n constr) row) constr) /\
  ((exists row, In row constr /\ constant_on (needed n constr) row) -> forall fuel, search pr fuel constr (needed n constr) z = None).
Proof.
  intros HL (row0 & x0 & Hr0 & Hx0 & N0). destruct (split_last (needed n constr)) as [HF|(nb1 & nb2 & E & HF)].
  { exfalso. destruct (In_nth _ _ 0 Hx0) as (i & Hi & Ei). assert (Li : (i < n)%nat) by (rewrite Forall_forall in HL; rewrite <- (HL row0 Hr0); exact Hi).
    assert (T : nth i (needed n constr) false = true) by (apply (needed_true n constr row0); [exact Hr0|exact Li|rewrite Ei; exact N0]).
    rewrite Forall_forall in HF. rewrite (HF (nth i (needed n constr) false)) in T; [discriminate|]. apply nth_In. rewrite needed_length. exact Li. }
  assert (LL : forall row, In row constr -> length row = length (nb1 ++ true :: nb2)) by (intros row Hr; rewrite Forall_forall in HL; rewrite (HL row Hr), <- E, needed_length; reflexivity).
  assert (ST : (exists row, In row constr /\ constant_on (needed n constr) row) -> forall fuel, search pr fuel constr (needed n constr) z = None).
  { intros (row & Hr & HC) fuel. destruct (split_row nb1 nb2 row (LL row Hr)) as (r1 & x & r2 & -> & L1). rewrite E in *. apply (search_stuck pr constr nb1 nb2 r1 x r2 HF Hr L1). eapply (constant_agree nb1 nb2 r1 x r2 HF L1), HC. }
  split; [split|exact ST].
  - intros (e & f0 & H). apply Forall_forall. intros row Hr HC. specialize (H f0 (Nat.le_refl _)). rewrite ST in H; [discriminate|]. exists row. auto.
  - intros H. rewrite E. apply (search_terminates pr Hpr constr nb1 nb2 z HF). apply Forall_forall. intros row Hr. destruct (split_row nb1 nb2 row (LL row Hr)) as (r1 & x & r2 & -> & L1).
    exists r1, x, r2. split; [reflexivity|]. split; [exact L1|]. intros A. rewrite Forall_forall in H. apply (H _ Hr). rewrite E. apply (constant_agree nb1 nb2 r1 x r2 HF L1), A.
Qed.
Lemma fill_unneeded nb : forall k i, nth i nb true = false -> nth i (fill pr nb k) (inj 0) = inj 0.
Proof. induction nb as [|b nb IH]; intros k [|i] H; cbn in *; try reflexivity; [destruct b; [discriminate|reflexivity]|destruct b; cbn [nth]; apply IH, H]. Qed.
Theorem search_valid fuel constr nb z e : search pr fuel constr nb z = Some e ->
  length e = length nb /\ qsum e = inj 0 /\ (forall i, nth i nb true = false -> nth i e (inj 0) = inj 0) /\ forall row, In row constr -> dot row e <> inj 0.
Proof.
  intros E. apply search_sound in E. destruct E as (z' & Ea & P). split; [|split; [|split]].
  4:{ apply Forall_forall, P. }
  all: destruct (split_last nb) as [HF|(nb1 & nb2 & -> & HF)]; [unfold attempt in Ea; rewrite (last_false nb HF) in Ea; discriminate|].
  all: rewrite (attempt_eq pr nb1 nb2 z' HF) in Ea; injection Ea as <-.
  - rewrite !app_length. cbn [length]. rewrite fill_length, map_length. reflexivity.
  - rewrite qsum_app, qsum_cons, qsum_zeros, inj_0. ring.
  - intros i Hi. destruct (Nat.lt_trichotomy i (length nb1)) as [K|[K|K]].
    + rewrite app_nth1 by (rewrite fill_length; exact K). rewrite app_nth1 in Hi by exact K. apply fill_unneeded, Hi.
    + subst i. rewrite app_nth2, Nat.sub_diag in Hi by lia. discriminate.
    + rewrite app_nth2 by (rewrite fill_length; lia). rewrite fill_length. destruct (i - length nb1)%nat as [|m] eqn:Em; [lia|]. cbn [nth]. apply (map_nth (fun _ : bool => inj 0) nb2 true m).
Qed.
End S.
