(** One term of a sum, and the search for the leading orders of a coefficient. *)
From Coq Require Import ZArith Lia Sorting.
From Verif Require Import FieldBase MiscModel MiscSpec MiscProofs OrdModel OrdSpec OrdProofs OrdSector OrdTop.
Local Open Scope Z_scope.
(** ** leading_orders *)
Section Lead.
Variable m : Z.
Hypothesis Hm : 0 <= m.
Definition found (l : option Z) : Z := match l with Some l => if l <=? m + 1 then l else 0 | None => 0 end.
Fixpoint todo (os : list Z) : nat := match os with [] => 0 | o :: os => Z.to_nat (m + 1 - o) + todo os end%nat.
Definition inside (os : list Z) : Prop := Forall (fun o => 0 <= o <= m + 1) os.
Definition step (series : list (option Z)) (os : list Z) := map (fun q => next_order m (fst q) (snd q)) (combine series os).
Lemma step_ok series : forall os, length series = length os -> inside os ->
  length (step series os) = length os /\ inside (step series os) /\
  (if forallb (fun q => fst q =? snd q) (combine os (step series os))
   then map (fun q => ldegree (fst q) (snd q)) (combine series os) = map found series
   else (todo (step series os) < todo os)%nat) /\ (todo (step series os) <= todo os)%nat.
Proof.
  induction series as [|l series IH]; intros [|o os] L I; try discriminate; [repeat split; [constructor|cbn; lia]|].
  inversion I as [|? ? Ho Ios]. injection L as L. destruct (IH os L Ios) as (L1 & I1 & C & T). change (step (l :: series) (o :: os)) with (next_order m l o :: step series os).
  cbn [length combine forallb map todo fst snd].
  assert (N : (next_order m l o = o /\ ldegree l o = found l) \/ (next_order m l o = o + 1 /\ o <= m)).
  { unfold next_order, ldegree, found, vanishes. destruct l as [l|].
    - destruct (o <? l) eqn:E1, (o <=? m) eqn:E2; cbn [andb]; try (right; lia); left; (split; [reflexivity|]).
      + destruct (l <=? m + 1) eqn:E3; lia.
      + destruct (l <=? m + 1) eqn:E3; lia.
      + destruct (l <=? m + 1) eqn:E3; lia.
    - destruct (o <=? m) eqn:E2; cbn [andb]; [right; lia|left; split; reflexivity]. }
  split; [cbn; lia|]. destruct N as [[E1 E2]|[E1 E2]]; rewrite E1.
  - split; [constructor; assumption|]. rewrite Z.eqb_refl. cbn [andb]. split; [|lia]. destruct (forallb _ _); [cbn [map]; f_equal; assumption|lia].
  - split; [constructor; [lia|assumption]|]. replace (o =? o + 1) with false by lia. cbn [andb]. split; lia.
Qed.
Lemma loop_ok series fuel : forall os, length series = length os -> inside os -> (todo os < fuel)%nat -> leading_loop fuel m series os = Some (map found series).
Proof.
  induction fuel as [|fuel IH]; intros os L I H; [lia|]. cbn [leading_loop]. cbv zeta. fold (step series os).
  destruct (step_ok series os L I) as (L1 & I1 & C & _). destruct (forallb _ _); [f_equal; exact C|]. apply IH; [lia|exact I1|lia].
Qed.
Theorem leading_orders_terminate series : exists fuel0, forall fuel, (fuel0 <= fuel)%nat -> leading_orders fuel m false series = Some (map found series).
Proof.
  exists (S (todo (map (fun _ => 0) series))). intros fuel H. unfold leading_orders. apply loop_ok; [symmetry; apply map_length| |lia].
  apply Forall_forall. intros x Hx. apply in_map_iff in Hx. destruct Hx as (? & <- & _). lia.
Qed.
End Lead.
(** ** the smallest list for one regulator *)
Lemma py_min_one l : forall x, length x = 1%nat -> Forall (fun a => length a = 1%nat) l -> length (py_min x l) = 1%nat /\ Forall (below (py_min x l)) (x :: l).
Proof.
  unfold py_min. induction l as [|y l IH]; intros x Lx Hl; [split; [exact Lx|constructor; [apply below_refl|constructor]]|].
  inversion Hl as [|? ? Ly Hl']. cbn [fold_left]. destruct x as [|x [|? ?]]; try discriminate. destruct y as [|y [|? ?]]; try discriminate.
  cbn [list_lt]. destruct (y =? x) eqn:E1; [|destruct (y <? x) eqn:E2].
  - destruct (IH [x] eq_refl Hl') as [L FA]. split; [exact L|]. inversion FA as [|? ? Fx Fl]. constructor; [exact Fx|]. constructor; [|exact Fl]. replace y with x by lia. exact Fx.
  - destruct (IH [y] eq_refl Hl') as [L FA]. split; [exact L|]. inversion FA as [|? ? Fx Fl]. constructor; [|exact FA]. eapply below_trans; [exact Fx|]. constructor; [lia|constructor].
  - destruct (IH [x] eq_refl Hl') as [L FA]. split; [exact L|]. inversion FA as [|? ? Fx Fl]. constructor; [exact Fx|]. constructor; [|exact Fl]. eapply below_trans; [exact Fx|]. constructor; [lia|constructor].
Qed.
(** ** the product *)
Section P.
Variable F : Fld.
Add Field Fu : (f_th F).
Notation sumF := (@sumF F).
Variable n : nat.
Definition shift_below a b c d : length a = n -> length b = n -> length c = n -> length d = n -> below a b -> below c d -> below (minus a d) (minus b c).
Proof.
  intros La Lb Lc Ld [_ H1]%below_nth [_ H2]%below_nth. apply below_nth. assert (L : length (minus a d) = n) by vlen. split; [vlen|]. rewrite L.
  intros i Hi. vnth. specialize (H1 i). specialize (H2 i). lia.
Qed.
Lemma same_le f g h h' : below h' h -> same_upto F n h f g -> same_upto F n h' f g.
Proof. intros B H a La Ba. apply H; [exact La|eapply below_trans; eassumption]. Qed.
Theorem sum_term_exact (R lc lmin lp lo : list Z) (c p i c' p' i' : series F) e v :
  let requested := vsub R lmin in let required := required_orders requested lp in
  length R = n -> length lmin = n -> length lo = n -> below lmin lc ->
  starts_at F n lc c -> starts_at F n lp p -> starts_below F n required lo i -> starts_at F n lc c' -> starts_at F n lp p' -> starts_below F n required lo i' ->
  same_upto F n (highest_coefficient_orders R lp lo) c c' -> same_upto F n (prefactor_orders requested lo) p p' -> same_upto F n required i i' ->
  length e = n -> below e R -> product3_coefficient F n c p i e v -> product3_coefficient F n c' p' i' e v.
Proof.
  cbv zeta. unfold highest_coefficient_orders, prefactor_orders, required_orders. intros LR Lm Ll Bm Sc Sp Si Sc' Sp' Si' Hc Hp Hi Le Be.
  assert (Lc : length lc = n) by apply Sc. assert (Lp : length lp = n) by apply Sp.
  assert (B1 : below (minus e lc) (minus R lmin)) by (apply shift_below; assumption).
  assert (B2 : below (minus e lp) (minus R lp)) by (apply shift_below; try assumption; apply below_refl).
  assert (L1 : length (minus e lc) = n) by vlen. assert (L2 : length (minus R lmin) = n) by vlen. assert (L3 : length (minus e lp) = n) by vlen. assert (L4 : length (minus R lp) = n) by vlen.
  assert (B3 : below (minus (minus e lc) lp) (minus (minus R lmin) lp)) by (apply shift_below; try assumption; apply below_refl).
  apply (product3_upto F n lc lp lo); try assumption.
  - destruct Si as [K H]. split; [exact K|]. intros a La Ba. apply H; [exact La|eapply below_trans; [exact Ba|exact B3]].
  - destruct Si' as [K H]. split; [exact K|]. intros a La Ba. apply H; [exact La|eapply below_trans; [exact Ba|exact B3]].
  - eapply same_le; [|exact Hc]. apply shift_below; try assumption. apply below_refl.
  - eapply same_le; [|exact Hp]. apply (shift_below (minus e lc) (minus R lmin)); try assumption. apply below_refl.
  - eapply same_le; [exact B3|exact Hi].
Qed.
End P.
