From Coq Require Import ZArith Lia Sorting.
From Verif Require Import FieldBase MiscModel MiscSpec MiscProofs OrdModel OrdSpec OrdProofs.
Local Open Scope Z_scope.
Lemma vmin_below_l a b : length a = length b -> below (vmin a b) a.
Proof. intros L. apply below_nth. split; [vlen|]. intros i Hi. assert (Hi' : (i < length a)%nat) by (revert Hi; vunf; rewrite zip_length by exact L; auto). vnth. lia. Qed.
Lemma vmin_below_r a b : length a = length b -> below (vmin a b) b.
Proof. intros L. apply below_nth. split; [vlen|]. intros i Hi. assert (Hi' : (i < length a)%nat) by (revert Hi; vunf; rewrite zip_length by exact L; auto). vnth. lia. Qed.
Lemma below_refl a : below a a. Proof. apply below_nth. split; [reflexivity|]. intros; lia. Qed.
Lemma below_trans a b c : below a b -> below b c -> below a c.
Proof. rewrite !below_nth. intros [L1 H1] [L2 H2]. split; [lia|]. intros i Hi. specialize (H1 i Hi). specialize (H2 i). lia. Qed.
Lemma fold_vmin n l : forall m, length m = n -> Forall (fun a => length a = n) l ->
  length (fold_left vmin l m) = n /\ below (fold_left vmin l m) m /\ Forall (below (fold_left vmin l m)) l.
Proof.
  induction l as [|a l IH]; intros m Lm Hl; [repeat split; [exact Lm|apply below_refl|constructor]|].
  inversion Hl as [|? ? La Hl' ]. cbn [fold_left]. destruct (IH (vmin m a)) as (L & B & FA); [vlen|assumption|].
  split; [exact L|]. assert (LL : length m = length a) by congruence. split; [eapply below_trans; [exact B|apply vmin_below_l; exact LL]|]. constructor; [eapply below_trans; [exact B|apply vmin_below_r; exact LL]|exact FA].
Qed.
Section P.
Variable F : Fld.
Add Field Fs : (f_th F).
Notation sumF := (@sumF F).
Notation poly := (list (list Z * F)).
Variable n : nat.
Definition rows (p : poly) : Prop := Forall (fun t => length (fst t) = n) p.
Lemma col_min_ok (p : poly) : p <> [] -> rows p -> length (col_min F p) = n /\ Forall (fun t => below (col_min F p) (fst t)) p.
Proof.
  destruct p as [|t p]; [congruence|]. intros _ H. inversion H as [|? ? Lt Hp]. cbn [col_min].
  destruct (fold_vmin n (map fst p) (fst t) Lt) as (L & B & FA); [rewrite Forall_map; exact Hp|].
  split; [exact L|]. constructor; [exact B|]. rewrite Forall_map in FA. exact FA.
Qed.
Lemma series_of_out (p : poly) a : ~ In a (map fst p) -> series_of F p a = 0%fld.
Proof.
  intros H. unfold series_of. apply sum_zero. intros t Ht. destruct (list_eq_dec Z.eq_dec (fst t) a) as [E|]; [|reflexivity].
  exfalso. apply H. rewrite <- E. apply in_map. exact Ht.
Qed.
Lemma single_sum (A : list (list Z)) x (v : list Z -> F) : NoDup A -> In x A -> sumF (map (fun y => if list_eq_dec Z.eq_dec x y then v y else 0%fld) A) = v x.
Proof.
  intros N Hi. apply in_split in Hi. destruct Hi as (u & w & ->). apply NoDup_remove in N. destruct N as [_ Hx]. rewrite map_app, sumF_app. cbn [map FieldBase.sumF].
  rewrite !sum_zero.
  - destruct (list_eq_dec Z.eq_dec x x) as [_|N]; [ring|congruence].
  - intros y Hy. destruct (list_eq_dec Z.eq_dec x y) as [->|]; [|reflexivity]. exfalso. apply Hx, in_or_app. right. exact Hy.
  - intros y Hy. destruct (list_eq_dec Z.eq_dec x y) as [->|]; [|reflexivity]. exfalso. apply Hx, in_or_app. left. exact Hy.
Qed.
Lemma group (A : list (list Z)) (p : poly) (h : list Z -> F) : NoDup A -> (forall t, In t p -> In (fst t) A) ->
  sumF (map (fun x => (series_of F p x * h x)%fld) A) = sumF (map (fun t => (snd t * h (fst t))%fld) p).
Proof.
  intros N. induction p as [|t p IH]; intros H; unfold series_of; cbn [map FieldBase.sumF].
  - apply sum_zero. intros; ring.
  - rewrite (sumF_map_ext F _ (fun x => ((if list_eq_dec Z.eq_dec (fst t) x then snd t * h x else 0) + series_of F p x * h x)%fld)).
    2:{ intros x _. unfold series_of. destruct (list_eq_dec Z.eq_dec (fst t) x); ring. }
    assert (E : forall (f g : list Z -> F) l, sumF (map (fun x => (f x + g x)%fld) l) = (sumF (map f l) + sumF (map g l))%fld).
    { clear. intros f g l. induction l as [|x l IHl]; cbn [map FieldBase.sumF]; [ring|rewrite IHl; ring]. }
    rewrite E, IH by (intros u Hu; apply H; right; exact Hu). f_equal. apply (single_sum A (fst t) (fun x => (snd t * h x)%fld) N). apply H. left. reflexivity.
Qed.
Definition pair_sum (p q : poly) (e : list Z) : F :=
  sumF (map (fun a => sumF (map (fun b => if list_eq_dec Z.eq_dec (vadd (fst a) (fst b)) e then (snd a * snd b)%fld else 0%fld) q)) p).
Lemma add_sub a b e : length a = n -> length b = n -> length e = n -> vadd a b = e <-> b = minus e a.
Proof.
  intros La Lb Le. split; intros H.
  - subst e. apply vec_eq; [vlen|]. intros i Hi. vnth. lia.
  - subst b. apply vec_eq; [vlen|]. intros i Hi. assert ((i < n)%nat) by (revert Hi; vunf; rewrite zip_length by vlen; lia). vnth. lia.
Qed.
Lemma poly_product p q e : rows p -> rows q -> length e = n -> product_coefficient F n (series_of F p) (series_of F q) e (pair_sum p q e).
Proof.
  intros Hp Hq Le. exists (nodup zdec (map fst p)). split; [apply NoDup_nodup|]. unfold rows in *. rewrite Forall_forall in Hp, Hq. split; [|split].
  - apply Forall_forall. intros x Hx. apply nodup_In, in_map_iff in Hx. destruct Hx as (t & <- & Ht). apply Hp, Ht.
  - intros a La Hn. rewrite series_of_out; [ring|]. intros Hi. apply Hn, nodup_In, Hi.
  - rewrite (group _ p (fun x => series_of F q (minus e x))); [|apply NoDup_nodup|intros t Ht; apply nodup_In, in_map, Ht].
    unfold pair_sum. apply sumF_map_ext. intros t Ht. unfold series_of.
    assert (E : forall (k : F) (f : (list Z * F) -> F) l, (k * sumF (map f l) = sumF (map (fun x => k * f x) l))%fld).
    { clear. intros k f l. induction l as [|x l IHl]; cbn [map FieldBase.sumF]; [ring|rewrite <- IHl; ring]. }
    rewrite E. apply sumF_map_ext. intros b Hb. pose proof (add_sub (fst t) (fst b) e (Hp _ Ht) (Hq _ Hb) Le) as S.
    destruct (list_eq_dec Z.eq_dec (vadd (fst t) (fst b)) e) as [E1|E1], (list_eq_dec Z.eq_dec (fst b) (minus e (fst t))) as [E2|E2]; try ring.
    + exfalso. apply E2, S, E1.
    + exfalso. apply E1, S, E2.
Qed.
Lemma product_same f g f' g' e v : (forall a, length a = n -> (f a * g (minus e a) = f' a * g' (minus e a))%fld) ->
  product_coefficient F n f g e v -> product_coefficient F n f' g' e v.
Proof.
  intros E (A & NA & LA & CA & ->). exists A. split; [exact NA|]. split; [exact LA|]. split.
  - intros a La Hn. rewrite <- E by exact La. apply CA; assumption.
  - apply sumF_map_ext. intros a Ha. rewrite Forall_forall in LA. apply E, LA, Ha.
Qed.
(** ** what the expansion routines deliver (C38, C39) *)
Definition zeros : list Z := repeat 0 n.
Definition expands (required : list Z) (t : summand F) (s g : series F) : Prop :=
  starts_at F n zeros g /\
  match expand_singular t required with
  | Some p => p <> [] /\ rows p /\ Forall (fun q => below (fst q) required) p /\ same_upto F n required s (series_of F p)
  | None => forall a, length a = n -> below a required -> s a = 0%fld
  end /\
  forall o, length o = n -> below zeros o -> exists p, expand_Taylor t o = Some p /\ rows p /\ Forall (fun q => below zeros (fst q)) p /\ same_upto F n o g (series_of F p).
Lemma zeros_length : length zeros = n. Proof. apply repeat_length. Qed.
Lemma zeros_nth i : nth i zeros 0 = 0. Proof. apply nth_repeat. Qed.
Section R.
Variable required : list Z.
Hypothesis Lr : length required = n.
Lemma sing_ok t s g : expands required t s g -> let p := singular_expanded F required t in
  p <> [] /\ rows p /\ Forall (fun q => below (fst q) required) p /\ same_upto F n required s (series_of F p).
Proof.
  intros (_ & H & _). cbv zeta. unfold singular_expanded. destruct (expand_singular t required) as [p|]; [exact H|].
  split; [discriminate|]. split; [constructor; [exact Lr|constructor]|]. split; [constructor; [apply below_refl|constructor]|].
  intros a La Ba. rewrite H by assumption. unfold series_of. cbn [map FieldBase.sumF fst snd]. destruct (list_eq_dec Z.eq_dec required a); ring.
Qed.
Lemma poles_ok t s g : expands required t s g -> length (poles F required t) = n /\ below (vneg (poles F required t)) required /\
  forall a, length a = n -> below a required -> ~ below (vneg (poles F required t)) a -> s a = 0%fld.
Proof.
  intros H. destruct (sing_ok t s g H) as (N & R & B & S). set (p := singular_expanded F required t) in *.
  destruct (col_min_ok p N R) as [L FA]. assert (E : vneg (poles F required t) = col_min F p).
  { unfold poles. fold p. unfold vneg. rewrite map_map. rewrite <- (map_id (col_min F p)) at 2. apply map_ext. intros; lia. }
  rewrite E. split; [unfold poles; rewrite neg_length; exact L|]. split.
  - destruct p as [|t0 p']; [congruence|]. rewrite Forall_forall in FA, B. eapply below_trans; [apply FA; left; reflexivity|apply B; left; reflexivity].
  - intros a La Ba Hn. rewrite S by assumption. apply series_of_out. intros Hi. apply in_map_iff in Hi. destruct Hi as (u & <- & Hu). apply Hn. rewrite Forall_forall in FA. apply FA, Hu.
Qed.
Lemma summand_value t s g e v : expands required t s g -> length e = n -> below e required -> product_coefficient F n s g e v ->
  v = pair_sum (singular_expanded F required t) (regular_expanded F required t) e.
Proof.
  intros H Le Be HP. destruct (sing_ok t s g H) as (N & R & B & S). destruct (poles_ok t s g H) as (Lp & Bp & Zp). pose proof H as (Hg & _ & HT).
  set (p := singular_expanded F required t) in *.
  assert (LO : length (expansion_orders F required t) = n) by (unfold expansion_orders; vlen).
  assert (BO : below zeros (expansion_orders F required t)).
  { apply below_nth. split; [rewrite zeros_length; lia|]. rewrite zeros_length. intros i Hi. rewrite zeros_nth. apply below_nth in Bp. destruct Bp as [_ Bp]. specialize (Bp i). rewrite neg_length in Bp.
    rewrite neg_nth in Bp. unfold expansion_orders. vnth. lia. }
  destruct (HT _ LO BO) as (q & Eq & Rq & Bq & Sq). unfold regular_expanded. rewrite Eq.
  eapply product_unique; [|apply poly_product; assumption].
  eapply product_same; [|exact HP]. intros a La. set (b := minus e a). assert (Lb : length b = n) by (unfold b; vlen).
  assert (Nb : forall k, (k < n)%nat -> nth k b 0 = nth k e 0 - nth k a 0) by (intros k Hk; unfold b; vnth; reflexivity).
  destruct (below_dec zeros b) as [Bb|Bb].
  2:{ destruct Hg as [_ Hg]. rewrite (Hg b Lb Bb). rewrite (series_of_out q b); [ring|]. intros Hi. apply in_map_iff in Hi. destruct Hi as (u & <- & Hu). apply Bb. rewrite Forall_forall in Bq. apply Bq, Hu. }
  assert (Ba : below a required).
  { apply below_nth. split; [lia|]. intros k Hk. apply below_nth in Bb, Be. destruct Bb as [_ Bb], Be as [_ Be]. specialize (Bb k). rewrite zeros_length, zeros_nth, Nb in Bb by lia. specialize (Be k). lia. }
  destruct (below_dec (vneg (poles F required t)) a) as [Bm|Bm].
  2:{ rewrite <- (S a La Ba). rewrite (Zp a La Ba Bm). ring. }
  rewrite (S a La Ba). rewrite (Sq b Lb); [reflexivity|].
  apply below_nth. split; [lia|]. intros k Hk. rewrite Nb by lia. apply below_nth in Bm, Be. destruct Bm as [_ Bm], Be as [_ Be].
  specialize (Bm k). rewrite neg_length, neg_nth in Bm. specialize (Be k). unfold expansion_orders. vnth. lia.
Qed.
End R.
End P.
