From Coq Require Import ZArith Lia Sorting.
From Verif Require Import FieldBase MiscModel MiscSpec MiscProofs OrdModel OrdSpec.
Local Open Scope Z_scope.
Lemma zip_length f a b : length a = length b -> length (zipz f a b) = length a.
Proof. intros H. unfold zipz. rewrite map_length, combine_length, H. apply Nat.min_id. Qed.
Lemma zip_nth f a b i : length a = length b -> (i < length a)%nat -> nth i (zipz f a b) 0 = f (nth i a 0) (nth i b 0).
Proof.
  intros H Hi. unfold zipz. rewrite (nth_indep _ 0 ((fun q : Z * Z => f (fst q) (snd q)) (0, 0))) by (rewrite map_length, combine_length, H, Nat.min_id; lia).
  rewrite (map_nth (fun q : Z * Z => f (fst q) (snd q))), combine_nth by exact H. reflexivity.
Qed.
Lemma neg_nth a i : nth i (vneg a) 0 = - nth i a 0.
Proof. unfold vneg. change 0 with (- 0) at 1. apply map_nth. Qed.
Lemma map_const_nth {A} (l : list A) (c : Z) i : nth i (map (fun _ => c) l) c = c.
Proof. revert i. induction l as [|x l IH]; intros [|i]; try reflexivity. apply IH. Qed.
Lemma below_nth a b : below a b <-> length a = length b /\ forall i, (i < length a)%nat -> nth i a 0 <= nth i b 0.
Proof.
  split.
  - induction 1 as [|x y a b H _ [E IH]]; [split; [reflexivity|cbn; lia]|]. split; [cbn; lia|]. intros [|i] Hi; [exact H|apply IH; cbn in Hi; lia].
  - revert b. induction a as [|x a IH]; intros [|y b] [E H]; try discriminate; constructor; [apply (H 0%nat); cbn; lia|].
    apply IH. split; [cbn in E; lia|]. intros i Hi. apply (H (S i)). cbn. lia.
Qed.
Lemma below_dec a b : {below a b} + {~ below a b}.
Proof.
  revert b. induction a as [|x a IH]; intros [|y b]; [left; constructor|right; inversion 1|right; inversion 1|].
  destruct (Z_le_dec x y) as [H|H]; [|right; inversion 1; contradiction]. destruct (IH b) as [H'|H']; [left; constructor; assumption|right; inversion 1; contradiction].
Qed.
Lemma minus_vsub a b : minus a b = vsub a b. Proof. reflexivity. Qed.
Lemma vec_eq (a b : list Z) : length a = length b -> (forall i, (i < length a)%nat -> nth i a 0 = nth i b 0) -> a = b.
Proof. intros L H. apply (nth_ext a b 0 0 L H). Qed.
Ltac vunf := change minus with vsub; unfold vadd, vsub, vmin, vmax in *.
Lemma neg_length a : length (vneg a) = length a. Proof. apply map_length. Qed.
Ltac vlen := vunf; repeat (rewrite zip_length || rewrite neg_length || rewrite map_length); first [congruence | lia | (etransitivity; [|symmetry]; eassumption)].
(** componentwise reasoning *)
Ltac vnth := vunf; repeat (rewrite neg_nth || (rewrite zip_nth; [|vlen|vlen])).
Section P.
Variable F : Fld.
Add Field Fo : (f_th F).
Local Open Scope fld_scope.
Local Open Scope Z_scope.
Notation sumF := (@sumF F).
Lemma sum_zero {A} (f : A -> F) l : (forall x, In x l -> f x = 0%fld) -> sumF (map f l) = 0%fld.
Proof. induction l as [|x l IH]; intros H; [reflexivity|]. cbn [map FieldBase.sumF]. rewrite (H x (or_introl eq_refl)), IH by (intros y Hy; apply H; right; exact Hy). ring. Qed.
(** the value does not depend on the finite set *)
Lemma sum_cover {A} (dec : forall x y : A, {x = y} + {x <> y}) (f : A -> F) (l l' : list A) : NoDup l -> NoDup l' ->
  (forall a, In a l -> ~ In a l' -> f a = 0%fld) -> (forall a, In a l' -> ~ In a l -> f a = 0%fld) -> sumF (map f l) = sumF (map f l').
Proof.
  revert l'. induction l as [|x l IH]; intros l' N N' H1 H2.
  - cbn [map FieldBase.sumF]. symmetry. apply sum_zero. intros a Ha. apply H2; [exact Ha|intros []].
  - inversion N as [|? ? Hx Nl]; subst. destruct (in_dec dec x l') as [Hi|Hi].
    + apply in_split in Hi. destruct Hi as (u & v & ->). apply NoDup_remove in N'. destruct N' as [N' Hx'].
      assert (E : sumF (map f (u ++ x :: v)) = (f x + sumF (map f (u ++ v)))%fld) by (rewrite !map_app, !sumF_app; cbn [map FieldBase.sumF]; ring).
      rewrite E. cbn [map FieldBase.sumF]. f_equal. apply IH; try assumption.
      * intros a Ha Hn. apply H1; [right; exact Ha|]. intros Hc. apply Hn. apply in_app_or in Hc. apply in_or_app. destruct Hc as [Hc|[<-|Hc]]; auto. contradiction.
      * intros a Ha Hn. apply H2; [apply in_app_or in Ha; apply in_or_app; destruct Ha; [left|right; right]; assumption|]. intros [<-|Hc]; [|contradiction]. contradiction.
    + cbn [map FieldBase.sumF]. rewrite (H1 x (or_introl eq_refl) Hi). rewrite (IH l' Nl N').
      * ring.
      * intros a Ha Hn. apply H1; [right; exact Ha|exact Hn].
      * intros a Ha Hn. apply H2; [exact Ha|]. intros [<-|Hc]; contradiction.
Qed.
Definition zdec := list_eq_dec Z.eq_dec.
Lemma pdec : forall x y : list Z * list Z, {x = y} + {x <> y}.
Proof. decide equality; apply zdec. Qed.
Lemma product_unique n f g e v v' : product_coefficient F n f g e v -> product_coefficient F n f g e v' -> v = v'.
Proof.
  intros (A & NA & LA & CA & ->) (B & NB & LB & CB & ->). rewrite Forall_forall in LA, LB. apply (sum_cover zdec); try assumption.
  - intros a Ha Hn. apply CB; [apply LA, Ha|exact Hn].
  - intros a Ha Hn. apply CA; [apply LB, Ha|exact Hn].
Qed.
Lemma product3_unique n c p i e v v' : product3_coefficient F n c p i e v -> product3_coefficient F n c p i e v' -> v = v'.
Proof.
  intros (A & NA & LA & CA & ->) (B & NB & LB & CB & ->). rewrite Forall_forall in LA, LB.
  apply (sum_cover pdec (fun q => c (fst q) * p (snd q) * i (minus (minus e (fst q)) (snd q)))%fld); try assumption.
  - intros [a b] Ha Hn. destruct (LA _ Ha). apply CB; assumption.
  - intros [a b] Ha Hn. destruct (LB _ Ha). apply CA; assumption.
Qed.
(** the coefficients of order [e] of a product of three series need only the stated orders of each of them *)
Lemma product3_upto n (lc lp li e : list Z) c p i c' p' i' v :
  length e = n -> starts_at F n lc c -> starts_at F n lp p -> starts_below F n (minus (minus e lc) lp) li i -> starts_at F n lc c' -> starts_at F n lp p' -> starts_below F n (minus (minus e lc) lp) li i' ->
  same_upto F n (minus (minus e lp) li) c c' -> same_upto F n (minus (minus e lc) li) p p' -> same_upto F n (minus (minus e lc) lp) i i' ->
  product3_coefficient F n c p i e v -> product3_coefficient F n c' p' i' e v.
Proof.
  intros Le [L1 S1] [L2 S2] [L3 S3] [_ S1'] [_ S2'] [_ S3'] Hc Hp Hi (A & NA & LA & CA & ->).
  assert (E : forall a b, length a = n -> length b = n -> (c a * p b * i (minus (minus e a) b) = c' a * p' b * i' (minus (minus e a) b))%fld).
  { intros a b La Lb. set (g := minus (minus e a) b). assert (Lg : length g = n) by (unfold g; vlen).
    destruct (below_dec lc a) as [Ba|Ba]; [|rewrite S1, S1' by assumption; ring].
    destruct (below_dec lp b) as [Bb|Bb]; [|rewrite S2, S2' by assumption; ring].
    apply below_nth in Ba, Bb. destruct Ba as [_ Ba], Bb as [_ Bb].
    assert (G : forall k, (k < n)%nat -> nth k g 0 = nth k e 0 - nth k a 0 - nth k b 0) by (intros k Hk; unfold g; vnth; reflexivity).
    assert (Bi : below g (minus (minus e lc) lp)).
    { apply below_nth. split; [vlen|]. intros k Hk. vnth. rewrite G by lia. specialize (Ba k); specialize (Bb k). lia. }
    destruct (below_dec li g) as [Bg|Bg]; [|rewrite (S3 g Lg Bi Bg), (S3' g Lg Bi Bg); ring].
    apply below_nth in Bg. destruct Bg as [_ Bg].
    assert (Bc : below a (minus (minus e lp) li)).
    { apply below_nth. split; [vlen|]. intros k Hk. vnth. specialize (Ba k); specialize (Bb k); specialize (Bg k). rewrite G in Bg by lia. lia. }
    assert (Bp : below b (minus (minus e lc) li)).
    { apply below_nth. split; [vlen|]. intros k Hk. vnth. specialize (Ba k); specialize (Bb k); specialize (Bg k). rewrite G in Bg by lia. lia. }
    rewrite Hc, Hp, Hi by assumption. reflexivity. }
  exists A. split; [exact NA|]. split; [exact LA|]. split.
  - intros a b La Lb Hn. rewrite <- E by assumption. apply CA; assumption.
  - apply sumF_map_ext. intros [a b] Hq. rewrite Forall_forall in LA. destruct (LA _ Hq). apply E; assumption.
Qed.
End P.
