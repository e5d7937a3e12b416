(** Proofs about [_collision_safe_hash]. *)
From Verif Require Export SymModel.
Local Open Scope nat_scope.

Section Hash.
Context {X : Type}.
Variable xdec : forall a b : X, {a = b} + {a <> b}.
Implicit Types (f : X -> Z) (objs : list X).

Definition bumpf f (a : X) (o : X) : Z := if xdec o a then (f o + 1)%Z else f o.
Lemma bump_map f objs i a : nth_error objs i = Some a -> bump xdec objs (map f objs) i = map (bumpf f a) objs.
Proof.
  intros H. unfold bump. rewrite H. clear H. induction objs as [|o objs IH]; [reflexivity|]. cbn [map combine fst snd]. f_equal. exact IH.
Qed.
(** the object found by the search *)
Fixpoint coll f objs : option X :=
  match objs with
  | [] => None
  | o :: r => if (if in_dec Z.eq_dec (f o) (map f r) then true else false) && negb (if in_dec xdec o r then true else false) then Some o else coll f r
  end.
Lemma find_collision_spec f a : forall objs i, coll f objs = Some a ->
  i <= find_collision xdec objs (map f objs) i /\ nth_error objs (find_collision xdec objs (map f objs) i - i) = Some a.
Proof.
  induction objs as [|o r IH]; intros i H; [discriminate H|]. cbn [coll find_collision map] in *.
  destruct (_ && _) eqn:Ec.
  - injection H as ->. rewrite Nat.sub_diag. split; [lia|reflexivity].
  - destruct r as [|o2 r]; [discriminate H|]. destruct (IH (S i) H) as [H1 H2]. cbn [map] in H1, H2 |- *. split; [lia|].
    match goal with |- nth_error _ (?k - i) = _ => replace (k - i) with (S (k - S i)) by lia end. exact H2.
Qed.
Lemma coll_in f a objs : coll f objs = Some a -> In a objs.
Proof.
  induction objs as [|o r IH]; [discriminate|]. cbn [coll]. destruct (_ && _); [intros [= ->]; left; reflexivity|]. intros H. right. auto.
Qed.

(** the hashes of the different objects, in the order of their last occurrence *)
Fixpoint hstep (l : list Z) : list Z := match l with [] => [] | h :: t => if in_dec Z.eq_dec h t then (h + 1)%Z :: t else h :: hstep t end.
Lemma in_map_nodup f objs z : In z (map f (nodup xdec objs)) <-> In z (map f objs).
Proof. rewrite !in_map_iff. split; intros [o [H1 H2]]; exists o; (split; [exact H1|]); apply nodup_In in H2 || apply nodup_In; exact H2. Qed.
Lemma coll_hstep f a objs : coll f objs = Some a -> map (bumpf f a) (nodup xdec objs) = hstep (map f (nodup xdec objs)).
Proof.
  induction objs as [|o r IH]; [discriminate|]. cbn [coll nodup]. destruct (in_dec xdec o r) as [Hin|Hnin].
  - rewrite andb_false_r. exact IH.
  - rewrite andb_true_r. cbn [map hstep]. intros H.
    destruct (in_dec Z.eq_dec (f o) (map f r)) as [Hh|Hh].
    + injection H as <-. destruct (in_dec Z.eq_dec (f o) (map f (nodup xdec r))) as [_|Hn]; [|exfalso; apply Hn, in_map_nodup, Hh].
      f_equal; [unfold bumpf; destruct (xdec o o); [reflexivity|contradiction]|]. apply map_ext_in. intros x Hx. unfold bumpf. destruct (xdec x o) as [->|_]; [|reflexivity].
      exfalso. apply Hnin. apply nodup_In in Hx. exact Hx.
    + destruct (in_dec Z.eq_dec (f o) (map f (nodup xdec r))) as [Hn|_]; [exfalso; apply Hh, in_map_nodup, Hn|]. f_equal; [|apply IH, H].
      unfold bumpf. destruct (xdec o a) as [->|_]; [|reflexivity]. exfalso. apply Hnin. eapply coll_in; exact H.
Qed.
Lemma coll_none f objs : coll f objs = None -> NoDup (map f (nodup xdec objs)).
Proof.
  induction objs as [|o r IH]; [constructor|]. cbn [coll nodup]. destruct (in_dec xdec o r) as [Hin|Hnin].
  - rewrite andb_false_r. exact IH.
  - rewrite andb_true_r. destruct (in_dec Z.eq_dec (f o) (map f r)) as [Hh|Hh]; [discriminate|]. intros H. cbn [map]. constructor; [|apply IH, H].
    rewrite in_map_nodup. exact Hh.
Qed.

(** termination *)
Inductive settles : list Z -> Prop := settled l : NoDup l -> settles l | settling l : settles (hstep l) -> settles l.
Definition above (h : Z) (t : list Z) : nat := length (filter (fun z => Z.leb h z) t).
Lemma above_lt h t : In h t -> above (h + 1) t < above h t.
Proof.
  unfold above. assert (Hle : forall t, length (filter (fun z => (h + 1 <=? z)%Z) t) <= length (filter (fun z => (h <=? z)%Z) t)).
  { clear. induction t as [|z t IH]; cbn [filter]; [lia|]. destruct (Z.leb_spec (h + 1) z), (Z.leb_spec h z); cbn [length]; lia. }
  induction t as [|z t IH]; intros H; [destruct H|]. specialize (Hle t). cbn [filter]. destruct H as [->|H].
  - destruct (Z.leb_spec (h + 1) h), (Z.leb_spec h h); cbn [length]; lia.
  - specialize (IH H). destruct (Z.leb_spec (h + 1) z), (Z.leb_spec h z); cbn [length]; lia.
Qed.
Lemma settles_all l : settles l.
Proof.
  induction l as [|h t IH]; [apply settled; constructor|]. revert h. induction IH as [t Hnd|t Ht IHt]; intros h.
  - remember (above h t) as n eqn:En. revert h En. induction n as [n IHn] using lt_wf_ind. intros h En.
    destruct (in_dec Z.eq_dec h t) as [Hin|Hnin]; [|apply settled; constructor; assumption].
    apply settling. cbn [hstep]. destruct (in_dec Z.eq_dec h t); [|contradiction]. apply (IHn (above (h + 1) t)); [subst n; apply above_lt, Hin|reflexivity].
  - remember (above h t) as n eqn:En. revert h En. induction n as [n IHn] using lt_wf_ind. intros h En.
    apply settling. cbn [hstep]. destruct (in_dec Z.eq_dec h t) as [Hin|Hnin]; [|apply IHt].
    apply (IHn (above (h + 1) t)); [subst n; apply above_lt, Hin|reflexivity].
Qed.

(** the exit test *)
Lemma NoDup_nodup_length {Y} (dec : forall a b : Y, {a = b} + {a <> b}) l : length (nodup dec l) = length l <-> NoDup l.
Proof.
  split.
  - induction l as [|a l IH]; [constructor|]. cbn [nodup length]. assert (Hle : length (nodup dec l) <= length l).
    { clear. induction l as [|a l IH]; cbn [nodup length]; [lia|]. destruct (in_dec dec a l); cbn [length]; lia. }
    destruct (in_dec dec a l) as [Hin|Hnin]; cbn [length]; intros H; [lia|]. constructor; [exact Hnin|apply IH; lia].
  - intros H. rewrite nodup_fixed_point by exact H. reflexivity.
Qed.
Lemma exit_test f objs : Nat.eqb (n_distinct xdec objs) (n_distinct Z.eq_dec (map f objs)) = true <-> NoDup (map f (nodup xdec objs)).
Proof.
  unfold n_distinct. rewrite Nat.eqb_eq, <- (NoDup_nodup_length Z.eq_dec), map_length.
  assert (H : length (nodup Z.eq_dec (map f objs)) = length (nodup Z.eq_dec (map f (nodup xdec objs)))).
  { apply Permutation_length. apply NoDup_Permutation; try apply NoDup_nodup. intros z. rewrite !nodup_In, in_map_nodup. tauto. }
  rewrite H. split; congruence.
Qed.
Lemma hash_loop_total objs : forall f, exists fuel r, hash_loop xdec fuel objs (map f objs) = Some r.
Proof.
  intros f. remember (map f (nodup xdec objs)) as l eqn:El. assert (H := settles_all l). revert f El. induction H as [l Hnd|l Hs IH]; intros f El.
  - exists 0, (map f objs). cbn [hash_loop]. rewrite (proj2 (exit_test f objs)); [reflexivity|congruence].
  - destruct (Nat.eqb (n_distinct xdec objs) (n_distinct Z.eq_dec (map f objs))) eqn:Ex; [exists 0, (map f objs); cbn [hash_loop]; rewrite Ex; reflexivity|].
    destruct (coll f objs) as [a|] eqn:Ec; [|apply coll_none, exit_test in Ec; congruence].
    destruct (IH (bumpf f a)) as [fuel [r Hr]]; [rewrite El; symmetry; apply coll_hstep, Ec|].
    exists (S fuel), r. cbn [hash_loop]. rewrite Ex. destruct (find_collision_spec f a objs 0 Ec) as [_ Hn]. rewrite Nat.sub_0_r in Hn. rewrite (bump_map f objs _ a Hn). exact Hr.
Qed.
Lemma hash_loop_spec objs : forall fuel f r, hash_loop xdec fuel objs (map f objs) = Some r -> exists f', r = map f' objs /\ NoDup (map f' (nodup xdec objs)).
Proof.
  induction fuel as [|fuel IH]; intros f r H; cbn [hash_loop] in H; destruct (Nat.eqb (n_distinct xdec objs) (n_distinct Z.eq_dec (map f objs))) eqn:Ex; try discriminate H.
  - injection H as <-. exists f. split; [reflexivity|]. apply exit_test, Ex.
  - injection H as <-. exists f. split; [reflexivity|]. apply exit_test, Ex.
  - destruct (coll f objs) as [a|] eqn:Ec; [|apply coll_none, exit_test in Ec; congruence].
    destruct (find_collision_spec f a objs 0 Ec) as [_ Hn]. rewrite Nat.sub_0_r in Hn. rewrite (bump_map f objs _ a Hn) in H. eapply IH; exact H.
Qed.
Lemma inj_of_nodup f objs a b : NoDup (map f (nodup xdec objs)) -> In a objs -> In b objs -> f a = f b -> a = b.
Proof.
  intros Hnd Ha Hb E. apply (nodup_In xdec) in Ha. apply (nodup_In xdec) in Hb. revert Ha Hb. generalize (nodup xdec objs) Hnd. intros l Hl. induction l as [|x l IH]; intros Ha Hb; [destruct Ha|].
  cbn [map] in Hl. apply NoDup_cons_iff in Hl. destruct Hl as [Hx Hl]. destruct Ha as [->|Ha], Hb as [->|Hb]; auto.
  - exfalso. apply Hx. rewrite E. apply in_map, Hb.
  - exfalso. apply Hx. rewrite <- E. apply in_map, Ha.
Qed.
End Hash.
