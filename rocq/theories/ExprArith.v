(** Sums and products of coefficients and polynomials: value, domain, well-formedness, depth. *)
From Verif Require Import SortProofs ExprSpec ExprSmooth.
From Coq Require Import Sorting.Sorted.
Local Open Scope R_scope.

(** ** values of lists *)
Lemma sumR_cons a l : sumR (a :: l) = a + sumR l. Proof. reflexivity. Qed.
Lemma prodR_cons a l : prodR (a :: l) = a * prodR l. Proof. reflexivity. Qed.
Lemma sumR_app l m : sumR (l ++ m) = sumR l + sumR m. Proof. induction l as [|a l IH]; [symmetry; apply Rplus_0_l|]. cbn [app]. rewrite !sumR_cons, IH. ring. Qed.
Lemma prodR_app l m : prodR (l ++ m) = prodR l * prodR m. Proof. induction l as [|a l IH]; [symmetry; apply Rmult_1_l|]. cbn [app]. rewrite !prodR_cons, IH. ring. Qed.
Lemma sumR_perm l m : Permutation l m -> sumR l = sumR m. Proof. induction 1; rewrite ?sumR_cons in *; lra. Qed.
Definition tval (x : point) (p : terms_t) : R := sumR (map (fun t => eval x (fst t) * mono x 0 (snd t)) p).
Definition tdom (x : point) (p : terms_t) : Prop := Forall (fun t => dom x (fst t) /\ row_ok x 0 (snd t)) p.
Lemma eval_pol x p : eval x (Pol p) = tval x p. Proof. cbn [eval]. unfold tval. f_equal. apply map_ext. intros [c k]. reflexivity. Qed.
Lemma eval_epol x p a : eval x (EPol p a) = gpow (tval x p) (eval x a). Proof. rewrite <- eval_pol. reflexivity. Qed.
Lemma eval_lpol x p : eval x (LPol p) = ln (tval x p). Proof. rewrite <- eval_pol. reflexivity. Qed.
Lemma dom_pol x p : dom x (Pol p) <-> tdom x p.
Proof. cbn [dom]. rewrite allP_Forall. unfold tdom. split; intros H; (eapply Forall_impl; [|exact H]); intros [c k]; auto. Qed.
Lemma dom_epol x p a : dom x (EPol p a) <-> tdom x p /\ base_ok (tval x p) a /\ dom x a.
Proof. rewrite <- eval_pol, <- dom_pol. reflexivity. Qed.
Lemma dom_lpol x p : dom x (LPol p) <-> tdom x p /\ 0 < tval x p. Proof. rewrite <- eval_pol, <- dom_pol. reflexivity. Qed.
Lemma tval_app x p q : tval x (p ++ q) = tval x p + tval x q. Proof. unfold tval. rewrite map_app. apply sumR_app. Qed.
Lemma tval_cons x t p : tval x (t :: p) = eval x (fst t) * mono x 0 (snd t) + tval x p. Proof. reflexivity. Qed.
Lemma tval_perm x p q : Permutation p q -> tval x p = tval x q. Proof. intros H. apply sumR_perm, Permutation_map, H. Qed.
Lemma mono_zeros x n : forall o, mono x o (repeat 0%Z n) = 1. Proof. induction n as [|n IH]; intros o; [reflexivity|]. cbn [repeat mono powerRZ]. rewrite IH. ring. Qed.
Lemma row_ok_zeros x n : forall o, row_ok x o (repeat 0%Z n). Proof. induction n as [|n IH]; intros o; cbn; [exact I|]. split; [left; lia|apply IH]. Qed.
Lemma zero_row_repeat k : zero_row k = true -> k = repeat 0%Z (length k).
Proof. induction k as [|z k IH]; [reflexivity|]. cbn [zero_row forallb length repeat]. intros H. apply andb_prop in H as [H1 H2]. apply Z.eqb_eq in H1. subst z. f_equal. apply IH, H2. Qed.
Lemma zero_row_mono x k : zero_row k = true -> mono x 0 k = 1. Proof. intros H. rewrite (zero_row_repeat k H). apply mono_zeros. Qed.
Lemma is_const_spec r e : is_const r e = true <-> e = Num r.
Proof. destruct e; cbn; split; intros H; try discriminate. - destruct (Req_EM_T r0 r); congruence. - injection H as ->. destruct (Req_EM_T r r); congruence. Qed.

Section Nv.
Variable nv : nat.
Notation wf := (wf nv).
Definition good (e : expr) : Prop := is_num e = true \/ wf e.
Definition tok (p : terms_t) : Prop := Forall (fun t => length (snd t) = nv /\ good (fst t)) p.
Lemma terms_ok_tok p : terms_ok nv wf p <-> p <> [] /\ tok p.
Proof. unfold terms_ok, tok. rewrite allP_Forall. split; intros [H1 H2]; (split; [exact H1|]); (eapply Forall_impl; [|exact H2]); intros [c k]; auto. Qed.
Lemma wf_pol p : wf (Pol p) <-> p <> [] /\ tok p. Proof. apply terms_ok_tok. Qed.
Lemma wf_lpol p : wf (LPol p) <-> p <> [] /\ tok p. Proof. apply terms_ok_tok. Qed.
Lemma wf_epol p a : wf (EPol p a) <-> (p <> [] /\ tok p) /\ (NoDup (map snd p) \/ fractional a) /\ good a. Proof. rewrite <- terms_ok_tok. reflexivity. Qed.
Lemma wf_list l : l <> [] /\ allP wf l <-> l <> [] /\ Forall wf l. Proof. rewrite allP_Forall. reflexivity. Qed.
Lemma good_num r : good (Num r). Proof. left. reflexivity. Qed.
Lemma good_wf e : wf e -> good e. Proof. right. assumption. Qed.
Lemma wf_not_num e : wf e -> is_num e = false. Proof. destruct e; try reflexivity. intros []. Qed.
Lemma good_not_num e : good e -> is_num e = false -> wf e. Proof. intros [H|H] H'; [congruence|exact H]. Qed.
Lemma wf_cst r : wf (cst nv r). Proof. apply wf_pol. split; [discriminate|]. constructor; [|constructor]. split; [apply repeat_length|apply good_num]. Qed.
Lemma eval_cst x r : eval x (cst nv r) = r. Proof. unfold cst, zeros. rewrite eval_pol. unfold tval. cbn [map fst snd eval sumR fold_right]. rewrite mono_zeros. ring. Qed.
Lemma dom_cst x r : dom x (cst nv r). Proof. apply dom_pol. constructor; [|constructor]. split; [exact I|apply row_ok_zeros]. Qed.
Lemma max_list_le l n : Forall (fun m => (m <= n)%nat) l -> (max_list l <= n)%nat. Proof. induction 1; cbn; [lia|]. fold (max_list l). lia. Qed.
Lemma max_list_in m l : In m l -> (m <= max_list l)%nat. Proof. induction l as [|a l IH]; intros []; cbn; fold (max_list l); [subst; lia|]. specialize (IH H). lia. Qed.
Lemma max_list_app l m : max_list (l ++ m) = Nat.max (max_list l) (max_list m). Proof. induction l as [|a l IH]; [reflexivity|]. cbn. fold (max_list (l ++ m)) (max_list l). rewrite IH. lia. Qed.
Definition tdepth (p : terms_t) : nat := max_list (map (fun t => depth (fst t)) p).
Lemma depth_pol p : depth (Pol p) = S (tdepth p). Proof. cbn [depth]. unfold tdepth. do 2 f_equal. apply map_ext. intros [c k]. reflexivity. Qed.
Lemma depth_lpol p : depth (LPol p) = S (tdepth p). Proof. exact (depth_pol p). Qed.
Lemma depth_epol p a : depth (EPol p a) = Nat.max (S (tdepth p)) (depth a). Proof. rewrite <- depth_pol. reflexivity. Qed.
Lemma tdepth_le p n : Forall (fun t => (depth (fst t) <= n)%nat) p <-> (tdepth p <= n)%nat.
Proof.
  unfold tdepth. split; [intros H; apply max_list_le, Forall_map, H|]. intros H. apply Forall_forall. intros t Ht. assert (Hi := max_list_in _ _ (in_map (fun t => depth (fst t)) _ _ Ht)). cbv beta in Hi. lia.
Qed.
Lemma wf_depth e : wf e -> (1 <= depth e)%nat.
Proof.
  induction e as [r|p Hp|p a Hp Ha|p Hp|l Hl|l Hl|terms cache Hc|b a Hb Ha|a Ha|a Ha] using expr_rect'; cbn [ExprSpec.wf]; intros H.
  - destruct H.
  - rewrite depth_pol. lia.
  - rewrite depth_epol. lia.
  - rewrite depth_lpol. lia.
  - destruct H as [Hn H]. rewrite allP_Forall in H. destruct l as [|e l]; [congruence|]. apply Forall_cons_iff in H as [H _], Hl as [Hl _]. cbn [depth map max_list fold_right]. specialize (Hl H). lia.
  - destruct H as [Hn H]. rewrite allP_Forall in H. destruct l as [|e l]; [congruence|]. apply Forall_cons_iff in H as [H _], Hl as [Hl _]. cbn [depth map max_list fold_right]. specialize (Hl H). lia.
  - destruct H as (Hn & _ & _ & H). rewrite allP_Forall in H. destruct cache as [|col cache]; [congruence|]. apply Forall_cons_iff in H as [[(f & Hf & _) H] _], Hc as [Hc _]. rewrite allP_Forall in H. destruct col as [|[m c] col]; [discriminate|]. apply Forall_cons_iff in H as [H _], Hc as [Hc _]. cbn [depth map max_list fold_right]. specialize (Hc H). cbn [snd] in Hc. lia.
  - cbn [depth]. specialize (Hb (proj1 H)). lia.
  - cbn [depth]. auto.
  - cbn [depth]. auto.
Qed.

(** ** merging *)
Section Merge.
Variable ad : expr -> expr -> expr.
Variable Q : expr -> Prop.
Hypothesis ad_Q : forall a b, Q a -> Q b -> Q (ad a b).
Hypothesis ad_val : forall x a b, Q a -> Q b -> eval x (ad a b) = eval x a + eval x b.
Hypothesis ad_dom : forall x a b, Q a -> Q b -> dom x a -> dom x b -> dom x (ad a b).
Hypothesis Q0 : Q (Num 0).
Lemma merge_from_ok rest : forall prev, Forall (fun t => Q (fst t)) (prev :: rest) ->
  Forall (fun t => Q (fst t)) (merge_from ad prev rest) /\ (forall x, tval x (merge_from ad prev rest) = tval x (prev :: rest)) /\
  (forall x, tdom x (prev :: rest) -> tdom x (merge_from ad prev rest)) /\
  (forall t, In t (merge_from ad prev rest) -> In (snd t) (map snd (prev :: rest))).
Proof.
  induction rest as [|t r IH]; intros prev H; cbn [merge_from]; [auto using in_map|].
  apply Forall_cons_iff in H as [H1 H]. pose proof H as H'. apply Forall_cons_iff in H as [H2 H]. destruct (is_const 0 (fst t)) eqn:E.
  { destruct (IH prev (Forall_cons _ H1 H)) as (I1 & I2 & I3 & I4). split; [exact I1|]. apply is_const_spec in E. split; [|split].
    - intros x. rewrite I2, !tval_cons, E. cbn [eval]. ring. - intros x D. apply I3. apply Forall_cons_iff in D as [D1 D]. apply Forall_cons_iff in D as [D2 D]. constructor; assumption.
    - intros u Hu. specialize (I4 u Hu). cbn [map In] in *. tauto. }
  destruct (roweqb (snd prev) (snd t)) eqn:R.
  - apply roweqb_spec in R. destruct (IH (ad (fst t) (fst prev), snd t)) as (I1 & I2 & I3 & I4); [constructor; [apply ad_Q; assumption|exact H]|]. split; [exact I1|]. split; [|split].
    + intros x. rewrite I2, !tval_cons. cbn [fst snd]. rewrite ad_val by assumption. rewrite R. ring.
    + intros x D. apply I3. apply Forall_cons_iff in D as [D1 D]. apply Forall_cons_iff in D as [D2 D]. constructor; [|exact D]. cbn [fst snd]. split; [apply ad_dom; tauto|tauto].
    + intros u Hu. specialize (I4 u Hu). cbn [map In snd] in *. tauto.
  - destruct (IH t H') as (I1 & I2 & I3 & I4). split; [constructor; assumption|]. split; [|split].
    + intros x. rewrite tval_cons, I2, (tval_cons x prev). reflexivity.
    + intros x D. apply Forall_cons_iff in D as [D1 D]. constructor; [exact D1|apply I3, D].
    + intros u [<-|Hu]; [left; reflexivity|]. specialize (I4 u Hu). cbn [map In] in *. tauto.
Qed.
Lemma merge_from_sorted rest : forall prev, StronglySorted lexle (map snd (prev :: rest)) ->
  StronglySorted lexlt (map snd (merge_from ad prev rest)) /\ Forall (fun k => lexle (snd prev) k) (map snd (merge_from ad prev rest)).
Proof.
  induction rest as [|t r IH]; intros prev H; cbn [merge_from]. { cbn [map]. split; [constructor; constructor|constructor; [apply lexle_refl|constructor]]. }
  cbn [map] in H. inversion_clear H as [|? ? H1 H2]. pose proof H1 as H1'. inversion_clear H1' as [|? ? H3 H4]. apply Forall_cons_iff in H2 as [H2 H2'].
  destruct (is_const 0 (fst t)); [apply IH; constructor; assumption|]. destruct (roweqb (snd prev) (snd t)) eqn:R.
  - apply roweqb_spec in R. destruct (IH (ad (fst t) (fst prev), snd t) H1) as [I1 I2]. split; [exact I1|]. rewrite R. exact I2.
  - destruct (IH t H1) as [I1 I2]. assert (L : lexlt (snd prev) (snd t)). { apply lexle_lt_eq in H2 as [H2|H2]; [exact H2|]. exfalso. rewrite H2, roweqb_refl in R. discriminate. }
    cbn [map]. split; [constructor; [exact I1|]|constructor; [apply lexle_refl|]]; (eapply Forall_impl; [|exact I2]); intros k Hk; [eapply lexlt_le_trans; eassumption|eapply lexle_trans; eassumption].
Qed.
Lemma filter_const_val x p : tval x (filter (fun t => negb (is_const 0 (fst t))) p) = tval x p.
Proof. induction p as [|t p IH]; [reflexivity|]. cbn [filter]. destruct (is_const 0 (fst t)) eqn:E; cbn [negb]; rewrite ?tval_cons, IH; [|reflexivity]. apply is_const_spec in E. rewrite E. cbn [eval]. ring. Qed.
Lemma filter_sub {A} (P : A -> Prop) f l : Forall P l -> Forall P (filter f l).
Proof. rewrite !Forall_forall. intros H a Ha. apply filter_In in Ha. apply H, Ha. Qed.
Lemma sorted_filter (f : expr * list Z -> bool) p : StronglySorted lexlt (map snd p) -> StronglySorted lexlt (map snd (filter f p)).
Proof.
  induction p as [|t p IH]; [auto|]. cbn [map filter]. intros H. inversion_clear H as [|? ? H1 H2]. destruct (f t); [|apply IH, H1]. cbn [map]. constructor; [apply IH, H1|]. rewrite Forall_map in *. apply filter_sub, H2.
Qed.
Lemma sorted_nodup (l : list (list Z)) : StronglySorted lexlt l -> NoDup l.
Proof. induction 1 as [|a l H IH F]; constructor; [|exact IH]. intros Hin. rewrite Forall_forall in F. exact (lexlt_irrefl _ (F _ Hin)). Qed.
Lemma merged_ok p : Forall (fun t => Q (fst t)) p ->
  Forall (fun t => Q (fst t)) (merged nv ad p) /\ (forall x, tval x (merged nv ad p) = tval x p) /\ (forall x, tdom x p -> tdom x (merged nv ad p)) /\
  merged nv ad p <> [] /\ (Forall (fun t => length (snd t) = nv) p -> Forall (fun t => length (snd t) = nv) (merged nv ad p)) /\
  (StronglySorted lexle (map snd p) -> NoDup (map snd (merged nv ad p))).
Proof.
  intros H. unfold merged. set (m := match p with [] => [] | t :: r => merge_from ad t r end).
  assert (Hm : Forall (fun t => Q (fst t)) m /\ (forall x, tval x m = tval x p) /\ (forall x, tdom x p -> tdom x m) /\ (forall t, In t m -> In (snd t) (map snd p)) /\ (StronglySorted lexle (map snd p) -> StronglySorted lexlt (map snd m))).
  { unfold m. destruct p as [|t r]; [cbn; repeat split; auto; constructor|]. destruct (merge_from_ok r t H) as (I1 & I2 & I3 & I4). repeat split; auto. intros S. apply (merge_from_sorted r t S). }
  destruct Hm as (M1 & M2 & M3 & M4 & M5). clearbody m.
  pose proof (filter_sub _ (fun t => negb (is_const 0 (fst t))) _ M1) as F1.
  assert (F2 : forall x, tval x (filter (fun t => negb (is_const 0 (fst t))) m) = tval x p) by (intros x; rewrite filter_const_val; apply M2).
  assert (F3 : forall x, tdom x p -> tdom x (filter (fun t => negb (is_const 0 (fst t))) m)) by (intros x D; apply filter_sub, M3, D).
  assert (F4 : Forall (fun t => length (snd t) = nv) p -> Forall (fun t => length (snd t) = nv) (filter (fun t => negb (is_const 0 (fst t))) m)).
  { intros L. apply filter_sub. apply Forall_forall. intros t Ht. apply M4, in_map_iff in Ht as (u & <- & Hu). rewrite Forall_forall in L. apply L, Hu. }
  assert (F5 : StronglySorted lexle (map snd p) -> NoDup (map snd (filter (fun t => negb (is_const 0 (fst t))) m))) by (intros S; apply sorted_nodup, sorted_filter, M5, S).
  destruct (filter (fun t => negb (is_const 0 (fst t))) m) as [|t l] eqn:E; [|repeat split; auto; discriminate].
  split; [constructor; [exact Q0|constructor]|]. split; [intros x; rewrite <- F2; unfold tval; cbn [map fst snd eval sumR fold_right]; ring|]. split; [intros x _; constructor; [|constructor]; split; [exact I|apply row_ok_zeros]|]. split; [discriminate|]. split; [intros _; constructor; [apply repeat_length|constructor]|]. intros _. cbn. constructor; [intros []|constructor].
Qed.
Lemma tidy_ok p : Forall (fun t => Q (fst t)) p ->
  Forall (fun t => Q (fst t)) (tidy nv ad p) /\ (forall x, tval x (tidy nv ad p) = tval x p) /\ (forall x, tdom x p -> tdom x (tidy nv ad p)) /\
  tidy nv ad p <> [] /\ (Forall (fun t => length (snd t) = nv) p -> Forall (fun t => length (snd t) = nv) (tidy nv ad p)) /\ NoDup (map snd (tidy nv ad p)).
Proof.
  intros H. unfold tidy. pose proof (sort_by_perm snd p) as P. assert (HP : forall (K : expr * list Z -> Prop), Forall K p -> Forall K (sort_by snd p)) by (intros K; apply Permutation_Forall, Permutation_sym, P).
  destruct (merged_ok (sort_by snd p) (HP _ H)) as (I1 & I2 & I3 & I4 & I5 & I6). split; [exact I1|]. split; [intros x; rewrite I2; apply tval_perm, P|]. split; [intros x D; apply I3, HP, D|]. split; [exact I4|]. split; [auto|]. apply I6.
  pose proof (sort_by_sorted (@snd expr (list Z)) p) as SS. clear - SS. induction SS as [|t l SS IH F]; cbn [map]; constructor; [exact IH|]. apply Forall_map, F.
Qed.
End Merge.

(** ** addition *)
Definition good_at (n : nat) (e : expr) : Prop := good e /\ (depth e <= n)%nat.
Lemma Forall_and' {A} (P Q : A -> Prop) l : Forall P l -> Forall Q l -> Forall (fun a => P a /\ Q a) l.
Proof. induction 1 as [|a l Ha H IH]; intros HQ; constructor; apply Forall_cons_iff in HQ as [H1 H2]; auto. Qed.
Lemma tok_at p : tok p -> forall n, (tdepth p <= n)%nat -> Forall (fun t => good_at n (fst t)) p.
Proof. intros H n Hn. apply tdepth_le in Hn. eapply Forall_impl; [|apply (Forall_and' _ _ _ H Hn)]. cbv beta. intros t [[_ H1] H2]. split; assumption. Qed.
Lemma at_tok p n : Forall (fun t => length (snd t) = nv) p -> Forall (fun t => good_at n (fst t)) p -> tok p /\ (tdepth p <= n)%nat.
Proof.
  intros HL HG. split; [eapply Forall_impl; [|apply (Forall_and' _ _ _ HL HG)]; cbv beta; intros t [H1 [H2 _]]; split; assumption|]. apply tdepth_le. eapply Forall_impl; [|exact HG]. intros t [_ H]. exact H.
Qed.
Lemma tok_len p : tok p -> Forall (fun t => length (snd t) = nv) p. Proof. intros H. eapply Forall_impl; [|exact H]. intros t [L _]. exact L. Qed.
Definition sum_res (n : nat) (a b c : expr) : Prop :=
  good_at n c /\ (forall x, eval x c = eval x a + eval x b) /\ (forall x, dom x a -> dom x b -> dom x c) /\ (is_num a = false \/ is_num b = false -> wf c) /\
  (is_num a = true -> is_num b = true -> is_num c = true).
Lemma sum_pair n a b : wf a -> wf b -> (depth a <= n)%nat -> (depth b <= n)%nat -> sum_res n a b (Sum [a; b]).
Proof.
  intros Ha Hb Da Db. assert (W : wf (Sum [a; b])) by (split; [discriminate|cbn; auto]).
  split; [split; [right; exact W|cbn; lia]|]. split; [intros x; cbn; ring|]. split; [intros x; cbn; auto|]. split; [auto|]. intros H. rewrite (wf_not_num a Ha) in H. discriminate.
Qed.
Lemma sum_res_sym n a b c : sum_res n a b c -> sum_res n b a c.
Proof. intros (H1 & H2 & H3 & H4 & H5). split; [exact H1|]. split; [intros x; rewrite H2; ring|]. split; [auto|]. split; [intros H; apply H4; tauto|]. auto. Qed.
Lemma depth_cst r : depth (cst nv r) = 1%nat. Proof. reflexivity. Qed.
Lemma sum_num n a r : wf a -> (depth a <= n)%nat -> sum_res n a (Num r) (Sum [a; cst nv r]).
Proof.
  intros Ha Da. pose proof (wf_depth a Ha). destruct (sum_pair n a (cst nv r) Ha (wf_cst r) Da) as (H1 & H2 & H3 & H4 & _); [rewrite depth_cst; lia|].
  split; [exact H1|]. split; [intros x; rewrite H2, eval_cst; reflexivity|]. split; [intros x Dx _; apply H3; [exact Dx|apply dom_cst]|]. split; [intros _; apply H4; left; apply wf_not_num, Ha|]. intros H'. rewrite (wf_not_num a Ha) in H'. discriminate.
Qed.
Lemma addc_ok n : forall a b, good_at n a -> good_at n b -> sum_res n a b (addc nv n a b).
Proof.
  induction n as [|m IH]; intros a b [Ga Da] [Gb Db].
  { destruct Ga as [Ga|Ga]; [|apply wf_depth in Ga; lia]. destruct Gb as [Gb|Gb]; [|apply wf_depth in Gb; lia]. destruct a; try discriminate. destruct b; try discriminate.
    cbn [addc]. split; [split; [left; reflexivity|cbn; lia]|]. split; [reflexivity|]. split; [intros; exact I|]. split; [intros [H|H]; discriminate|reflexivity]. }
  assert (T : forall p, wf (Pol p) -> (depth (Pol p) <= S m)%nat -> forall q, wf (Pol q) -> (depth (Pol q) <= S m)%nat -> sum_res (S m) (Pol p) (Pol q) (Pol (tidy nv (addc nv m) (p ++ q)))).
  { intros p Wp Dp q Wq Dq. rewrite depth_pol in Dp, Dq. apply wf_pol in Wp as [_ Tp], Wq as [_ Tq].
    destruct (tidy_ok (addc nv m) (good_at m)) with (p := p ++ q) as (I1 & I2 & I3 & I4 & I5 & I6).
    - intros a' b' A' B'. apply (IH a' b' A' B'). - intros x a' b' A' B'. apply (IH a' b' A' B'). - intros x a' b' A' B'. apply (IH a' b' A' B').
    - split; [left; reflexivity|cbn; lia].
    - apply Forall_app. split; apply tok_at; try assumption; lia.
    - assert (L : Forall (fun t => length (snd t) = nv) (p ++ q)) by (apply Forall_app; split; apply tok_len; assumption).
      destruct (at_tok _ m (I5 L) I1) as [T D]. assert (W : wf (Pol (tidy nv (addc nv m) (p ++ q)))) by (apply wf_pol; split; assumption).
      split; [split; [right; exact W|rewrite depth_pol; lia]|]. split; [intros x; rewrite !eval_pol, I2; apply tval_app|]. split; [intros x D1 D2; apply dom_pol, I3; rewrite dom_pol in D1, D2; apply Forall_app; split; assumption|]. split; [intros _; exact W|intros; discriminate]. }
  assert (TN : forall p r, wf (Pol p) -> (depth (Pol p) <= S m)%nat -> sum_res (S m) (Pol p) (Num r) (Pol (tidy nv (addc nv m) ((Num r, zeros nv) :: p)))).
  { intros p r Wp Dp. destruct (T [(Num r, zeros nv)] (wf_cst r) ltac:(cbn; lia) p Wp Dp) as (H1 & H2 & H3 & H4 & H5). cbn [app] in *.
    split; [exact H1|]. split; [intros x; rewrite H2; fold (cst nv r); rewrite eval_cst; cbn [eval]; ring|]. split; [intros x D1 _; apply H3; [apply (dom_cst x r)|exact D1]|]. split; [intros _; apply H4; left; reflexivity|intros H; discriminate]. }
  destruct Ga as [Ga|Wa].
  { destruct a as [r| | | | | | | | | ]; try discriminate. destruct Gb as [Gb|Wb].
    { destruct b; try discriminate. cbn [addc]. split; [split; [left; reflexivity|cbn; lia]|]. split; [reflexivity|]. split; [intros; exact I|]. split; [intros [H|H]; discriminate|reflexivity]. }
    apply sum_res_sym. destruct b; try (apply sum_num; assumption); [destruct Wb|]. apply TN; assumption. }
  destruct Gb as [Gb|Wb].
  { destruct b as [r| | | | | | | | | ]; try discriminate. destruct a; try (apply sum_num; assumption); [destruct Wa|]. apply TN; assumption. }
  destruct a; destruct b; try (destruct Wa; fail); try (destruct Wb; fail); try (apply sum_pair; assumption); try (apply sum_res_sym, sum_pair; assumption). apply T; assumption.
Qed.
Lemma add_ok a b : good a -> good b -> sum_res (Nat.max (depth a) (depth b)) a b (add nv a b).
Proof. intros Ga Gb. apply addc_ok; split; try assumption; lia. Qed.
Lemma add_tidy p : tok p ->
  tok (tidy nv (add nv) p) /\ (tdepth (tidy nv (add nv) p) <= tdepth p)%nat /\ (forall x, tval x (tidy nv (add nv) p) = tval x p) /\ (forall x, tdom x p -> tdom x (tidy nv (add nv) p)) /\
  tidy nv (add nv) p <> [] /\ NoDup (map snd (tidy nv (add nv) p)).
Proof.
  intros T. destruct (tidy_ok (add nv) (good_at (tdepth p))) with (p := p) as (I1 & I2 & I3 & I4 & I5 & I6).
  - intros a b [A1 A2] [B1 B2]. destruct (add_ok a b A1 B1) as ([G D] & _). split; [exact G|lia].
  - intros x a b [A1 A2] [B1 B2]. apply (add_ok a b A1 B1).
  - intros x a b [A1 A2] [B1 B2]. apply (add_ok a b A1 B1).
  - split; [left; reflexivity|cbn; lia].
  - apply tok_at; [exact T|lia].
  - destruct (at_tok _ (tdepth p) (I5 (tok_len p T)) I1) as [T' D']. auto 7.
Qed.
Lemma add_merged p : tok p -> StronglySorted lexle (map snd p) ->
  tok (merged nv (add nv) p) /\ (tdepth (merged nv (add nv) p) <= tdepth p)%nat /\ (forall x, tval x (merged nv (add nv) p) = tval x p) /\ (forall x, tdom x p -> tdom x (merged nv (add nv) p)) /\
  merged nv (add nv) p <> [] /\ NoDup (map snd (merged nv (add nv) p)).
Proof.
  intros T S. destruct (merged_ok (add nv) (good_at (tdepth p))) with (p := p) as (I1 & I2 & I3 & I4 & I5 & I6).
  - intros a b [A1 A2] [B1 B2]. destruct (add_ok a b A1 B1) as ([G D] & _). split; [exact G|lia].
  - intros x a b [A1 A2] [B1 B2]. apply (add_ok a b A1 B1).
  - intros x a b [A1 A2] [B1 B2]. apply (add_ok a b A1 B1).
  - split; [left; reflexivity|cbn; lia].
  - apply tok_at; [exact T|lia].
  - destruct (at_tok _ (tdepth p) (I5 (tok_len p T)) I1) as [T' D']. auto 7.
Qed.

(** ** products *)
Lemma powerRZ_add' x a b : ((0 <= a)%Z \/ x <> 0) -> ((0 <= b)%Z \/ x <> 0) -> powerRZ x (a + b) = powerRZ x a * powerRZ x b.
Proof.
  intros [Ha|Hx] [Hb|Hx']; try (apply powerRZ_add; assumption). destruct (Req_dec x 0) as [->|N]; [|apply powerRZ_add, N].
  destruct (Z.eq_dec a 0) as [->|Na]; [cbn [Z.add powerRZ]; ring|]. destruct (Z.eq_dec b 0) as [->|Nb]; [rewrite Z.add_0_r; cbn [powerRZ]; ring|].
  destruct a as [|a|a]; try lia. destruct b as [|b|b]; try lia. cbn [Z.add powerRZ]. rewrite !pow_i by lia. ring.
Qed.
Lemma mono_addk x : forall k l o, length k = length l -> row_ok x o k -> row_ok x o l -> mono x o (addk k l) = mono x o k * mono x o l /\ row_ok x o (addk k l).
Proof.
  induction k as [|a k IH]; intros [|b l] o H; try discriminate; [cbn; intros; split; [ring|exact I]|]. intros [H1 H2] [H3 H4]. injection H as H. destruct (IH l (S o) H H2 H4) as [I1 I2].
  unfold addk in *. cbn [combine map fst snd mono row_ok]. rewrite I1, (powerRZ_add' (x o) a b H1 H3). split; [ring|]. split; [|exact I2]. destruct H1 as [H1|H1]; [|right; exact H1]. destruct H3 as [H3|H3]; [left; lia|right; exact H3].
Qed.
Lemma addk_len k l : length k = length l -> length (addk k l) = length l. Proof. intros H. unfold addk. rewrite map_length, combine_length. lia. Qed.
Definition mul_res (n : nat) (a b c : expr) : Prop :=
  good_at n c /\ (forall x, dom x a -> dom x b -> dom x c /\ eval x c = eval x a * eval x b) /\ (is_num a = false \/ is_num b = false -> wf c).
Lemma mul_res_sym n a b c : mul_res n a b c -> mul_res n b a c.
Proof. intros (H1 & H2 & H3). split; [exact H1|]. split; [|intros H; apply H3; tauto]. intros x D1 D2. destruct (H2 x D2 D1) as [D E]. split; [exact D|]. rewrite E. ring. Qed.
Lemma prod_pair n a b : wf a -> wf b -> (depth a <= n)%nat -> (depth b <= n)%nat -> mul_res n a b (Prod [a; b]).
Proof.
  intros Ha Hb Da Db. assert (W : wf (Prod [a; b])) by (split; [discriminate|cbn; auto]).
  split; [split; [right; exact W|cbn; lia]|]. split; [intros x D1 D2; cbn; split; [auto|ring]|auto].
Qed.
Lemma prod_num n a r : wf a -> (depth a <= n)%nat -> mul_res n a (Num r) (Prod [a; cst nv r]).
Proof.
  intros Ha Da. pose proof (wf_depth a Ha). destruct (prod_pair n a (cst nv r) Ha (wf_cst r) Da) as (H1 & H2 & H3); [rewrite depth_cst; lia|].
  split; [exact H1|]. split; [intros x Dx _; destruct (H2 x Dx (dom_cst x r)) as [D E]; split; [exact D|rewrite E, eval_cst; reflexivity]|]. intros _. apply H3. left. apply wf_not_num, Ha.
Qed.
Lemma sumR_scal c l : sumR (map (fun a => c * a) l) = c * sumR l. Proof. induction l as [|a l IH]; [cbn; ring|]. cbn [map]. rewrite !sumR_cons, IH. ring. Qed.
Lemma mulc_ok n : forall a b, good_at n a -> good_at n b -> mul_res n a b (mulc nv n a b).
Proof.
  induction n as [|m IH]; intros a b [Ga Da] [Gb Db].
  { destruct Ga as [Ga|Ga]; [|apply wf_depth in Ga; lia]. destruct Gb as [Gb|Gb]; [|apply wf_depth in Gb; lia]. destruct a; try discriminate. destruct b; try discriminate.
    cbn [mulc]. split; [split; [left; reflexivity|cbn; lia]|]. split; [intros; split; [exact I|reflexivity]|]. intros [H|H]; discriminate. }
  assert (T : forall p, wf (Pol p) -> (depth (Pol p) <= S m)%nat -> forall q, wf (Pol q) -> (depth (Pol q) <= S m)%nat ->
     mul_res (S m) (Pol p) (Pol q) (Pol (tidy nv (add nv) (flat_map (fun t => map (fun u => (mulc nv m (fst u) (fst t), addk (snd u) (snd t))) q) p)))).
  { intros p Wp Dp q Wq Dq. rewrite depth_pol in Dp, Dq. apply wf_pol in Wp as [_ Tp], Wq as [_ Tq]. set (L := flat_map _ p).
    assert (AL : Forall (fun t => length (snd t) = nv /\ good_at m (fst t)) L).
    { apply Forall_flat_map. pose proof (tok_at p Tp m ltac:(lia)) as Ap. pose proof (tok_at q Tq m ltac:(lia)) as Aq. pose proof (tok_len p Tp) as Lp. pose proof (tok_len q Tq) as Lq.
      rewrite Forall_forall in *. intros t Ht. apply Forall_map, Forall_forall. intros u Hu. cbn [fst snd]. split; [rewrite addk_len; [apply Lp, Ht|rewrite (Lp t Ht), (Lq u Hu); reflexivity]|]. apply IH; auto. }
    assert (TL : tok L) by (eapply Forall_impl; [|exact AL]; cbv beta; intros t [H1 [H2 _]]; auto).
    assert (DL : (tdepth L <= m)%nat) by (apply tdepth_le; eapply Forall_impl; [|exact AL]; cbv beta; intros t [_ [_ H]]; exact H).
    destruct (add_tidy L TL) as (I1 & I2 & I3 & I4 & I5 & I6). assert (W : wf (Pol (tidy nv (add nv) L))) by (apply wf_pol; split; assumption).
    split; [split; [right; exact W|rewrite depth_pol; lia]|]. split; [|intros _; exact W]. intros x D1 D2. rewrite dom_pol in *. rewrite !eval_pol, I3.
    assert (V : tdom x L /\ tval x L = tval x p * tval x q); [|destruct V as [V1 V2]; split; [apply I4, V1|exact V2]].
    unfold L. clear I1 I2 I3 I4 I5 I6 W TL DL AL L. pose proof (tok_at q Tq m ltac:(lia)) as Aq. pose proof (tok_len q Tq) as Lq. assert (Hdp : (tdepth p <= m)%nat) by lia. pose proof (tok_at p Tp m Hdp) as Ap. pose proof (tok_len p Tp) as Lp. clear Tp Tq Dp Dq Hdp.
    induction p as [|t p IHp]; cbn [flat_map]; [split; [constructor|unfold tval; cbn; ring]|]. apply Forall_cons_iff in Ap as [Ap1 Ap], Lp as [Lp1 Lp], D1 as [D1 D1']. destruct (IHp D1' Ap Lp) as [J1 J2]. rewrite tval_app, tval_cons, J2.
    assert (K : tdom x (map (fun u => (mulc nv m (fst u) (fst t), addk (snd u) (snd t))) q) /\ tval x (map (fun u => (mulc nv m (fst u) (fst t), addk (snd u) (snd t))) q) = (eval x (fst t) * mono x 0 (snd t)) * tval x q).
    { clear IHp J1 J2 Ap Lp D1'. induction q as [|u q IHq]; cbn [map]; [split; [constructor|unfold tval; cbn; ring]|]. apply Forall_cons_iff in Aq as [Aq1 Aq], Lq as [Lq1 Lq], D2 as [D2 D2']. destruct (IHq D2' Aq Lq) as [J1 J2].
      destruct (IH (fst u) (fst t) Aq1 Ap1) as (_ & M & _). destruct (M x (proj1 D2) (proj1 D1)) as [M1 M2]. destruct (mono_addk x (snd u) (snd t) 0 ltac:(congruence) (proj2 D2) (proj2 D1)) as [N1 N2].
      split; [constructor; [exact (conj M1 N2)|exact J1]|]. rewrite !tval_cons, J2. cbn [fst snd]. rewrite M2, N1. ring. }
    destruct K as [K1 K2]. split; [apply Forall_app; split; assumption|]. rewrite K2. ring. }
  assert (TN : forall p r, wf (Pol p) -> (depth (Pol p) <= S m)%nat -> mul_res (S m) (Pol p) (Num r) (scale nv (mulc nv m) p r)).
  { intros p r Wp Dp. unfold scale. destruct (Req_EM_T r 1) as [->|N1].
    { split; [split; [right; exact Wp|exact Dp]|]. split; [intros x D _; split; [exact D|cbn [eval]; ring]|auto]. }
    destruct (Req_EM_T r 0) as [->|N0].
    { split; [split; [right; apply wf_cst|cbn; lia]|]. split; [intros x D _; split; [apply dom_cst|rewrite eval_cst; cbn [eval]; ring]|intros _; apply wf_cst]. }
    rewrite depth_pol in Dp. apply wf_pol in Wp as [Np Tp]. assert (NA : good_at m (Num r)) by (split; [left; reflexivity|cbn; lia]). pose proof (tok_at p Tp m ltac:(lia)) as Ap. pose proof (tok_len p Tp) as Lp.
    destruct (at_tok (map (fun t => (mulc nv m (fst t) (Num r), snd t)) p) m) as [T1 T2]; [apply Forall_map; exact Lp|apply Forall_map; eapply Forall_impl; [|exact Ap]; intros t Ht; apply (IH _ _ Ht NA)|].
    assert (W : wf (Pol (map (fun t => (mulc nv m (fst t) (Num r), snd t)) p))) by (apply wf_pol; split; [destruct p; [congruence|discriminate]|exact T1]).
    split; [split; [right; exact W|rewrite depth_pol; lia]|]. split; [|intros _; exact W]. intros x D _. rewrite dom_pol in *. rewrite !eval_pol. cbn [eval]. clear - Ap D IH NA.
    induction p as [|t p IHp]; [split; [constructor|unfold tval; cbn; ring]|]. apply Forall_cons_iff in Ap as [Ap1 Ap], D as [D1 D]. destruct (IHp Ap D) as [J1 J2]. cbn [map]. rewrite !tval_cons, J2. cbn [fst snd].
    destruct (IH _ _ Ap1 NA) as (_ & M & _). destruct (M x (proj1 D1) I) as [M1 M2]. split; [constructor; [split; [exact M1|apply D1]|exact J1]|]. rewrite M2. cbn [eval]. ring. }
  destruct Ga as [Ga|Wa].
  { destruct a as [r| | | | | | | | | ]; try discriminate. destruct Gb as [Gb|Wb].
    { destruct b; try discriminate. cbn [mulc]. split; [split; [left; reflexivity|cbn; lia]|]. split; [intros; split; [exact I|reflexivity]|]. intros [H|H]; discriminate. }
    apply mul_res_sym. destruct b; try (apply prod_num; assumption); [destruct Wb|]. apply TN; assumption. }
  destruct Gb as [Gb|Wb].
  { destruct b as [r| | | | | | | | | ]; try discriminate. destruct a; try (apply prod_num; assumption); [destruct Wa|]. apply TN; assumption. }
  destruct a; destruct b; try (destruct Wa; fail); try (destruct Wb; fail); try (apply prod_pair; assumption); try (apply mul_res_sym, prod_pair; assumption). apply T; assumption.
Qed.
Lemma mul_ok a b : good a -> good b -> mul_res (Nat.max (depth a) (depth b)) a b (mul nv a b).
Proof. intros Ga Gb. apply mulc_ok; split; try assumption; lia. Qed.
Lemma mul_num r s : mul nv (Num r) (Num s) = Num (r * s). Proof. reflexivity. Qed.
Lemma minus_one_ok a : good a -> good (minus_one nv a) /\ (forall x, eval x (minus_one nv a) = eval x a - 1) /\ (forall x, dom x a -> dom x (minus_one nv a)) /\ (is_num a = false -> wf (minus_one nv a)).
Proof.
  intros [H|W].
  { destruct a; try discriminate. cbn [minus_one eval]. split; [left; reflexivity|]. split; [reflexivity|]. split; [intros; exact I|discriminate]. }
  assert (S : forall b, wf b -> wf (Sum [b; cst nv (-1)]) /\ (forall x, eval x (Sum [b; cst nv (-1)]) = eval x b - 1) /\ (forall x, dom x b -> dom x (Sum [b; cst nv (-1)]))).
  { intros b Wb. split; [split; [discriminate|]; cbn [allP fold_right]; pose proof (wf_cst (-1)); auto|]. split; [intros x; cbn [eval map sumR fold_right]; rewrite eval_cst; ring|]. intros x D. pose proof (dom_cst x (-1)). cbn [dom allP fold_right]. auto. }
  destruct a; try (destruct W; fail); cbn [minus_one]; try (destruct (S _ W) as (S1 & S2 & S3); split; [right; exact S1|]; split; [exact S2|]; split; [exact S3|intros _; exact S1]).
  apply wf_pol in W as [N T]. destruct (add_tidy ((Num (-1), zeros nv) :: p)) as (I1 & I2 & I3 & I4 & I5 & I6); [constructor; [split; [apply repeat_length|apply good_num]|exact T]|].
  assert (W : wf (Pol (tidy nv (add nv) ((Num (-1), zeros nv) :: p)))) by (apply wf_pol; split; assumption).
  split; [right; exact W|]. split; [intros x; rewrite !eval_pol, I3, tval_cons; cbn [fst snd eval]; unfold zeros; rewrite mono_zeros; ring|]. split; [|intros _; exact W]. intros x D. apply dom_pol, I4. constructor; [split; [exact I|apply row_ok_zeros]|apply dom_pol, D].
Qed.
End Nv.
