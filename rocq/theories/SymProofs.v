(** Proofs about the symmetry finder: equal arrays mean equal sectors up to a renaming of variables. *)
From Verif Require Import SortProofs PolyProofs.
From Verif Require Export HashProofs SymSpec MatSortProofs.
Local Open Scope nat_scope.

(** ** lists *)
Lemma filter_partition_perm {A} (p : A -> bool) (l : list A) : Permutation (filter p l ++ filter (fun a => negb (p a)) l) l.
Proof.
  induction l as [|a l IH]; [reflexivity|]. cbn [filter]. destruct (p a); cbn [negb app]; [constructor; exact IH|].
  rewrite <- Permutation_middle. constructor. exact IH.
Qed.
Lemma keep_drop_perm n ix : Permutation (keep_cols n ix ++ drop_cols n ix) (seq 0 n).
Proof. destruct ix as [ix|]; cbn [keep_cols drop_cols]; [apply filter_partition_perm|rewrite app_nil_r; reflexivity]. Qed.
Lemma perm_map_inj {A B} (R : A -> B) (l1 l2 : list A) : (forall a b, In a l1 -> In b l2 -> R a = R b -> a = b) ->
  Permutation (map R l1) (map R l2) -> Permutation l1 l2.
Proof.
  intros Hinj H. apply Permutation_map_inv in H. destruct H as [l3 [H1 H2]]. assert (l1 = l3); [|subst; symmetry; exact H2].
  assert (Hin : forall a, In a l3 -> In a l2) by (intros a; apply Permutation_in; symmetry; exact H2).
  clear H2. revert l3 H1 Hin. induction l1 as [|b l1 IH]; intros [|c l3] H1 Hin; cbn [map] in H1; try discriminate; [reflexivity|].
  injection H1 as H1 H3. f_equal.
  - apply Hinj; [left; reflexivity|apply Hin; left; reflexivity|exact H1].
  - apply IH; [intros a x Ha Hx; apply Hinj; [right; exact Ha|exact Hx]|exact H3|intros a Ha; apply Hin; right; exact Ha].
Qed.
Lemma index_of_spec {X} (dec : forall a b : X, {a = b} + {a <> b}) x l k : index_of dec x l = Some k -> nth_error l k = Some x.
Proof.
  revert k. induction l as [|y l IH]; intros k H; cbn [index_of] in H; [discriminate|]. destruct (dec x y) as [->|_]; [injection H as <-; reflexivity|].
  destruct (index_of dec x l) as [k'|]; [|discriminate]. injection H as <-. cbn [nth_error]. apply IH. reflexivity.
Qed.
Lemma index_of_none {X} (dec : forall a b : X, {a = b} + {a <> b}) x l : index_of dec x l = None -> ~ In x l.
Proof.
  induction l as [|y l IH]; intros H; cbn [index_of] in H; [intros []|]. destruct (dec x y) as [->|Hne]; [discriminate|].
  destruct (index_of dec x l) as [k'|]; [discriminate|]. intros [->|Hi]; [contradiction|]. apply IH; [reflexivity|exact Hi].
Qed.
Lemma index_of_in {X} (dec : forall a b : X, {a = b} + {a <> b}) x l : In x l -> exists k, index_of dec x l = Some k.
Proof. intros H. destruct (index_of dec x l) eqn:E; [eauto|]. exfalso. eapply index_of_none; eauto. Qed.
Lemma Forall2_nth {A B} (R : A -> B -> Prop) l : forall l', length l = length l' ->
  (forall i a b, nth_error l i = Some a -> nth_error l' i = Some b -> R a b) -> Forall2 R l l'.
Proof.
  induction l as [|a l IH]; intros [|b l'] Hl H; try discriminate Hl; constructor.
  - apply (H 0); reflexivity.
  - apply IH; [cbn in Hl; lia|]. intros i. apply (H (S i)).
Qed.
Lemma nth_error_ext {A} (l : list A) : forall l', (forall i, nth_error l i = nth_error l' i) -> l = l'.
Proof.
  induction l as [|a l IH]; intros [|b l'] H; [reflexivity|specialize (H 0); discriminate H|specialize (H 0); discriminate H|].
  f_equal; [specialize (H 0); cbn in H; congruence|]. apply IH. intros i. apply (H (S i)).
Qed.

Section Sym.
Variable F : Fld.
Local Open Scope fld_scope.
Add Field Fld_fieldSY : (f_th F).
Variable E : Type.
Variable edec : forall a b : E, {a = b} + {a <> b}.
Notation xsector := (xsector F E).
Notation cobj := (cobj F E).
Implicit Types (s a b : xsector) (y : list F).

Definition pts (js : list nat) y : list F := map (fun j => nth j y 0) js.
Lemma meval_cols js e y : meval (cols js e) (pts js y) = prodF (map (fun j => zpow (nth j y 0) (getZ j e)) js).
Proof. induction js as [|j js IH]; [reflexivity|]. cbn [cols pts map meval prodF]. f_equal. exact IH. Qed.
Lemma meval_all n e y : length e = n -> length y = n -> meval e y = prodF (map (fun j => zpow (nth j y 0) (getZ j e)) (seq 0 n)).
Proof.
  intros He Hy. rewrite <- meval_cols. f_equal.
  - symmetry. unfold cols, getZ. symmetry. apply list_mapseq, He.
  - unfold pts. apply list_mapseq, Hy.
Qed.
Lemma meval_split kc dc n e y : Permutation (kc ++ dc) (seq 0 n) -> length e = n -> length y = n ->
  meval e y = meval (cols dc e) (pts dc y) * meval (cols kc e) (pts kc y).
Proof.
  intros Hp He Hy. rewrite (meval_all n e y He Hy), !meval_cols.
  rewrite (prodF_perm F _ _ (Permutation_map _ (Permutation_sym Hp))), map_app, prodF_app. ring.
Qed.
(** renaming *)
Lemma meval_rearrange tau kr (xk : list F) : Permutation tau (seq 0 (length kr)) -> length kr = length xk ->
  meval (map (fun j => nth j kr 0%Z) tau) (map (fun j => nth j xk 0) tau) = meval kr xk.
Proof.
  intros Hp Hl. change (meval (cols tau kr) (pts tau xk) = meval kr xk). rewrite meval_cols, (meval_all (length kr) kr xk) by auto.
  apply prodF_perm, Permutation_map, Hp.
Qed.

(** ** sums over the rows of an array *)
Definition rsum (phi : cobj * list Z -> F) (rows : list (cobj * list Z)) : F := sumF (map phi rows).
Lemma rsum_app phi l1 l2 : rsum phi (l1 ++ l2) = rsum phi l1 + rsum phi l2.
Proof. unfold rsum. rewrite map_app, sumF_app. reflexivity. Qed.
Lemma rsum_zero phi l : (forall q, In q l -> phi q = 0) -> rsum phi l = 0.
Proof. intros H. unfold rsum. induction l as [|q l IH]; [reflexivity|]. cbn [map sumF]. rewrite (H q (or_introl eq_refl)), IH by (intros; apply H; right; assumption). ring. Qed.
Lemma rsum_index {A} (g : nat -> A -> list (cobj * list Z)) phi i : (forall k x, k <> i -> rsum phi (g k x) = 0) ->
  forall (L : list A) (s : nat), rsum phi (concat (map (fun q => g (fst q) (snd q)) (combine (seq s (length L)) L))) =
    if Nat.leb s i then match nth_error L (i - s) with Some x => rsum phi (g i x) | None => 0 end else 0.
Proof.
  intros H. induction L as [|x L IH]; intros s; cbn [length seq combine map concat].
  - destruct (Nat.leb s i); [|reflexivity]. destruct (i - s)%nat; reflexivity.
  - rewrite rsum_app, IH. cbn [fst snd]. destruct (Nat.eq_dec s i) as [->|Hne].
    + rewrite Nat.leb_refl, Nat.sub_diag. replace (S i <=? i) with false by (symmetry; apply Nat.leb_gt; lia). cbn [nth_error]. ring.
    + rewrite (H s x Hne). destruct (Nat.leb_spec s i), (Nat.leb_spec (S s) i); try lia.
      * replace (i - s)%nat with (S (i - S s)) by lia. cbn [nth_error]. ring.
      * ring.
Qed.
Definition tag_dec : forall t t' : tag E, {t = t'} + {t <> t'}.
Proof. decide equality; try apply Nat.eq_dec; decide equality. Defined.
(** the value of the polynomial tagged [t] *)
Definition wt (kc dc : list nat) (t : tag E) y (q : cobj * list Z) : F :=
  match fst q with Tagged t' c r => if tag_dec t t' then c * meval r (pts dc y) * meval (snd q) (pts kc y) else 0 | _ => 0 end.
Definition wj (kc : list nat) y (q : cobj * list Z) : F := match fst q with JacOne => meval (snd q) (pts kc y) | _ => 0 end.
Lemma wt_rows kc dc n t y ts : Permutation (kc ++ dc) (seq 0 n) -> length y = n -> Forall (fun u => length (fst u) = n) ts ->
  rsum (wt kc dc t y) (rows_of kc dc t ts) = sumF (map (fun u => snd u * meval (fst u) y) ts).
Proof.
  intros Hp Hy Hts. unfold rsum, rows_of. rewrite map_map. apply sumF_map_ext. intros u Hu. rewrite Forall_forall in Hts. cbn [wt fst snd]. unfold wt. cbn [fst snd]. unfold tagged.
  destruct (feqb (snd u) 0) eqn:Ez.
  - apply feqb_spec in Ez. rewrite Ez. ring.
  - destruct (tag_dec t t) as [_|n0]; [|contradiction]. rewrite (meval_split kc dc n (fst u) y Hp (Hts u Hu) Hy). ring.
Qed.
Lemma wt_rows_other kc dc t t' y ts : t <> t' -> rsum (wt kc dc t y) (rows_of kc dc t' ts) = 0.
Proof.
  intros H. apply rsum_zero. intros q Hq. unfold rows_of in Hq. apply in_map_iff in Hq. destruct Hq as [u [<- _]]. unfold wt, tagged. cbn [fst snd].
  destruct (feqb (snd u) 0); [reflexivity|]. destruct (tag_dec t t'); [contradiction|reflexivity].
Qed.
Lemma wj_rows kc dc t y ts : rsum (wj kc y) (rows_of kc dc t ts) = 0.
Proof.
  apply rsum_zero. intros q Hq. unfold rows_of in Hq. apply in_map_iff in Hq. destruct Hq as [u [<- _]]. unfold wj, tagged. cbn [fst]. destruct (feqb (snd u) 0); reflexivity.
Qed.

Section Arr.
Variables (kc dc : list nat) (n : nat).
Hypothesis Hkd : Permutation (kc ++ dc) (seq 0 n).
Notation arr := (sector2array kc dc).

Lemma xwf_cast s : xwf n s -> forall c, In c (scast (xs s)) ->
  pnv (fst c) = n /\ pnv (snd c) = n /\ pwf (fst c) /\ pwf (snd c).
Proof.
  intros [Hs _] c Hc. unfold swf in Hs. rewrite !Forall_app in Hs. destruct Hs as [H1 [H2 _]]. rewrite Forall_map in H1, H2. rewrite Forall_forall in H1, H2.
  specialize (H1 c Hc). specialize (H2 c Hc). tauto.
Qed.
Lemma xwf_other s : xwf n s -> forall p, In p (sother (xs s)) -> pnv p = n /\ pwf p.
Proof. intros [Hs _] p Hp. unfold swf in Hs. rewrite !Forall_app in Hs. destruct Hs as [_ [_ [H _]]]. rewrite Forall_forall in H. specialize (H p Hp). tauto. Qed.
Lemma xwf_jac s : xwf n s -> exists e c, ptm (sjac (xs s)) = [(e, c)] /\ length e = n.
Proof.
  intros [Hs [_ [_ [Hj _]]]]. unfold swf in Hs. rewrite !Forall_app in Hs. destruct Hs as [_ [_ [_ H]]]. apply Forall_inv in H. destruct H as [H1 [H2 _]].
  destruct (ptm (sjac (xs s))) as [|[e c] [|t r]] eqn:Et; try discriminate Hj. exists e, c. split; [reflexivity|]. unfold pwf in H2. rewrite Et, H1 in H2. apply Forall_inv in H2. exact H2.
Qed.
Lemma expand_wf s c : xwf n s -> In c (scast (xs s)) -> Forall (fun u => length (fst u) = n) (expand_product c).
Proof.
  intros Hw Hc. destruct (xwf_cast s Hw c Hc) as [H1 [H2 [H3 H4]]]. unfold expand_product. destruct (ptm (fst c)) as [|m r] eqn:Em; [constructor|].
  rewrite Forall_map. unfold pwf in *. rewrite Em, H1 in H3. apply Forall_inv in H3. rewrite H2 in H4. eapply Forall_impl; [|exact H4]. cbn [fst]. intros t Ht. rewrite row_add_length; congruence.
Qed.
Lemma expand_eval s c y : xwf n s -> In c (scast (xs s)) -> length y = n -> Forall (fun v => v <> 0) y \/ snonneg (xs s) ->
  sumF (map (fun u => snd u * meval (fst u) y) (expand_product c)) = peval (fst c) y * peval (snd c) y.
Proof.
  intros Hw Hc Hy Hok. destruct (xwf_cast s Hw c Hc) as [H1 [H2 [H3 H4]]].
  assert (Hm : exists e k, ptm (fst c) = [(e, k)]). { destruct Hw as [_ [_ [_ [_ [H _]]]]]. rewrite Forall_forall in H. destruct (H c Hc) as [[e [k [Hm _]]] _]. eauto. }
  destruct Hm as [e [k Hm]]. unfold expand_product, peval. rewrite Hm. rewrite map_map. cbn [map fst snd sumF].
  unfold pwf in H3, H4. rewrite Hm, H1 in H3. apply Forall_inv in H3. cbn [fst] in H3. rewrite H2 in H4.
  assert (Hadd : forall t, In t (ptm (snd c)) -> meval (row_add (fst t) e) y = meval (fst t) y * meval e y).
  { intros t Ht. rewrite Forall_forall in H4. specialize (H4 t Ht). destruct Hok as [Hnz|Hnn].
    - apply meval_row_add_nz; congruence || exact Hnz.
    - unfold snonneg in Hnn. rewrite !Forall_app in Hnn. destruct Hnn as [N1 [N2 _]]. rewrite Forall_map in N1, N2. rewrite Forall_forall in N1, N2.
      specialize (N1 c Hc). specialize (N2 c Hc). unfold pnonneg in N1, N2. rewrite Hm in N1. apply Forall_inv in N1. cbn [fst] in N1. rewrite Forall_forall in N2. specialize (N2 t Ht).
      assert (Hpo : forall r, length r = length y -> Forall (fun z => (0 <= z)%Z) r -> Forall2 pow_ok y r).
      { clear. intros r. revert y. induction r as [|z r IH]; intros [|v y] Hl Hr; try discriminate Hl; constructor; [right; apply Forall_inv in Hr; exact Hr|]. apply IH; [cbn in Hl; lia|]. apply Forall_inv_tail in Hr. exact Hr. }
      apply meval_row_add; apply Hpo; auto; congruence. }
  rewrite (sumF_map_ext F _ (fun t => k * meval e y * (snd t * meval (fst t) y))) by (intros t Ht; rewrite (Hadd t Ht); ring).
  rewrite <- (map_map (fun t => snd t * meval (fst t) y) (fun v => k * meval e y * v)), sumF_scale. ring.
Qed.

Lemma seq_combine {A B} (l : list A) (m : list B) : length m = length l -> seq 0 (length l) = seq 0 (length (combine l m)).
Proof. intros H. rewrite combine_length, H, Nat.min_id. reflexivity. Qed.
Lemma nth_combine {A B} (l : list A) : forall (m : list B) i, nth_error (combine l m) i = match nth_error l i, nth_error m i with Some a, Some b => Some (a, b) | _, _ => None end.
Proof. induction l as [|a l IH]; intros [|b m] [|i]; cbn; try reflexivity. - destruct (nth_error l i); reflexivity. - apply IH. Qed.

(** reading the polynomials off the array *)
Lemma arr_jac s y : xwf n s -> rsum (wj kc y) (arr s) = sumF (map (fun t => meval (cols kc (fst t)) (pts kc y)) (ptm (sjac (xs s)))).
Proof.
  intros Hw. unfold sector2array. rewrite !rsum_app.
  assert (Hc : forall (l : list (list (cobj * list Z))), (forall r, In r l -> rsum (wj kc y) r = 0) -> rsum (wj kc y) (concat l) = 0).
  { induction l as [|r l IH]; intros H; [reflexivity|]. cbn [concat]. rewrite rsum_app, (H r (or_introl eq_refl)), IH by (intros; apply H; right; assumption). ring. }
  rewrite !Hc.
  - unfold rsum at 1. rewrite map_map. cbn [wj fst snd]. unfold wj. cbn [fst snd]. ring.
  - intros r Hr. apply in_map_iff in Hr. destruct Hr as [q [<- _]]. apply wj_rows.
  - intros r Hr. apply in_map_iff in Hr. destruct Hr as [q [<- _]]. apply wj_rows.
Qed.
Lemma arr_jac_wt s t y : rsum (wt kc dc t y) (map (fun u => (JacOne, cols kc (fst u))) (ptm (sjac (xs s)))) = 0.
Proof. apply rsum_zero. intros q Hq. apply in_map_iff in Hq. destruct Hq as [u [<- _]]. reflexivity. Qed.
Lemma concat_zero phi (l : list (list (cobj * list Z))) : (forall r, In r l -> rsum phi r = 0) -> rsum phi (concat l) = 0.
Proof. induction l as [|r l IH]; intros H; [reflexivity|]. cbn [concat]. rewrite rsum_app, (H r (or_introl eq_refl)), IH by (intros; apply H; right; assumption). ring. Qed.
Lemma arr_cast s i c e y : xwf n s -> nth_error (scast (xs s)) i = Some c -> nth_error (xcast s) i = Some e -> length y = n ->
  rsum (wt kc dc (TCast i e) y) (arr s) = sumF (map (fun u => snd u * meval (fst u) y) (expand_product c)).
Proof.
  intros Hw Hc He Hy. unfold sector2array. rewrite !rsum_app, arr_jac_wt.
  rewrite (concat_zero _ (map _ (combine (seq 0 (length (sother (xs s)))) _))).
  2:{ intros r Hr. apply in_map_iff in Hr. destruct Hr as [q [<- _]]. apply wt_rows_other. discriminate. }
  assert (Hl : length (xcast s) = length (scast (xs s))) by apply Hw.
  rewrite (seq_combine (scast (xs s)) (xcast s) Hl).
  rewrite (rsum_index (fun k (x : (poly F * poly F) * option E) => rows_of kc dc (TCast k (snd x)) (expand_product (fst x))) (wt kc dc (TCast i e) y) i).
  2:{ intros k x Hk. apply wt_rows_other. intros [= ]. congruence. }
  cbn [Nat.leb]. rewrite Nat.sub_0_r, nth_combine, Hc, He. cbn [fst snd]. rewrite (wt_rows kc dc n); auto; [ring|].
  apply (expand_wf s); [exact Hw|]. eapply nth_error_In; exact Hc.
Qed.
Lemma arr_other s i p e y : xwf n s -> nth_error (sother (xs s)) i = Some p -> nth_error (xother s) i = Some e -> length y = n ->
  rsum (wt kc dc (TOther i e) y) (arr s) = peval p y.
Proof.
  intros Hw Hc He Hy. unfold sector2array. rewrite !rsum_app, arr_jac_wt.
  rewrite (concat_zero _ (map _ (combine (seq 0 (length (scast (xs s)))) _))).
  2:{ intros r Hr. apply in_map_iff in Hr. destruct Hr as [q [<- _]]. apply wt_rows_other. discriminate. }
  assert (Hl : length (xother s) = length (sother (xs s))) by apply Hw.
  rewrite (seq_combine (sother (xs s)) (xother s) Hl).
  rewrite (rsum_index (fun k (x : poly F * option E) => rows_of kc dc (TOther k (snd x)) (ptm (fst x))) (wt kc dc (TOther i e) y) i).
  2:{ intros k x Hk. apply wt_rows_other. intros [= ]. congruence. }
  cbn [Nat.leb]. rewrite Nat.sub_0_r, nth_combine, Hc, He. cbn [fst snd]. rewrite (wt_rows kc dc n); auto; [unfold peval; ring|].
  destruct (xwf_other s Hw p (nth_error_In _ _ Hc)) as [H1 H2]. unfold pwf in H2. rewrite H1 in H2. exact H2.
Qed.

(** which tags occur *)
Lemma in_concat_index {A} (g : nat -> A -> list (cobj * list Z)) (L : list A) q :
  In q (concat (map (fun p => g (fst p) (snd p)) (combine (seq 0 (length L)) L))) <-> exists i x, nth_error L i = Some x /\ In q (g i x).
Proof.
  assert (K : forall s : nat, In q (concat (map (fun p => g (fst p) (snd p)) (combine (seq s (length L)) L))) <-> exists i x, nth_error L i = Some x /\ In q (g (s + i)%nat x)).
  { induction L as [|x L IH]; intros s; cbn [length seq combine map concat].
    - split; [intros []|]. intros [[|i] [x [H _]]]; discriminate H.
    - rewrite in_app_iff, IH. cbn [fst snd]. split.
      + intros [H|[i [x' [H1 H2]]]]; [exists 0%nat, x; rewrite Nat.add_0_r; auto|]. exists (S i), x'. split; [exact H1|]. replace (s + S i)%nat with (S s + i)%nat by lia. exact H2.
      + intros [[|i] [x' [H1 H2]]]; [left; injection H1 as <-; rewrite Nat.add_0_r in H2; exact H2|]. right. exists i, x'. split; [exact H1|]. replace (S s + i)%nat with (s + S i)%nat by lia. exact H2. }
  apply (K 0%nat).
Qed.
Lemma in_arr s q : xwf n s -> (In q (arr s) <->
   (exists t, In t (ptm (sjac (xs s))) /\ q = (JacOne, cols kc (fst t))) \/
   (exists i c e u, nth_error (scast (xs s)) i = Some c /\ nth_error (xcast s) i = Some e /\ In u (expand_product c) /\ q = (tagged (TCast i e) (snd u) (cols dc (fst u)), cols kc (fst u))) \/
   (exists i p e u, nth_error (sother (xs s)) i = Some p /\ nth_error (xother s) i = Some e /\ In u (ptm p) /\ q = (tagged (TOther i e) (snd u) (cols dc (fst u)), cols kc (fst u)))).
Proof.
  intros Hw. assert (Hl : length (xcast s) = length (scast (xs s))) by apply Hw. assert (Hl2 : length (xother s) = length (sother (xs s))) by apply Hw.
  unfold sector2array. rewrite !in_app_iff. rewrite (seq_combine (scast (xs s)) (xcast s) Hl), (seq_combine (sother (xs s)) (xother s) Hl2).
  rewrite (in_concat_index (fun k (x : (poly F * poly F) * option E) => rows_of kc dc (TCast k (snd x)) (expand_product (fst x)))).
  rewrite (in_concat_index (fun k (x : poly F * option E) => rows_of kc dc (TOther k (snd x)) (ptm (fst x)))).
  split.
  - intros [H|[[i [[c e] [H1 H2]]]|[i [[p e] [H1 H2]]]]].
    + left. apply in_map_iff in H. destruct H as [t [<- Ht]]. eauto.
    + right; left. rewrite nth_combine in H1. destruct (nth_error (scast (xs s)) i) as [c'|] eqn:Ec; [|discriminate]. destruct (nth_error (xcast s) i) as [e'|] eqn:Ee; [|discriminate]. injection H1 as -> ->.
      unfold rows_of in H2. cbn [fst snd] in H2. apply in_map_iff in H2. destruct H2 as [u [<- Hu]]. exists i, c, e, u. auto.
    + right; right. rewrite nth_combine in H1. destruct (nth_error (sother (xs s)) i) as [c'|] eqn:Ec; [|discriminate]. destruct (nth_error (xother s) i) as [e'|] eqn:Ee; [|discriminate]. injection H1 as -> ->.
      unfold rows_of in H2. cbn [fst snd] in H2. apply in_map_iff in H2. destruct H2 as [u [<- Hu]]. exists i, p, e, u. auto.
  - intros [[t [Ht ->]]|[[i [c [e [u [H1 [H2 [H3 ->]]]]]]]|[i [p [e [u [H1 [H2 [H3 ->]]]]]]]]].
    + left. apply in_map_iff. eauto.
    + right; left. exists i, (c, e). rewrite nth_combine, H1, H2. split; [reflexivity|]. unfold rows_of. apply in_map_iff. exists u. auto.
    + right; right. exists i, (p, e). rewrite nth_combine, H1, H2. split; [reflexivity|]. unfold rows_of. apply in_map_iff. exists u. auto.
Qed.
Lemma tag_cast_in s i e c r x : xwf n s -> In (Tagged (TCast i e) c r, x) (arr s) -> nth_error (xcast s) i = Some e.
Proof.
  intros Hw H. apply in_arr in H; [|exact Hw]. unfold tagged in H. destruct H as [[t [_ H]]|[[i' [c' [e' [u [H1 [H2 [_ H]]]]]]]|[i' [p [e' [u [_ [_ [_ H]]]]]]]]]; try discriminate H; destruct (feqb (snd u) 0); try discriminate H.
  injection H as -> -> _ _. exact H2.
Qed.
Lemma tag_other_in s i e c r x : xwf n s -> In (Tagged (TOther i e) c r, x) (arr s) -> nth_error (xother s) i = Some e.
Proof.
  intros Hw H. apply in_arr in H; [|exact Hw]. unfold tagged in H. destruct H as [[t [_ H]]|[[i' [c' [e' [u [_ [_ [_ H]]]]]]]|[i' [p [e' [u [H1 [H2 [_ H]]]]]]]]]; try discriminate H; destruct (feqb (snd u) 0); try discriminate H.
  injection H as -> -> _ _. exact H2.
Qed.
Lemma tag_cast_ex s i e : xwf n s -> nth_error (xcast s) i = Some e -> exists c r x, In (Tagged (TCast i e) c r, x) (arr s).
Proof.
  intros Hw He. assert (Hi : (i < length (scast (xs s)))%nat). { assert (Hl : length (xcast s) = length (scast (xs s))) by apply Hw. rewrite <- Hl. apply nth_error_Some. congruence. }
  destruct (nth_error (scast (xs s)) i) as [c|] eqn:Ec; [|apply nth_error_None in Ec; lia].
  assert (Hnz := Hw). destruct Hnz as [_ [_ [_ [_ [Hnz _]]]]]. rewrite Forall_forall in Hnz. destruct (Hnz c (nth_error_In _ _ Ec)) as [[m [k [Hm Hk]]] [t [Ht Htz]]].
  set (u := (row_add (fst t) m, snd t * k)). assert (Hu : In u (expand_product c)) by (unfold expand_product; rewrite Hm; apply in_map_iff; exists t; auto).
  exists (snd u), (cols dc (fst u)), (cols kc (fst u)). apply in_arr; [exact Hw|]. right; left. exists i, c, e, u. repeat split; auto. unfold tagged.
  destruct (feqb (snd u) 0) eqn:Ez; [|reflexivity]. exfalso. apply feqb_spec in Ez. cbn in Ez. apply Htz.
  transitivity (snd t * k * finv k); [field; exact Hk|rewrite Ez; ring].
Qed.
Lemma tag_other_ex s i e : xwf n s -> nth_error (xother s) i = Some e -> exists c r x, In (Tagged (TOther i e) c r, x) (arr s).
Proof.
  intros Hw He. assert (Hi : (i < length (sother (xs s)))%nat). { assert (Hl : length (xother s) = length (sother (xs s))) by apply Hw. rewrite <- Hl. apply nth_error_Some. congruence. }
  destruct (nth_error (sother (xs s)) i) as [p|] eqn:Ec; [|apply nth_error_None in Ec; lia].
  assert (Hnz := Hw). destruct Hnz as [_ [_ [_ [_ [_ Hnz]]]]]. rewrite Forall_forall in Hnz. destruct (Hnz p (nth_error_In _ _ Ec)) as [t [Ht Htz]].
  exists (snd t), (cols dc (fst t)), (cols kc (fst t)). apply in_arr; [exact Hw|]. right; right. exists i, p, e, t. repeat split; auto. unfold tagged.
  destruct (feqb (snd t) 0) eqn:Ez; [|reflexivity]. exfalso. apply Htz, feqb_spec, Ez.
Qed.

(** ** the renaming of variables *)
Definition rename (tau : list nat) : list nat := map (fun j => match index_of Nat.eq_dec j kc with Some p => nth (nth p tau 0%nat) kc 0%nat | None => j end) (seq 0 n).
Lemma kc_nodup : NoDup (kc ++ dc).
Proof. eapply Permutation_NoDup; [symmetry; exact Hkd|apply seq_NoDup]. Qed.
Lemma kc_nodup1 : NoDup kc.
Proof. assert (H := kc_nodup). clear -H. induction kc as [|k l IH]; [constructor|]. cbn [app] in H. apply NoDup_cons_iff in H. destruct H as [H1 H2]. constructor; [intros Hi; apply H1, in_app_iff; left; exact Hi|apply IH, H2]. Qed.
Lemma kc_dc_disj k : In k kc -> ~ In k dc.
Proof.
  assert (H := kc_nodup). clear -H. induction kc as [|j l IH]; intros Hk Hd; [destruct Hk|]. cbn [app] in H. apply NoDup_cons_iff in H. destruct H as [H1 H2].
  destruct Hk as [->|Hk]; [apply H1, in_app_iff; right; exact Hd|apply (IH H2 Hk Hd)].
Qed.
Lemma index_kc p : (p < length kc)%nat -> index_of Nat.eq_dec (nth p kc 0%nat) kc = Some p.
Proof.
  intros Hp. destruct (index_of_in Nat.eq_dec (nth p kc 0%nat) kc) as [k Hk]; [apply nth_In, Hp|]. rewrite Hk. f_equal. apply index_of_spec in Hk.
  assert (Hkl : (k < length kc)%nat) by (apply nth_error_Some; congruence). apply (proj1 (NoDup_nth kc 0%nat) kc_nodup1); auto. apply nth_error_nth with (d := 0%nat) in Hk. congruence.
Qed.
Definition renf (tau : list nat) (j : nat) : nat := match index_of Nat.eq_dec j kc with Some p => nth (nth p tau 0%nat) kc 0%nat | None => j end.
Lemma rename_kc tau : length tau = length kc -> map (renf tau) kc = map (fun t => nth t kc 0%nat) tau.
Proof.
  intros Hl. apply (nth_ext _ _ 0%nat 0%nat); rewrite !map_length; [congruence|]. intros p Hp.
  rewrite (nth_indep _ 0%nat (renf tau 0%nat)) by (rewrite map_length; exact Hp). rewrite map_nth. unfold renf at 1. rewrite index_kc by exact Hp.
  rewrite (nth_indep (map (fun t => nth t kc 0%nat) tau) 0%nat (nth 0 kc 0%nat)) by (rewrite map_length; lia). rewrite (map_nth (fun t => nth t kc 0%nat)). reflexivity.
Qed.
Lemma rename_dc tau : map (renf tau) dc = dc.
Proof.
  rewrite <- (map_id dc) at 2. apply map_ext_in. intros j Hj. unfold renf. destruct (index_of Nat.eq_dec j kc) as [p|] eqn:Ei; [|reflexivity].
  exfalso. apply index_of_spec in Ei. apply nth_error_In in Ei. exact (kc_dc_disj j Ei Hj).
Qed.
Lemma rename_perm tau : Permutation tau (seq 0 (length kc)) -> Permutation (rename tau) (seq 0 n).
Proof.
  intros Hp. unfold rename. change (Permutation (map (renf tau) (seq 0 n)) (seq 0 n)). rewrite <- Hkd at 1. rewrite map_app, rename_dc, rename_kc by (rewrite (Permutation_length Hp), seq_length; reflexivity).
  rewrite Hp. rewrite <- (list_mapseq 0%nat kc (length kc) eq_refl). exact Hkd.
Qed.
Lemma rename_nth tau j : (j < n)%nat -> nth j (rename tau) 0%nat = renf tau j.
Proof. intros H. unfold rename. rewrite (nth_mapseq (renf tau)) by exact H. reflexivity. Qed.
Lemma kd_bound j : In j (kc ++ dc) -> (j < n)%nat.
Proof. intros H. apply (Permutation_in _ Hkd) in H. apply in_seq in H. lia. Qed.
Lemma rename_fixed tau k : In k dc -> nth k (rename tau) 0%nat = k.
Proof.
  intros Hk. rewrite rename_nth by (apply kd_bound, in_app_iff; right; exact Hk). unfold renf. destruct (index_of Nat.eq_dec k kc) as [p|] eqn:Ei; [|reflexivity].
  exfalso. apply index_of_spec in Ei. apply nth_error_In in Ei. exact (kc_dc_disj k Ei Hk).
Qed.
Lemma pts_permute js tau y : (forall j, In j js -> (j < n)%nat) -> pts js (permute_point (rename tau) y) = map (fun j => nth (renf tau j) y 0) js.
Proof.
  intros H. unfold pts, permute_point. apply map_ext_in. intros j Hj. specialize (H j Hj).
  rewrite (nth_indep _ 0 (nth 0%nat y 0)) by (rewrite map_length; unfold rename; rewrite map_length, seq_length; exact H).
  rewrite (map_nth (fun k => nth k y 0)), rename_nth by exact H. reflexivity.
Qed.
Lemma pts_dc tau y : pts dc (permute_point (rename tau) y) = pts dc y.
Proof.
  rewrite pts_permute by (intros j Hj; apply kd_bound, in_app_iff; right; exact Hj). rewrite <- (map_map (renf tau) (fun j => nth j y 0)), rename_dc. reflexivity.
Qed.
Lemma pts_kc tau y : Permutation tau (seq 0 (length kc)) -> pts kc (permute_point (rename tau) y) = map (fun j => nth j (pts kc y) 0) tau.
Proof.
  intros Hp. rewrite pts_permute by (intros j Hj; apply kd_bound, in_app_iff; left; exact Hj).
  rewrite <- (map_map (renf tau) (fun j => nth j y 0)), rename_kc by (rewrite (Permutation_length Hp), seq_length; reflexivity). rewrite map_map. apply map_ext_in. intros t Ht.
  apply (Permutation_in _ Hp) in Ht. apply in_seq in Ht. unfold pts. rewrite (nth_indep (map (fun j => nth j y 0) kc) 0 (nth 0%nat y 0)) by (rewrite map_length; lia). rewrite (map_nth (fun j => nth j y 0)). reflexivity.
Qed.

(** ** arrays that agree up to a rearrangement *)
Definition rearr (tau : list nat) (q : cobj * list Z) : cobj * list Z := (fst q, map (fun j => nth j (snd q) 0%Z) tau).
Lemma arr_len s q : In q (arr s) -> length (snd q) = length kc.
Proof.
  unfold sector2array. rewrite !in_app_iff. intros [H|[H|H]].
  - apply in_map_iff in H. destruct H as [t [<- _]]. apply map_length.
  - apply in_concat in H. destruct H as [r [Hr H]]. apply in_map_iff in Hr. destruct Hr as [p [<- _]]. unfold rows_of in H. apply in_map_iff in H. destruct H as [u [<- _]]. apply map_length.
  - apply in_concat in H. destruct H as [r [Hr H]]. apply in_map_iff in Hr. destruct Hr as [p [<- _]]. unfold rows_of in H. apply in_map_iff in H. destruct H as [u [<- _]]. apply map_length.
Qed.
Lemma rsum_rearr phi phi' tau a b : (forall q, length (snd q) = length kc -> phi (rearr tau q) = phi' q) -> Permutation (arr b) (map (rearr tau) (arr a)) ->
  rsum phi (arr b) = rsum phi' (arr a).
Proof.
  intros H Hp. unfold rsum. rewrite (sumF_perm F _ _ (Permutation_map phi Hp)), map_map. apply sumF_map_ext. intros q Hq. apply H. eapply arr_len; exact Hq.
Qed.
Lemma wt_rearr tau t y q : Permutation tau (seq 0 (length kc)) -> length (snd q) = length kc ->
  wt kc dc t (permute_point (rename tau) y) (rearr tau q) = wt kc dc t y q.
Proof.
  intros Hp Hq. unfold wt. cbn [rearr fst snd]. destruct (fst q) as [| |t' c r]; try reflexivity. destruct (tag_dec t t'); [|reflexivity].
  rewrite pts_dc, pts_kc by exact Hp. rewrite meval_rearrange; [reflexivity|rewrite Hq; exact Hp|rewrite Hq; unfold pts; rewrite map_length; reflexivity].
Qed.
Lemma wj_rearr tau y q : Permutation tau (seq 0 (length kc)) -> length (snd q) = length kc ->
  wj kc (permute_point (rename tau) y) (rearr tau q) = wj kc y q.
Proof.
  intros Hp Hq. unfold wj. cbn [rearr fst snd]. destruct (fst q) as [| |t' c r]; try reflexivity.
  rewrite pts_kc by exact Hp. apply meval_rearrange; [rewrite Hq; exact Hp|rewrite Hq; unfold pts; rewrite map_length; reflexivity].
Qed.
Lemma permute_length tau y : length (permute_point (rename tau) y) = n.
Proof. unfold permute_point, rename. rewrite !map_length. apply seq_length. Qed.
Lemma permute_nz tau y : length y = n -> Permutation tau (seq 0 (length kc)) -> Forall (fun v => v <> 0) y -> Forall (fun v => v <> 0) (permute_point (rename tau) y).
Proof.
  intros Hy Hp H. unfold permute_point. rewrite Forall_map. apply Forall_forall. intros k Hk. apply (Permutation_in _ (rename_perm tau Hp)) in Hk. apply in_seq in Hk.
  rewrite Forall_forall in H. apply H, nth_In. lia.
Qed.

Lemma xwf_set_jac s c : xwf n s -> xwf n (set_jac s c).
Proof.
  intros Hw. destruct (xwf_jac s Hw) as [e [c0 [Hj He]]]. destruct Hw as [Hs [H1 [H2 [H3 [H4 H5]]]]]. unfold set_jac. rewrite Hj.
  repeat split; cbn [xs xcast xother scast sother sjac ptm]; auto. unfold swf in *. cbn [scast sother sjac]. rewrite !Forall_app in *. destruct Hs as [S1 [S2 [S3 S4]]]. repeat split; auto.
  constructor; [|constructor]. apply Forall_inv in S4. destruct S4 as [P1 [P2 P3]]. cbn [pnv ptm]. split; [exact P1|]. split; [|discriminate]. unfold pwf. cbn [ptm pnv]. constructor; [|constructor]. cbn [fst]. congruence.
Qed.

Theorem arrays_symmetric a b tau c : xwf n a -> xwf n b -> jac_free dc a -> jac_free dc b -> Permutation tau (seq 0 (length kc)) ->
  Permutation (arr b) (map (rearr tau) (arr a)) -> symmetric n dc (set_jac a c) (set_jac b c).
Proof.
  intros Ha Hb Ja Jb Htau Hp.
  assert (Hobj : forall o, (exists x, In (o, x) (arr a)) <-> (exists x, In (o, x) (arr b))).
  { intros o. split; intros [x Hx].
    - exists (map (fun j => nth j x 0%Z) tau). eapply Permutation_in; [symmetry; exact Hp|]. apply in_map_iff. exists (o, x). split; [reflexivity|exact Hx].
    - apply (Permutation_in _ Hp) in Hx. apply in_map_iff in Hx. destruct Hx as [[o' x'] [[= -> _] Hx]]. eauto. }
  assert (Hcast : xcast a = xcast b).
  { apply nth_error_ext. intros i. destruct (nth_error (xcast a) i) as [e|] eqn:E1.
    - symmetry. destruct (tag_cast_ex a i e Ha E1) as [c' [r [x Hx]]]. destruct (proj1 (Hobj _) (ex_intro _ x Hx)) as [x' Hx']. eapply tag_cast_in; [exact Hb|exact Hx'].
    - destruct (nth_error (xcast b) i) as [e|] eqn:E2; [|reflexivity]. destruct (tag_cast_ex b i e Hb E2) as [c' [r [x Hx]]]. destruct (proj2 (Hobj _) (ex_intro _ x Hx)) as [x' Hx'].
      rewrite (tag_cast_in a i e c' r x' Ha Hx') in E1. discriminate. }
  assert (Hother : xother a = xother b).
  { apply nth_error_ext. intros i. destruct (nth_error (xother a) i) as [e|] eqn:E1.
    - symmetry. destruct (tag_other_ex a i e Ha E1) as [c' [r [x Hx]]]. destruct (proj1 (Hobj _) (ex_intro _ x Hx)) as [x' Hx']. eapply tag_other_in; [exact Hb|exact Hx'].
    - destruct (nth_error (xother b) i) as [e|] eqn:E2; [|reflexivity]. destruct (tag_other_ex b i e Hb E2) as [c' [r [x Hx]]]. destruct (proj2 (Hobj _) (ex_intro _ x Hx)) as [x' Hx'].
      rewrite (tag_other_in a i e c' r x' Ha Hx') in E1. discriminate. }
  exists (rename tau). split; [apply rename_perm, Htau|]. split; [intros k; apply rename_fixed|]. split; [exact Hcast|]. split; [exact Hother|].
  intros y Hy Hok. set (py := permute_point (rename tau) y).
  assert (Hpy : length py = n) by apply permute_length.
  assert (Hoka : Forall (fun v => v <> 0) y \/ snonneg (xs a)).
  { destruct Hok as [H|[H _]]; [left; exact H|right]. unfold snonneg in *. cbn [set_jac xs scast sother sjac] in H. rewrite !Forall_app in *. destruct H as [H1 [H2 [H3 H4]]]. repeat split; auto.
    destruct (xwf_jac a Ha) as [e [c0 [Hj _]]]. rewrite Hj in H4. constructor; [|constructor]. apply Forall_inv in H4. unfold pnonneg in *. rewrite Hj. cbn [ptm] in H4. constructor; [|constructor]. apply Forall_inv in H4. exact H4. }
  assert (Hokb : Forall (fun v => v <> 0) py \/ snonneg (xs b)).
  { destruct Hok as [H|[_ H]]; [left; apply permute_nz; assumption|right]. unfold snonneg in *. cbn [set_jac xs scast sother sjac] in H. rewrite !Forall_app in *. destruct H as [H1 [H2 [H3 H4]]]. repeat split; auto.
    destruct (xwf_jac b Hb) as [e [c0 [Hj _]]]. rewrite Hj in H4. constructor; [|constructor]. apply Forall_inv in H4. unfold pnonneg in *. rewrite Hj. cbn [ptm] in H4. constructor; [|constructor]. apply Forall_inv in H4. exact H4. }
  cbn [set_jac xs scast sother].
  assert (La : length (xcast a) = length (scast (xs a))) by apply Ha. assert (Lb : length (xcast b) = length (scast (xs b))) by apply Hb.
  assert (La2 : length (xother a) = length (sother (xs a))) by apply Ha. assert (Lb2 : length (xother b) = length (sother (xs b))) by apply Hb.
  split; [|split].
  - apply Forall2_nth; [congruence|]. intros i ca cb Hca Hcb.
    assert (He : exists e, nth_error (xcast a) i = Some e). { destruct (nth_error (xcast a) i) eqn:En; [eauto|]. apply nth_error_None in En. assert (i < length (scast (xs a)))%nat by (apply nth_error_Some; congruence). lia. }
    destruct He as [e He]. assert (He' := He). rewrite Hcast in He'.
    rewrite <- (expand_eval a ca y Ha (nth_error_In _ _ Hca) Hy Hoka), <- (expand_eval b cb py Hb (nth_error_In _ _ Hcb) Hpy Hokb).
    rewrite <- (arr_cast a i ca e y Ha Hca He Hy), <- (arr_cast b i cb e py Hb Hcb He' Hpy). apply rsum_rearr with (tau := tau); [|exact Hp]. intros q Hq. apply wt_rearr; assumption.
  - apply Forall2_nth; [congruence|]. intros i pa pb Hpa Hpb.
    assert (He : exists e, nth_error (xother a) i = Some e). { destruct (nth_error (xother a) i) eqn:En; [eauto|]. apply nth_error_None in En. assert (i < length (sother (xs a)))%nat by (apply nth_error_Some; congruence). lia. }
    destruct He as [e He]. assert (He' := He). rewrite Hother in He'.
    rewrite <- (arr_other a i pa e y Ha Hpa He Hy), <- (arr_other b i pb e py Hb Hpb He' Hpy). apply rsum_rearr with (tau := tau); [|exact Hp]. intros q Hq. apply wt_rearr; assumption.
  - assert (Hj := rsum_rearr (wj kc py) (wj kc y) tau a b (fun q Hq => wj_rearr tau y q Htau Hq) Hp). rewrite !arr_jac in Hj by assumption.
    destruct (xwf_jac a Ha) as [ea [ca [Eja Lea]]]. destruct (xwf_jac b Hb) as [eb [cb [Ejb Leb]]]. unfold jac_free in Ja, Jb. cbn [sjac set_jac xs]. rewrite Eja, Ejb in *. cbn [map sumF fst] in Hj.
    apply Forall_inv in Ja. apply Forall_inv in Jb. cbn [fst] in Ja, Jb. unfold peval. cbn [ptm map sumF fst snd].
    assert (Hone : forall e z, (forall j, In j dc -> getZ j e = 0%Z) -> meval (cols dc e) (pts dc z) = 1).
    { intros e z Hz. rewrite meval_cols. clear -Hz. induction dc as [|j l IH]; [reflexivity|]. cbn [map prodF]. rewrite (Hz j (or_introl eq_refl)), IH by (intros; apply Hz; right; assumption). cbn [zpow]. ring. }
    rewrite (meval_split kc dc n ea y Hkd Lea Hy), (meval_split kc dc n eb py Hkd Leb Hpy), (Hone ea y Ja), (Hone eb py Jb).
    assert (Hj' : meval (cols kc eb) (pts kc py) = meval (cols kc ea) (pts kc y)).
    { etransitivity; [|etransitivity; [exact Hj|]]; ring. } rewrite Hj'. ring.
Qed.
End Arr.
End Sym.
