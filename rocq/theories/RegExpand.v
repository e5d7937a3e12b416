(** [expand_region]: Taylor coefficients of the product in the smallness parameter, and the remainder. *)
From Coq Require Import Reals Lra Lia List ZArith QArith Qround.
From Verif Require Import PolyProofs RealField PolyReal ParamModel ParamSpec ParamProofs ParamReal ParamStep ParamMeasure RegModel RegSpec RegCurve RegProofs RegDerive.
Import ListNotations.
Local Open Scope nat_scope.

(** position of a variable after variable [i] has been removed *)
Definition skip (i k : nat) : nat := if Nat.ltb i k then k - 1 else k.

Lemma nth_insert i v (y : list R) k : i <= length y ->
  nth k (insert_at i v y) 0%R = if Nat.ltb k i then nth k y 0%R else if Nat.eqb k i then v else nth (k - 1) y 0%R.
Proof.
  unfold insert_at. revert i k. induction y as [|a y IH]; intros [|i] [|k] H; cbn [length] in H; try lia; cbn [firstn skipn app nth]; try reflexivity.
  - destruct k; reflexivity.
  - replace (Datatypes.S k - 1) with k by lia. reflexivity.
  - rewrite IH by lia. change (Nat.ltb (Datatypes.S k) (Datatypes.S i)) with (Nat.ltb k i). cbn [Nat.eqb].
    destruct (Nat.ltb_spec k i); [reflexivity|]. destruct (Nat.eqb_spec k i); [reflexivity|].
    replace (Datatypes.S k - 1) with (Datatypes.S (k - 1)) by lia. reflexivity.
Qed.
Lemma skip_inj i a b : a <> i -> b <> i -> skip i a = skip i b -> a = b.
Proof. unfold skip. intros Ha Hb. destruct (Nat.ltb_spec i a), (Nat.ltb_spec i b); lia. Qed.

Section Drop.
Variables (n index : nat) (names : list nat) (y : list R).
Hypothesis Hi : index < Datatypes.S n.
Hypothesis Hn : ~ In index names.
Hypothesis Ly : length y = n.
Let x := insert_at index 0%R y.
Let Lx : length x = Datatypes.S n.
Proof. unfold x. rewrite insert_length, Ly. reflexivity. Qed.
(** the variables with a wrong base after the removal *)
Variable bad : nat -> Prop.

Lemma find_skip (ns : list nat) (ps ps' : list repoly) k : ~ In index ns -> k <> index ->
  Forall2 (fun nP nP' : nat * repoly => fst nP' = skip index (fst nP) /\ (@peval R_Fld (fst (snd nP')) y = @peval R_Fld (fst (snd nP)) x \/ bad (fst nP))) (combine ns ps) (combine (map (skip index) ns) ps') ->
  (match find (fun nP => Nat.eqb (fst nP) (skip index k)) (combine (map (skip index) ns) ps') with Some nP => @peval R_Fld (fst (snd nP)) y | None => nth k x 0%R end =
   match find (fun nP => Nat.eqb (fst nP) k) (combine ns ps) with Some nP => @peval R_Fld (fst (snd nP)) x | None => nth k x 0%R end) \/ bad k.
Proof.
  intros Hns Hk H. assert (Hns' : forall nP, In nP (combine ns ps) -> fst nP <> index).
  { intros [m P] I E. cbn in E. subst m. apply in_combine_l in I. contradiction. }
  clear Hns. revert H Hns'. generalize (combine (map (skip index) ns) ps'). generalize (combine ns ps). intros l l' H. 
  induction H as [|a b l l' [E V] H IH]; intros HI; [left; reflexivity|]. cbn [find].
  assert (Ha := HI a (or_introl eq_refl)). rewrite E.
  destruct (Nat.eqb_spec (fst a) k) as [<-|NE].
  - rewrite Nat.eqb_refl. exact V.
  - destruct (Nat.eqb_spec (skip index (fst a)) (skip index k)) as [Q|Q]; [exfalso; apply NE, (skip_inj index); assumption|].
    apply IH. intros nP I. apply HI. right. exact I.
Qed.
Lemma fill_insert (pl pl' : list repoly) :
  Forall2 (fun nP nP' : nat * repoly => fst nP' = skip index (fst nP) /\ (@peval R_Fld (fst (snd nP')) y = @peval R_Fld (fst (snd nP)) x \/ bad (fst nP))) (combine names pl) (combine (map (skip index) names) pl') ->
  forall k, k < Datatypes.S n -> nth k (insert_at index 0%R (fill (map (skip index) names) pl' y)) 0%R = nth k (fill names pl x) 0%R \/ bad k.
Proof.
  intros H k Hk. rewrite nth_insert by (rewrite fill_length, Ly; lia). rewrite (fill_nth names pl) by (rewrite Lx; exact Hk).
  assert (Nx : nth k x 0%R = if Nat.ltb k index then nth k y 0%R else if Nat.eqb k index then 0%R else nth (k - 1) y 0%R) by (unfold x; apply nth_insert; lia).
  destruct (Nat.eqb_spec k index) as [->|NE].
  - left. rewrite Nat.ltb_irrefl in *. rewrite find_none; [symmetry; exact Nx|]. intros I. apply in_map_iff in I. destruct I as ([m P] & E & I). cbn in E. subst m. apply in_combine_l in I. contradiction.
  - destruct (find_skip names pl pl' k Hn NE H) as [Q|Q]; [left|right; exact Q]. refine (eq_trans _ Q). clear Q. unfold skip. rewrite Nx.
    destruct (Nat.ltb_spec k index); destruct (Nat.ltb_spec index k); try lia.
    + rewrite fill_nth by (rewrite Ly; lia). reflexivity.
    + rewrite fill_nth by (rewrite Ly; lia). reflexivity.
Qed.
Lemma drop_value (pl pl' : list repoly) (N : rpoly) (vars : list nat) : proper (Datatypes.S n) N -> free_of vars N -> (forall k, bad k -> In k vars) ->
  Forall2 (fun nP nP' : nat * repoly => fst nP' = skip index (fst nP) /\ (@peval R_Fld (fst (snd nP')) y = @peval R_Fld (fst (snd nP)) x \/ bad (fst nP))) (combine names pl) (combine (map (skip index) names) pl') ->
  @peval R_Fld (drop0 index N) (fill (map (skip index) names) pl' y) = @peval R_Fld N (fill names pl x).
Proof.
  intros HN Hf Hb H. destruct (proper_drop R_Fld n N index HN Hi) as [_ D].
  rewrite (D (fill (map (skip index) names) pl' y)) by (rewrite fill_length; exact Ly).
  apply (peval_free (Datatypes.S n) vars); try assumption.
  - exact (eq_trans (insert_length index 0%R _) (f_equal Datatypes.S (eq_trans (fill_length _ _ _) Ly))).
  - rewrite fill_length. exact Lx.
  - intros k Hk. destruct (fill_insert pl pl' H k Hk) as [Q|Q]; [left; exact Q|right; apply Hb, Q].
Qed.
Lemma base_drop (p : rpoly) : proper (Datatypes.S n) p -> @peval R_Fld (@preplace R_Fld p index 0%R true) y = @peval R_Fld p x /\ proper n (@preplace R_Fld p index 0%R true).
Proof.
  intros Hp. destruct (proper_drop R_Fld n p index Hp Hi) as [A D]. specialize (D y Ly). unfold drop0 in D. rewrite psimplify_eval in D. split; [exact D|].
  apply proper_rows in Hp. destruct Hp as [E H]. apply proper_rows. unfold preplace. cbn [pnv ptm]. split; [rewrite E; lia|]. rewrite Forall_map. cbn [fst].
  eapply Forall_impl; [|exact H]. cbv beta. intros t [L B]. split; [rewrite delete_nth_length by lia; lia|]. apply Forall_delete, B.
Qed.
End Drop.

(** value of a base and exponent after simplification *)
Lemma ep_simplify_value (Pa : repoly) y : Rpower (@peval R_Fld (fst (@ep_simplify R_Fld Pa)) y) (snd (@ep_simplify R_Fld Pa)) = Rpower (@peval R_Fld (fst Pa) y) (snd Pa) /\
  (snd Pa <> 0%R -> @peval R_Fld (fst (@ep_simplify R_Fld Pa)) y = @peval R_Fld (fst Pa) y).
Proof.
  destruct Pa as [p a]. unfold ep_simplify. cbn [fst snd]. destruct (@feqb R_Fld a (@f0 R_Fld)) eqn:E0.
  - apply (@feqb_spec R_Fld) in E0. split; [|intros C; contradiction]. cbn [fst snd]. rewrite E0.
    assert (Q : @peval R_Fld (@pconst R_Fld (pnv p) 1%R) y = 1%R).
    { unfold peval, pconst. cbn [ptm map sumF fst snd]. rewrite (meval_zrow R_Fld). cbn. ring. }
    transitivity (Rpower 1 1); [f_equal; exact Q|]. unfold Rpower. rewrite ln_1, Rmult_0_r. change (@f0 R_Fld) with 0%R. rewrite Rmult_0_l. reflexivity.
  - destruct (@feqb R_Fld a (@f1 R_Fld)) eqn:E1; [split; [reflexivity|intros _; reflexivity]|]. cbn [fst snd]. rewrite psimplify_eval. split; [reflexivity|intros _; reflexivity].
Qed.

Section Terms.
Variables (n index : nat) (names : list nat).
Hypothesis Hi : index < Datatypes.S n.
Hypothesis Hn : ~ In index names.

Lemma combine_map_Forall2 (P : nat * repoly -> nat * repoly -> Prop) (g : repoly -> repoly) (ns : list nat) (ps : list repoly) :
  (forall m Pa, In (m, Pa) (combine ns ps) -> P (m, Pa) (skip index m, g Pa)) -> Forall2 P (combine ns ps) (combine (map (skip index) ns) (map g ps)).
Proof.
  revert ps. induction ns as [|m ns IH]; intros [|Pa ps] H; cbn [combine map]; try constructor.
  - apply H. left. reflexivity.
  - apply IH. intros m' Pa' I. apply H. right. exact I.
Qed.
Lemma term_value (g : repoly -> repoly) (pl : list repoly) (N N' : rpoly) (y : list R) (c : R) : product_ok (Datatypes.S n) names (pl, N) -> length y = n ->
  (forall Pa, In Pa pl -> Rpower (@peval R_Fld (fst (g Pa)) y) (snd (g Pa)) = Rpower (@peval R_Fld (fst Pa) (insert_at index 0%R y)) (snd Pa)) ->
  (forall m Pa, In (m, Pa) (combine names pl) -> @peval R_Fld (fst (g Pa)) y = @peval R_Fld (fst Pa) (insert_at index 0%R y) \/ free_of [m] N) ->
  (forall z : list R, length z = n -> @peval R_Fld N' z = (c * @peval R_Fld (drop0 index N) z)%R) ->
  product_value (map (skip index) names) (map g pl, N') y = (c * product_value names (pl, N) (insert_at index 0%R y))%R.
Proof.
  intros (EL & _ & _ & HN & _) Ly H1 H2 H3. cbn [fst snd] in *. unfold product_value. cbn [fst snd].
  assert (E1 : powers_value (map g pl) y = powers_value pl (insert_at index 0%R y)).
  { unfold powers_value. rewrite map_map. f_equal. apply map_ext_in. exact H1. }
  rewrite E1. rewrite H3 by (rewrite fill_length; exact Ly).
  set (wrong := fun mP : nat * repoly => negb (@feqb R_Fld (@peval R_Fld (fst (g (snd mP))) y) (@peval R_Fld (fst (snd mP)) (insert_at index 0%R y)))).
  set (vars := map fst (filter wrong (combine names pl))).
  assert (Hv : forall k, In k vars <-> exists Pa, In (k, Pa) (combine names pl) /\ @peval R_Fld (fst (g Pa)) y <> @peval R_Fld (fst Pa) (insert_at index 0%R y)).
  { intros k. unfold vars. rewrite in_map_iff. split.
    - intros ([m Pa] & E & I). cbn [fst] in E. subst m. apply filter_In in I. destruct I as [I W]. exists Pa. split; [exact I|]. unfold wrong in W. cbn [snd] in W.
      intros Q. apply Bool.negb_true_iff in W. rewrite (proj2 (@feqb_spec R_Fld _ _) Q) in W. discriminate.
    - intros (Pa & I & W). exists (k, Pa). split; [reflexivity|]. apply filter_In. split; [exact I|]. unfold wrong. cbn [snd].
      destruct (@feqb R_Fld (@peval R_Fld (fst (g Pa)) y) (@peval R_Fld (fst Pa) (insert_at index 0%R y))) eqn:E; [|reflexivity]. apply (@feqb_spec R_Fld) in E. contradiction. }
  assert (Hf : free_of vars N).
  { unfold free_of. apply Forall_forall. intros t Ht. apply Forall_forall. intros k Hk. apply Hv in Hk. destruct Hk as (Pa & I & W).
    destruct (H2 k Pa I) as [Q|Q]; [contradiction|]. unfold free_of in Q. rewrite Forall_forall in Q. specialize (Q t Ht). cbv beta in Q. apply Forall_cons_iff in Q. apply Q. }
  rewrite (drop_value n index names y Hi Hn Ly (fun k => In k vars) pl (map g pl) N vars HN Hf (fun k H => H)).
  - ring.
  - apply combine_map_Forall2. intros m Pa I. cbn [fst snd]. split; [reflexivity|].
    destruct (@feqb R_Fld (@peval R_Fld (fst (g Pa)) y) (@peval R_Fld (fst Pa) (insert_at index 0%R y))) eqn:E.
    + left. apply (@feqb_spec R_Fld) in E. exact E.
    + right. apply Hv. exists Pa. split; [exact I|]. intros Q. rewrite (proj2 (@feqb_spec R_Fld _ _) Q) in E. discriminate.
Qed.
Lemma zeroth_value (pl : list repoly) (N : rpoly) (y : list R) : product_ok (Datatypes.S n) names (pl, N) -> length y = n ->
  (forall m Pa, In (m, Pa) (combine names pl) -> snd Pa <> 0%R \/ free_of [m] N) ->
  product_value (map (skip index) names) (@zeroth_term R_Fld pl N index) y = product_value names (pl, N) (insert_at index 0%R y).
Proof.
  intros OK Ly Hz. unfold zeroth_term.
  rewrite (term_value (fun Pa : repoly => @ep_simplify R_Fld (@preplace R_Fld (fst Pa) index 0%R true, snd Pa)) pl N _ y 1%R OK Ly); [ring| | |].
  - intros Pa I. rewrite (proj1 (ep_simplify_value _ y)). cbn [fst snd]. f_equal. destruct OK as (_ & _ & _ & _ & A). cbn [fst] in A. rewrite Forall_forall in A.
    apply (base_drop n index y Hi Ly). apply A, I.
  - intros m Pa I. destruct (Hz m Pa I) as [Q|Q]; [left|right; exact Q]. refine (eq_trans (proj2 (ep_simplify_value (@preplace R_Fld (fst Pa) index 0%R true, snd Pa) y) Q) _). cbn [fst].
    destruct OK as (_ & _ & _ & _ & A). cbn [fst] in A. rewrite Forall_forall in A. apply (base_drop n index y Hi Ly). apply A. apply in_combine_r in I. exact I.
  - intros z _. change (@psimplify R_Fld (@preplace R_Fld N index (@f0 R_Fld) true)) with (@drop0 R_Fld index N). rring.
Qed.
Lemma drop_num (N : rpoly) (f : R) (z : list R) : proper (Datatypes.S n) N -> length z = n ->
  @peval R_Fld (@drop0 R_Fld index (@pmul_num R_Fld N f)) z = (f * @peval R_Fld (drop0 index N) z)%R.
Proof.
  intros HN Lz. destruct (proper_drop R_Fld n N index HN Hi) as [_ D]. destruct (proper_drop R_Fld n _ index (proper_mul_num R_Fld _ N f HN) Hi) as [_ D'].
  rewrite (D z Lz), (D' z Lz), (@pmul_num_eval R_Fld). cbn. ring.
Qed.
Lemma higher_value (pl : list repoly) (N : rpoly) (f : R) (y : list R) : product_ok (Datatypes.S n) names (pl, N) -> length y = n ->
  product_value (map (skip index) names) (@higher_term R_Fld pl N index f) y = (f * product_value names (pl, N) (insert_at index 0%R y))%R.
Proof.
  intros OK Ly. unfold higher_term.
  assert (BD : forall Pa, In Pa pl -> @peval R_Fld (@preplace R_Fld (fst Pa) index 0%R true) y = @peval R_Fld (fst Pa) (insert_at index 0%R y)).
  { intros Pa I. destruct OK as (_ & _ & _ & _ & A). cbn [fst] in A. rewrite Forall_forall in A. apply (base_drop n index y Hi Ly). apply A, I. }
  apply (term_value (fun Pa : repoly => let r := (@preplace R_Fld (fst Pa) index 0%R true, snd Pa) in if @feqb R_Fld (snd Pa) (@f0 R_Fld) then r else @ep_simplify R_Fld r) pl N _ y f OK Ly).
  - intros Pa I. cbv zeta. destruct (@feqb R_Fld (snd Pa) (@f0 R_Fld)); [cbn [fst snd]; f_equal; apply BD, I|].
    rewrite (proj1 (ep_simplify_value _ y)). cbn [fst snd]. f_equal. apply BD, I.
  - intros m Pa I. left. apply in_combine_r in I. cbv zeta. destruct (@feqb R_Fld (snd Pa) (@f0 R_Fld)) eqn:E; [cbn [fst]; apply BD, I|].
    refine (eq_trans (proj2 (ep_simplify_value (@preplace R_Fld (fst Pa) index 0%R true, snd Pa) y) _) (BD Pa I)). cbn [snd]. intros Q. assert (T := proj2 (@feqb_spec R_Fld (snd Pa) (@f0 R_Fld)) Q). exact (Bool.diff_true_false (eq_trans (eq_sym T) E)).
  - intros z Lz. exact (drop_num N f z (proj1 (proj2 (proj2 (proj2 OK)))) Lz).
Qed.

(** the derivatives, one after the other *)
Fixpoint deriv_iter (k : nat) (d : list repoly * rpoly) : list repoly * rpoly :=
  match k with O => d | Datatypes.S k' => deriv_iter k' (@derive_prod R_Fld (fst d) (snd d) index names) end.
Lemma iter_ok k : forall d, product_ok (Datatypes.S n) names d -> product_ok (Datatypes.S n) names (deriv_iter k d) /\
  (forall x, positive_at (Datatypes.S n) (fst d) x -> positive_at (Datatypes.S n) (fst (deriv_iter k d)) x).
Proof.
  induction k as [|k IH]; intros [pl N] OK; cbn [deriv_iter fst snd]; [split; [exact OK|intros x H; exact H]|].
  destruct (IH _ (derive_prod_ok (Datatypes.S n) index names pl N OK Hi)) as [A B]. split; [exact A|]. intros x [L H]. apply B. unfold derive_prod. cbn [fst]. split; [exact L|]. rewrite Forall_map. exact H.
Qed.
Lemma iter_succ k : forall d, deriv_iter (Datatypes.S k) d = @derive_prod R_Fld (fst (deriv_iter k d)) (snd (deriv_iter k d)) index names.
Proof. induction k as [|k IH]; intros d; [reflexivity|]. cbn [deriv_iter] in *. rewrite IH. reflexivity. Qed.
Lemma iter_deriv k d x : product_ok (Datatypes.S n) names d -> positive_at (Datatypes.S n) (fst d) x ->
  derivable_pt_lim (fun t => product_value names (deriv_iter k d) (upd index t x)) (nth index x 0%R) (product_value names (deriv_iter (Datatypes.S k) d) x).
Proof.
  intros OK HP. rewrite iter_succ. destruct (iter_ok k d OK) as [A B]. destruct (deriv_iter k d) as [pl N] eqn:E. cbn [fst snd].
  apply (derive_prod_correct (Datatypes.S n)); try assumption. exact (B x HP).
Qed.
Lemma iter_partial k : forall d, product_ok (Datatypes.S n) names d ->
  nth_partial k index (positive_at (Datatypes.S n) (fst d)) (product_value names d) (product_value names (deriv_iter k d)).
Proof.
  induction k as [|k IH]; intros [pl N] OK; cbn [nth_partial deriv_iter fst snd]; [reflexivity|].
  exists (product_value names (@derive_prod R_Fld pl N index names)). split.
  - intros x HP. apply (derive_prod_correct (Datatypes.S n)); assumption.
  - assert (Q := IH _ (derive_prod_ok (Datatypes.S n) index names pl N OK Hi)).
    eapply nth_partial_ext; [| | |exact Q].
    + intros x [L H]. unfold derive_prod. cbn [fst]. split; [exact L|]. rewrite Forall_map. exact H.
    + intros x [L _]. exact L.
    + intros x _. reflexivity.
Qed.

Lemma higher_terms_nth k : forall i f d j t, nth_error (@higher_terms R_Fld k i f d index names) j = Some t -> product_ok (Datatypes.S n) names d -> (0 < i)%nat -> f = (/ INR (fact (i - 1)))%R ->
  j < k /\ forall y, length y = n -> product_value (map (skip index) names) t y = (/ INR (fact (i + j)) * product_value names (deriv_iter j d) (insert_at index 0%R y))%R.
Proof.
  induction k as [|k IH]; intros i f d j t E OK Hpos Ef; cbn [higher_terms] in E; [destruct j; discriminate|].
  assert (Efi : (f / INR i)%R = (/ INR (fact i))%R).
  { destruct i as [|i]; [lia|]. rewrite Ef. replace (Datatypes.S i - 1) with i by lia. rewrite fact_simpl, mult_INR. unfold Rdiv. rewrite Rinv_mult. ring. }
  destruct j as [|j]; cbn [nth_error] in E.
  - injection E as <-. split; [lia|]. intros y Ly. destruct d as [pl N]. cbn [fst snd deriv_iter]. rewrite (higher_value pl N _ y OK Ly). rewrite Nat.add_0_r, <- Efi.
    f_equal. change (@eq R (f / @natF R_Fld i) (f / INR i))%R. rewrite natF_R. reflexivity.
  - destruct (IH (Datatypes.S i) _ _ j t E ltac:(destruct d; apply derive_prod_ok; assumption) ltac:(lia)) as [A B].
    { replace (Datatypes.S i - 1) with i by lia. rewrite <- Efi. change (@eq R (f / @natF R_Fld i) (f / INR i))%R. rewrite natF_R. reflexivity. }
    split; [lia|]. intros y Ly. rewrite (B y Ly). cbn [deriv_iter]. replace (Datatypes.S i + j) with (i + Datatypes.S j) by lia. reflexivity.
Qed.
Lemma higher_terms_length k : forall i f d, length (@higher_terms R_Fld k i f d index names) = k.
Proof. induction k as [|k IH]; intros i f d; cbn [higher_terms length]; [reflexivity|]. f_equal. apply IH. Qed.
End Terms.
