From Verif Require Export FsetSearch TextProofs.
From Coq Require Lqa.
Open Scope Z_scope.
Notation memory s := (fst (calc s)).
Definition shown_memory (human : bool) (s : setup) : Z := if human then human_value (memory s) true else memory s.
Lemma calc_eq s : calc s = (memory s, norm s). Proof. reflexivity. Qed.
Lemma excess_eq s0 total human x : excess s0 total human x = (shown_memory human (scale_by s0 x) - total, norm (scale_by s0 x)).
Proof. unfold excess. rewrite calc_eq. unfold shown_memory. destruct human; f_equal; lia. Qed.
Lemma memory_norm s : sizes_ok s -> memory (norm s) = memory s.
Proof. intro H. unfold calc. cbv zeta. cbn [fst]. rewrite (norm_fix (norm s)) by (apply norm_ok, H). reflexivity. Qed.
Lemma calc_norm s : sizes_ok s -> fst (calc (norm s)) = memory s.
Proof. apply memory_norm. Qed.
Lemma norm_work s : workspace (norm s) = workspace s. Proof. reflexivity. Qed.
Lemma norm_threads s : threads (norm s) = threads s. Proof. reflexivity. Qed.
Definition sizes_nonneg (s : setup) : Prop := 0 <= largesize s /\ 0 <= smallextension s /\ 0 <= smallsize s /\ 0 <= termsinsmall s /\ 0 <= scratchsize s.
Lemma scaled_ok s x : sizes_nonneg s -> (0 <= x)%Q -> sizes_ok (scale_by (scale_base s) x).
Proof. intros (A & B & _) H. split; cbn [scale_by scale_base largesize smallextension]; [apply scaled_spec; assumption|exact B]. Qed.
Lemma scale_by_spec s x : sizes_nonneg s -> (0 <= x)%Q -> is_scaling (scale_base s) (scale_by (scale_base s) x) x.
Proof.
  intros (A & B & C & D & E) H. split; [|cbn [scale_by compresssize filepatches hidesize maxtermsize numstorecaches sizestorecache smallextension sortiosize threadbucketsize threads threadscratchoutsize threadscratchsize workspace]; repeat split].
  cbn [scale_by scale_base largesize smallsize termsinsmall scratchsize In]. intros n m [X|[X|[X|[X|[]]]]]; injection X as <- <-; apply scaled_spec; assumption.
Qed.
Lemma three_figures_up x : x <= three_figures x true.
Proof.
  unfold three_figures. destruct (Z.ltb_spec x 100); [lia|]. destruct (ilog10_spec x ltac:(lia)) as (A & B & C). unfold round_off. apply round_up_spec.
  assert (2 <= ilog10 x). { destruct (Z_lt_le_dec (ilog10 x) 2) as [L|L]; [|exact L]. assert (10 ^ (ilog10 x + 1) <= 10 ^ 2) by (apply Z.pow_le_mono_r; lia). lia. }
  apply Z.pow_pos_nonneg; lia.
Qed.
Lemma shown_le human s : memory s <= shown_memory human s.
Proof. unfold shown_memory. destruct human; [|lia]. rewrite human_value_eq. apply three_figures_up. Qed.
Lemma inv_start f : inv f (mkSearch 1 (f 1%Q) None).
Proof. split; [reflexivity|]. split; [reflexivity|]. split; [reflexivity|exact I]. Qed.
Lemma start_below f : f 1%Q < 0 -> below f 0 (mkSearch 1 (f 1%Q) None).
Proof. intro H. split; cbn [x1 y1 upper]; [Lqa.lra|]. split; [reflexivity|left; exact H]. Qed.
Lemma start_above f : 0 <= f 1%Q -> above 0 (mkSearch 1 (f 1%Q) None).
Proof. intro H. unfold above; cbn [x1 y1 upper]. split; [reflexivity|exact H]. Qed.
Lemma search_result f n : exists st, search_loop f n (mkSearch 1 (f 1%Q) None) = Some st /\ inv f st /\ (f 1%Q < 0 -> below f n st) /\ (0 <= f 1%Q -> above n st).
Proof.
  exists (iter f n (mkSearch 1 (f 1%Q) None)). split; [apply loop_iter, inv_start|]. split; [apply iter_inv, inv_start|].
  split; intro H; rewrite <- (Nat.add_0_r n) at 1; [apply iter_below; [apply inv_start|apply start_below, H]|apply iter_above, start_above, H].
Qed.
Lemma step_ext f g st : (forall x, f x = g x) -> search_step f st = search_step g st.
Proof. intro H. unfold search_step. destruct (upper st) as [[b yb]|]; rewrite ?H; reflexivity. Qed.
Lemma loop_ext f g n : (forall x, f x = g x) -> forall st, search_loop f n st = search_loop g n st.
Proof. intro H. induction n as [|n IH]; intro st; [reflexivity|]. cbn [search_loop]. cbv zeta. rewrite (step_ext f g st H). destruct (search_ok (search_step g st)); [apply IH|reflexivity]. Qed.
(** the search never fails *)
Lemma scale_some s total lowest human (f : Q -> Z) : (forall x, f x = shown_memory human (scale_by (scale_base s) x) - total) ->
  exists x, scale s total lowest human = Some (norm (scale_by (scale_base s) x)) /\
  (x = lowest /\ 0 <= f lowest \/ f lowest < 0 /\ exists st, x = x1 st /\ inv f st /\ (f 1%Q < 0 -> below f 50 st) /\ (0 <= f 1%Q -> above 50 st)).
Proof.
  intro Hf. unfold scale. cbv zeta. rewrite excess_eq, <- Hf.
  destruct (Z.geb_spec (f lowest) 0). { exists lowest. split; [reflexivity|left; split; [reflexivity|lia]]. }
  rewrite excess_eq. cbn [fst]. rewrite <- Hf.
  rewrite (loop_ext _ f 50) by (intro x; rewrite excess_eq, Hf; reflexivity). destruct (search_result f 50) as (st & E & R).
  rewrite E. exists (x1 st). split; [rewrite excess_eq; reflexivity|]. right. split; [lia|]. exists st. split; [reflexivity|exact R].
Qed.
Lemma below_value f i st : inv f st -> below f i st -> f (x1 st) <= 0.
Proof. intros (E & _) (_ & B). rewrite <- E. destruct (upper st) as [[b yb]|]; [lia|]. destruct B as (_ & [B|(B & _)]); lia. Qed.
(** tiny factors make the scaled sizes vanish *)
Lemma scaled_tiny n x : 0 <= n < 2 ^ 50 -> (x * inject_Z (2 ^ 50) == 1)%Q -> scaled n x = 0.
Proof.
  intros Hn Hx. assert (P : (0 <= x)%Q). { destruct (Qlt_le_dec x 0) as [N|N]; [|exact N]. exfalso. assert (0 < inject_Z (2 ^ 50))%Q by reflexivity. set (b := inject_Z (2 ^ 50)) in *. clearbody b. (assert (x * b < 0)%Q by (setoid_replace 0%Q with (0 * b)%Q by ring; apply Qmult_lt_r; assumption); Lqa.lra). }
  destruct (scaled_spec n x ltac:(lia) P) as ((A & _) & B). destruct (Z.eq_dec (scaled n x) 0) as [E|E]; [exact E|exfalso].
  assert (1 <= scaled n x) by lia. assert (L : (1 <= inject_Z n * x)%Q). { eapply Qle_trans; [|exact A]. change 1%Q with (inject_Z 1). rewrite <- Zle_Qle. assumption. }
  assert (M : (inject_Z (2 ^ 50) <= inject_Z n)%Q). { setoid_replace (inject_Z n) with ((inject_Z n * x) * inject_Z (2 ^ 50))%Q by (rewrite <- Qmult_assoc, Hx; ring). setoid_replace (inject_Z (2 ^ 50)) with (1 * inject_Z (2 ^ 50))%Q at 1 by ring. apply Qmult_le_compat_r; [exact L|discriminate]. }
  rewrite <- Zle_Qle in M. lia.
Qed.
Lemma scale_tiny s x : sizes_nonneg s -> largesize s < 2 ^ 50 -> smallsize s < 2 ^ 50 -> termsinsmall s < 2 ^ 50 -> scratchsize s < 2 ^ 50 -> (x * inject_Z (2 ^ 50) == 1)%Q ->
  scale_by (scale_base s) x = scale_by (scale_base s) 0.
Proof.
  intros (A & B & C & D & E) H1 H2 H3 H4 Hx. unfold scale_by; cbn [scale_base compresssize filepatches hidesize largesize maxtermsize numstorecaches scratchsize sizestorecache smallextension smallsize sortiosize termsinsmall threadbucketsize threads threadscratchoutsize threadscratchsize workspace].
  rewrite (scaled_tiny (largesize s) x), (scaled_tiny (scratchsize s) x), (scaled_tiny (smallsize s) x), (scaled_tiny (termsinsmall s) x) by (lia || exact Hx).
  unfold scaled; cbn [Qnum Qden]. rewrite !Z.mul_0_r. reflexivity.
Qed.
