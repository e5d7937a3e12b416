(** Proofs for C79. *)
From Coq Require Import List Arith Reals Lia Lra. Import ListNotations.
From Verif Require Import QmcModel QmcSpec.
Local Open Scope R_scope.
(** ** rows of the result vector *)
Section Rows.
Variable T : Type.
Variables (zero : T) (tadd : T -> T -> T).
Lemma concat_length w (rows : list (list T)) : Forall (fun row => length row = w) rows -> length (concat rows) = (length rows * w)%nat.
Proof. induction rows as [|row rows IH]; intros H; [reflexivity|]. inversion H as [|? ? H1 H2 E]. cbn [concat length]. rewrite app_length, IH by assumption. lia. Qed.
Lemma concat_nth w (rows : list (list T)) k i d : Forall (fun row => length row = w) rows -> (k < length rows)%nat -> (i < w)%nat ->
  nth (k * w + i) (concat rows) d = nth i (nth k rows []) d.
Proof.
  revert k. induction rows as [|row rows IH]; intros k H Hk Hi; [cbn in Hk; lia|]. inversion H as [|? ? H1 H2 E]. cbn [concat]. destruct k as [|k].
  - cbn [nth Nat.mul Nat.add]. rewrite app_nth1 by lia. reflexivity.
  - cbn [nth]. rewrite app_nth2 by lia. replace (S k * w + i - length row)%nat with (k * w + i)%nat by lia. apply IH; [assumption|cbn in Hk; lia|assumption].
Qed.
Lemma fold_seq_nth (row : list T) : forall s, fold_left (fun s i => tadd s (nth i row zero)) (seq 0 (length row)) s = fold_left tadd row s.
Proof.
  induction row as [|x row IH] using rev_ind; intros s; [reflexivity|]. rewrite app_length. cbn [length]. rewrite Nat.add_1_r, seq_S, !fold_left_app. cbn [fold_left Nat.add].
  rewrite app_nth2 by lia. rewrite Nat.sub_diag. cbn [nth]. f_equal. rewrite <- IH.
  assert (G : forall l s, Forall (fun i => (i < length row)%nat) l -> fold_left (fun s i => tadd s (nth i (row ++ [x]) zero)) l s = fold_left (fun s i => tadd s (nth i row zero)) l s).
  { clear. intros l. induction l as [|i l IH]; intros s H; [reflexivity|]. inversion H as [|? ? H1 H2 E]. cbn [fold_left]. rewrite app_nth1 by assumption. apply IH. assumption. }
  apply G. apply Forall_forall. intros i Hi. apply in_seq in Hi. lia.
Qed.
Lemma shift_sum_row w (rows : list (list T)) k : Forall (fun row => length row = w) rows -> (k < length rows)%nat ->
  shift_sum T zero tadd (concat rows) (length rows) k = fold_left tadd (nth k rows []) zero.
Proof.
  intros H Hk. unfold shift_sum. rewrite (concat_length w rows H). replace (length rows * w / length rows)%nat with w by (rewrite Nat.mul_comm, Nat.div_mul; lia).
  replace (k * (length rows * w) / length rows)%nat with (k * w)%nat by (rewrite (Nat.mul_comm (length rows)), Nat.mul_assoc, Nat.div_mul; lia).
  assert (Lw : length (nth k rows []) = w) by (rewrite Forall_forall in H; apply H, nth_In; exact Hk).
  rewrite <- (fold_seq_nth (nth k rows []) zero), Lw.
  assert (G : forall l s, Forall (fun i => (i < w)%nat) l ->
    fold_left (fun s i => tadd s (nth (k * w + i) (concat rows) zero)) l s = fold_left (fun s i => tadd s (nth i (nth k rows []) zero)) l s).
  { intros l. induction l as [|i l IH]; intros s HF; [reflexivity|]. inversion HF as [|? ? H1 H2 E]. cbn [fold_left]. rewrite (concat_nth w) by assumption. apply IH. assumption. }
  apply G. apply Forall_forall. intros i Hi. apply in_seq in Hi. lia.
Qed.
End Rows.
(** ** Welford's recursion *)
Lemma sum_app a b : sum (a ++ b) = sum a + sum b.
Proof. induction a as [|x a IH]; cbn [app]; unfold sum in *; cbn [fold_right]; [ring|rewrite IH; ring]. Qed.
Lemma sum_cons x l : sum (x :: l) = x + sum l. Proof. reflexivity. Qed.
Lemma fold_sum l : forall s, fold_left Rplus l s = s + sum l.
Proof. induction l as [|x l IH]; intros s; cbn [fold_left]; [unfold sum; cbn; ring|rewrite IH, sum_cons; ring]. Qed.
Definition squares (c : R) (l : list R) : R := sum (map (fun x => (x - c) ^ 2) l).
Lemma squares_expand c l : squares c l = sum (map (fun x => x ^ 2) l) - 2 * c * sum l + INR (length l) * c ^ 2.
Proof.
  unfold squares. induction l as [|x l IH]; [unfold sum; cbn; ring|]. cbn [map length]. rewrite !sum_cons, IH, S_INR. ring.
Qed.
Lemma squares_nonneg c l : 0 <= squares c l.
Proof. unfold squares. induction l as [|x l IH]; [unfold sum; cbn; lra|]. cbn [map]. rewrite sum_cons. pose proof (pow2_ge_0 (x - c)). lra. Qed.
Lemma mean_sum l : (0 < length l)%nat -> sum l = INR (length l) * mean l.
Proof. intros H. unfold mean. field. apply not_0_INR. lia. Qed.
Lemma sum_mean l : sum l = INR (length l) * mean l.
Proof. destruct l as [|x l]; [unfold sum; cbn; ring|apply mean_sum; cbn; lia]. Qed.
Lemma mean_snoc l x : mean l + (x - mean l) / INR (length l + 1) = mean (l ++ [x]).
Proof.
  unfold mean at 3. rewrite sum_app, app_length. cbn [length]. unfold sum at 2. cbn [fold_right]. rewrite (sum_mean l), plus_INR. cbn [INR].
  assert (INR (length l) + 1 <> 0) by (pose proof (pos_INR (length l)); lra). field. assumption.
Qed.
Lemma squares_snoc l x : squares (mean (l ++ [x])) (l ++ [x]) = squares (mean l) l + (x - mean l) * (x - mean (l ++ [x])).
Proof.
  rewrite <- mean_snoc. set (m' := mean l + (x - mean l) / INR (length l + 1)). unfold squares at 1. rewrite map_app, sum_app. fold (squares m' l). cbn [map]. unfold sum at 1. cbn [fold_right].
  rewrite !squares_expand, (sum_mean l). unfold m'. rewrite plus_INR. cbn [INR]. assert (INR (length l) + 1 <> 0) by (pose proof (pos_INR (length l)); lra). field. assumption.
Qed.
(** the loop over the shifts, starting from the state after the sums [l0] *)
Lemma loop_ok w rows l0 : Forall (fun row => length row = w) rows ->
  fold_left (shift_step R 0 Rplus Rminus Rdiv INR variance_real (concat rows) (length rows) (length l0)) (seq 0 (length rows)) (mean l0, squares (mean l0) l0) =
  (mean (l0 ++ map sum rows), squares (mean (l0 ++ map sum rows)) (l0 ++ map sum rows)).
Proof.
  intros H. assert (G : forall k, (k <= length rows)%nat ->
    fold_left (shift_step R 0 Rplus Rminus Rdiv INR variance_real (concat rows) (length rows) (length l0)) (seq 0 k) (mean l0, squares (mean l0) l0) =
    (mean (l0 ++ map sum (firstn k rows)), squares (mean (l0 ++ map sum (firstn k rows))) (l0 ++ map sum (firstn k rows)))).
  { induction k as [|k IH]; intros Hk; [cbn [seq fold_left firstn map]; rewrite app_nil_r; reflexivity|].
    rewrite seq_S, fold_left_app, IH by lia. cbn [fold_left Nat.add]. unfold shift_step. rewrite (shift_sum_row R 0 Rplus w) by (assumption || lia). rewrite fold_sum, Rplus_0_l.
    set (l := l0 ++ map sum (firstn k rows)). set (x := sum (nth k rows [])).
    assert (E : l0 ++ map sum (firstn (S k) rows) = l ++ [x]).
    { unfold l, x. rewrite <- app_assoc. f_equal. rewrite <- (firstn_skipn k (firstn (S k) rows)), firstn_firstn. replace (Nat.min k (S k)) with k by lia. rewrite map_app. f_equal.
      assert (E : skipn k (firstn (S k) rows) = [nth k rows []]); [|rewrite E; reflexivity]. clear -Hk. revert rows Hk. induction k as [|k IH]; intros [|row rows] Hk; cbn [length] in Hk; try lia.
      - reflexivity.
      - cbn [firstn skipn nth]. apply IH. lia. }
    assert (Lk : length l = (k + length l0)%nat) by (unfold l; rewrite app_length, map_length, firstn_length; lia).
    rewrite E, <- Lk, mean_snoc. unfold variance_real. rewrite squares_snoc. reflexivity. }
  rewrite (G (length rows)) by lia. rewrite firstn_all. reflexivity.
Qed.
(** ** the pooled rounds *)
(** the vector of previous results after the rounds, one call of [reduce] each *)
Fixpoint history (newest_first : list round) : list (result R) :=
  match newest_first with [] => [] | (n, rows) :: older => snd (reduce_real (concat rows) n (length rows) (history older)) end.
Definition good (res : result R) (n : nat) (rounds : list round) : Prop :=
  integral res = mean (map (estimate n) (pooled n rounds)) /\ error res = standard_error (map (estimate n) (pooled n rounds)) /\
  res_n res = n /\ res_m res = length (pooled n rounds) /\ iterations res = length rounds /\ evaluations res = total_evaluations rounds.
Lemma mean_scaled n (rows : list (list R)) : (1 <= n)%nat -> mean (map (estimate n) rows) = mean (map sum rows) / INR n.
Proof.
  intros Hn. unfold mean. rewrite !map_length. assert (E : sum (map (estimate n) rows) = sum (map sum rows) / INR n).
  { unfold estimate. induction rows as [|row rows IH]; [unfold sum; cbn; unfold Rdiv; ring|]. cbn [map]. rewrite !sum_cons, IH. unfold Rdiv. ring. }
  rewrite E. unfold Rdiv. ring.
Qed.
Lemma squares_scaled n (rows : list (list R)) c : (1 <= n)%nat -> squares (c / INR n) (map (estimate n) rows) = squares c (map sum rows) / (INR n * INR n).
Proof.
  intros Hn. assert (INR n <> 0) by (apply not_0_INR; lia). unfold squares, estimate. induction rows as [|row rows IH]; [unfold sum; cbn; field; assumption|]. cbn [map]. rewrite !sum_cons, IH. field. assumption.
Qed.
Lemma error_ok n (rows : list (list R)) : (1 <= n)%nat -> (2 <= length rows)%nat ->
  error_real (squares (mean (map sum rows)) (map sum rows) / (INR (length rows - 1) * INR (length rows) * INR n * INR n)) = standard_error (map (estimate n) rows).
Proof.
  intros Hn Hm. unfold error_real, standard_error. f_equal. rewrite map_length. fold (squares (mean (map (estimate n) rows)) (map (estimate n) rows)). rewrite mean_scaled, squares_scaled by exact Hn.
  assert (Hn' : 0 < INR n) by (apply lt_0_INR; lia). assert (Hm' : 2 <= INR (length rows)) by (apply (le_INR 2) in Hm; cbn in Hm; lra).
  rewrite minus_INR by lia. cbn [INR]. pose proof (squares_nonneg (mean (map sum rows)) (map sum rows)) as S0. rewrite Rabs_pos_eq.
  - field. repeat split; lra.
  - unfold Rdiv. apply Rmult_le_pos; [exact S0|]. left. apply Rinv_0_lt_compat. repeat apply Rmult_lt_0_compat; lra.
Qed.
Lemma restored_variance n (rows : list (list R)) : (1 <= n)%nat -> (2 <= length rows)%nat ->
  variance_from_error_real (standard_error (map (estimate n) rows)) * (INR (length rows - 1) * INR (length rows) * INR n * INR n) = squares (mean (map sum rows)) (map sum rows).
Proof.
  intros Hn Hm. unfold variance_from_error_real, standard_error. rewrite map_length. fold (squares (mean (map (estimate n) rows)) (map (estimate n) rows)). rewrite mean_scaled, squares_scaled by exact Hn.
  assert (Hn' : 0 < INR n) by (apply lt_0_INR; lia). assert (Hm' : 2 <= INR (length rows)) by (apply (le_INR 2) in Hm; cbn in Hm; lra).
  rewrite minus_INR by lia. cbn [INR]. pose proof (squares_nonneg (mean (map sum rows)) (map sum rows)) as S0. rewrite sqrt_sqrt.
  - field. repeat split; lra.
  - unfold Rdiv. apply Rmult_le_pos; [apply Rmult_le_pos; [exact S0|]|]; left; apply Rinv_0_lt_compat; repeat apply Rmult_lt_0_compat; lra.
Qed.
Lemma pooled_same n rows older : pooled n ((n, rows) :: older) = pooled n older ++ rows.
Proof. cbn [pooled]. rewrite Nat.eqb_refl. reflexivity. Qed.
(** what [restore] takes over from the previous rounds *)
Lemma restore_ok n older : (1 <= n)%nat -> valid older ->
  (match older with [] => history older = [] | (n', _) :: _ => exists res rest, history older = res :: rest /\ good res n' older end) ->
  exists rest, restore R 0 Rmult INR variance_from_error_real n (history older) =
    (mean (map sum (pooled n older)), squares (mean (map sum (pooled n older))) (map sum (pooled n older)), length (pooled n older), length older, total_evaluations older, rest).
Proof.
  intros Hn HV HH. destruct older as [|[n' rows'] older].
  - rewrite HH. exists []. cbn. unfold mean, squares, sum. cbn. unfold Rdiv. rewrite Rmult_0_l. reflexivity.
  - destruct HH as (res & rest & -> & G1 & G2 & G3 & G4 & G5 & G6). unfold restore. rewrite G3. destruct (Nat.eqb n' n) eqn:E.
    + apply Nat.eqb_eq in E. rewrite E in *. clear E. exists rest. destruct HV as (_ & _ & H2 & _). rewrite G1, G2, G4, G5, G6. do 4 (apply f_equal2; [|reflexivity]). apply f_equal2; [|exact (restored_variance n (pooled n ((n, rows') :: older)) Hn H2)].
      refine (eq_trans (f_equal (fun z => z * INR n) (mean_scaled n (pooled n ((n, rows') :: older)) Hn)) _).
      unfold Rdiv. rewrite Rmult_assoc, Rinv_l, Rmult_1_r by (apply not_0_INR; lia). reflexivity.
    + exists (res :: rest). rewrite G5, G6. assert (EP : pooled n ((n', rows') :: older) = []) by (cbn [pooled]; rewrite E; reflexivity). refine (eq_trans _ (f_equal (fun P => (mean (map sum P), squares (mean (map sum P)) (map sum P), length P, _, _, _)) (eq_sym EP))).
      do 3 (apply f_equal2; [|reflexivity]). apply f_equal2; [|reflexivity]. apply f_equal2; [|reflexivity]. unfold mean. change (sum (map sum [])) with 0. unfold Rdiv. rewrite Rmult_0_l. reflexivity.
Qed.
Lemma history_ok rounds : valid rounds ->
  match rounds with [] => history rounds = [] | (n, _) :: _ => exists res rest, history rounds = res :: rest /\ good res n rounds end.
Proof.
  induction rounds as [|[n rows] older IH]; intros HV; [reflexivity|]. destruct HV as (Hn & (w & HW) & H2 & HV). specialize (IH HV).
  destruct (restore_ok n older Hn HV IH) as (rest & ER). cbn [history]. unfold reduce_real, reduce. rewrite ER.
  pose proof (loop_ok w rows (map sum (pooled n older)) HW) as L. rewrite map_length in L. rewrite L. rewrite <- map_app, <- pooled_same. eexists _, rest. split; [reflexivity|].
  rewrite pooled_same in *. rewrite app_length in H2. unfold good. cbn [integral error res_n res_m iterations evaluations]. rewrite pooled_same. split; [symmetry; apply mean_scaled; exact Hn|].
  split; [|split; [reflexivity|split; [rewrite app_length; lia|split; [reflexivity|reflexivity]]]].
  rewrite <- error_ok by (rewrite ?app_length; lia). rewrite app_length. f_equal. rewrite (Nat.add_comm (length rows)). reflexivity.
Qed.
(** ** the splitting of the shifts *)
Lemma shift_numbers_ok m mx : (1 <= m)%nat -> (1 <= mx)%nat ->
  exists k, ((k * mx < m)%nat /\ (m <= S k * mx)%nat) /\ shift_numbers m mx = repeat mx k ++ [(m - k * mx)%nat].
Proof.
  intros Hm Hx. set (k := ((m - 1) / mx)%nat). exists k. assert (Hk : (k * mx < m)%nat /\ (m <= S k * mx)%nat).
  { pose proof (Nat.div_mod (m - 1) mx ltac:(lia)) as D. pose proof (Nat.mod_upper_bound (m - 1) mx ltac:(lia)) as B. fold k in D. nia. }
  split; [exact Hk|]. unfold shift_numbers.
  assert (EI : ((m + mx - 1) / mx)%nat = S k) by (replace (m + mx - 1)%nat with (m - 1 + 1 * mx)%nat by lia; rewrite Nat.div_add by lia; fold k; lia). rewrite EI.
  rewrite seq_S, map_app. cbn [map Nat.add]. f_equal.
  - replace (S k - 1)%nat with k by lia. assert (G : forall l, Forall (fun i => (i < k)%nat) l -> map (fun it => if Nat.eqb it k then (if Nat.eqb (m mod mx) 0 then Nat.min m mx else m mod mx) else Nat.min m mx) l = repeat mx (length l)).
    { induction l as [|i l IH]; intros H; [reflexivity|]. inversion H as [|? ? H1 H2 E]. cbn [map length repeat]. rewrite IH by assumption. destruct (Nat.eqb i k) eqn:Ei; [apply Nat.eqb_eq in Ei; lia|].
      f_equal. apply Nat.min_r. destruct k as [|k']; [lia|nia]. }
    rewrite G; [rewrite seq_length; reflexivity|]. apply Forall_forall. intros i Hi. apply in_seq in Hi. lia.
  - replace (S k - 1)%nat with k by lia. rewrite Nat.eqb_refl. f_equal. destruct (Nat.eqb (m mod mx) 0) eqn:E.
    + apply Nat.eqb_eq in E. pose proof (Nat.div_mod m mx ltac:(lia)) as D. rewrite E in D. assert (m / mx = S k)%nat by nia. rewrite Nat.min_r by nia. nia.
    + apply Nat.eqb_neq in E. pose proof (Nat.div_mod m mx ltac:(lia)) as D. pose proof (Nat.mod_upper_bound m mx ltac:(lia)). assert (m / mx = k)%nat by nia. nia.
Qed.
Lemma shift_numbers_sum m mx : (1 <= m)%nat -> (1 <= mx)%nat -> fold_right Nat.add 0%nat (shift_numbers m mx) = m /\ Forall (fun s => (1 <= s <= mx)%nat) (shift_numbers m mx).
Proof.
  intros Hm Hx. destruct (shift_numbers_ok m mx Hm Hx) as (k & Hk & ->). split.
  - assert (E : forall j a, fold_right Nat.add 0%nat (repeat mx j ++ [a]) = (j * mx + a)%nat) by (induction j as [|j IH]; intros a; cbn [repeat app fold_right]; [lia|rewrite IH; lia]). rewrite E. lia.
  - apply Forall_app. split; [apply Forall_forall; intros s Hs; apply repeat_spec in Hs; lia|]. constructor; [lia|constructor].
Qed.
Fixpoint chunked (n : nat) (shifts : list nat) (rows : list (list R)) (older : list round) : list round :=
  match shifts with [] => older | s :: rest => chunked n rest (skipn s rows) ((n, firstn s rows) :: older) end.
Lemma sample_loop_history n shifts : forall rows res older, (fold_right Nat.add 0 shifts = length rows)%nat ->
  sample_loop R 0 Rplus Rminus Rmult Rdiv INR variance_real error_real variance_from_error_real n shifts rows res (history older) =
  (match shifts with [] => res | _ => hd_error (history (chunked n shifts rows older)) end, history (chunked n shifts rows older)).
Proof.
  induction shifts as [|s shifts IH]; intros rows res older HS; [reflexivity|]. cbn [sample_loop chunked]. cbn [fold_right] in HS.
  assert (E : history ((n, firstn s rows) :: older) = snd (reduce_real (concat (firstn s rows)) n s (history older))) by (cbn [history]; rewrite firstn_length, Nat.min_l by lia; reflexivity).
  unfold reduce_real in E.
  destruct (reduce R 0 Rplus Rminus Rmult Rdiv INR variance_real error_real variance_from_error_real (concat (firstn s rows)) n s (history older)) as [r' p'] eqn:ER.
  cbn [snd] in E. rewrite <- E. rewrite IH by (rewrite skipn_length; lia). destruct shifts as [|s2 shifts]; [|reflexivity]. cbn [chunked].
  assert (EP : p' = r' :: tl p').
  { unfold reduce in ER. destruct (restore R 0 Rmult INR variance_from_error_real n (history older)) as [[[[[a b] c] d] e] f]. destruct (fold_left _ (seq 0 s) (a, b)) as [u v]. inversion ER. reflexivity. }
  rewrite E, EP. reflexivity.
Qed.
Lemma chunked_pooled n shifts : forall rows older, (fold_right Nat.add 0 shifts = length rows)%nat -> pooled n (chunked n shifts rows older) = pooled n older ++ rows.
Proof.
  induction shifts as [|s shifts IH]; intros rows older HS; cbn [fold_right] in HS.
  - destruct rows; [|discriminate]. cbn [chunked]. rewrite app_nil_r. reflexivity.
  - cbn [chunked]. rewrite IH by (rewrite skipn_length; lia). rewrite pooled_same, <- app_assoc, firstn_skipn. reflexivity.
Qed.
Lemma chunked_length n shifts : forall rows older, length (chunked n shifts rows older) = (length shifts + length older)%nat.
Proof. induction shifts as [|s shifts IH]; intros rows older; [reflexivity|]. cbn [chunked length]. rewrite IH. cbn [length]. lia. Qed.
Lemma chunked_total n shifts : forall rows older, (fold_right Nat.add 0 shifts = length rows)%nat ->
  total_evaluations (chunked n shifts rows older) = (n * length rows + total_evaluations older)%nat.
Proof.
  induction shifts as [|s shifts IH]; intros rows older HS; cbn [fold_right] in HS.
  - destruct rows; [|discriminate]. cbn [chunked length]. lia.
  - cbn [chunked]. rewrite IH by (rewrite skipn_length; lia). change (total_evaluations ((n, firstn s rows) :: older)) with (n * length (firstn s rows) + total_evaluations older)%nat. rewrite firstn_length, skipn_length. nia.
Qed.
Lemma same_width_firstn s rows : same_width rows -> same_width (firstn s rows).
Proof. intros (w & H). exists w. rewrite <- (firstn_skipn s rows) in H. apply Forall_app in H. apply H. Qed.
Lemma same_width_skipn s rows : same_width rows -> same_width (skipn s rows).
Proof. intros (w & H). exists w. rewrite <- (firstn_skipn s rows) in H. apply Forall_app in H. apply H. Qed.
Lemma chunked_valid n shifts : forall rows older, (1 <= n)%nat -> same_width rows -> (fold_right Nat.add 0 shifts = length rows)%nat ->
  (2 <= length (pooled n older) + match shifts with s :: _ => s | [] => 2 end)%nat -> valid older -> valid (chunked n shifts rows older).
Proof.
  induction shifts as [|s shifts IH]; intros rows older Hn HW HS H2 HV; cbn [fold_right] in HS; [exact HV|]. cbn [chunked].
  assert (P : (2 <= length (pooled n ((n, firstn s rows) :: older)))%nat) by (rewrite pooled_same, app_length, firstn_length; lia).
  apply IH; [exact Hn|apply same_width_skipn; exact HW|rewrite skipn_length; lia|lia|]. split; [exact Hn|]. split; [apply same_width_firstn; exact HW|]. split; [exact P|exact HV].
Qed.
Lemma chunked_head n s shifts rows older : exists rows' older', chunked n (s :: shifts) rows older = (n, rows') :: older'.
Proof.
  revert s rows older. induction shifts as [|s2 shifts IH]; intros s rows older; [eexists _, _; reflexivity|]. change (chunked n (s :: s2 :: shifts) rows older) with (chunked n (s2 :: shifts) (skipn s rows) ((n, firstn s rows) :: older)). apply IH.
Qed.
Lemma sample_ok n mx rows older : (1 <= n)%nat -> (2 <= mx)%nat -> (1 <= length rows)%nat -> same_width rows -> valid older -> (2 <= length (pooled n older) + length rows)%nat ->
  exists res rounds', sample_real n (length rows) mx rows (history older) = (Some res, history rounds') /\ valid rounds' /\ good res n rounds' /\
    pooled n rounds' = pooled n older ++ rows /\ length rounds' = (length older + length (shift_numbers (length rows) mx))%nat /\
    total_evaluations rounds' = (total_evaluations older + n * length rows)%nat /\ exists rows' older', rounds' = (n, rows') :: older'.
Proof.
  intros Hn Hx Hm HW HV H2. destruct (shift_numbers_sum (length rows) mx ltac:(lia) ltac:(lia)) as [HS _]. unfold sample_real, sample.
  destruct (shift_numbers_ok (length rows) mx Hm ltac:(lia)) as (k & Hk & ES).
  assert (HD : exists s rest, shift_numbers (length rows) mx = s :: rest /\ (2 <= length (pooled n older) + s)%nat).
  { rewrite ES. destruct k as [|k]; [exists (length rows - 0 * mx)%nat, []; split; [reflexivity|lia]|]. exists mx, (repeat mx k ++ [(length rows - S k * mx)%nat]). split; [reflexivity|lia]. }
  destruct HD as (s & rest & EN & Hs). rewrite EN in HS |- *. rewrite sample_loop_history by exact HS. set (rounds' := chunked n (s :: rest) rows older).
  assert (V : valid rounds') by (apply chunked_valid; assumption).
  destruct (chunked_head n s rest rows older) as (rows' & older' & EC). fold rounds' in EC. assert (HH : exists res rst, history rounds' = res :: rst /\ good res n rounds') by (pose proof (history_ok rounds' V) as HH; revert HH; rewrite EC; exact (fun x => x)). destruct HH as (res & rst & E1 & G).
  exists res, rounds'. split; [rewrite E1; reflexivity|]. split; [exact V|]. split; [exact G|]. unfold rounds'. split; [apply chunked_pooled; exact HS|].
  rewrite chunked_length, chunked_total by exact HS. split; [lia|]. split; [lia|]. exists rows', older'. exact EC.
Qed.
(** ** complex numbers *)
Definition part (f : R * R -> R) (res : result (R * R)) : result R :=
  {| integral := f (integral res); error := f (error res); res_n := res_n res; res_m := res_m res; iterations := iterations res; evaluations := evaluations res |}.
Section Complex.
Variable f : R * R -> R.
Hypothesis Hf : f = fst \/ f = snd.
Lemma f_zero : f (0, 0) = 0. Proof. destruct Hf as [-> | ->]; reflexivity. Qed.
Lemma f_plus a b : f (cplus a b) = f a + f b. Proof. destruct Hf as [-> | ->]; reflexivity. Qed.
Lemma f_minus a b : f (cminus a b) = f a - f b. Proof. destruct Hf as [-> | ->]; reflexivity. Qed.
Lemma f_scale a x : f (cmult a (x, 0)) = f a * x. Proof. unfold cmult. cbn [fst snd]. destruct Hf as [-> | ->]; cbn [fst snd]; ring. Qed.
Lemma cast_mul x y : cmult (x, 0) (y, 0) = (x * y, 0). Proof. unfold cmult. cbn [fst snd]. f_equal; ring. Qed.
Lemma f_div a x : x <> 0 -> f (cdivide a (x, 0)) = f a / x.
Proof. intros H. unfold cdivide. cbn [fst snd]. destruct Hf as [-> | ->]; cbn [fst snd]; field; exact H. Qed.
Lemma f_variance a b c d : f (variance_complex a b c d) = variance_real (f a) (f b) (f c) (f d).
Proof. unfold variance_complex, variance_real. rewrite f_plus. destruct Hf as [-> | ->]; reflexivity. Qed.
Lemma f_error v : f (error_complex v) = error_real (f v). Proof. destruct Hf as [-> | ->]; reflexivity. Qed.
Lemma f_verror v : f (variance_from_error_complex v) = variance_from_error_real (f v). Proof. destruct Hf as [-> | ->]; reflexivity. Qed.
Lemma f_nth j r : f (nth j r (0, 0)) = nth j (map f r) 0.
Proof. rewrite <- (map_nth f r (0, 0) j). rewrite f_zero. reflexivity. Qed.
Lemma f_shift_sum r m k : f (shift_sum (R * R) (0, 0) cplus r m k) = shift_sum R 0 Rplus (map f r) m k.
Proof.
  unfold shift_sum. rewrite map_length. assert (G : forall l s, f (fold_left (fun sum i => cplus sum (nth (k * length r / m + i) r (0, 0))) l s) = fold_left (fun sum i => sum + nth (k * length r / m + i) (map f r) 0) l (f s)).
  { induction l as [|i l IH]; intros s; [reflexivity|]. cbn [fold_left]. rewrite IH, f_plus, f_nth. reflexivity. }
  rewrite G, f_zero. reflexivity.
Qed.
Lemma f_step r m pm s k : (let (a, b) := shift_step (R * R) (0, 0) cplus cminus cdivide (fun n => (INR n, 0)) variance_complex r m pm s k in (f a, f b)) =
  shift_step R 0 Rplus Rminus Rdiv INR variance_real (map f r) m pm (f (fst s), f (snd s)) k.
Proof.
  destruct s as [a b]. unfold shift_step. cbn [fst snd]. rewrite f_variance, f_plus, f_minus, f_shift_sum.
  rewrite f_div by (apply not_0_INR; lia). rewrite f_minus, f_shift_sum. reflexivity.
Qed.
Lemma f_loop r m pm l : forall s, (let (a, b) := fold_left (shift_step (R * R) (0, 0) cplus cminus cdivide (fun n => (INR n, 0)) variance_complex r m pm) l s in (f a, f b)) =
  fold_left (shift_step R 0 Rplus Rminus Rdiv INR variance_real (map f r) m pm) l (f (fst s), f (snd s)).
Proof.
  induction l as [|k l IH]; intros s; [destruct s; reflexivity|]. cbn [fold_left]. rewrite IH, <- f_step.
  destruct (shift_step (R * R) (0, 0) cplus cminus cdivide (fun n => (INR n, 0)) variance_complex r m pm s k). reflexivity.
Qed.
Lemma reduce_part r n m prev : (1 <= n)%nat -> (2 <= m + match prev with p :: _ => if Nat.eqb (res_n p) n then res_m p else 0 | [] => 0 end)%nat ->
  reduce_real (map f r) n m (map (part f) prev) = (part f (fst (reduce_complex r n m prev)), map (part f) (snd (reduce_complex r n m prev))).
Proof.
  intros Hn H2. unfold reduce_real, reduce_complex, reduce.
  assert (ER : restore R 0 Rmult INR variance_from_error_real n (map (part f) prev) =
    let '(a, b, c, d, e, l) := restore (R * R) (0, 0) cmult (fun n => (INR n, 0)) variance_from_error_complex n prev in (f a, f b, c, d, e, map (part f) l)).
  { destruct prev as [|p rest]; cbn [map restore]; [rewrite f_zero; reflexivity|]. change (res_n (part f p)) with (res_n p). destruct (Nat.eqb (res_n p) n).
    - rewrite !cast_mul, !f_scale, f_verror. reflexivity.
    - rewrite f_zero. reflexivity. }
  rewrite ER. clear ER. assert (HP : (2 <= m + snd (fst (fst (fst (restore (R * R) (0%R, 0%R) cmult (fun n => (INR n, 0%R)) variance_from_error_complex n prev)))))%nat).
  { destruct prev as [|p rest]; cbn [restore fst snd]; [exact H2|]. destruct (Nat.eqb (res_n p) n); exact H2. }
  destruct (restore (R * R) (0, 0) cmult (fun n => (INR n, 0)) variance_from_error_complex n prev) as [[[[[a b] pm] d] e] l]. cbn [fst snd] in HP.
  pose proof (f_loop r m pm (seq 0 m) (a, b)) as L. cbn [fst snd] in L. rewrite <- L. clear L.
  destruct (fold_left (shift_step (R * R) (0, 0) cplus cminus cdivide (fun n => (INR n, 0)) variance_complex r m pm) (seq 0 m) (a, b)) as [u v]. cbn [fst snd map].   assert (N : INR n <> 0) by (apply not_0_INR; lia). match goal with |- (?x, _ :: map _ l) = (?y, _) => assert (EE : x = y); [|rewrite EE; reflexivity] end.
  unfold part. cbn [integral error res_n res_m iterations evaluations]. rewrite f_error, !cast_mul, !f_div; [reflexivity| |exact N].
  repeat apply Rmult_integral_contrapositive_currified; try exact N; apply not_0_INR; lia.
Qed.
End Complex.
