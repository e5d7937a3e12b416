(** Proofs for C81: complex integrands. *)
From Coq Require Import List Arith Reals Lia Lra. Import ListNotations.
From Verif Require Import QmcModel QmcSpec QmcStat QmcLoopModel QmcLoop.
Local Open Scope R_scope.
Definition before (n : nat) (prev : list (result (R * R))) : nat := match prev with p :: _ => if Nat.eqb (res_n p) n then res_m p else 0%nat | [] => 0%nat end.
Section Part.
Variable f : R * R -> R.
Hypothesis Hf : f = fst \/ f = snd.
Lemma reduce_before r n m prev : before n (snd (reduce_complex r n m prev)) = (m + before n prev)%nat.
Proof.
  unfold reduce_complex, reduce. destruct prev as [|p rest]; cbn [restore before].
  - destruct (fold_left _ (seq 0 m) _) as [u v]. cbn [snd before res_n res_m]. rewrite Nat.eqb_refl. reflexivity.
  - destruct (Nat.eqb (res_n p) n); destruct (fold_left _ (seq 0 m) _) as [u v]; cbn [snd before res_n res_m]; rewrite Nat.eqb_refl; reflexivity.
Qed.
Lemma sample_loop_part n shifts : forall rows res prev, (1 <= n)%nat -> match shifts with s :: _ => (2 <= s + before n prev)%nat | [] => True end ->
  sample_loop R 0 Rplus Rminus Rmult Rdiv INR variance_real error_real variance_from_error_real n shifts (map (map f) rows) (option_map (part f) res) (map (part f) prev) =
  let (r, p) := sample_loop (R * R) (0, 0) cplus cminus cmult cdivide (fun n => (INR n, 0)) variance_complex error_complex variance_from_error_complex n shifts rows res prev in
  (option_map (part f) r, map (part f) p).
Proof.
  induction shifts as [|s shifts IH]; intros rows res prev Hn H2; [reflexivity|]. cbn [sample_loop].
  pose proof (reduce_part f Hf (concat (firstn s rows)) n s prev Hn H2) as RP. pose proof (reduce_before (concat (firstn s rows)) n s prev) as RB. unfold reduce_real, reduce_complex in RP, RB.
  rewrite firstn_map, skipn_map, <- concat_map. rewrite RP. clear RP.
  destruct (reduce (R * R) (0, 0) cplus cminus cmult cdivide (fun n => (INR n, 0)) variance_complex error_complex variance_from_error_complex (concat (firstn s rows)) n s prev) as [r' p'] eqn:ER. cbn [fst snd] in *.
  change (Some (part f r')) with (option_map (part f) (Some r')). apply IH; [exact Hn|]. destruct shifts as [|s2 shifts]; [exact I|]. rewrite RB. lia.
Qed.
Lemma sample_part n mx rows prev : (1 <= n)%nat -> (2 <= mx)%nat -> (1 <= length rows)%nat -> (2 <= length rows + before n prev)%nat ->
  sample_real n (length rows) mx (map (map f) rows) (map (part f) prev) =
  let (r, p) := sample_complex n (length rows) mx rows prev in (option_map (part f) r, map (part f) p).
Proof.
  intros Hn Hx Hm H2. unfold sample_real, sample_complex, sample. apply (sample_loop_part n _ rows None prev Hn). destruct (shift_numbers_ok (length rows) mx Hm ltac:(lia)) as (k & Hk & ->).
  destruct k as [|k]; cbn [repeat app]; [|lia]. replace (length rows - 0 * mx)%nat with (length rows) by lia. exact H2.
Qed.
End Part.
