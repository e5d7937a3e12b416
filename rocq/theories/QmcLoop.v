(** Proofs for C81. *)
From Coq Require Import List Arith Reals Lia Lra Bool Sorted Permutation. Import ListNotations.
From Verif Require Import QmcLoopModel QmcSpec QmcStat.
Local Open Scope R_scope.
(** ** the stopping criterion *)
Lemma lt_fin x y : lt (Fin x) (Fin y) = true <-> x < y.
Proof. unfold lt. destruct (Rlt_dec x y); split; intros; try assumption; try reflexivity; try discriminate; contradiction. Qed.
Lemma lt_fin_false x y : lt (Fin x) (Fin y) = false <-> y <= x.
Proof. unfold lt. destruct (Rlt_dec x y); split; intros; try reflexivity; try discriminate; lra. Qed.
Lemma div_le e y : 0 < y -> (e / y <= 1 <-> e <= y).
Proof.
  intros Hy. split; intros H.
  - apply (Rmult_le_compat_r y) in H; [|lra]. replace (e / y * y) with e in H by (field; lra). lra.
  - apply (Rmult_le_reg_r y); [exact Hy|]. replace (e / y * y) with e by (field; lra). lra.
Qed.
Lemma component_ok e a y : 0 <= e -> 0 <= a -> 0 <= y -> (lt (Fin 1) (fmin (fdiv e a) (fdiv e y)) = false <-> e <= a \/ e <= y).
Proof.
  intros He Ha Hy. unfold fdiv, fmin. destruct (Req_EM_T a 0) as [->|Na].
  - destruct (Req_EM_T e 0) as [->|Ne].
    + destruct (Req_EM_T y 0); cbn [lt]; (split; [intros _; left; lra|reflexivity]).
    + destruct (Req_EM_T y 0) as [->|Ny]; cbn [lt]; [split; [discriminate|intros [H|H]; lra]|].
      pose proof (div_le e y ltac:(lra)) as D. change (if Rlt_dec 1 (e / y) then true else false) with (lt (Fin 1) (Fin (e / y))). rewrite lt_fin_false, D. split; [right; assumption|intros [H|H]; lra].
  - pose proof (div_le e a ltac:(lra)) as D. destruct (Req_EM_T y 0) as [->|Ny].
    + destruct (Req_EM_T e 0) as [->|Ne]; cbn [lt]; change (if Rlt_dec 1 ?z then true else false) with (lt (Fin 1) (Fin z)); rewrite lt_fin_false, D; split; intros H; try (left; exact H); destruct H; lra.
    + pose proof (div_le e y ltac:(lra)) as D2. destruct (lt (Fin (e / y)) (Fin (e / a))) eqn:L.
      * apply lt_fin in L. rewrite lt_fin_false, D2. split; [right; assumption|]. intros [H|H]; [apply D in H; apply D2; lra|exact H].
      * apply lt_fin_false in L. rewrite lt_fin_false, D. split; [left; assumption|]. intros [H|H]; [exact H|apply D2 in H; apply D; lra].
Qed.
Lemma fabs_div e y : 0 <= e -> fabs (fdiv e y) = fdiv e (Rabs y).
Proof.
  intros He. unfold fdiv. destruct (Req_EM_T y 0) as [->|Ny]; [rewrite Rabs_R0; destruct (Req_EM_T 0 0); [|lra]; destruct (Req_EM_T e 0); reflexivity|].
  destruct (Req_EM_T (Rabs y) 0) as [C|C]; [exfalso; apply (Rabs_no_R0 y Ny C)|]. cbn [fabs]. f_equal. unfold Rdiv. rewrite Rabs_mult, (Rabs_pos_eq e He), Rabs_inv. reflexivity.
Qed.
Lemma not_nan e a y : 0 < a -> fmin (fdiv e a) (fdiv e y) <> Nan.
Proof. intros Ha. unfold fmin, fdiv. destruct (Req_EM_T a 0); [lra|]. destruct (Req_EM_T y 0); [destruct (Req_EM_T e 0)|]; cbn [lt]; try discriminate. destruct (Rlt_dec (e / y) (e / a)); discriminate. Qed.
Lemma fmax_small a b : a <> Nan -> b <> Nan -> (lt (Fin 1) (fmax a b) = false <-> lt (Fin 1) a = false /\ lt (Fin 1) b = false).
Proof.
  intros Na Nb. unfold fmax. destruct a as [x| |], b as [y| |]; try contradiction; cbn [lt]; try (split; [discriminate|intros [H1 H2]; discriminate]).
  destruct (Rlt_dec x y); cbn [lt]; destruct (Rlt_dec 1 x), (Rlt_dec 1 y); split; intros H; try destruct H; try split; try reflexivity; try discriminate; lra.
Qed.
(** ** get_next_n *)
Lemma lower_bound_some lattices n l : StronglySorted Nat.lt lattices -> lower_bound lattices n = Some l -> In l lattices /\ (n <= l)%nat /\ forall k, In k lattices -> (n <= k)%nat -> (l <= k)%nat.
Proof.
  induction lattices as [|x r IH]; intros HS E; [discriminate|]. apply StronglySorted_inv in HS as [H1 H2]. cbn [lower_bound] in E. rewrite Forall_forall in H2. destruct (Nat.leb n x) eqn:L.
  - apply Nat.leb_le in L. injection E as <-. split; [left; reflexivity|]. split; [exact L|]. intros k [<-|Hk] Hn; [lia|]. specialize (H2 k Hk). cbn in H2. lia.
  - apply Nat.leb_gt in L. destruct (IH H1 E) as (A & B & C). split; [right; exact A|]. split; [exact B|]. intros k [<-|Hk] Hn; [lia|]. apply C; assumption.
Qed.
Lemma lower_bound_none lattices n : lower_bound lattices n = None <-> Forall (fun l => (l < n)%nat) lattices.
Proof.
  induction lattices as [|x r IH]; cbn [lower_bound]; [split; [constructor|reflexivity]|]. destruct (Nat.leb n x) eqn:L.
  - apply Nat.leb_le in L. split; [discriminate|]. intros H. inversion H. lia.
  - apply Nat.leb_gt in L. rewrite IH. split; intros H; [constructor; assumption|inversion H; assumption].
Qed.
Lemma last_in (l : list nat) : l <> [] -> In (last l 0%nat) l.
Proof. induction l as [|x [|y r] IH]; intros H; [congruence|left; reflexivity|]. right. apply IH. discriminate. Qed.
Lemma last_max l : StronglySorted Nat.lt l -> forall k, In k l -> (k <= last l 0)%nat.
Proof.
  induction l as [|x [|y r] IH]; intros HS k Hk; [destruct Hk|destruct Hk as [<-|[]]; cbn; lia|]. apply StronglySorted_inv in HS as [H1 H2]. change (last (x :: y :: r) 0%nat) with (last (y :: r) 0%nat).
  destruct Hk as [<-|Hk]; [|apply IH; assumption]. rewrite Forall_forall in H2. specialize (H2 (last (y :: r) 0%nat) (last_in (y :: r) ltac:(discriminate))). unfold Nat.lt in H2. lia.
Qed.
Definition usable (lattices : list nat) (n : nat) : Prop := In n lattices \/ Forall (fun l => (l < n)%nat) lattices.
Lemma next_usable lattices median n : lattices <> [] -> StronglySorted Nat.lt lattices -> usable lattices (get_next_n lattices median n).
Proof.
  intros HN HS. unfold get_next_n. destruct (lower_bound lattices n) as [l|] eqn:E; [left; apply (lower_bound_some lattices n l HS E)|]. destruct median; [right; apply lower_bound_none; exact E|left; apply last_in; exact HN].
Qed.
Lemma next_le lattices median n p : lattices <> [] -> StronglySorted Nat.lt lattices -> usable lattices n -> (p <= n)%nat -> (get_next_n lattices median p <= n)%nat.
Proof.
  intros HN HS HU Hp. unfold get_next_n. destruct (lower_bound lattices p) as [l|] eqn:E.
  - destruct (lower_bound_some lattices p l HS E) as (A & B & C). destruct HU as [U|U]; [apply C; assumption|]. rewrite Forall_forall in U. specialize (U l A). lia.
  - destruct median; [exact Hp|]. pose proof (last_in lattices HN) as L. destruct HU as [U|U]; [|rewrite Forall_forall in U; specialize (U _ L); lia].
    apply lower_bound_none in E. rewrite Forall_forall in E. specialize (E n U). cbn in E. lia.
Qed.
Lemma next_pos lattices median p : lattices <> [] -> StronglySorted Nat.lt lattices -> Forall (fun l => (1 <= l)%nat) lattices -> (1 <= get_next_n lattices median p)%nat.
Proof.
  intros HN HS HP. destruct (next_usable lattices median p HN HS) as [U|U]; rewrite Forall_forall in HP; [apply HP; exact U|]. destruct lattices as [|l r]; [congruence|]. inversion U as [|? ? U1 U2 E]. specialize (HP l (or_introl eq_refl)). cbn in HP. lia.
Qed.
(** ** conversion to integers *)
Lemma to_U_ge x k : INR k <= x -> (k <= to_U x)%nat.
Proof.
  intros H. unfold to_U. assert (Z.of_nat k <= Int_part x)%Z; [|lia]. unfold Int_part. destruct (archimed x) as [A _]. rewrite INR_IZR_INZ in H. assert (L : IZR (Z.of_nat k) < IZR (up x)) by lra. apply lt_IZR in L. lia.
Qed.
Lemma to_U_le x k : 0 <= x -> x < INR k -> (to_U x < k)%nat.
Proof.
  intros H0 H. unfold to_U. assert (Int_part x < Z.of_nat k)%Z; [|assert (0 < k)%nat by (apply INR_lt; cbn [INR]; lra); lia].
  unfold Int_part. destruct (archimed x) as [_ A]. rewrite INR_IZR_INZ in H. assert (L : IZR (up x) < IZR (Z.of_nat k + 1)) by (rewrite plus_IZR; lra). apply lt_IZR in L. lia.
Qed.
(** ** update *)
Section Loop.
Variables (lattices : list nat) (median : bool) (minn minm maxeval : nat).
Hypothesis HN : lattices <> [].
Hypothesis HS : StronglySorted Nat.lt lattices.
Hypothesis HP : Forall (fun l => (1 <= l)%nat) lattices.
Hypothesis Hminm : (2 <= minm)%nat.
Lemma update_ok ratio evals n m : lt (Fin 1) ratio = true -> (evals <= maxeval)%nat -> (1 <= n)%nat -> (1 <= m)%nat -> usable lattices n ->
  exists n' m', update lattices median minm maxeval ratio evals n m = Some (n', m') /\ (n <= n')%nat /\ (1 <= m')%nat /\ usable lattices n' /\ ((n < n')%nat -> m' = minm) /\
    ((evals + n' * m' <= maxeval)%nat \/ (n' = n /\ m' = 1 /\ maxeval < evals + n)%nat \/
     ((n < n')%nat /\ In n' lattices /\ (maxeval < evals + n' * m')%nat /\ forall l, In l lattices -> (l < n')%nat -> (evals + l * m' <= maxeval)%nat)).
Proof.
  intros HR HE Hn Hm HU. unfold update. assert (ER : exists er, fmin ratio (Fin 20) = Fin er /\ 1 <= er <= 20).
  { unfold fmin. destruct ratio as [x| |]; [|exists 20; split; [reflexivity|lra]|discriminate]. apply lt_fin in HR. destruct (lt (Fin 20) (Fin x)) eqn:L; [exists 20; split; [reflexivity|lra]|]. apply lt_fin_false in L. exists x. split; [reflexivity|lra]. }
  destruct ER as (er & -> & Her). destruct (Rlt_dec er 1) as [C|_]; [lra|]. destruct (Nat.ltb maxeval evals) eqn:LE; [apply Nat.ltb_lt in LE; lia|]. clear LE.
  set (n0 := get_next_n lattices median (to_U (INR n * Rpower er (1 / 0.8)))).
  set (inc := if Nat.leb n0 n then true else if Rlt_dec (er * er - 1) (INR n0 / INR n) then true else false).
  assert (U0 : usable lattices n0) by (apply next_usable; assumption).
  set (M := maxeval) in *. destruct inc eqn:EI.
  - set (nm := (to_U (INR m * er * er) + 1 - m)%nat). assert (Hnm : (1 <= nm)%nat).
    { assert (m <= to_U (INR m * er * er))%nat; [|unfold nm; lia]. apply to_U_ge. pose proof (pos_INR m). assert (1 <= er * er) by nra. nra. }
    destruct (Nat.ltb M (evals + n * nm)) eqn:LT.
    + apply Nat.ltb_lt in LT. assert (EM : Nat.max n (get_next_n lattices median ((M - evals) / nm)) = n).
      { apply Nat.max_l. apply next_le; try assumption. assert ((M - evals) / nm < n)%nat; [|lia]. apply Nat.div_lt_upper_bound; lia. }
      rewrite EM, Nat.eqb_refl. cbn [andb]. pose proof LT as LT'. apply Nat.ltb_lt in LT'. rewrite LT'. exists n, (Nat.max 1 ((M - evals) / n)).
      split; [reflexivity|]. split; [lia|]. split; [lia|]. split; [exact HU|]. split; [lia|].
      pose proof (Nat.mul_div_le (M - evals) n ltac:(lia)) as D. destruct ((M - evals) / n)%nat as [|q] eqn:Q.
      * right. left. apply Nat.div_small_iff in Q; [|lia]. split; [reflexivity|]. split; [reflexivity|lia].
      * left. rewrite Nat.max_r by lia. lia.
    + rewrite Nat.eqb_refl, LT. cbn [andb]. apply Nat.ltb_ge in LT. exists n, nm. split; [reflexivity|]. split; [lia|]. split; [exact Hnm|]. split; [exact HU|]. split; [lia|]. left. exact LT.
  - assert (Hn0 : (n < n0)%nat) by (unfold inc in EI; destruct (Nat.leb n0 n) eqn:L; [discriminate|apply Nat.leb_gt in L; exact L]).
    destruct (Nat.ltb M (evals + n0 * minm)) eqn:LT.
    + set (p := ((M - evals) / minm)%nat). set (n1 := get_next_n lattices median p). assert (U1 : usable lattices n1) by (apply next_usable; assumption).
      destruct (le_lt_dec n1 n) as [L1|L1].
      * rewrite Nat.max_l by exact L1. rewrite Nat.eqb_refl. cbn [andb]. destruct (Nat.ltb M (evals + n * minm)) eqn:LT2.
        -- exists n, (Nat.max 1 ((M - evals) / n)). split; [reflexivity|]. split; [lia|]. split; [lia|]. split; [exact HU|]. split; [lia|].
           pose proof (Nat.mul_div_le (M - evals) n ltac:(lia)) as D. destruct ((M - evals) / n)%nat as [|q] eqn:Q.
           ++ right. left. apply Nat.div_small_iff in Q; [|lia]. split; [reflexivity|]. split; [reflexivity|lia].
           ++ left. rewrite Nat.max_r by lia. lia.
        -- apply Nat.ltb_ge in LT2. exists n, minm. split; [reflexivity|]. split; [lia|]. split; [lia|]. split; [exact HU|]. split; [lia|]. left. exact LT2.
      * rewrite Nat.max_r by lia. destruct (Nat.eqb n n1) eqn:Q; [apply Nat.eqb_eq in Q; lia|]. cbn [andb]. exists n1, minm. split; [reflexivity|]. split; [lia|]. split; [lia|]. split; [exact U1|]. split; [reflexivity|].
        destruct (le_lt_dec (evals + n1 * minm) M) as [G|G]; [left; exact G|]. right. right. split; [exact L1|].
        pose proof (Nat.mul_div_le (M - evals) minm ltac:(lia)) as D. fold p in D. unfold n1, get_next_n in *. destruct (lower_bound lattices p) as [l|] eqn:EL.
        -- destruct (lower_bound_some lattices p l HS EL) as (A & B & C). split; [exact A|]. split; [exact G|]. intros k Hk Hkl. destruct (le_lt_dec p k) as [Y|Y]; [specialize (C k Hk Y); lia|]. nia.
        -- exfalso. destruct median; [nia|]. apply lower_bound_none in EL. rewrite Forall_forall in EL. specialize (EL _ (last_in lattices HN)). cbn in EL. nia.
    + destruct (Nat.eqb n n0) eqn:Q; [apply Nat.eqb_eq in Q; lia|]. cbn [andb]. apply Nat.ltb_ge in LT. exists n0, minm. split; [reflexivity|]. split; [lia|]. split; [lia|]. split; [exact U0|]. split; [reflexivity|]. left. exact LT.
Qed.
(** ** the loop *)
Fixpoint schedule_ok (rounds : list (nat * nat)) : Prop :=
  match rounds with
  | [] => True
  | (n', m') :: older => (1 <= n')%nat /\ (1 <= m')%nat /\ schedule_ok older /\
      match older with [] => n' = get_next_n lattices median minn /\ m' = minm | (n, _) :: _ => (n <= n')%nat /\ ((n < n')%nat -> m' = minm) end
  end.
Definition work (rounds : list (nat * nat)) : nat := fold_right (fun q s => (fst q * snd q + s)%nat) 0%nat rounds.
Variables (T S : Type) (sampler : nat -> nat -> S -> result T * S) (ratio : result T -> num).
(** the state of the sampler after some rounds *)
Variable holds : S -> list (nat * nat) -> Prop.
Hypothesis Hsample : forall n m s rounds, holds s rounds -> schedule_ok ((n, m) :: rounds) ->
  holds (snd (sampler n m s)) ((n, m) :: rounds) /\ evaluations (fst (sampler n m s)) = work ((n, m) :: rounds).
Lemma loop_ok fuel : forall n m s rounds, holds s rounds -> schedule_ok ((n, m) :: rounds) -> usable lattices n -> (work rounds <= maxeval)%nat -> (maxeval < fuel + work rounds)%nat ->
  exists res s' rounds', loop lattices median minm maxeval T S sampler ratio fuel n m s rounds = Some (res, s', rounds') /\ holds s' rounds' /\ schedule_ok rounds' /\
    evaluations res = work rounds' /\ (lt (Fin 1) (ratio res) = false \/ (maxeval <= evaluations res)%nat) /\
    (exists n' m' older s0, rounds' = (n', m') :: older /\ holds s0 older /\ (res, s') = sampler n' m' s0).
Proof.
  induction fuel as [|fuel IH]; intros n m s rounds HH HO HU HW HF.
  - exfalso. cbn in HF. lia.
  - cbn [loop]. destruct (Hsample n m s rounds HH HO) as [H1 H2]. destruct (sampler n m s) as [res s'] eqn:EQ. cbn [fst snd] in H1, H2.
    destruct (lt (Fin 1) (ratio res)) eqn:ER; cbn [andb].
    + destruct (Nat.ltb (evaluations res) maxeval) eqn:EE.
      * apply Nat.ltb_lt in EE. destruct HO as (O1 & O2 & O3 & O4). destruct (update_ok (ratio res) (evaluations res) n m ER ltac:(lia) O1 O2 HU) as (n' & m' & EU & A & B & C & D & _). rewrite EU.
        apply IH; [exact H1| |exact C|rewrite <- H2; lia|].
        -- split; [lia|]. split; [exact B|]. split; [repeat split; assumption|]. split; assumption.
        -- unfold work. cbn [fold_right fst snd]. fold (work rounds). nia.
      * apply Nat.ltb_ge in EE. exists res, s', ((n, m) :: rounds). split; [reflexivity|]. split; [exact H1|]. split; [exact HO|]. split; [exact H2|]. split; [right; exact EE|]. exists n, m, rounds, s. split; [reflexivity|]. split; [exact HH|symmetry; exact EQ].
    + exists res, s', ((n, m) :: rounds). split; [reflexivity|]. split; [exact H1|]. split; [exact HO|]. split; [exact H2|]. split; [left; exact ER|]. exists n, m, rounds, s. split; [reflexivity|]. split; [exact HH|symmetry; exact EQ].
Qed.
Lemma loop_mono fuel : forall n m s rounds r fuel', loop lattices median minm maxeval T S sampler ratio fuel n m s rounds = Some r -> (fuel <= fuel')%nat ->
  loop lattices median minm maxeval T S sampler ratio fuel' n m s rounds = Some r.
Proof.
  induction fuel as [|fuel IH]; intros n m s rounds r fuel' E HF; [discriminate|]. destruct fuel' as [|fuel']; [lia|]. cbn [loop] in *. destruct (sampler n m s) as [res s'].
  destruct (lt (Fin 1) (ratio res) && Nat.ltb (evaluations res) maxeval)%bool; [|exact E]. destruct (update lattices median minm maxeval (ratio res) (evaluations res) n m) as [[n' m']|]; [|discriminate]. apply IH; [exact E|lia].
Qed.
End Loop.
(** ** the median *)
Lemma insert_perm x l : Permutation (insert x l) (x :: l).
Proof. induction l as [|y l IH]; [reflexivity|]. cbn [insert]. destruct (Rle_dec x y); [reflexivity|]. rewrite IH. apply perm_swap. Qed.
Lemma sort_perm l : Permutation (sort l) l.
Proof. induction l as [|x l IH]; [reflexivity|]. cbn [sort fold_right]. fold (sort l). rewrite insert_perm, IH. reflexivity. Qed.
Lemma insert_sorted x l : StronglySorted Rle l -> StronglySorted Rle (insert x l).
Proof.
  induction l as [|y l IH]; intros H; [repeat constructor|]. cbn [insert]. inversion H as [|? ? H1 H2 E]. destruct (Rle_dec x y) as [L|L].
  - constructor; [exact H|]. constructor; [exact L|]. rewrite Forall_forall in H2 |- *. intros z Hz. specialize (H2 z Hz). lra.
  - constructor; [apply IH; exact H1|]. apply Forall_forall. intros z Hz. apply (Permutation_in _ (insert_perm x l)) in Hz. destruct Hz as [<-|Hz]; [lra|]. rewrite Forall_forall in H2. apply H2. exact Hz.
Qed.
Lemma sort_sorted l : StronglySorted Rle (sort l).
Proof. induction l as [|x l IH]; [constructor|]. cbn [sort fold_right]. fold (sort l). apply insert_sorted. exact IH. Qed.
Definition count (p : R -> bool) (l : list R) : nat := length (filter p l).
Lemma count_perm p l l' : Permutation l l' -> count p l = count p l'.
Proof. intros H. unfold count. induction H as [|x l l' H IH|x y l|l l' l'' H1 IH1 H2 IH2]; cbn [filter]; [reflexivity| | |congruence]; [destruct (p x); cbn [length]; congruence|]. destruct (p x), (p y); reflexivity. Qed.
Lemma count_app p a b : count p (a ++ b) = (count p a + count p b)%nat. Proof. unfold count. rewrite filter_app, app_length. reflexivity. Qed.
Lemma count_all p l : Forall (fun x => p x = true) l -> count p l = length l.
Proof. intros H. unfold count. induction H as [|x l Hx H IH]; [reflexivity|]. cbn [filter]. rewrite Hx. cbn [length]. rewrite IH. reflexivity. Qed.
Definition below (v x : R) : bool := if Rle_dec x v then true else false.
Definition above (v x : R) : bool := if Rle_dec v x then true else false.
Lemma sorted_nth l : StronglySorted Rle l -> forall i j, (i <= j < length l)%nat -> nth i l 0 <= nth j l 0.
Proof.
  induction l as [|x l IH]; intros H i j Hij; [cbn in Hij; lia|]. inversion H as [|? ? H1 H2 E]. destruct j as [|j]; [replace i with 0%nat by lia; lra|]. cbn [length] in Hij. cbn [nth]. destruct i as [|i].
  - rewrite Forall_forall in H2. apply H2, nth_In. lia.
  - apply IH; [exact H1|lia].
Qed.
Lemma median_count l k : (k < length l)%nat -> let v := nth k (sort l) 0 in (S k <= count (below v) l)%nat /\ (length l - k <= count (above v) l)%nat.
Proof.
  intros Hk v. pose proof (sort_perm l) as P. assert (LS : length (sort l) = length l) by (apply Permutation_length; exact P). rewrite <- !(count_perm _ _ _ P). split.
  - rewrite <- (firstn_skipn (S k) (sort l)), count_app. rewrite count_all; [rewrite firstn_length; lia|]. apply Forall_forall. intros x Hx. destruct (In_nth _ _ 0 Hx) as (i & Hi & Ei). rewrite firstn_length in Hi.
    assert (Ex : x = nth i (sort l) 0) by (transitivity (nth i (firstn (S k) (sort l) ++ skipn (S k) (sort l)) 0); [rewrite app_nth1 by (rewrite firstn_length; lia); symmetry; exact Ei|rewrite firstn_skipn; reflexivity]).
    unfold below. destruct (Rle_dec x v) as [_|C]; [reflexivity|]. exfalso. apply C. rewrite Ex. apply sorted_nth; [apply sort_sorted|lia].
  - rewrite <- (firstn_skipn k (sort l)), count_app. rewrite (count_all _ (skipn k (sort l))); [rewrite skipn_length; lia|]. apply Forall_forall. intros x Hx. destruct (In_nth _ _ 0 Hx) as (i & Hi & Ei). rewrite skipn_length in Hi.
    assert (Ex : x = nth (k + i) (sort l) 0) by (transitivity (nth (k + i) (firstn k (sort l) ++ skipn k (sort l)) 0); [rewrite app_nth2 by (rewrite firstn_length; lia); rewrite firstn_length; replace (k + i - Nat.min k (length (sort l)))%nat with i by lia; symmetry; exact Ei|rewrite firstn_skipn; reflexivity]).
    unfold above. destruct (Rle_dec v x) as [_|C]; [reflexivity|]. exfalso. apply C. rewrite Ex. apply sorted_nth; [apply sort_sorted|lia].
Qed.
Lemma choose_ok value genvecs c : length genvecs = c -> (1 <= c)%nat -> exists z, choose value genvecs c = Some z /\ In z genvecs /\
  (S (c / 2) <= count (below (value z)) (map value genvecs))%nat /\ (c - c / 2 <= count (above (value z)) (map value genvecs))%nat.
Proof.
  intros HL Hc. unfold choose. set (v := nth (c / 2) (sort (map value genvecs)) 0). assert (H2 : (c / 2 < c)%nat) by (apply Nat.div_lt; lia).
  assert (IV : In v (map value genvecs)) by (apply (Permutation_in _ (sort_perm _)), nth_In; rewrite (Permutation_length (sort_perm _)), map_length; lia).
  apply in_map_iff in IV. destruct IV as (z0 & E0 & H0). destruct (find _ genvecs) as [z|] eqn:EF.
  - apply find_some in EF. destruct EF as [HI HV]. destruct (Req_EM_T (value z) v) as [E|]; [|discriminate]. exists z. split; [reflexivity|]. split; [exact HI|]. rewrite E.
    pose proof (median_count (map value genvecs) (c / 2)) as MC. rewrite map_length, HL in MC. apply MC. exact H2.
  - exfalso. apply (find_none _ _ EF z0) in H0. destruct (Req_EM_T (value z0) v); [discriminate|contradiction].
Qed.
Lemma pick_ok n random x r : pick n random = Some (x, r) -> In x random /\ Nat.gcd x n = 1%nat /\ incl r random.
Proof.
  induction random as [|y l IH]; intros E; [discriminate|]. cbn [pick] in E. destruct (Nat.eqb (Nat.gcd y n) 1) eqn:G.
  - inversion E. subst. apply Nat.eqb_eq in G. split; [left; reflexivity|]. split; [exact G|]. intros z Hz. right. exact Hz.
  - destruct (IH E) as (A & B & C). split; [right; exact A|]. split; [exact B|]. intros z Hz. right. apply C. exact Hz.
Qed.
Lemma candidate_ok n M : forall random z r, candidate n M random = Some (z, r) -> length z = M /\ Forall (fun x => In x random /\ Nat.gcd x n = 1%nat) z /\ incl r random.
Proof.
  induction M as [|M IH]; intros random z r E; cbn [candidate] in E; [inversion E; split; [reflexivity|]; split; [constructor|apply incl_refl]|].
  destruct (pick n random) as [[x r1]|] eqn:EP; [|discriminate]. destruct (pick_ok n random x r1 EP) as (A & B & C). destruct (candidate n M r1) as [[z1 r2]|] eqn:EC; [|discriminate]. inversion E. subst.
  destruct (IH r1 z1 r EC) as (L & F & I). split; [cbn; lia|]. split; [|intros y Hy; apply C, I, Hy]. constructor; [split; assumption|]. rewrite Forall_forall in F |- *. intros y Hy. destruct (F y Hy) as [F1 F2]. split; [apply C; exact F1|exact F2].
Qed.
Lemma candidates_ok n M c : forall random l r, candidates n M c random = Some (l, r) -> length l = c /\ Forall (fun z => length z = M /\ Forall (fun x => In x random /\ Nat.gcd x n = 1%nat) z) l /\ incl r random.
Proof.
  induction c as [|c IH]; intros random l r E; cbn [candidates] in E; [inversion E; split; [reflexivity|]; split; [constructor|apply incl_refl]|].
  destruct (candidate n M random) as [[z r1]|] eqn:EC; [|discriminate]. destruct (candidate_ok n M random z r1 EC) as (A & B & C). destruct (candidates n M c r1) as [[l1 r2]|] eqn:ED; [|discriminate]. inversion E. subst.
  destruct (IH r1 l1 r ED) as (L & F & I). split; [cbn; lia|]. split; [|intros y Hy; apply C, I, Hy]. constructor; [split; [reflexivity|exact B]|]. rewrite Forall_forall in F |- *. intros y Hy. destruct (F y Hy) as [F1 F2]. split; [exact F1|].
  rewrite Forall_forall in F2 |- *. intros x Hx. destruct (F2 x Hx) as [G1 G2]. split; [apply C; exact G1|exact G2].
Qed.
