(** Products and quotients of Series. *)
From Verif Require Import SeriesSpec SeriesProofs.
Local Open Scope Z_scope.
Section P.
Context {F : Fld}.
Add Field FldSeries2 : (@f_th F).
Implicit Types (s t r : series F) (f g h q : laurent F).
Local Open Scope fld_scope.

(** ** the double loop, in terms of positions *)
Section Mul.
Variables (c1 c2 : list F) (K : nat).
Definition term (ij : nat * nat) : F := nth (fst ij) c1 0 * nth (snd ij) c2 0.
Definition step (c : list F) (ij : nat * nat) : list F :=
  let k := (fst ij + snd ij)%nat in if (k <? K)%nat then (if (k <? length c)%nat then bump k (term ij) c else c ++ [term ij]) else c.
Definition part (L : list (nat * nat)) (k : nat) : F := sumF (map term (filter (fun ij => Nat.eqb (fst ij + snd ij) k) L)).
Lemma part_app L M k : part (L ++ M) k = part L k + part M k. Proof. unfold part. rewrite filter_app, map_app, sumF_app. reflexivity. Qed.
Lemma part_one ij k : part [ij] k = if Nat.eqb (fst ij + snd ij) k then term ij else 0. Proof. unfold part. cbn [filter]. destruct (Nat.eqb _ _); cbn [map sumF]; ring. Qed.
Lemma part_none L k : (forall ij, In ij L -> (fst ij + snd ij)%nat <> k) -> part L k = 0.
Proof. intros H. unfold part. replace (filter _ L) with (@nil (nat * nat)); [reflexivity|]. induction L as [|ij L IH]; [reflexivity|]. cbn [filter]. destruct (Nat.eqb_spec (fst ij + snd ij) k) as [E|_]; [exfalso; apply (H ij); [left; reflexivity|exact E]|]. apply IH. intros u Hu. apply H. right. exact Hu. Qed.
Definition inv (L : list (nat * nat)) (c : list F) : Prop := (forall k, (k < length c)%nat -> nth k c 0 = part L k) /\ (forall ij, In ij L -> (fst ij + snd ij < K)%nat -> (fst ij + snd ij < length c)%nat) /\ (length c <= K)%nat.
Lemma bump_len i v (c : list F) : length (bump i v c) = length c. Proof. revert i. induction c as [|x c IH]; intros [|i]; cbn; [reflexivity|reflexivity|reflexivity|]. rewrite IH. reflexivity. Qed.
Lemma bump_nth i v (c : list F) k : (i < length c)%nat -> nth k (bump i v c) 0 = if Nat.eqb i k then nth k c 0 + v else nth k c 0.
Proof. revert i k. induction c as [|x c IH]; intros i k H; [cbn in H; lia|]. destruct i as [|i], k as [|k]; cbn [bump nth Nat.eqb]; try reflexivity. apply IH. cbn in H. lia. Qed.
Lemma step_ok L c ij : inv L c -> ((fst ij + snd ij < K)%nat -> (fst ij + snd ij <= length c)%nat) -> inv (L ++ [ij]) (step c ij) /\ (length c <= length (step c ij))%nat /\ ((fst ij + snd ij < K)%nat -> (S (fst ij + snd ij) <= length (step c ij))%nat).
Proof.
  intros (I1 & I2 & I3) H. unfold step. destruct (Nat.ltb_spec (fst ij + snd ij) K) as [LK|LK].
  - specialize (H LK). destruct (Nat.ltb_spec (fst ij + snd ij) (length c)) as [Hc|Hc].
    + rewrite bump_len. split; [|lia]. split; [|split].
      * intros k Hk. rewrite bump_len in Hk. rewrite bump_nth, part_app, part_one, I1 by assumption. destruct (Nat.eqb _ _); ring.
      * intros u Hu. rewrite bump_len. apply in_app_iff in Hu as [Hu|[<-|[]]]; [apply I2, Hu|intros _; exact Hc].
      * rewrite bump_len. exact I3.
    + assert (E : (fst ij + snd ij)%nat = length c) by lia. rewrite app_length. cbn [length]. split; [|lia]. split; [|split].
      * intros k Hk. rewrite app_length in Hk. cbn [length] in Hk. rewrite part_app, part_one. destruct (Nat.eqb_spec (fst ij + snd ij) k) as [E'|E'].
        -- rewrite app_nth2 by lia. replace (k - length c)%nat with 0%nat by lia. cbn [nth]. rewrite part_none; [ring|]. intros u Hu Eu. specialize (I2 u Hu ltac:(lia)). lia.
        -- rewrite app_nth1, I1 by lia. ring.
      * intros u Hu Lu. rewrite app_length. cbn [length]. apply in_app_iff in Hu as [Hu|[<-|[]]]; [specialize (I2 u Hu Lu); lia|lia].
      * rewrite app_length. cbn [length]. lia.
  - split; [|lia]. split; [|split; [|exact I3]].
    + intros k Hk. rewrite part_app, part_one, I1 by exact Hk. destruct (Nat.eqb_spec (fst ij + snd ij) k); [lia|ring].
    + intros u Hu Lu. apply in_app_iff in Hu as [Hu|[<-|[]]]; [apply I2; assumption|lia].
Qed.
Lemma row_ok i m : forall L c, inv L c -> (Nat.min K i <= length c)%nat -> inv (L ++ map (pair i) (seq 0 m)) (fold_left step (map (pair i) (seq 0 m)) c) /\ (Nat.min K (i + m) <= length (fold_left step (map (pair i) (seq 0 m)) c))%nat.
Proof.
  induction m as [|m IH]; intros L c I H; [cbn; rewrite app_nil_r, Nat.add_0_r; auto|]. destruct (IH L c I H) as [I1 H1]. rewrite seq_S, map_app, fold_left_app. cbn [map fold_left plus]. set (d := fold_left step (map (pair i) (seq 0 m)) c) in *.
  destruct (step_ok _ d (i, m) I1) as (I2 & H2 & H3); [cbn [fst snd]; lia|]. rewrite app_assoc. split; [exact I2|]. cbn [fst snd] in H3. destruct (Nat.lt_ge_cases (i + m) K) as [A|A]; [specialize (H3 A); lia|lia].
Qed.
Definition pairs (n1 n2 : nat) : list (nat * nat) := flat_map (fun i => map (pair i) (seq 0 n2)) (seq 0 n1).
Lemma rows_ok n2 n1 : (0 < n2)%nat -> inv (pairs n1 n2) (fold_left step (pairs n1 n2) []) /\ (n1 <> 0 -> Nat.min K (n1 - 1 + n2) <= length (fold_left step (pairs n1 n2) []))%nat.
Proof.
  intros H2. assert (G : inv (pairs n1 n2) (fold_left step (pairs n1 n2) []) /\ (Nat.min K n1 <= length (fold_left step (pairs n1 n2) []))%nat /\ (n1 <> 0 -> Nat.min K (n1 - 1 + n2) <= length (fold_left step (pairs n1 n2) []))%nat).
  { induction n1 as [|n1 (I1 & H1 & H1')]; [cbn; split; [split; [intros k Hk; cbn in Hk; lia|split; [intros ij []|cbn; lia]]|split; [lia|intros X; congruence]]|].
    unfold pairs in *. rewrite seq_S, flat_map_app, fold_left_app. cbn [plus flat_map]. rewrite app_nil_r. destruct (row_ok n1 n2 _ _ I1 H1) as [I2 H3]. split; [exact I2|]. split; [lia|]. intros _. replace (S n1 - 1 + n2)%nat with (n1 + n2)%nat by lia. exact H3. }
  tauto.
Qed.
Lemma part_row i k m : part (map (pair i) (seq 0 m)) k = if ((i <=? k) && (k - i <? m))%nat then nth i c1 0 * nth (k - i) c2 0 else 0.
Proof.
  induction m as [|m IH]; [cbn; rewrite andb_false_r; reflexivity|]. rewrite seq_S, map_app, part_app, IH. cbn [map plus]. rewrite part_one. unfold term. cbn [fst snd].
  destruct (Nat.leb_spec i k), (Nat.ltb_spec (k - i) m), (Nat.ltb_spec (k - i) (S m)), (Nat.eqb_spec (i + m) k); cbn [andb]; try lia; try ring. replace (k - i)%nat with m by lia. ring.
Qed.
Lemma part_pairs n1 n2 k : part (pairs n1 n2) k = upto n1 (fun i => if ((i <=? k) && (k - i <? n2))%nat then nth i c1 0 * nth (k - i) c2 0 else 0).
Proof. induction n1 as [|n1 IH]; [reflexivity|]. unfold pairs in *. rewrite seq_S, flat_map_app, part_app, IH. cbn [plus flat_map upto]. rewrite app_nil_r, part_row. reflexivity. Qed.
Lemma part_all k : part (pairs (length c1) (length c2)) k = upto (S k) (fun j => nth j c1 0 * nth (k - j) c2 0).
Proof.
  rewrite part_pairs. set (u := fun i : nat => if ((i <=? k) && (k - i <? length c2))%nat then nth i c1 0 * nth (k - i) c2 0 else 0).
  transitivity (upto (Nat.max (length c1) (S k)) u).
  - symmetry. apply upto_more; [lia|]. intros j Hj. unfold u. rewrite (nth_overflow c1) by lia. destruct (_ && _)%bool; ring.
  - rewrite (upto_more (S k)) by first [lia|intros j Hj; unfold u; destruct (Nat.leb_spec j k); [lia|reflexivity]]. apply upto_ext. intros j Hj. unfold u. destruct (Nat.leb_spec j k); [|lia]. cbn [andb]. destruct (Nat.ltb_spec (k - j) (length c2)); [reflexivity|]. rewrite (nth_overflow c2) by lia. ring.
Qed.
End Mul.
Lemma fold_left_map {A B C} (f : A -> B -> A) (g : C -> B) l a : fold_left f (map g l) a = fold_left (fun a c => f a (g c)) l a.
Proof. revert a. induction l as [|c l IH]; intros a; [reflexivity|]. cbn. apply IH. Qed.
Lemma fold_left_ext {A B} (f g : A -> B -> A) l a : (forall a b, In b l -> f a b = g a b) -> fold_left f l a = fold_left g l a.
Proof. revert a. induction l as [|b l IH]; intros a H; [reflexivity|]. cbn. rewrite H by (left; reflexivity). apply IH. intros x y Hy. apply H. right. exact Hy. Qed.
Lemma mul_max_facts s t : good s -> good t -> let m := mul_max s t in (omin s + omin t <= m <= omax s + omax t)%Z /\ (trunc s = true -> (m <= omax s + omin t)%Z) /\ (trunc t = true -> (m <= omin s + omax t)%Z) /\ (trunc s = false -> trunc t = false -> m = (omax s + omax t)%Z) /\
  (trunc s = true \/ trunc t = true -> (trunc s = true /\ m = (omax s + omin t)%Z) \/ (trunc t = true /\ m = (omin s + omax t)%Z)).
Proof.
  intros [G1 _] [G2 _]. cbv zeta. unfold mul_max. destruct (trunc s), (trunc t); cbv zeta; (split; [lia|]); (split; [intros; try discriminate; lia|]); (split; [intros; try discriminate; lia|]); (split; [intros; try discriminate; lia|]); intros H.
  - destruct (Z_le_gt_dec (omax s + omin t) (omin s + omax t)); [left|right]; split; try reflexivity; lia.
  - left. split; [reflexivity|lia].
  - right. split; [reflexivity|lia].
  - destruct H; discriminate.
Qed.
Lemma mul_content s t hi : good s -> good t -> (omin s + omin t <= hi <= omax s + omax t)%Z ->
  let c := fold_left (mul_body s t (omin s + omin t) hi) (flat_map (fun i => map (fun j => (i, j)) (loop (omin t) (omax t))) (loop (omin s) (omax s))) [] in
  length c = Z.to_nat (hi - (omin s + omin t) + 1) /\ forall k, (k < length c)%nat -> nth k c 0 = upto (S k) (fun j => nth j (cont s) 0 * nth (k - j) (cont t) 0).
Proof.
  intros [G1 G2] [G3 G4] H. cbv zeta. set (K := Z.to_nat (hi - (omin s + omin t) + 1)).
  assert (E : fold_left (mul_body s t (omin s + omin t) hi) (flat_map (fun i => map (fun j => (i, j)) (loop (omin t) (omax t))) (loop (omin s) (omax s))) [] = fold_left (step (cont s) (cont t) K) (pairs (length (cont s)) (length (cont t))) []).
  { assert (P : flat_map (fun i => map (fun j => (i, j)) (loop (omin t) (omax t))) (loop (omin s) (omax s)) = map (fun ij => ((omin s + Z.of_nat (fst ij))%Z, (omin t + Z.of_nat (snd ij))%Z)) (pairs (length (cont s)) (length (cont t)))).
    { unfold pairs, loop. replace (Z.to_nat (omax s + 1 - omin s)) with (length (cont s)) by lia. replace (Z.to_nat (omax t + 1 - omin t)) with (length (cont t)) by lia. rewrite !flat_map_concat_map, concat_map, !map_map. f_equal. apply map_ext. intros i. rewrite !map_map. reflexivity. }
    rewrite P, fold_left_map. apply fold_left_ext. intros c [i j] Hij. unfold pairs in Hij. apply in_flat_map in Hij as (i' & Hi & Hj). apply in_map_iff in Hj as (j' & Ej & Hj). injection Ej as -> ->. apply in_seq in Hi, Hj.
    unfold mul_body, step, term. cbn [fst snd]. unfold at_. replace (omin s + Z.of_nat i - omin s)%Z with (Z.of_nat i) by lia. replace (omin t + Z.of_nat j - omin t)%Z with (Z.of_nat j) by lia. rewrite !Nat2Z.id.
    replace (Z.to_nat (omin s + Z.of_nat i + (omin t + Z.of_nat j) - (omin s + omin t))) with (i + j)%nat by lia.
    replace (has_term s (omin s + Z.of_nat i)) with true by (symmetry; apply has_spec; lia). replace (has_term t (omin t + Z.of_nat j)) with true by (symmetry; apply has_spec; lia). rewrite !andb_true_r.
    replace (omin s + omin t <=? omin s + Z.of_nat i + (omin t + Z.of_nat j))%Z with true by (symmetry; apply Z.leb_le; lia). cbn [andb].
    replace (omin s + Z.of_nat i + (omin t + Z.of_nat j) <=? hi)%Z with (i + j <? K)%nat; [reflexivity|]. unfold K. destruct (Nat.ltb_spec (i + j) (Z.to_nat (hi - (omin s + omin t) + 1))), (Z.leb_spec (omin s + Z.of_nat i + (omin t + Z.of_nat j))%Z hi); try reflexivity; lia. }
  rewrite E. destruct (rows_ok (cont s) (cont t) K (length (cont t)) (length (cont s)) ltac:(lia)) as ((I1 & I2 & I3) & I4). specialize (I4 ltac:(lia)). split; [lia|]. intros k Hk. rewrite I1 by exact Hk. apply part_all.
Qed.
Theorem mul_ok s t : good s -> good t -> par s = par t -> exists r, mul s t = Ok r /\ good r /\ omin r = (omin s + omin t)%Z /\ omax r = mul_max s t /\ trunc r = (trunc s || trunc t)%bool /\ par r = par s /\
  forall f g h, stands_for s f -> stands_for t g -> is_product f g h -> stands_for r h.
Proof.
  intros G1 G2 P. destruct (mul_max_facts s t G1 G2) as (M1 & M2 & M3 & M4 & _). unfold mul. rewrite (proj2 (String.eqb_eq _ _) P). cbn [negb]. cbv zeta.
  destruct (mul_content s t (mul_max s t) G1 G2 M1) as [L V]. set (c := fold_left _ _ []) in *. destruct (make_ok (omin s + omin t) (mul_max s t) c (trunc s || trunc t)%bool (par s) ltac:(lia) ltac:(lia)) as [E G]. eexists. split; [exact E|]. split; [exact G|]. repeat (split; [reflexivity|]).
  intros f g h Hf Hg Hh. pose proof (product_conv f g h (omin s) (omin t) (proj1 Hf) (proj1 Hg) Hh) as C. pose proof G1 as [G11 G12]. pose proof G2 as [G21 G22]. split; [|split]; cbn [omin omax cont trunc].
  - intros k Hk. rewrite C. apply conv_neg, Hk.
  - intros n Hn. rewrite C, conv_nat, V by exact Hn. apply upto_ext. intros j Hj. replace (omin t + Z.of_nat n - Z.of_nat j)%Z with (omin t + Z.of_nat (n - j))%Z by lia.
    rewrite (known_nth s f j G1 Hf), (known_nth t g (n - j) G2 Hg); [reflexivity| |].
    + destruct (trunc t); [left; specialize (M3 eq_refl); lia|right; reflexivity].
    + destruct (trunc s); [left; specialize (M2 eq_refl); lia|right; reflexivity].
  - intros T k Hk. apply orb_false_iff in T as [T1 T2]. rewrite (M4 T1 T2) in Hk. rewrite C. unfold conv. apply upto_zero. intros j Hj. destruct Hf as (_ & _ & Hf), Hg as (_ & _ & Hg).
    destruct (Z_le_gt_dec (omin s + Z.of_nat j) (omax s)) as [A|A]; [rewrite (Hg T2) by lia; ring|rewrite (Hf T1) by lia; ring].
Qed.
(** ** quotients *)
Lemma opp_as_sub (a : F) : - a = 0 - a. Proof. ring. Qed.
Section Div.
Variables (c1 c2 : list F).
Hypothesis H0 : nth 0 c2 0 <> 0.
Lemma tmp_ok c tmp i : (0 < i)%nat -> ((i < length c1)%nat \/ (1 < length c2)%nat) -> div_tmp c1 c2 c tmp i = (nth i c1 0 - upto i (fun j => nth j c 0 * nth (i - j) c2 0)) / nth 0 c2 0.
Proof.
  intros Hi Hs. unfold div_tmp. set (st := if (i <? length c1)%nat then Some (nth i c1 0) else None). set (body := fun acc j => _). set (val := fun o : option F => match o with Some v => v | None => 0 end).
  assert (A : forall m, val (fold_left body (seq 0 m) st) = nth i c1 0 - upto m (fun j => nth j c 0 * nth (i - j) c2 0)).
  { induction m as [|m IH]; [cbn [seq fold_left upto]; unfold st, val; destruct (Nat.ltb_spec i (length c1)); [ring|rewrite nth_overflow by lia; ring]|].
    rewrite seq_S, fold_left_app. cbn [plus fold_left upto]. unfold body at 1. destruct (Nat.ltb_spec (i - m) (length c2)) as [L|L].
    - destruct (fold_left body (seq 0 m) st) as [v|]; unfold val in *; [rewrite IH; ring|]. transitivity (nth i c1 0 - upto m (fun j => nth j c 0 * nth (i - j) c2 0) - nth m c 0 * nth (i - m) c2 0); [rewrite <- IH; apply opp_as_sub|ring].
    - rewrite IH. rewrite (nth_overflow c2 0 L). ring. }
  assert (B : exists v, fold_left body (seq 0 i) st = Some v).
  { destruct Hs as [Hs|Hs].
    - assert (C : forall m, exists v, fold_left body (seq 0 m) st = Some v). { induction m as [|m [v IH]]; [cbn; unfold st; destruct (Nat.ltb_spec i (length c1)); [eexists; reflexivity|lia]|]. rewrite seq_S, fold_left_app. cbn [plus fold_left]. rewrite IH. unfold body. destruct (i - m <? length c2)%nat; eexists; reflexivity. } apply C.
    - destruct i as [|m]; [lia|]. rewrite seq_S, fold_left_app. cbn [plus fold_left]. unfold body at 1. destruct (Nat.ltb_spec (S m - m) (length c2)); [eexists; reflexivity|lia]. }
  destruct B as [v B]. specialize (A i). rewrite B in A |- *. unfold val in A. rewrite A. reflexivity.
Qed.
Lemma div_loop n : (forall i, (0 < i < n)%nat -> (i < length c1)%nat \/ (1 < length c2)%nat) ->
  let c := fst (fold_left (div_body c1 c2) (seq 0 n) ([], nth 0 c1 0 / nth 0 c2 0)) in
  length c = n /\ forall i, (i < n)%nat -> nth i c 0 * nth 0 c2 0 = nth i c1 0 - upto i (fun j => nth j c 0 * nth (i - j) c2 0).
Proof.
  intros Hs. cbv zeta. assert (G : snd (fold_left (div_body c1 c2) (seq 0 n) ([], nth 0 c1 0 / nth 0 c2 0)) = snd (fold_left (div_body c1 c2) (seq 0 n) ([], nth 0 c1 0 / nth 0 c2 0))) by reflexivity. clear G.
  induction n as [|n IH]; [split; [reflexivity|lia]|]. destruct IH as [L V]; [intros i Hi; apply Hs; lia|]. rewrite seq_S, fold_left_app. cbn [plus fold_left].
  destruct (fold_left (div_body c1 c2) (seq 0 n) ([], nth 0 c1 0 / nth 0 c2 0)) as [c tmp] eqn:E. cbn [fst] in *.
  assert (X : exists x, fst (div_body c1 c2 (c, tmp) n) = c ++ [x] /\ x * nth 0 c2 0 = nth n c1 0 - upto n (fun j => nth j c 0 * nth (n - j) c2 0)).
  { destruct n as [|n].
    - cbn in E. injection E as <- <-. exists (nth 0 c1 0 / nth 0 c2 0). split; [reflexivity|]. cbn [upto]. field. exact H0.
    - exists (div_tmp c1 c2 c tmp (S n)). split; [reflexivity|]. rewrite tmp_ok by (try lia; apply Hs; lia). field. exact H0. }
  destruct X as (x & -> & Ex). rewrite app_length. cbn [length]. split; [lia|]. intros i Hi.
  assert (U : upto i (fun j => nth j (c ++ [x]) 0 * nth (i - j) c2 0) = upto i (fun j => nth j c 0 * nth (i - j) c2 0)) by (apply upto_ext; intros j Hj; rewrite app_nth1 by lia; reflexivity). rewrite U.
  destruct (Nat.eq_dec i n) as [->|N]; [rewrite app_nth2 by lia; rewrite L, Nat.sub_diag; exact Ex|]. rewrite app_nth1 by lia. apply V. lia.
Qed.
End Div.
Lemma mul_cancel (a b c : F) : c <> 0 -> a * c = b * c -> a = b.
Proof. intros H E. transitivity (a * c / c); [field; exact H|]. rewrite E. field. exact H. Qed.
(** the lowest order of a quotient *)
Lemma quotient_below m p f g q : below m f -> below p g -> g p <> 0 -> is_product g q f -> below (m - p) q.
Proof.
  intros Bf Bg N P. pose proof P as (m' & n & _ & Bq & _).
  assert (X : forall d, below (Z.min (m - p) (n + Z.of_nat d)) q).
  { induction d as [|d IH]; [eapply below_le; [|exact Bq]; lia|]. intros k Hk. destruct (Z_lt_le_dec k (Z.min (m - p) (n + Z.of_nat d))) as [A|A]; [apply IH, A|]. assert (k = n + Z.of_nat d)%Z by lia.
    pose proof (product_conv g q f p n Bg Bq P (p + k)%Z) as C. rewrite (Bf (p + k)%Z) in C by lia. unfold conv in C. replace (Z.to_nat (p + k - p - n + 1)) with (S d) in C by lia. rewrite upto_first in C.
    rewrite (upto_zero d) in C.
    - replace (p + Z.of_nat 0)%Z with p in C by lia. replace (p + k - p - Z.of_nat 0)%Z with k in C by lia. apply (mul_cancel _ _ (g p) N). transitivity (g p * q k + 0); [ring|]. rewrite <- C. ring.
    - intros j Hj. rewrite (IH (p + k - p - Z.of_nat (S j))%Z) by lia. ring. }
  intros k Hk. destruct (Z_lt_le_dec k n) as [A|A]; [apply Bq, A|]. apply (X (S (Z.to_nat (k - n)))). lia.
Qed.
Lemma div_max_facts s t : good s -> good t -> let a := (omin s - omin t)%Z in let m := div_max s t in (a <= m)%Z /\ (trunc s = true -> (m - a < Z.of_nat (length (cont s)))%Z) /\ (trunc t = true -> (m - a < Z.of_nat (length (cont t)))%Z) /\
  (m - a < Z.max (Z.of_nat (length (cont s))) (Z.of_nat (length (cont t))))%Z /\ (trunc s = false -> trunc t = false -> (m - a + 1 = Z.max (Z.of_nat (length (cont s))) (Z.of_nat (length (cont t))))%Z).
Proof. intros [G1 G2] [G3 G4]. cbv zeta. unfold div_max. destruct (trunc s), (trunc t); cbv zeta; repeat split; intros; try discriminate; lia. Qed.
Theorem div_ok s t : good s -> good t -> par s = par t -> nth 0 (cont t) 0 <> 0 -> exists r, div s t = Ok r /\ good r /\ omin r = (omin s - omin t)%Z /\ omax r = div_max s t /\ trunc r = div_trunc s t /\ par r = par s /\
  forall f g q, stands_for s f -> stands_for t g -> is_product g q f -> stands_for r q.
Proof.
  intros G1 G2 P N. destruct (div_max_facts s t G1 G2) as (M1 & M2 & M3 & M4 & M5). pose proof G1 as [G11 G12]. pose proof G2 as [G21 G22]. unfold div. rewrite (proj2 (String.eqb_eq _ _) P). cbn [negb]. cbv zeta.
  set (lo := (omin s - omin t)%Z) in *. set (hi := div_max s t) in *. set (K := Z.to_nat (hi - lo + 1)).
  destruct (div_loop (cont s) (cont t) N K) as [L V]. { intros i Hi. destruct (le_lt_dec (length (cont s)) i); [|left; assumption]. right. unfold K in Hi. lia. }
  set (c := fst _) in *. destruct (make_ok lo hi c (div_trunc s t) (par s) ltac:(lia) ltac:(lia)) as [E G]. eexists. split; [exact E|]. split; [exact G|]. repeat (split; [reflexivity|]).
  intros f g q Hf Hg Hq. assert (Ng : g (omin t) <> 0). { rewrite <- (Z.add_0_r (omin t)). change 0%Z with (Z.of_nat 0). rewrite (known_nth t g 0 G2 Hg) by (left; lia). exact N. }
  pose proof (quotient_below (omin s) (omin t) f g q (proj1 Hf) (proj1 Hg) Ng Hq) as Bq. fold lo in Bq. pose proof (product_conv g q f (omin t) lo (proj1 Hg) Bq Hq) as C.
  assert (R : forall d, q (lo + Z.of_nat d)%Z * g (omin t) = f (omin s + Z.of_nat d)%Z - upto d (fun j => q (lo + Z.of_nat j)%Z * g (omin t + Z.of_nat (d - j))%Z)).
  { intros d. replace (omin s + Z.of_nat d)%Z with (omin t + lo + Z.of_nat d)%Z by (unfold lo; lia). rewrite C, conv_nat, upto_rev. cbn [upto]. replace (S d - 1 - d)%nat with 0%nat by lia. replace (lo + Z.of_nat d - Z.of_nat 0)%Z with (lo + Z.of_nat d)%Z by lia. replace (omin t + Z.of_nat 0)%Z with (omin t) by lia.
    rewrite (upto_ext d (fun j => g (omin t + Z.of_nat (S d - 1 - j))%Z * q (lo + Z.of_nat d - Z.of_nat (S d - 1 - j))%Z) (fun j => q (lo + Z.of_nat j)%Z * g (omin t + Z.of_nat (d - j))%Z)); [ring|].
    intros j Hj. replace (S d - 1 - j)%nat with (d - j)%nat by lia. replace (lo + Z.of_nat d - Z.of_nat (d - j))%Z with (lo + Z.of_nat j)%Z by lia. ring. }
  assert (Kf : forall j, (j < K)%nat -> f (omin s + Z.of_nat j)%Z = nth j (cont s) 0) by (intros j Hj; apply known_nth; [exact G1|exact Hf|]; unfold K in Hj; destruct (trunc s); [left; specialize (M2 eq_refl); lia|right; reflexivity]).
  assert (Kg : forall j, (j < K)%nat -> g (omin t + Z.of_nat j)%Z = nth j (cont t) 0) by (intros j Hj; apply known_nth; [exact G2|exact Hg|]; unfold K in Hj; destruct (trunc t); [left; specialize (M3 eq_refl); lia|right; reflexivity]).
  assert (g0 : g (omin t) = nth 0 (cont t) 0). { rewrite <- (Kg 0%nat) by (unfold K; lia). f_equal. lia. }
  assert (X : forall i, (i < K)%nat -> q (lo + Z.of_nat i)%Z = nth i c 0).
  { intros i. induction i as [i IH] using lt_wf_ind. intros Hi. apply (mul_cancel _ _ _ N). rewrite <- g0 at 1. rewrite R, V, Kf by exact Hi. f_equal. apply upto_ext. intros j Hj. rewrite IH, Kg by lia. reflexivity. }
  split; [exact Bq|]. cbn [omin omax cont trunc]. split; [intros n Hn; apply X; lia|]. intros T k Hk. unfold div_trunc in T. destruct (Z.eqb_spec (omin t) (omax t)) as [Eo|]; [|discriminate]. apply orb_false_iff in T as [T1 T2]. specialize (M5 T1 T2).
  assert (Z : (k - lo >= Z.of_nat (length (cont s)))%Z) by lia. replace k with (lo + Z.of_nat (Z.to_nat (k - lo)))%Z by lia. apply (mul_cancel _ _ _ Ng). rewrite R. destruct Hf as (_ & _ & Hf). rewrite (Hf T1) by lia. rewrite upto_zero; [ring|].
  intros j Hj. destruct Hg as (_ & _ & Hg). rewrite (Hg T2) by lia. ring.
Qed.
(** quotients exist *)
Section Exists.
Variables (f g : laurent F) (m p : Z).
Hypothesis Bf : below m f.
Hypothesis Bg : below p g.
Hypothesis N : g p <> 0.
Fixpoint ql (n : nat) : list F := match n with O => [] | S d => ql d ++ [(f (m + Z.of_nat d)%Z - upto d (fun j => nth j (ql d) 0 * g (p + Z.of_nat (d - j))%Z)) / g p] end.
Lemma ql_len n : length (ql n) = n. Proof. induction n as [|n IH]; [reflexivity|]. cbn [ql]. rewrite app_length, IH. cbn. lia. Qed.
Lemma ql_nth n k : (k < n)%nat -> nth k (ql n) 0 = nth k (ql (S k)) 0.
Proof. induction n as [|n IH]; intros H; [lia|]. destruct (Nat.eq_dec k n) as [->|Ne]; [reflexivity|]. cbn [ql]. rewrite app_nth1 by (rewrite ql_len; lia). apply IH. lia. Qed.
Definition quotient (k : Z) : F := if (k <? m - p)%Z then 0 else nth (Z.to_nat (k - (m - p))) (ql (S (Z.to_nat (k - (m - p))))) 0.
Lemma quotient_ok : is_product g quotient f.
Proof.
  exists p, (m - p)%Z. split; [exact Bg|]. split; [intros k Hk; unfold quotient; apply Z.ltb_lt in Hk; rewrite Hk; reflexivity|]. replace (p + (m - p))%Z with m by lia. split; [exact Bf|]. intros d.
  assert (Q : forall i, quotient (m - p + Z.of_nat i) = nth i (ql (S i)) 0) by (intros i; unfold quotient; destruct (Z.ltb_spec (m - p + Z.of_nat i) (m - p)); [lia|]; replace (Z.to_nat (m - p + Z.of_nat i - (m - p))) with i by lia; reflexivity).
  assert (V : quotient (m - p + Z.of_nat d) * g p = f (m + Z.of_nat d)%Z - upto d (fun j => quotient (m - p + Z.of_nat j) * g (p + Z.of_nat (d - j))%Z)).
  { rewrite Q. cbn [ql]. rewrite app_nth2 by (rewrite ql_len; lia). rewrite ql_len, Nat.sub_diag. cbn [nth]. rewrite (upto_ext d (fun j => quotient (m - p + Z.of_nat j) * g (p + Z.of_nat (d - j))%Z) (fun j => nth j (ql d) 0 * g (p + Z.of_nat (d - j))%Z)); [field; exact N|]. intros j Hj. rewrite Q, (ql_nth d) by exact Hj. reflexivity. }
  rewrite upto_rev. cbn [upto]. replace (S d - 1 - d)%nat with 0%nat by lia. replace (m - p + Z.of_nat d - Z.of_nat 0)%Z with (m - p + Z.of_nat d)%Z by lia. replace (p + Z.of_nat 0)%Z with p by lia.
  rewrite (upto_ext d (fun j => g (p + Z.of_nat (S d - 1 - j))%Z * quotient (m - p + Z.of_nat d - Z.of_nat (S d - 1 - j))) (fun j => quotient (m - p + Z.of_nat j) * g (p + Z.of_nat (d - j))%Z)); [|intros j Hj; replace (S d - 1 - j)%nat with (d - j)%nat by lia; replace (m - p + Z.of_nat d - Z.of_nat (d - j))%Z with (m - p + Z.of_nat j)%Z by lia; ring].
  transitivity (f (m + Z.of_nat d)%Z - upto d (fun j => quotient (m - p + Z.of_nat j) * g (p + Z.of_nat (d - j))%Z) + upto d (fun j => quotient (m - p + Z.of_nat j) * g (p + Z.of_nat (d - j))%Z)); [ring|]. rewrite <- V. ring.
Qed.
End Exists.
End P.
