(** Proofs for KernModel. *)
From Coq Require Import Lia Lra Psatz.
From Verif Require Import KernModel KernSpec MulmodProofs PropMulmod.
Local Open Scope Z_scope.

(** ** sums with NaN *)
Lemma plus_0_l a : plus (Some 0%R) a = a. Proof. destruct a; cbn; [f_equal; ring|reflexivity]. Qed.
Lemma plus_comm a b : plus a b = plus b a. Proof. destruct a, b; cbn; try reflexivity. f_equal. ring. Qed.
Lemma plus_0_r a : plus a (Some 0%R) = a. Proof. rewrite plus_comm. apply plus_0_l. Qed.
Lemma plus_assoc a b c : plus a (plus b c) = plus (plus a b) c. Proof. destruct a, b, c; cbn; try reflexivity. f_equal. ring. Qed.
Lemma sumO_cons a l : sumO (a :: l) = plus a (sumO l). Proof. reflexivity. Qed.
Lemma sumO_app l m : sumO (l ++ m) = plus (sumO l) (sumO m).
Proof. induction l as [|a l IH]; cbn [app]; [symmetry; apply plus_0_l|]. rewrite !sumO_cons, IH. apply plus_assoc. Qed.
Lemma sumO_none l : In None l -> sumO l = None.
Proof. induction l as [|a l IH]; [easy|]. rewrite sumO_cons. intros [->|H]; [reflexivity|]. rewrite (IH H). destruct a; reflexivity. Qed.
Lemma sumO_concat ll : sumO (concat ll) = sumO (map sumO ll).
Proof. induction ll as [|l ll IH]; [reflexivity|]. cbn [concat map]. rewrite sumO_app, IH. reflexivity. Qed.
Lemma sumO_Some (l : list R) : sumO (map (fun v => Some v) l) = Some (sumR l).
Proof. induction l as [|a l IH]; [reflexivity|]. cbn [map]. rewrite sumO_cons, IH. reflexivity. Qed.
(** ** ranges *)
Lemma range_nil a b : b <= a -> range a b = [].
Proof. intros H. unfold range. replace (Z.to_nat (b - a)) with 0%nat by lia. reflexivity. Qed.
Lemma range_cons a b : a < b -> range a b = a :: range (a + 1) b.
Proof.
  intros H. unfold range. replace (Z.to_nat (b - a)) with (S (Z.to_nat (b - (a + 1)))) by lia. cbn [seq map]. f_equal; [lia|].
  rewrite <- seq_shift, map_map. apply map_ext. intros k. lia.
Qed.
Lemma in_range i a b : In i (range a b) <-> a <= i < b.
Proof. unfold range. rewrite in_map_iff. split; [intros (k & <- & Hk); apply in_seq in Hk; lia|]. intros H. exists (Z.to_nat (i - a)). split; [lia|]. apply in_seq. lia. Qed.
Lemma range_app_nat m : forall a c, a + Z.of_nat m <= c -> range a c = range a (a + Z.of_nat m) ++ range (a + Z.of_nat m) c.
Proof.
  induction m as [|m IH]; intros a c H; [rewrite Z.add_0_r, (range_nil a a) by lia; reflexivity|].
  rewrite (range_cons a c), (range_cons a (a + Z.of_nat (S m))) by lia. cbn [app]. f_equal. rewrite (IH (a + 1) c) by lia. f_equal; f_equal; lia.
Qed.
Lemma range_app a b c : a <= b <= c -> range a c = range a b ++ range b c.
Proof. intros H. rewrite (range_app_nat (Z.to_nat (b - a)) a c) by lia. replace (a + Z.of_nat (Z.to_nat (b - a))) with b by lia. reflexivity. Qed.

(** ** fractional parts *)
Lemma frac_unique x k : (IZR k <= x < IZR k + 1)%R -> frac x = (x - IZR k)%R.
Proof.
  intros H. unfold frac. replace (Int_part x) with k; [reflexivity|]. pose proof (base_Int_part x) as [B1 B2].
  assert (A1 : k < Int_part x + 1) by (apply lt_IZR; rewrite plus_IZR; lra). assert (A2 : Int_part x < k + 1) by (apply lt_IZR; rewrite plus_IZR; lra). lia.
Qed.
Lemma frac_shift x k : frac (x + IZR k) = frac x.
Proof. pose proof (base_Int_part x) as [B1 B2]. rewrite (frac_unique (x + IZR k) (Int_part x + k)); [unfold frac; rewrite plus_IZR; ring|]. rewrite plus_IZR. lra. Qed.

Section Kernel.
Variables (w f : R -> R) (body : list R -> option R).
Variables (n : Z) (genvec : list Z) (shift : list R).
Hypothesis Hn : 0 < n < 2 ^ 53.
Hypothesis Hz : Forall (fun z => 0 <= z <= n) genvec.
Hypothesis Hs : Forall (fun s => 0 <= s < 1)%R shift.

Definition L (i : Z) : list Z := map (fun z => (i * z) mod n) genvec.
Lemma frac_mod i z s : frac (IZR ((i * z) mod n) / IZR n + s) = frac (IZR (i * z) / IZR n + s).
Proof.
  assert (N0 : IZR n <> 0%R) by (apply not_0_IZR; lia). rewrite <- (frac_shift (IZR ((i * z) mod n) / IZR n + s) (i * z / n)). f_equal.
  rewrite (Z.div_mod (i * z) n) at 3 by lia. rewrite plus_IZR, mult_IZR. field. exact N0.
Qed.
Lemma start_L i : 0 <= i <= n -> map (fun z => mulmod z i n) genvec = L i /\ map (fun z => mulmod i z n) genvec = L i.
Proof.
  intros Hi. unfold L. split; apply map_ext_in; intros z Iz; pose proof (proj1 (Forall_forall _ _) Hz z Iz) as B; cbn in B; rewrite C72_mulmod by lia; [rewrite Z.mul_comm|]; reflexivity.
Qed.
Lemma wrap_mod i z : 0 <= z <= n -> warponce_i ((i * z) mod n + z) n = ((i + 1) * z) mod n.
Proof.
  intros H. unfold warponce_i. pose proof (Z.mod_pos_bound (i * z) n ltac:(lia)) as B. pose proof (Z.div_mod (i * z) n ltac:(lia)) as D.
  set (q := i * z / n) in *. set (r := (i * z) mod n) in *. destruct (Z.leb_spec 0 (r + z - n)).
  - apply (Z.mod_unique_pos _ _ (q + 1)); [lia|]. nia.
  - apply (Z.mod_unique_pos _ _ q); [lia|]. nia.
Qed.
Lemma combine_map_l {A B C} (g : A -> B) (l : list A) (m : list C) : combine (map g l) m = map (fun q => (g (fst q), snd q)) (combine l m).
Proof. revert m. induction l as [|a l IH]; intros [|c m]; cbn; try reflexivity. f_equal. apply IH. Qed.
Lemma advance_L i : advance n genvec (L i) = L (i + 1).
Proof.
  unfold advance, L. rewrite combine_map_l, map_map. cbn [fst snd]. pose proof Hz as G. clear Hs Hz. induction G as [|z g H Hg IH]; [reflexivity|].
  cbn [combine map fst snd]. rewrite IH. f_equal. apply wrap_mod, H.
Qed.
Lemma iter_L k : forall i, Nat.iter k (advance n genvec) (L i) = L (i + Z.of_nat k).
Proof. induction k as [|k IH]; intros i; [cbn; f_equal; lia|]. cbn [Nat.iter nat_rect]. unfold Nat.iter in IH. rewrite IH, advance_L. f_equal. lia. Qed.
Lemma coords_L i : coords n shift (L i) = point n genvec shift i.
Proof.
  unfold coords, point, L. rewrite combine_map_l, map_map. apply map_ext_in. intros [z s] Hq. cbn [fst snd]. pose proof (in_combine_r _ _ _ _ Hq) as Is. rewrite Forall_forall in Hs. specialize (Hs s Is). cbn in Hs.
  rewrite <- frac_mod. assert (N0 : (0 < IZR n)%R) by (apply (IZR_lt 0); lia).
  pose proof (Z.mod_pos_bound (i * z) n ltac:(lia)) as B. set (m := (i * z) mod n) in *.
  assert (B0 : (0 <= IZR m / IZR n)%R). { apply Rmult_le_pos; [apply (IZR_le 0); lia|apply Rlt_le, Rinv_0_lt_compat, N0]. }
  assert (B1 : (IZR m / IZR n < 1)%R). { apply Rmult_lt_reg_r with (IZR n); [exact N0|]. unfold Rdiv. rewrite Rmult_assoc, Rinv_l, Rmult_1_r, Rmult_1_l by lra. apply IZR_lt; lia. }
  unfold warponce. change (IZR m * / IZR n)%R with (IZR m / IZR n)%R. destruct (Rle_dec 0 (IZR m / IZR n + s - 1)).
  - rewrite (frac_unique _ 1); [reflexivity|]. lra.
  - rewrite (frac_unique _ 0); [cbn; ring|]. cbn. lra.
Qed.
Definition F (i : Z) : option R := term w f body (point n genvec shift i).
Definition S' (a b : Z) : option R := sumO (map F (range a b)).
Lemma S_nil a b : b <= a -> S' a b = Some 0%R.
Proof. intros H. unfold S'. rewrite range_nil by exact H. reflexivity. Qed.
Lemma S_cons a b : a < b -> S' a b = plus (F a) (S' (a + 1) b).
Proof. intros H. unfold S'. rewrite range_cons by exact H. reflexivity. Qed.
Lemma S_app a b c : a <= b <= c -> S' a c = plus (S' a b) (S' b c).
Proof. intros H. unfold S'. rewrite (range_app a b c H), map_app. apply sumO_app. Qed.
Lemma S_cut a p q b : 0 <= p -> 0 <= q -> plus (S' a (Z.min (a + p) b)) (S' (a + p) (Z.min (a + p + q) b)) = S' a (Z.min (a + p + q) b).
Proof.
  intros Hp Hq. destruct (Z_le_gt_dec b (a + p)) as [C|C].
  - rewrite (S_nil (a + p)) by lia. rewrite plus_0_r. f_equal. lia.
  - rewrite (Z.min_l (a + p)) by lia. symmetry. apply S_app. lia.
Qed.
Lemma S_none a b i : a <= i < b -> F i = None -> S' a b = None.
Proof. intros Hi E. apply sumO_none. rewrite <- E. apply in_map, in_range, Hi. Qed.

(** ** CPU *)
Lemma lanes_spec m : forall i index index2 k, i = index + Z.of_nat k -> index < index2 ->
  (Forall (fun j => body (map f (point n genvec shift (i + Z.of_nat j))) <> None) (seq 0 m) ->
   exists vs, vec w f body n shift index index2 k (lanes n genvec m (L i)) = Some vs /\ length vs = m /\ Some (sumR vs) = S' i (Z.min (i + Z.of_nat m) index2)) /\
  ((exists j, (j < m)%nat /\ body (map f (point n genvec shift (i + Z.of_nat j))) = None) -> vec w f body n shift index index2 k (lanes n genvec m (L i)) = None).
Proof.
  induction m as [|m IH]; intros i index index2 k Ei Hi.
  - split; [|intros (j & Hj & _); lia]. intros _. exists []. split; [reflexivity|]. split; [reflexivity|]. rewrite S_nil by lia. reflexivity.
  - cbn [lanes vec]. rewrite advance_L, coords_L. destruct (IH (i + 1) index index2 (S k) ltac:(lia) Hi) as [I1 I2]. split.
    + intros H. cbn [seq] in H. apply Forall_cons_iff in H as [H0 H]. rewrite <- seq_shift in H. rewrite Z.add_0_r in H0.
      destruct I1 as (vs & Ev & Lv & Sv). { rewrite Forall_map in H. apply Forall_impl with (2 := H). intros j Hj. replace (i + 1 + Z.of_nat j) with (i + Z.of_nat (S j)) by lia. exact Hj. }
      destruct (body (map f (point n genvec shift i))) as [v|] eqn:Eb; [|congruence]. rewrite Ev. eexists. split; [reflexivity|]. split; [cbn; congruence|].
      unfold masked. destruct (andb (Nat.leb 1 k) (index2 <=? index + Z.of_nat k)) eqn:Em.
      * apply andb_prop in Em as [_ Em]. apply Z.leb_le in Em. rewrite (S_nil (i + 1)) in Sv by lia. rewrite (S_nil i) by lia. cbn [sumR fold_right]. fold (sumR vs). injection Sv as Sv. rewrite Sv. f_equal. ring.
      * assert (C : i < index2). { apply Bool.andb_false_iff in Em as [Em|Em]; [apply Nat.leb_gt in Em; lia|apply Z.leb_gt in Em; lia]. }
        rewrite (S_cons i) by lia. replace (i + Z.of_nat (S m)) with (i + 1 + Z.of_nat m) by lia. rewrite <- Sv. unfold F, term. rewrite Eb. reflexivity.
    + intros (j & Hj & E). destruct j as [|j].
      * rewrite Z.add_0_r in E. rewrite E. reflexivity.
      * rewrite I2; [destruct (body (map f (point n genvec shift i))); reflexivity|]. exists j. split; [lia|]. replace (i + 1 + Z.of_nat j) with (i + Z.of_nat (S j)) by lia. exact E.
Qed.
Variable V : nat.
Hypothesis HV : (1 <= V)%nat.
Lemma sum_add : forall (a b : list R), length a = length b -> sumR (map (fun q => (fst q + snd q)%R) (combine a b)) = (sumR a + sumR b)%R.
Proof. induction a as [|x a IH]; intros [|y b] H; try discriminate; cbn [combine map sumR fold_right fst snd]; [ring|]. fold (sumR a) (sumR b). change (fold_right Rplus 0%R (map (fun q : R * R => (fst q + snd q)%R) (combine a b))) with (sumR (map (fun q => (fst q + snd q)%R) (combine a b))). rewrite IH by (cbn in H; lia). ring. Qed.
Lemma cpu_ok fuel : forall index index2 acc, (Z.to_nat (index2 - index) <= fuel)%nat -> length acc = V ->
  (forall i, index <= i < index2 + Z.of_nat V - 1 -> body (map f (point n genvec shift i)) <> None) ->
  exists acc', cpu_loop w f body n genvec shift V fuel index index2 (L index) acc = Some acc' /\ Some (sumR acc') = plus (Some (sumR acc)) (S' index index2).
Proof.
  induction fuel as [|fuel IH]; intros index index2 acc Hf La H; cbn [cpu_loop].
  - exists acc. split; [reflexivity|]. rewrite S_nil, plus_0_r by lia. reflexivity.
  - destruct (Z.ltb_spec index index2) as [C|C]; [|exists acc; split; [reflexivity|]; rewrite S_nil, plus_0_r by lia; reflexivity].
    destruct (lanes_spec V index index index2 0 ltac:(lia) C) as [I1 _]. destruct I1 as (vs & Ev & Lv & Sv).
    { apply Forall_forall. intros j Hj. apply in_seq in Hj. apply H. lia. }
    rewrite Ev, iter_L. destruct (IH (index + Z.of_nat V) index2 (map (fun q => (fst q + snd q)%R) (combine acc vs))) as (acc' & Ea & Sa); [lia|rewrite map_length, combine_length; lia|intros i Hi; apply H; lia|].
    exists acc'. split; [exact Ea|]. rewrite Sa, sum_add by congruence. change (Some (sumR acc + sumR vs)%R) with (plus (Some (sumR acc)) (Some (sumR vs))). rewrite Sv, <- plus_assoc. f_equal.
    pose proof (S_cut index (Z.of_nat V) (Z.max 0 (index2 - index)) index2 ltac:(lia) ltac:(lia)) as Q. rewrite Z.min_r with (n := index + Z.of_nat V + _) in Q by lia. exact Q.
Qed.
Lemma cpu_fail fuel : forall index index2 acc i, (Z.to_nat (index2 - index) <= fuel)%nat -> index <= i < index2 -> body (map f (point n genvec shift i)) = None ->
  cpu_loop w f body n genvec shift V fuel index index2 (L index) acc = None.
Proof.
  induction fuel as [|fuel IH]; intros index index2 acc i Hf Hi E; cbn [cpu_loop]; [lia|].
  destruct (Z.ltb_spec index index2) as [C|C]; [|lia]. destruct (lanes_spec V index index index2 0 ltac:(lia) C) as [_ I2].
  destruct (Z_lt_le_dec i (index + Z.of_nat V)) as [D|D].
  - rewrite I2; [reflexivity|]. exists (Z.to_nat (i - index)). split; [lia|]. replace (index + Z.of_nat (Z.to_nat (i - index))) with i by lia. exact E.
  - destruct (vec _ _ _ _ _ _ _ _ _) as [vs|]; [|reflexivity]. rewrite iter_L. apply (IH _ _ _ i); [lia|lia|exact E].
Qed.
(** ** CUDA *)
Lemma thread_loop_ok fuel : forall index index2, thread_loop w f body n genvec shift fuel index index2 (L index) = S' index (Z.min (index + Z.of_nat fuel) index2).
Proof.
  induction fuel as [|fuel IH]; intros index index2; cbn [thread_loop]; [rewrite S_nil by lia; reflexivity|].
  destruct (Z.ltb_spec index index2) as [C|C]; [|rewrite S_nil by lia; reflexivity].
  rewrite (S_cons index) by lia. rewrite coords_L, advance_L, IH. unfold F, term. replace (index + 1 + Z.of_nat fuel) with (index + Z.of_nat (S fuel)) by lia.
  destruct (body _); reflexivity.
Qed.
Lemma thread_loop_over fuel index index2 li : index2 <= index -> thread_loop w f body n genvec shift fuel index index2 li = Some 0%R.
Proof. intros H. destruct fuel; cbn [thread_loop]; [reflexivity|]. destruct (Z.ltb_spec index index2); [lia|reflexivity]. Qed.
Lemma pieces a p b : 0 <= p -> forall m s, sumO (map (fun t => S' (a + Z.of_nat t * p) (Z.min (a + Z.of_nat t * p + p) b)) (seq s m)) = S' (a + Z.of_nat s * p) (Z.min (a + Z.of_nat s * p + Z.of_nat m * p) b).
Proof.
  intros Hp m. induction m as [|m IH]; intros s; cbn [seq map]; [rewrite S_nil by lia; reflexivity|]. rewrite sumO_cons, IH.
  replace (a + Z.of_nat (S s) * p) with (a + Z.of_nat s * p + p) by lia. replace (a + Z.of_nat s * p + p + Z.of_nat m * p) with (a + Z.of_nat s * p + p + (Z.of_nat m * p)) by lia. rewrite S_cut by nia. f_equal. f_equal. lia.
Qed.
Variables (threads per_thread : nat).
Lemma thread_ok i1 i2 bid tid : 0 <= i1 -> i2 <= n -> thread w f body n genvec shift threads per_thread i1 i2 bid tid =
  let a := i1 + Z.of_nat ((bid * threads + tid) * per_thread) in S' a (Z.min (a + Z.of_nat per_thread) i2).
Proof.
  intros H1 H2. unfold thread. cbv zeta. set (a := i1 + _). destruct (Z_lt_le_dec a i2) as [C|C].
  - destruct (start_L a ltac:(lia)) as [_ ->]. apply thread_loop_ok.
  - rewrite thread_loop_over, S_nil by lia. reflexivity.
Qed.
Lemma block_ok i1 i2 bid : 0 <= i1 -> i2 <= n -> block w f body n genvec shift threads per_thread i1 i2 bid =
  let a := i1 + Z.of_nat bid * Z.of_nat (threads * per_thread) in S' a (Z.min (a + Z.of_nat (threads * per_thread)) i2).
Proof.
  intros H1 H2. unfold block. cbv zeta. set (a := i1 + _).
  rewrite (map_ext _ (fun t => S' (a + Z.of_nat t * Z.of_nat per_thread) (Z.min (a + Z.of_nat t * Z.of_nat per_thread + Z.of_nat per_thread) i2))).
  - rewrite pieces by lia. cbn [Z.of_nat]. rewrite Z.mul_0_l, Z.add_0_r. f_equal. f_equal. lia.
  - intros t. rewrite thread_ok by assumption. cbv zeta. replace (i1 + Z.of_nat ((bid * threads + t) * per_thread)) with (a + Z.of_nat t * Z.of_nat per_thread) by (unfold a; nia). reflexivity.
Qed.
Lemma nested (g : nat -> option R) P m : forall s, sumO (map (fun t => sumO (map (fun e => g (t * P + e)%nat) (seq 0 P))) (seq s m)) = sumO (map g (seq (s * P) (m * P))).
Proof.
  induction m as [|m IH]; intros s; [reflexivity|]. cbn [seq map]. rewrite sumO_cons, IH. cbn [Nat.mul]. rewrite seq_app, map_app, sumO_app. f_equal; [|f_equal; f_equal; f_equal; lia].
  f_equal. assert (B : forall k o, map (fun e => g (s * P + e)%nat) (seq o k) = map g (seq (s * P + o) k)).
  { clear. induction k as [|k IH]; intros o; cbn; [reflexivity|]. f_equal. rewrite IH. f_equal. f_equal. lia. }
  rewrite B, Nat.add_0_r. reflexivity.
Qed.
Lemma nested' (g : nat -> option R) P m s : sumO (map (fun t => sumO (map g (seq (t * P) P))) (seq s m)) = sumO (map g (seq (s * P) (m * P))).
Proof.
  rewrite <- nested. f_equal. apply map_ext. intros t. f_equal.
  assert (B : forall k o, map g (seq (t * P + o) k) = map (fun e => g (t * P + e)%nat) (seq o k)).
  { clear. induction k as [|k IH]; intros o; cbn; [reflexivity|]. f_equal. rewrite <- IH. f_equal. f_equal. lia. }
  rewrite <- B, Nat.add_0_r. reflexivity.
Qed.
Lemma nth_sum (b : list (option R)) : forall m, (length b <= m)%nat -> sumO (map (fun k => nth k b (Some 0%R)) (seq 0 m)) = sumO b.
Proof.
  induction b as [|x b IH]; intros m H.
  - clear. generalize 0%nat. induction m as [|m IH]; intros s; [reflexivity|]. cbn [seq map]. rewrite sumO_cons, IH. destruct s; cbn; f_equal; ring.
  - destruct m as [|m]; [cbn in H; lia|]. cbn [seq map nth]. rewrite <- seq_shift, map_map, !sumO_cons, IH by (cbn in H; lia). reflexivity.
Qed.
Definition TP := (threads * per_thread)%nat.
Hypothesis HTP : (2 <= TP)%nat.
Lemma sum_kernel_ok b bid : sum_kernel threads per_thread b bid = sumO (map (fun k => nth k b (Some 0%R)) (seq (bid * TP) TP)).
Proof.
  unfold sum_kernel, TP. set (g := fun k => nth k b (Some 0%R)).
  transitivity (sumO (map (fun t => sumO (map (fun e => g (t * per_thread + e)%nat) (seq 0 per_thread))) (seq (bid * threads) threads))).
  - assert (B : forall (h : nat -> option R) k o, map (fun t => h (bid * threads + t)%nat) (seq o k) = map h (seq (bid * threads + o) k)).
    { clear. intros h. induction k as [|k IH]; intros o; cbn; [reflexivity|]. f_equal. rewrite IH. f_equal. f_equal. lia. }
    f_equal. rewrite (B (fun t => sumO (map (fun e => g (t * per_thread + e)%nat) (seq 0 per_thread)))). rewrite Nat.add_0_r. reflexivity.
  - rewrite nested. f_equal. f_equal. f_equal; lia.
Qed.
Lemma ceil_ge a b : (0 < b)%nat -> (a <= ceil_div a b * b)%nat.
Proof. intros H. unfold ceil_div. pose proof (Nat.div_mod (a + b - 1) b ltac:(lia)). pose proof (Nat.mod_upper_bound (a + b - 1) b ltac:(lia)). nia. Qed.
Lemma ceil_lt a b : (2 <= b)%nat -> (2 <= a)%nat -> (ceil_div a b < a)%nat.
Proof. intros H1 H2. unfold ceil_div. apply Nat.div_lt_upper_bound; [lia|]. nia. Qed.
Lemma reduce_ok fuel : forall b, (length b < fuel)%nat -> reduce threads per_thread fuel b = sumO b.
Proof.
  induction fuel as [|fuel IH]; intros b H; [lia|]. cbn [reduce]. destruct (Nat.leb_spec (length b) 1) as [C|C].
  - destruct b as [|x [|y b]]; cbn in C; [reflexivity| |lia]. cbn [nth]. rewrite sumO_cons. cbn. symmetry. apply plus_0_r.
  - fold TP. rewrite IH by (rewrite map_length, seq_length; pose proof (ceil_lt (length b) TP HTP C); lia).
    rewrite (map_ext _ _ (sum_kernel_ok b)), nested'. apply nth_sum. apply ceil_ge. lia.
Qed.
Lemma batch_ok i1 i2 : 0 <= i1 -> i2 <= n -> batch w f body n genvec shift threads per_thread i1 i2 = S' i1 i2.
Proof.
  intros H1 H2. unfold batch. fold TP. set (m := ceil_div _ _). rewrite reduce_ok by (rewrite map_length, seq_length; lia).
  rewrite (map_ext _ (fun t => S' (i1 + Z.of_nat t * Z.of_nat TP) (Z.min (i1 + Z.of_nat t * Z.of_nat TP + Z.of_nat TP) i2))) by (intros t; apply block_ok; assumption).
  rewrite pieces by lia. cbn [Z.of_nat]. rewrite Z.mul_0_l, Z.add_0_r. pose proof (ceil_ge (Z.to_nat (i2 - i1)) TP ltac:(lia)) as C. fold m in C.
  destruct (Z_le_gt_dec i2 i1) as [D|D]; [rewrite !S_nil by lia; reflexivity|]. f_equal. apply Z.min_r. nia.
Qed.
Variable bpb : nat.
Hypothesis Hbpb : (1 <= bpb)%nat.
Lemma cuda_loop_ok fuel : forall i1 i2 acc, 0 <= i1 -> i2 <= n -> (Z.to_nat (i2 - i1) <= fuel)%nat ->
  cuda_loop w f body n genvec shift threads per_thread bpb fuel i1 i2 acc = plus acc (S' i1 i2).
Proof.
  induction fuel as [|fuel IH]; intros i1 i2 acc H1 H2 Hf; cbn [cuda_loop]; [rewrite S_nil, plus_0_r by lia; reflexivity|].
  destruct (Z.ltb_spec i1 i2) as [C|C]; [|rewrite S_nil, plus_0_r by lia; reflexivity]. fold TP. cbv zeta.
  assert (B : (2 <= bpb * TP)%nat) by nia. set (d := (bpb * TP)%nat) in *. rewrite IH by lia. rewrite <- plus_assoc. f_equal.
  destruct (Z.ltb_spec (i1 + Z.of_nat d) i2) as [E|E].
  - rewrite batch_ok by lia. symmetry. apply S_app. lia.
  - rewrite batch_ok by lia. rewrite (S_nil (i1 + Z.of_nat d)) by lia. apply plus_0_r.
Qed.
End Kernel.

(** ** the QMC library *)
Section Qmc.
Variables (n : Z) (genvec : list Z) (shift : list R) (func : list R -> R).
Hypothesis Hn : 0 < n < 2 ^ 52.
Hypothesis Hz : Forall (fun z => 0 <= z < n) genvec.
Lemma sample_ok o : 0 <= o < n -> sample n genvec shift o = point n genvec shift o.
Proof.
  intros Ho. unfold sample, point. apply map_ext_in. intros [z s] Hq. cbn [fst snd]. pose proof (proj1 (Forall_forall _ _) Hz z (in_combine_l _ _ _ _ Hq)) as B. cbn in B.
  rewrite C72_mul_mod by lia. cbv zeta. fold (frac (IZR ((o * z) mod n) / IZR n + s)). apply frac_mod. lia.
Qed.
Definition G (o : Z) : R := func (point n genvec shift o).
Variable T : Z.
Hypothesis HT : 1 <= T.
Variable i : Z.
Hypothesis Hi : 0 <= i < T.
Definition mine (o : Z) : bool := o mod T =? i.
Lemma filter_none a b : (forall x, a <= x < b -> mine x = false) -> filter mine (range a b) = [].
Proof.
  intros H. assert (A : forall l, (forall x, In x l -> mine x = false) -> filter mine l = []). { induction l as [|x l IH]; intros Q; [reflexivity|]. cbn. rewrite (Q x (or_introl eq_refl)). apply IH. intros y Hy. apply Q. right. exact Hy. }
  apply A. intros x Hx. apply H, in_range, Hx.
Qed.
Lemma gap o x : o mod T = i -> o < x < o + T -> mine x = false.
Proof.
  intros E Hx. unfold mine. apply Z.eqb_neq. intros E2. pose proof (Z.div_mod o T ltac:(lia)). pose proof (Z.div_mod x T ltac:(lia)). assert (T * (x / T - o / T) = x - o) by lia.
  assert (0 < x / T - o / T) by nia. nia.
Qed.
Lemma filter_step o : o mod T = i -> o < n -> filter mine (range o n) = o :: filter mine (range (o + T) n).
Proof.
  intros E Ho. rewrite range_cons by exact Ho. cbn [filter]. unfold mine at 1. rewrite (proj2 (Z.eqb_eq _ _) E). f_equal.
  destruct (Z_le_gt_dec n (o + T)) as [C|C].
  - rewrite (range_nil (o + T)) by lia. apply filter_none. intros x Hx. apply (gap o); [exact E|lia].
  - rewrite (range_app (o + 1) (o + T) n) by lia. rewrite filter_app, (filter_none (o + 1) (o + T)); [reflexivity|]. intros x Hx. apply (gap o); [exact E|lia].
Qed.
Lemma package_loop_ok fuel : forall o r, 0 <= o -> o mod T = i -> (Z.to_nat (n - o) <= fuel)%nat ->
  package_loop n genvec shift func fuel o T r = (r + sumR (map G (filter mine (range o n))))%R.
Proof.
  induction fuel as [|fuel IH]; intros o r Ho E Hf; cbn [package_loop].
  - rewrite range_nil by lia. cbn. ring.
  - destruct (Z.ltb_spec o n) as [C|C]; [|rewrite range_nil by lia; cbn; ring].
    rewrite IH; [|lia|replace (o + T) with (o + 1 * T) by lia; rewrite Z_mod_plus_full; exact E|lia]. rewrite (filter_step o E C). cbn [map sumR fold_right]. rewrite sample_ok by lia.
    fold (G o). unfold sumR. ring.
Qed.
Lemma filter_before : filter mine (range 0 n) = filter mine (range i n).
Proof.
  destruct (Z_le_gt_dec n i) as [C|C].
  - rewrite (range_nil i n) by lia. apply filter_none. intros x Hx. unfold mine. apply Z.eqb_neq. rewrite Z.mod_small by lia. lia.
  - rewrite (range_app 0 i n) by lia. rewrite filter_app, (filter_none 0 i); [reflexivity|]. intros x Hx. unfold mine. apply Z.eqb_neq. rewrite Z.mod_small by lia. lia.
Qed.
Lemma package_ok r : package n genvec shift func i T r = (r + sumR (map G (filter mine (range 0 n))))%R.
Proof. unfold package. rewrite filter_before. apply package_loop_ok; [lia|apply Z.mod_small; lia|lia]. Qed.
(** batching *)
Lemma setnth_app {A} (pre : list A) v y rest : setnth (length pre) v (pre ++ y :: rest) = pre ++ v :: rest.
Proof. induction pre as [|p pre IH]; [reflexivity|]. cbn. rewrite IH. reflexivity. Qed.
Lemma batch_split c : forall k pre rest fuel r, length pre = k -> length rest = c -> (forall j, (j < c)%nat -> i + T * Z.of_nat (k + j) < n) -> n <= i + T * Z.of_nat (k + c) -> (c <= fuel)%nat ->
  exists l, fill_loop n genvec shift fuel (i + T * Z.of_nat k) T (pre ++ rest) = pre ++ l /\
            fold_left (fun r p => (r + func p)%R) l r = package_loop n genvec shift func fuel (i + T * Z.of_nat k) T r.
Proof.
  induction c as [|c IH]; intros k pre rest fuel r Lp Lr H1 H2 Hf.
  - destruct rest; [|discriminate]. exists []. rewrite Nat.add_0_r in H2. destruct fuel as [|fuel]; [split; reflexivity|]. cbn [fill_loop package_loop].
    destruct (Z.ltb_spec (i + T * Z.of_nat k) n) as [C|C]; [lia|]. split; reflexivity.
  - destruct rest as [|y rest]; [discriminate|]. destruct fuel as [|fuel]; [lia|]. cbn [fill_loop package_loop].
    specialize (H1 0%nat ltac:(lia)) as H0. rewrite Nat.add_0_r in H0. destruct (Z.ltb_spec (i + T * Z.of_nat k) n) as [C|C]; [|lia].
    replace ((i + T * Z.of_nat k) / T) with (Z.of_nat k). 2:{ apply (Z.div_unique_pos _ _ _ i); lia. }
    rewrite Nat2Z.id. replace (setnth k) with (setnth (A := list R) (length pre)) by (rewrite Lp; reflexivity). rewrite setnth_app. replace (i + T * Z.of_nat k + T) with (i + T * Z.of_nat (S k)) by lia.
    destruct (IH (S k) (pre ++ [sample n genvec shift (i + T * Z.of_nat k)]) rest fuel (r + func (sample n genvec shift (i + T * Z.of_nat k)))%R) as (l & E1 & E2).
    + rewrite app_length; cbn; lia.
    + cbn in Lr. lia.
    + intros j Hj. specialize (H1 (S j) ltac:(lia)). replace (S k + j)%nat with (k + S j)%nat by lia. exact H1.
    + replace (S k + c)%nat with (k + S c)%nat by lia. exact H2.
    + lia.
    + exists (sample n genvec shift (i + T * Z.of_nat k) :: l). rewrite <- !app_assoc in E1. cbn [app] in E1. split; [exact E1|]. cbn [fold_left]. exact E2.
Qed.
Lemma batched_ok r : package_batched n genvec shift func i T r = package n genvec shift func i T r.
Proof.
  unfold package_batched, package. cbv zeta. set (b := batchsize n i T). pose proof (Z.div_mod n T ltac:(lia)) as D. pose proof (Z.mod_pos_bound n T ltac:(lia)) as M.
  assert (B : 0 <= b /\ n <= i + T * b /\ (0 < b -> i + T * (b - 1) < n)). { unfold b, batchsize. assert (0 <= n / T) by (apply Z.div_pos; lia). destruct (Z.ltb_spec i (n mod T)); nia. }
  destruct B as (B0 & B1 & B2). destruct (batch_split (Z.to_nat b) 0 [] (repeat (repeat 0%R (length genvec)) (Z.to_nat b)) (Z.to_nat n) r) as (l & E1 & E2).
  - reflexivity.
  - apply repeat_length.
  - intros j Hj. cbn [Nat.add]. assert (0 < b) by lia. specialize (B2 ltac:(lia)). assert (Z.of_nat j <= b - 1) by lia. nia.
  - cbn [Nat.add]. rewrite Z2Nat.id by lia. exact B1.
  - destruct (Z_lt_le_dec 0 b); [specialize (B2 ltac:(lia)); nia|lia].
  - cbn [app Z.of_nat] in E1, E2. rewrite Z.mul_0_r, Z.add_0_r in E1, E2. rewrite E1, E2. reflexivity.
Qed.
End Qmc.
(** every index belongs to exactly one package *)
Lemma cover (g : Z -> R) T l : 1 <= T -> sumR (map (fun i => sumR (map g (filter (mine T i) l))) (range 0 T)) = sumR (map g l).
Proof.
  intros HT. assert (P1 : forall (h k : Z -> R) m, sumR (map (fun x => (h x + k x)%R) m) = (sumR (map h m) + sumR (map k m))%R).
  { intros h k m. induction m as [|x m IH]; cbn; [ring|]. unfold sumR in IH. rewrite IH. ring. }
  induction l as [|o l IH].
  - cbn [filter map]. generalize (range 0 T). intros m. induction m as [|x m IHm]; [reflexivity|]. unfold sumR in *. cbn in *. rewrite IHm. ring.
  - transitivity (sumR (map (fun i => ((if mine T i o then g o else 0) + sumR (map g (filter (mine T i) l)))%R) (range 0 T))).
    + f_equal. apply map_ext. intros i. cbn [filter]. destruct (mine T i o); unfold sumR; cbn; ring.
    + rewrite P1, IH. cbn [map sumR fold_right]. f_equal.
      pose proof (Z.mod_pos_bound o T ltac:(lia)) as M. rewrite (range_app 0 (o mod T) T), (range_cons (o mod T) T), map_app by lia. cbn [map].
      assert (Q : forall m, ~ In (o mod T) m -> sumR (map (fun i => if mine T i o then g o else 0%R) m) = 0%R).
      { induction m as [|x m IHm]; intros N; [reflexivity|]. cbn [map sumR fold_right]. unfold sumR in IHm. rewrite IHm by (intros X; apply N; right; exact X). unfold mine. destruct (Z.eqb_spec (o mod T) x); [exfalso; apply N; left; congruence|ring]. }
      assert (SA : forall a b, sumR (a ++ b) = (sumR a + sumR b)%R). { induction a as [|x a IHa]; intros b; unfold sumR in *; cbn; [ring|]. rewrite IHa. ring. }
      rewrite SA, Q by (rewrite in_range; lia). cbn [sumR fold_right]. fold (sumR (map (fun i => if mine T i o then g o else 0%R) (range (o mod T + 1) T))). rewrite Q by (rewrite in_range; lia).
      unfold mine. rewrite Z.eqb_refl. ring.
Qed.
