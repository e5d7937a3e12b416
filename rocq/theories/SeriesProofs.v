(** Proofs about the arithmetic of Series. *)
From Verif Require Import SeriesSpec.
Local Open Scope Z_scope.
Section P.
Context {F : Fld}.
Add Field FldSeries : (@f_th F).
Implicit Types (s t r : series F) (f g h q : laurent F).
Local Open Scope fld_scope.

(** ** sums *)
Lemma upto_ext n (a b : nat -> F) : (forall j, (j < n)%nat -> a j = b j) -> upto n a = upto n b.
Proof. induction n as [|n IH]; intros H; cbn [upto]; [reflexivity|]. rewrite IH by (intros j Hj; apply H; lia). rewrite H by lia. reflexivity. Qed.
Lemma upto_first n (a : nat -> F) : upto (S n) a = a 0%nat + upto n (fun j => a (S j)).
Proof. induction n as [|n IH]; [cbn [upto]; ring|]. cbn [upto] in *. rewrite IH. ring. Qed.
Lemma upto_zero n (a : nat -> F) : (forall j, (j < n)%nat -> a j = 0) -> upto n a = 0.
Proof. induction n as [|n IH]; intros H; cbn [upto]; [reflexivity|]. rewrite IH by (intros j Hj; apply H; lia). rewrite H by lia. ring. Qed.
Lemma upto_more n m (a : nat -> F) : (n <= m)%nat -> (forall j, (n <= j < m)%nat -> a j = 0) -> upto m a = upto n a.
Proof. induction m as [|m IH]; intros L H; [replace n with 0%nat by lia; reflexivity|]. destruct (Nat.eq_dec n (S m)) as [->|N]; [reflexivity|]. cbn [upto]. rewrite IH by (try lia; intros j Hj; apply H; lia). rewrite H by lia. ring. Qed.
Lemma upto_rev n (a : nat -> F) : upto n a = upto n (fun j => a (n - 1 - j)%nat).
Proof.
  revert a. induction n as [|n IH]; intros a; [reflexivity|]. rewrite upto_first. rewrite (IH (fun j => a (S j))). cbn [upto]. replace (S n - 1 - n)%nat with 0%nat by lia.
  rewrite (upto_ext n (fun j => a (S (n - 1 - j))) (fun j => a (S n - 1 - j)%nat)) by (intros j Hj; f_equal; lia). ring.
Qed.
Lemma upto_sum n (a : nat -> F) : sumF (map a (seq 0 n)) = upto n a.
Proof. induction n as [|n IH]; [reflexivity|]. rewrite seq_S, map_app, sumF_app, IH. cbn [upto map sumF]. cbn [plus]. ring. Qed.

(** ** loops *)
Lemma loop_len a b : length (loop a b) = Z.to_nat (b + 1 - a). Proof. unfold loop. rewrite map_length, seq_length. reflexivity. Qed.
Lemma nth_map_loop (u : Z -> F) a b n : (n < Z.to_nat (b + 1 - a))%nat -> nth n (map u (loop a b)) 0 = u (a + Z.of_nat n)%Z.
Proof. intros H. unfold loop. rewrite map_map. rewrite (nth_indep _ 0 ((fun n => u (a + Z.of_nat n)%Z) 0%nat)) by (rewrite map_length, seq_length; exact H). rewrite (map_nth (fun n => u (a + Z.of_nat n)%Z)), seq_nth by exact H. reflexivity. Qed.
Lemma make_ok a b (c : list F) (t : bool) (p : string) : (a <= b)%Z -> Z.of_nat (length c) = (b - a + 1)%Z -> make a b c t p = Ok (mkS a b c t p) /\ good (mkS a b c t p).
Proof. intros H L. unfold make. destruct (Z.ltb_spec b a); [lia|]. rewrite L, Z.eqb_refl. split; [reflexivity|]. split; assumption. Qed.
Lemma make_loop a b (u : Z -> F) (t : bool) (p : string) : (a <= b)%Z -> make a b (map u (loop a b)) t p = Ok (mkS a b (map u (loop a b)) t p) /\ good (mkS a b (map u (loop a b)) t p) /\
  forall f, below a f -> (forall k, (a <= k <= b)%Z -> f k = u k) -> (t = false -> forall k, (b < k)%Z -> f k = 0) -> stands_for (mkS a b (map u (loop a b)) t p) f.
Proof.
  intros H. assert (L : Z.of_nat (length (map u (loop a b))) = (b - a + 1)%Z) by (rewrite map_length, loop_len; lia). destruct (make_ok a b _ t p H L) as [E G]. split; [exact E|]. split; [exact G|].
  intros f B V T. split; [exact B|]. cbn [omin cont omax trunc]. rewrite map_length, loop_len. split; [|exact T]. intros n Hn. rewrite nth_map_loop by exact Hn. apply V. lia.
Qed.
(** what is known of f *)
Lemma known s f k : good s -> stands_for s f -> (omin s <= k <= omax s)%Z -> f k = at_ s k.
Proof. intros [G1 G2] (_ & H & _) Hk. unfold at_. rewrite <- H by lia. f_equal. lia. Qed.
Lemma known_nth s f n : good s -> stands_for s f -> ((n < length (cont s))%nat \/ trunc s = false) -> f (omin s + Z.of_nat n)%Z = nth n (cont s) 0.
Proof.
  intros [G1 G2] (H1 & H2 & H3) Hn. destruct (le_lt_dec (length (cont s)) n) as [L|L]; [|apply H2, L]. destruct Hn as [Hn|Hn]; [lia|]. rewrite nth_overflow by exact L. apply H3; [exact Hn|lia].
Qed.
Lemma has_spec s k : has_term s k = true <-> (omin s <= k <= omax s)%Z. Proof. unfold has_term. lia. Qed.
Lemma coefficient s f k : good s -> stands_for s f -> (trunc s = true -> (k <= omax s)%Z) -> f k = if has_term s k then at_ s k else 0.
Proof.
  intros G H T. destruct (has_term s k) eqn:E; [apply known; [exact G|exact H|apply has_spec, E]|]. assert (N : ~ (omin s <= k <= omax s)%Z) by (rewrite <- has_spec; congruence). destruct H as (H1 & _ & H3).
  destruct (Z_lt_le_dec k (omin s)); [apply H1; assumption|]. apply H3; [|lia]. destruct (trunc s); [specialize (T eq_refl); lia|reflexivity].
Qed.
(** ** sums and differences *)
Lemma sum_max_facts s t : good s -> good t -> let m := sum_max s t in (Z.min (omin s) (omin t) <= m)%Z /\ (trunc s = true -> (m <= omax s)%Z) /\ (trunc t = true -> (m <= omax t)%Z) /\ (trunc s = false -> trunc t = false -> m = Z.max (omax s) (omax t)) /\
  (trunc s = true \/ trunc t = true -> (trunc s = true /\ m = omax s) \/ (trunc t = true /\ m = omax t)).
Proof.
  intros [G1 _] [G2 _] m. unfold m, sum_max. clear m. destruct (trunc s), (trunc t); cbv zeta; repeat (match goal with |- context [(?a <? Z.max ?b ?c)%Z] => destruct (Z.ltb_spec a (Z.max b c)) | |- context [(?a <? ?b)%Z] => destruct (Z.ltb_spec a b) end); (split; [lia|split; [try (intros; discriminate); try (intros; lia)|split; [try (intros; discriminate); try (intros; lia)|split; [try (intros; discriminate); try (intros; lia)|intros D]]]]); try (left; split; [reflexivity|lia]); try (right; split; [reflexivity|lia]); try (exfalso; destruct D; discriminate).
Qed.
Theorem add_ok s t : good s -> good t -> par s = par t -> exists r, add s t = Ok r /\ good r /\ omin r = Z.min (omin s) (omin t) /\ omax r = sum_max s t /\ trunc r = (trunc s || trunc t)%bool /\ par r = par s /\
  forall f g, stands_for s f -> stands_for t g -> stands_for r (fun k => f k + g k).
Proof.
  intros G1 G2 P. destruct (sum_max_facts s t G1 G2) as (M1 & M2 & M3 & M4 & _). unfold add. rewrite (proj2 (String.eqb_eq _ _) P). cbn [negb].
  destruct (make_loop (Z.min (omin s) (omin t)) (sum_max s t) (fun k => if (has_term s k && has_term t k)%bool then at_ s k + at_ t k else if has_term s k then at_ s k else if has_term t k then at_ t k else 0) (trunc s || trunc t)%bool (par s) M1) as (E & G & V).
  eexists. split; [exact E|]. split; [exact G|]. repeat (split; [reflexivity|]). intros f g Hf Hg. apply V.
  - intros k Hk. destruct Hf as (Hf & _), Hg as (Hg & _). rewrite Hf, Hg by lia. ring.
  - intros k Hk. rewrite (coefficient s f k G1 Hf), (coefficient t g k G2 Hg) by (intros T; first [specialize (M2 T)|specialize (M3 T)]; lia). destruct (has_term s k), (has_term t k); cbn [andb]; ring.
  - intros T k Hk. apply orb_false_iff in T as [T1 T2]. rewrite (M4 T1 T2) in Hk. destruct Hf as (_ & _ & Hf), Hg as (_ & _ & Hg). rewrite Hf, Hg by (try assumption; lia). ring.
Qed.
Theorem sub_ok s t : good s -> good t -> par s = par t -> exists r, sub s t = Ok r /\ good r /\ omin r = Z.min (omin s) (omin t) /\ omax r = sum_max s t /\ trunc r = (trunc s || trunc t)%bool /\ par r = par s /\
  forall f g, stands_for s f -> stands_for t g -> stands_for r (fun k => f k - g k).
Proof.
  intros G1 G2 P. destruct (sum_max_facts s t G1 G2) as (M1 & M2 & M3 & M4 & _). unfold sub. rewrite (proj2 (String.eqb_eq _ _) P). cbn [negb].
  destruct (make_loop (Z.min (omin s) (omin t)) (sum_max s t) (fun k => if (has_term s k && has_term t k)%bool then at_ s k - at_ t k else if has_term s k then at_ s k else if has_term t k then - at_ t k else 0) (trunc s || trunc t)%bool (par s) M1) as (E & G & V).
  eexists. split; [exact E|]. split; [exact G|]. repeat (split; [reflexivity|]). intros f g Hf Hg. apply V.
  - intros k Hk. destruct Hf as (Hf & _), Hg as (Hg & _). rewrite Hf, Hg by lia. ring.
  - intros k Hk. rewrite (coefficient s f k G1 Hf), (coefficient t g k G2 Hg) by (intros T; first [specialize (M2 T)|specialize (M3 T)]; lia). destruct (has_term s k), (has_term t k); cbn [andb]; ring.
  - intros T k Hk. apply orb_false_iff in T as [T1 T2]. rewrite (M4 T1 T2) in Hk. destruct Hf as (_ & _ & Hf), Hg as (_ & _ & Hg). rewrite Hf, Hg by (try assumption; lia). ring.
Qed.
Lemma map_ok s (u : F -> F) (c : list F) : good s -> u 0 = 0 -> length c = length (cont s) -> (forall n, (n < length (cont s))%nat -> nth n c 0 = u (nth n (cont s) 0)) ->
  exists r, make (omin s) (omax s) c (trunc s) (par s) = Ok r /\ good r /\ omin r = omin s /\ omax r = omax s /\ trunc r = trunc s /\ par r = par s /\ forall f, stands_for s f -> stands_for r (fun k => u (f k)).
Proof.
  intros G U L N. pose proof G as [G1 G2]. destruct (make_ok (omin s) (omax s) c (trunc s) (par s) G1 ltac:(lia)) as [E Gr]. eexists. split; [exact E|]. split; [exact Gr|]. repeat (split; [reflexivity|]).
  intros f (H1 & H2 & H3). split; [intros k Hk; cbn [omin] in Hk; rewrite H1 by exact Hk; exact U|]. cbn [cont omin omax trunc]. split; [|intros T k Hk; rewrite H3 by assumption; exact U]. intros n Hn. rewrite H2 by lia. symmetry. apply N. lia.
Qed.
Lemma at_loop s (u : Z -> F) (v : F -> F) : good s -> (forall k, u k = v (at_ s k)) -> length (map u (loop (omin s) (omax s))) = length (cont s) /\ forall n, (n < length (cont s))%nat -> nth n (map u (loop (omin s) (omax s))) 0 = v (nth n (cont s) 0).
Proof.
  intros [G1 G2] U. split; [rewrite map_length, loop_len; lia|]. intros n Hn. rewrite nth_map_loop by lia. rewrite U. unfold at_. do 2 f_equal. lia.
Qed.
Theorem neg_ok s : good s -> exists r, neg s = Ok r /\ good r /\ omin r = omin s /\ omax r = omax s /\ trunc r = trunc s /\ par r = par s /\ forall f, stands_for s f -> stands_for r (fun k => - f k).
Proof. intros G. destruct (at_loop s (fun k => - at_ s k) (fun a => - a) G (fun _ => eq_refl)) as [A B]. apply (map_ok s (fun a => - a)); [exact G|ring|exact A|exact B]. Qed.
Theorem scale_ok l s c : good s -> exists r, scale l s c = Ok r /\ good r /\ omin r = omin s /\ omax r = omax s /\ trunc r = trunc s /\ par r = par s /\ forall f, stands_for s f -> stands_for r (fun k => c * f k).
Proof.
  intros G. destruct (at_loop s (fun k => if l then c * at_ s k else at_ s k * c) (fun a => c * a) G) as [A B]; [intros k; destruct l; ring|]. apply (map_ok s (fun a => c * a)); [exact G|ring|exact A|exact B].
Qed.
Theorem unscale_ok s c : good s -> c <> 0 -> exists r, unscale s c = Ok r /\ good r /\ omin r = omin s /\ omax r = omax s /\ trunc r = trunc s /\ par r = par s /\ forall f, stands_for s f -> stands_for r (fun k => f k / c).
Proof.
  intros G Hc. apply (map_ok s (fun a => a / c)); [exact G|field; exact Hc|apply map_length|]. intros n Hn. rewrite (nth_indep _ 0 (0 / c)) by (rewrite map_length; exact Hn). apply (map_nth (fun a => a / c)).
Qed.
(** ** products of Laurent series *)
Definition conv (m n : Z) f g (k : Z) : F := upto (Z.to_nat (k - m - n + 1)) (fun j => f (m + Z.of_nat j)%Z * g (k - m - Z.of_nat j)%Z).
Lemma conv_left m n f g k : below (m + 1) f -> conv m n f g k = conv (m + 1) n f g k.
Proof.
  intros B. unfold conv. destruct (Z_lt_le_dec k (m + n)) as [H|H]; [replace (Z.to_nat (k - m - n + 1)) with 0%nat by lia; replace (Z.to_nat (k - (m + 1) - n + 1)) with 0%nat by lia; reflexivity|].
  replace (Z.to_nat (k - m - n + 1)) with (S (Z.to_nat (k - (m + 1) - n + 1))) by lia. rewrite upto_first. rewrite (B (m + Z.of_nat 0)%Z) by lia.
  rewrite (upto_ext _ (fun j => f (m + Z.of_nat (S j))%Z * g (k - m - Z.of_nat (S j))%Z) (fun j => f (m + 1 + Z.of_nat j)%Z * g (k - (m + 1) - Z.of_nat j)%Z)) by (intros j Hj; do 2 f_equal; lia). ring.
Qed.
Lemma conv_right m n f g k : below (n + 1) g -> conv m n f g k = conv m (n + 1) f g k.
Proof.
  intros B. unfold conv. destruct (Z_lt_le_dec k (m + n)) as [H|H]; [replace (Z.to_nat (k - m - n + 1)) with 0%nat by lia; replace (Z.to_nat (k - m - (n + 1) + 1)) with 0%nat by lia; reflexivity|].
  replace (Z.to_nat (k - m - n + 1)) with (S (Z.to_nat (k - m - (n + 1) + 1))) by lia. cbn [upto]. rewrite (B (k - m - Z.of_nat (Z.to_nat (k - m - (n + 1) + 1)))%Z) by lia. ring.
Qed.
Lemma below_le m m' f : (m' <= m)%Z -> below m f -> below m' f. Proof. intros L B k Hk. apply B. lia. Qed.
Lemma conv_lefts m n f g k d : below (m + Z.of_nat d) f -> conv m n f g k = conv (m + Z.of_nat d) n f g k.
Proof. induction d as [|d IH]; intros B; [f_equal; lia|]. rewrite IH by (eapply below_le; [|exact B]; lia). rewrite conv_left by (eapply below_le; [|exact B]; lia). f_equal. lia. Qed.
Lemma conv_rights m n f g k d : below (n + Z.of_nat d) g -> conv m n f g k = conv m (n + Z.of_nat d) f g k.
Proof. induction d as [|d IH]; intros B; [f_equal; lia|]. rewrite IH by (eapply below_le; [|exact B]; lia). rewrite conv_right by (eapply below_le; [|exact B]; lia). f_equal. lia. Qed.
Lemma conv_any m n m' n' f g k : below m f -> below m' f -> below n g -> below n' g -> conv m n f g k = conv m' n' f g k.
Proof.
  intros A A' B B'. assert (L : forall u v p, below u f -> below v f -> conv u p f g k = conv v p f g k).
  { intros u v p U V. destruct (Z_le_gt_dec u v) as [H|H].
    - replace v with (u + Z.of_nat (Z.to_nat (v - u)))%Z by lia. apply conv_lefts. replace (u + Z.of_nat (Z.to_nat (v - u)))%Z with v by lia. exact V.
    - symmetry. replace u with (v + Z.of_nat (Z.to_nat (u - v)))%Z by lia. apply conv_lefts. replace (v + Z.of_nat (Z.to_nat (u - v)))%Z with u by lia. exact U. }
  assert (R : forall u v p, below u g -> below v g -> conv p u f g k = conv p v f g k).
  { intros u v p U V. destruct (Z_le_gt_dec u v) as [H|H].
    - replace v with (u + Z.of_nat (Z.to_nat (v - u)))%Z by lia. apply conv_rights. replace (u + Z.of_nat (Z.to_nat (v - u)))%Z with v by lia. exact V.
    - symmetry. replace u with (v + Z.of_nat (Z.to_nat (u - v)))%Z by lia. apply conv_rights. replace (v + Z.of_nat (Z.to_nat (u - v)))%Z with u by lia. exact U. }
  rewrite (L m m' n A A'). apply R; assumption.
Qed.
Lemma conv_neg m n f g k : (k < m + n)%Z -> conv m n f g k = 0. Proof. intros H. unfold conv. replace (Z.to_nat (k - m - n + 1)) with 0%nat by lia. reflexivity. Qed.
Lemma conv_nat m n f g d : conv m n f g (m + n + Z.of_nat d) = upto (S d) (fun j => f (m + Z.of_nat j)%Z * g (n + Z.of_nat d - Z.of_nat j)%Z).
Proof. unfold conv. replace (Z.to_nat (m + n + Z.of_nat d - m - n + 1)) with (S d) by lia. apply upto_ext. intros j Hj. do 2 f_equal. lia. Qed.
Lemma product_conv f g h m n : below m f -> below n g -> is_product f g h -> forall k, h k = conv m n f g k.
Proof.
  intros A B (m' & n' & A' & B' & C' & V) k. rewrite (conv_any m n m' n' f g k A A' B B'). destruct (Z_lt_le_dec k (m' + n')) as [H|H]; [rewrite C', conv_neg by exact H; reflexivity|].
  replace k with (m' + n' + Z.of_nat (Z.to_nat (k - m' - n')))%Z by lia. rewrite V, conv_nat. reflexivity.
Qed.
Lemma conv_product f g m n : below m f -> below n g -> is_product f g (conv m n f g).
Proof. intros A B. exists m, n. split; [exact A|]. split; [exact B|]. split; [intros k Hk; apply conv_neg; exact Hk|]. intros d. apply conv_nat. Qed.
Lemma product_comm f g h : is_product f g h -> is_product g f h.
Proof.
  intros (m & n & A & B & C & V). exists n, m. split; [exact B|]. split; [exact A|]. split; [rewrite Z.add_comm; exact C|]. intros d. rewrite (Z.add_comm n m), V, upto_rev. apply upto_ext. intros j Hj.
  replace (m + Z.of_nat (S d - 1 - j))%Z with (m + Z.of_nat d - Z.of_nat j)%Z by lia. replace (n + Z.of_nat d - Z.of_nat (S d - 1 - j))%Z with (n + Z.of_nat j)%Z by lia. ring.
Qed.
End P.
