From Verif Require Import FieldBase MiscModel FnumModel FnumSpec.
Local Open Scope fld_scope.
Notation cnt l n := (count_occ Nat.eq_dec l n).

(** ** dummies *)
Lemma dummies_in N n : In n (dummies N) <-> cnt N n = 2.
Proof.
  unfold dummies. rewrite filter_In, nodup_In, Nat.eqb_eq. split; [tauto|]. intros H. split; [|exact H].
  apply (count_occ_In Nat.eq_dec). lia.
Qed.
Lemma dummies_NoDup N : NoDup (dummies N).
Proof. apply NoDup_filter, NoDup_nodup. Qed.
Lemma dummies_perm N N' : (forall n, cnt N n = cnt N' n) -> Permutation (dummies N) (dummies N').
Proof. intros H. apply NoDup_Permutation; try apply dummies_NoDup. intros n. rewrite !dummies_in, H. tauto. Qed.
Lemma dummies_step N N' a : cnt N a = 2 -> cnt N' a = 0%nat -> (forall n, n <> a -> cnt N n = cnt N' n) ->
  Permutation (dummies N) (dummies N' ++ [a]).
Proof.
  intros Ha Ha' H. rewrite Permutation_app_comm. cbn [app]. apply NoDup_Permutation; [apply dummies_NoDup| |].
  - constructor; [|apply dummies_NoDup]. rewrite dummies_in. lia.
  - intros n. cbn [In]. rewrite !dummies_in. destruct (Nat.eq_dec n a) as [->|Hn].
    + split; [intros; left; reflexivity|intros _; exact Ha].
    + rewrite H by exact Hn. split; [tauto|]. intros [X|X]; [congruence|exact X].
Qed.
Lemma perm_cnt (N N' : list nat) : Permutation N N' -> forall n, cnt N n = cnt N' n.
Proof. intros H. apply (Permutation_count_occ Nat.eq_dec N N'). exact H. Qed.

Section P.
Variable F : Fld.
Add Field Ff : (f_th F).
Variables (d : nat) (w : nat -> F).
Hypothesis Hw : forall i, i < d -> w i <> 0.
Notation ok := (in_range d).
Notation cs := (contract_sum F d w).
Notation gm := (metric F w).
Lemma set_ok e n i : ok e -> i < d -> ok (set e n i).
Proof. intros H Hi k. unfold set. destruct (Nat.eqb k n); [exact Hi|apply H]. Qed.
Lemma cs_ext N : forall e e' f h, ok e -> ok e' -> (forall n, e n = e' n) ->
  (forall a b, ok a -> ok b -> (forall n, a n = b n) -> f a = h b) -> cs N e f = cs N e' h.
Proof.
  induction N as [|n N IH]; intros e e' f h He He' Ee Hf; [apply Hf; assumption|].
  cbn [contract_sum]. apply sumF_map_ext. intros i Hi. apply in_seq in Hi. f_equal. apply IH; try (apply set_ok; [assumption|lia]).
  - intros k. unfold set. destruct (Nat.eqb k n); [reflexivity|apply Ee].
  - exact Hf.
Qed.
Definition resp (f : (nat -> nat) -> F) := forall a b, (forall n, a n = b n) -> f a = f b.
Lemma resp_ok f : resp f -> forall a b, ok a -> ok b -> (forall n, a n = b n) -> f a = f b.
Proof. intros H a b _ _. apply H. Qed.
Lemma sum_exchange (f : nat -> nat -> F) l1 l2 : sumF (map (fun i => sumF (map (fun j => f i j) l2)) l1) = sumF (map (fun j => sumF (map (fun i => f i j) l1)) l2).
Proof.
  induction l1 as [|i l1 IH]; cbn [map sumF].
  - induction l2 as [|j l2 IH2]; cbn [map sumF]; [reflexivity|]. rewrite <- IH2. ring.
  - rewrite IH. clear IH. induction l2 as [|j l2 IH2]; cbn [map sumF]; [ring|]. rewrite <- IH2. ring.
Qed.
Lemma sumF_scale' {A} (c : F) (f : A -> F) l : c * sumF (map f l) = sumF (map (fun x => c * f x) l).
Proof. induction l as [|x l IH]; cbn [map sumF]; [ring|rewrite <- IH; ring]. Qed.
Lemma cs_perm N N' : Permutation N N' -> forall e f, ok e -> resp f -> cs N e f = cs N' e f.
Proof.
  induction 1 as [|n N N' HP IH|n m N|N1 N2 N3 H1 IH1 H2 IH2]; intros e f He Hf; [reflexivity| | |rewrite IH1 by assumption; apply IH2; assumption].
  - cbn [contract_sum]. apply sumF_map_ext. intros i Hi. apply in_seq in Hi. f_equal. apply IH; [apply set_ok; [assumption|lia]|exact Hf].
  - destruct (Nat.eq_dec n m) as [->|Hn]; [reflexivity|]. cbn [contract_sum].
    rewrite (sumF_map_ext F (fun i => w i * sumF (map (fun j => w j * cs N (set (set e m i) n j) f) (seq 0 d)))
       (fun i => sumF (map (fun j => w i * (w j * cs N (set (set e m i) n j) f)) (seq 0 d)))) by (intros; apply sumF_scale').
    rewrite (sumF_map_ext F (fun i => w i * sumF (map (fun j => w j * cs N (set (set e n i) m j) f) (seq 0 d)))
       (fun i => sumF (map (fun j => w i * (w j * cs N (set (set e n i) m j) f)) (seq 0 d)))) by (intros; apply sumF_scale').
    rewrite sum_exchange. apply sumF_map_ext. intros i Hi. apply sumF_map_ext. intros j Hj. apply in_seq in Hi. apply in_seq in Hj.
    rewrite (cs_ext N (set (set e m j) n i) (set (set e n i) m j) f f); [ring| | | |apply resp_ok; exact Hf].
    1,2: apply set_ok; [apply set_ok; [exact He|lia]|lia].
    intros k. unfold set. destruct (Nat.eqb_spec k n), (Nat.eqb_spec k m); try reflexivity. congruence.
Qed.
Lemma cs_app N N' e f : cs (N ++ N') e f = cs N e (fun e' => cs N' e' f).
Proof. revert e. induction N as [|n N IH]; intros e; [reflexivity|]. cbn [app contract_sum]. apply sumF_map_ext. intros i _. rewrite IH. reflexivity. Qed.
Lemma cs_scale N : forall e c f, cs N e (fun e => c * f e) = c * cs N e f.
Proof.
  induction N as [|n N IH]; intros e c f; [reflexivity|]. cbn [contract_sum]. rewrite sumF_scale'. apply sumF_map_ext.
  intros i _. rewrite IH. ring.
Qed.
Lemma cs_sum {A} N (l : list A) : forall e (f : A -> (nat -> nat) -> F), cs N e (fun e => sumF (map (fun x => f x e) l)) = sumF (map (fun x => cs N e (f x)) l).
Proof.
  induction N as [|n N IH]; intros e f; [reflexivity|]. cbn [contract_sum].
  rewrite (sumF_map_ext F _ (fun i => sumF (map (fun x => w i * cs N (set e n i) (f x)) l))) by (intros i _; rewrite IH; apply sumF_scale').
  clear. induction (seq 0 d) as [|i s IHs]; cbn [map sumF].
  - induction l as [|x l IHl]; cbn [map sumF]; [reflexivity|]. rewrite <- IHl. ring.
  - rewrite IHs. clear. induction l as [|x l IHl]; cbn [map sumF]; [ring|]. rewrite <- IHl. ring.
Qed.
(** ** the sum over one index of a metric tensor *)
Lemma gm_sym i j : gm i j = gm j i.
Proof. unfold metric. rewrite (Nat.eqb_sym j i). destruct (Nat.eqb_spec i j) as [->|]; reflexivity. Qed.
Lemma sum_delta (h : nat -> F) x : x < d -> sumF (map (fun i => w i * (gm i x * h i)) (seq 0 d)) = h x.
Proof.
  intros Hx.
  assert (G : forall s n, (forall i, s <= i < s + n -> i < d) ->
     sumF (map (fun i => w i * (gm i x * h i)) (seq s n)) = if (Nat.leb s x && Nat.ltb x (s + n))%bool then h x else 0).
  { intros s n. revert s. induction n as [|n IH]; intros s Hs; cbn [seq map sumF].
    - destruct (Nat.leb_spec s x), (Nat.ltb_spec x (s + 0)); try reflexivity. lia.
    - rewrite IH by (intros; apply Hs; lia). unfold metric at 1. destruct (Nat.eqb_spec s x) as [->|Hn].
      + destruct (Nat.leb_spec (S x) x); [lia|]. destruct (Nat.leb_spec x x); [|lia]. destruct (Nat.ltb_spec x (x + S n)); [|lia].
        cbn [andb]. field. apply Hw, Hs. lia.
      + destruct (Nat.leb_spec (S s) x), (Nat.ltb_spec x (S s + n)), (Nat.leb_spec s x), (Nat.ltb_spec x (s + S n)); cbn [andb]; try lia; ring. }
  rewrite G by (intros; lia). cbn [Nat.add]. destruct (Nat.leb_spec 0 x); [|lia]. destruct (Nat.ltb_spec x d); [reflexivity|lia].
Qed.
Lemma sum_trace : sumF (map (fun i => w i * gm i i) (seq 0 d)) = natF d.
Proof.
  assert (G : forall s n, (forall i, s <= i < s + n -> i < d) -> sumF (map (fun i => w i * gm i i) (seq s n)) = natF n).
  { intros s n. revert s. induction n as [|n IH]; intros s Hs; cbn [seq map sumF natF]; [reflexivity|].
    rewrite IH by (intros; apply Hs; lia). unfold metric. rewrite Nat.eqb_refl. f_equal. field. apply Hw, Hs. lia. }
  apply G. intros; lia.
Qed.
(** ** one contraction *)
Notation fac := (FnumSpec.factors F w).
Notation occ := (occurrences F).
Notation tv := (tensor_value F d w).
Lemma fac_resp ms vs : resp (fac ms vs).
Proof. intros a b H. unfold FnumSpec.factors. f_equal; f_equal; apply map_ext; intros q; rewrite ?H; reflexivity. Qed.
Lemma step_value ms vs ms' vs' a c : cnt (occ ms vs) a = 2 -> cnt (occ ms' vs') a = 0%nat ->
  (forall n, n <> a -> cnt (occ ms vs) n = cnt (occ ms' vs') n) ->
  (forall e, ok e -> sumF (map (fun i => w i * fac ms vs (set e a i)) (seq 0 d)) = c * fac ms' vs' e) ->
  forall e, ok e -> tv ms vs e = c * tv ms' vs' e.
Proof.
  intros H1 H2 H3 Hf e He. unfold tensor_value.
  rewrite (cs_perm _ _ (dummies_step _ _ a H1 H2 H3)) by (try exact He; apply fac_resp).
  rewrite cs_app, <- cs_scale. apply cs_ext; try assumption; [reflexivity|].
  intros x y Hx Hy E. cbn [contract_sum]. rewrite Hf by exact Hx. f_equal. apply fac_resp, E.
Qed.
Lemma tv_perm ms vs ms' vs' e : ok e -> Permutation ms ms' -> Permutation vs vs' -> tv ms vs e = tv ms' vs' e.
Proof.
  intros He Hm Hv. unfold tensor_value. rewrite (cs_perm (dummies (occ ms vs)) (dummies (occ ms' vs'))); [|apply dummies_perm, perm_cnt|exact He|apply fac_resp].
  - apply cs_ext; try assumption; [reflexivity|]. intros a b _ _ E. rewrite (fac_resp ms vs a b E). unfold FnumSpec.factors.
    f_equal; apply prodF_perm, Permutation_map; assumption.
  - unfold occurrences. apply Permutation_app; [|apply Permutation_map; exact Hv]. apply Permutation_flat_map; exact Hm.
Qed.
Lemma tv_flip x y ms vs e : ok e -> tv ((x, y) :: ms) vs e = tv ((y, x) :: ms) vs e.
Proof.
  intros He. unfold tensor_value. rewrite (cs_perm (dummies (occ ((x, y) :: ms) vs)) (dummies (occ ((y, x) :: ms) vs))); [|apply dummies_perm, perm_cnt|exact He|apply fac_resp].
  - apply cs_ext; try assumption; [reflexivity|]. intros a b _ _ E. rewrite (fac_resp _ vs a b E). unfold FnumSpec.factors. cbn [map prodF fst snd].
    rewrite gm_sym. reflexivity.
  - unfold occurrences. cbn [flat_map fst snd app]. apply perm_swap.
Qed.
Lemma notin_fac ms vs e a i : cnt (occ ms vs) a = 0%nat -> fac ms vs (set e a i) = fac ms vs e.
Proof.
  intros H. apply (count_occ_not_In Nat.eq_dec) in H. unfold occurrences in H. unfold FnumSpec.factors. f_equal; f_equal; apply map_ext_in.
  - intros (x, y) Hq. cbn [fst snd]. assert (Hx : x <> a /\ y <> a).
    { split; intros ->; apply H, in_app_iff; left; apply in_flat_map; eexists; (split; [exact Hq|]); cbn; tauto. }
    unfold set. destruct (Nat.eqb_spec x a); [tauto|]. destruct (Nat.eqb_spec y a); [tauto|reflexivity].
  - intros (v, x) Hq. cbn [fst snd]. unfold set. destruct (Nat.eqb_spec x a) as [->|]; [|reflexivity].
    exfalso. apply H, in_app_iff. right. apply in_map_iff. exists (v, a). split; [reflexivity|exact Hq].
Qed.
Lemma set_same e a i : set e a i a = i.
Proof. unfold set. rewrite Nat.eqb_refl. reflexivity. Qed.
Lemma set_other e a i x : x <> a -> set e a i x = e x.
Proof. intros H. unfold set. destruct (Nat.eqb_spec x a); [contradiction|reflexivity]. Qed.
Lemma fac_metric x y ms vs e : fac ((x, y) :: ms) vs e = gm (e x) (e y) * fac ms vs e.
Proof. unfold FnumSpec.factors. cbn [map prodF fst snd]. ring. Qed.
Lemma fac_vector v x ms vs e : fac ms ((v, x) :: vs) e = v (e x) * fac ms vs e.
Proof. unfold FnumSpec.factors. cbn [map prodF fst snd]. ring. Qed.
(** shared index first in both *)
Lemma metric_metric a b c ms vs e : ok e -> a <> b -> a <> c -> cnt (occ ms vs) a = 0%nat ->
  tv ((a, b) :: (a, c) :: ms) vs e = tv ((b, c) :: ms) vs e.
Proof.
  intros He Hb Hc H0. rewrite (step_value _ _ ((b, c) :: ms) vs a 1); [ring| | | | |exact He].
  - unfold occurrences in *. cbn [flat_map fst snd app count_occ]. destruct (Nat.eq_dec a a); [|congruence].
    destruct (Nat.eq_dec b a); [congruence|]. destruct (Nat.eq_dec c a); [congruence|]. f_equal. f_equal. exact H0.
  - unfold occurrences in *. cbn [flat_map fst snd app count_occ].
    destruct (Nat.eq_dec b a); [congruence|]. destruct (Nat.eq_dec c a); [congruence|]. exact H0.
  - intros n Hn. unfold occurrences. cbn [flat_map fst snd app count_occ]. destruct (Nat.eq_dec a n); [congruence|].
    destruct (Nat.eq_dec b n), (Nat.eq_dec c n); reflexivity.
  - intros e' He'. rewrite fac_metric.
    rewrite (sumF_map_ext F _ (fun i => w i * (gm i (e' b) * (gm i (e' c) * fac ms vs e')))).
    + rewrite (sum_delta (fun i => gm i (e' c) * fac ms vs e')) by apply He'. ring.
    + intros i _. rewrite !fac_metric, notin_fac by exact H0. rewrite set_same, !set_other by congruence. ring.
Qed.
Lemma metric_vector a b v ms vs e : ok e -> a <> b -> cnt (occ ms vs) a = 0%nat ->
  tv ((a, b) :: ms) ((v, a) :: vs) e = tv ms ((v, b) :: vs) e.
Proof.
  intros He Hb H0. assert (Hc : forall x n, cnt (occ ms ((v, x) :: vs)) n = ((if Nat.eq_dec x n then 1 else 0) + cnt (occ ms vs) n)%nat).
  { intros x n. unfold occurrences. rewrite !count_occ_app. cbn [map snd count_occ]. destruct (Nat.eq_dec x n); lia. }
  rewrite (step_value _ _ ms ((v, b) :: vs) a 1); [ring| | | | |exact He].
  - change (occ ((a, b) :: ms) ((v, a) :: vs)) with (a :: b :: occ ms ((v, a) :: vs)). cbn [count_occ].
    rewrite Hc, H0. destruct (Nat.eq_dec a a); [|congruence]. destruct (Nat.eq_dec b a); [congruence|]. reflexivity.
  - rewrite Hc, H0. destruct (Nat.eq_dec b a); [congruence|]. reflexivity.
  - intros n Hn. change (occ ((a, b) :: ms) ((v, a) :: vs)) with (a :: b :: occ ms ((v, a) :: vs)). cbn [count_occ]. rewrite !Hc.
    destruct (Nat.eq_dec a n); [congruence|]. destruct (Nat.eq_dec b n); lia.
  - intros e' He'. rewrite fac_vector.
    rewrite (sumF_map_ext F _ (fun i => w i * (gm i (e' b) * (v i * fac ms vs e')))).
    + rewrite (sum_delta (fun i => v i * fac ms vs e')) by apply He'. ring.
    + intros i _. rewrite !fac_metric, fac_vector, notin_fac by exact H0. rewrite set_same, !set_other by congruence. ring.
Qed.
Lemma metric_trace a ms vs e : ok e -> cnt (occ ms vs) a = 0%nat -> tv ((a, a) :: ms) vs e = natF d * tv ms vs e.
Proof.
  intros He H0. apply (step_value _ _ ms vs a).
  - change (occ ((a, a) :: ms) vs) with (a :: a :: occ ms vs). cbn [count_occ]. destruct (Nat.eq_dec a a); [|congruence]. lia.
  - exact H0.
  - intros n Hn. change (occ ((a, a) :: ms) vs) with (a :: a :: occ ms vs). cbn [count_occ]. destruct (Nat.eq_dec a n); [congruence|reflexivity].
  - intros e' He'. rewrite (sumF_map_ext F _ (fun i => fac ms vs e' * (w i * gm i i))).
    + rewrite <- (sumF_scale' (fac ms vs e') (fun i => w i * gm i i)), sum_trace. ring.
    + intros i _. rewrite !fac_metric, notin_fac by exact H0. rewrite set_same. ring.
  - exact He.
Qed.
End P.
