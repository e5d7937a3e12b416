(** Vertices survive [convex_hull]; linear functionals are minimal on the surviving points. *)
From Verif Require Export HullProofs GeoProofs3.
Local Open Scope nat_scope.

Section Order.
Lemma lexlt_cons a b x y : lexlt (a :: x) (b :: y) <-> (a < b)%Z \/ a = b /\ lexlt x y.
Proof. unfold lexlt, lexltb. cbn. destruct (Z.compare_spec a b); split; intros H1; try discriminate; try lia; try (right; split; [assumption|assumption]); try (left; assumption); try (destruct H1 as [?|[? ?]]; [lia|assumption]); reflexivity. Qed.
Lemma lexlt_add a : forall b c, length b = length a -> length c = length a -> lexlt a b -> lexlt a c -> lexlt (row_add a a) (row_add b c).
Proof.
  induction a as [|x a IH]; intros [|y b] [|z c] Hb Hc H1 H2; cbn in Hb, Hc; try lia; [exact H1|].
  apply lexlt_cons in H1. apply lexlt_cons in H2. unfold row_add. cbn [combine map fst snd]. apply lexlt_cons.
  destruct H1 as [H1|[E1 H1]], H2 as [H2|[E2 H2]]; [left; lia|left; lia|left; lia|right]. split; [lia|]. apply IH; auto; lia.
Qed.
Lemma lex_min {A} (key : A -> list Z) l : l <> [] -> exists m, In m l /\ forall a, In a l -> lexle (key m) (key a).
Proof.
  induction l as [|x l IH]; [congruence|]. intros _. destruct l as [|y l].
  - exists x. split; [left; reflexivity|]. intros a [->|[]]. apply lexle_refl.
  - destruct IH as (m & Hm & Hmin); [discriminate|]. destruct (lexle_total (key x) (key m)) as [H|H].
    + exists x. split; [left; reflexivity|]. intros a [->|Ha]; [apply lexle_refl|]. eapply lexle_trans; [exact H|apply Hmin, Ha].
    + exists m. split; [right; exact Hm|]. intros a [->|Ha]; [apply lexle_lt_eq; left; exact H|apply Hmin, Ha].
Qed.
Lemma dotZ_vec_sum n es f : Forall (fun e => length e = n) es -> length f = n -> dotZ (vec_sum n es) f = sumZ (map (fun e => dotZ e f) es).
Proof.
  intros He Hf. induction He as [|e es He _ IH].
  - rewrite (dotZ_sum _ _ n) by (rewrite ?vec_sum_length; auto). apply sumZ_zero. intros j Hj. apply in_seq in Hj. rewrite vec_sum_get by lia. cbn. lia.
  - rewrite vec_sum_cons by exact He. cbn [map]. rewrite sumZ_cons, <- IH. rewrite !(dotZ_sum _ _ n) by (rewrite ?row_add_length by (rewrite vec_sum_length; auto); rewrite ?vec_sum_length; auto).
    rewrite <- sumZ_plus. apply sumZ_ext. intros j Hj. apply in_seq in Hj. rewrite getZ_row_add by (rewrite ?vec_sum_length; lia). lia.
Qed.
Lemma dotZ_row_add a b f n : length a = n -> length b = n -> length f = n -> dotZ (row_add a b) f = (dotZ a f + dotZ b f)%Z.
Proof.
  intros Ha Hb Hf. rewrite !(dotZ_sum _ _ n) by (rewrite ?row_add_length; lia). rewrite <- sumZ_plus. apply sumZ_ext. intros j Hj. apply in_seq in Hj. rewrite getZ_row_add by lia. lia.
Qed.
Lemma row_dec (a b : list Z) : {a = b} + {a <> b}.
Proof. apply list_eq_dec, Z.eq_dec. Qed.
Lemma Forall2_swap {A B} (P : A -> B -> Prop) (dec : forall a b : A, {a = b} + {a <> b}) l : forall a b, Forall2 P a l -> Forall2 P b l -> a <> b ->
  exists a1 x a2 b1 y b2, a = a1 ++ x :: a2 /\ b = b1 ++ y :: b2 /\ x <> y /\ Forall2 P (a1 ++ y :: a2) l /\ Forall2 P (b1 ++ x :: b2) l.
Proof.
  induction l as [|q l IH]; intros a b Ha Hb Hne; inversion Ha as [|x q1 a' l1 Hx Ha']; inversion Hb as [|y q2 b' l2 Hy Hb']; subst; [congruence|].
  destruct (dec x y) as [->|Hxy].
  - destruct (IH a' b' Ha' Hb') as (a1 & u & a2 & b1 & w & b2 & -> & -> & Huw & H1 & H2); [congruence|].
    exists (y :: a1), u, a2, (y :: b1), w, b2. cbn [app]; split; [reflexivity|split; [reflexivity|split; [assumption|split; constructor; assumption]]].
  - exists [], x, a', [], y, b'. cbn [app]; split; [reflexivity|split; [reflexivity|split; [assumption|split; constructor; assumption]]].
Qed.
End Order.

Section Vertex.
Variable F : Fld.
Local Open Scope fld_scope.
Notation Poly := (poly F).
Hypothesis char0 : forall k, @natF F (S k) <> 0.
Variable n : nat.
Variables (p0 : Poly) (ps : list Poly).
Hypothesis Hw : Forall (fun p => pnv p = n /\ pwf p) (p0 :: ps).
Let rss := map (fun p => map fst (ptm p)) ps.
Let L := tuples (map fst (ptm p0)) rss.

Lemma tuple_forall2 c : In c L <-> Forall2 (fun u rs => In u rs) c (rev (map fst (ptm p0) :: rss)).
Proof.
  unfold L. rewrite in_tuples. split; intros H.
  - rewrite <- (rev_involutive c). revert H. generalize (rev c) as a, (map fst (ptm p0) :: rss) as l. intros a l H. induction H; cbn; [constructor|]. apply Forall2_app; [assumption|repeat constructor; assumption].
  - rewrite <- (rev_involutive (map fst (ptm p0) :: rss)). revert H. generalize c as a, (rev (map fst (ptm p0) :: rss)) as l. intros a l H. induction H; cbn; [constructor|]. apply Forall2_app; [assumption|repeat constructor; assumption].
Qed.
Lemma tuple_lengths c : In c L -> Forall (fun e => length e = n) c.
Proof.
  intros H. apply tuple_forall2 in H. assert (Hl : Forall (fun rs => Forall (fun e : list Z => length e = n) rs) (rev (map fst (ptm p0) :: rss))).
  { apply Forall_rev. change (map fst (ptm p0) :: rss) with (map (fun p : Poly => map fst (ptm p)) (p0 :: ps)). apply Forall_map. eapply Forall_impl; [|exact Hw].
    intros p [Hp Hpw]. apply Forall_map. unfold pwf in Hpw. rewrite Hp in Hpw. exact Hpw. }
  revert H Hl. generalize (rev (map fst (ptm p0) :: rss)). intros l H Hl. induction H as [|u rs c' l Hu H IH]; [constructor|]. inversion Hl as [|? ? Hrs Hl']; subst. constructor; [|apply IH, Hl'].
  rewrite Forall_forall in Hrs. apply Hrs, Hu.
Qed.
Lemma mink_iff v : minkowski n (p0 :: ps) v <-> exists c, In c L /\ vec_sum n c = v.
Proof. apply minkowski_tuples. Qed.

Hypothesis Hd : Forall distinct_terms (p0 :: ps).
Variable out : list (list Z).
Hypothesis Hout : convex_hull (p0 :: ps) = Some out.

Lemma NoDup_L : NoDup L.
Proof.
  inversion Hd as [|? ? H0 Hd']; subst. apply NoDup_tuples; [exact H0|]. unfold rss. apply Forall_map. exact Hd'.
Qed.
Lemma out_minkowski v : In v out -> minkowski n (p0 :: ps) v.
Proof.
  intros H. apply (convex_hull_spec F char0 n p0 ps out Hw Hd Hout) in H. apply mink_iff. fold rss L in H.
  destruct (filter (fun c => roweqb (vec_sum n c) v) L) as [|c l] eqn:E; [discriminate|]. assert (Hc : In c (filter (fun c => roweqb (vec_sum n c) v) L)) by (rewrite E; left; reflexivity).
  apply filter_In in Hc as [Hc Ec]. apply roweqb_spec in Ec. eauto.
Qed.
(** a point dropped by [convex_hull] is the midpoint of two different points *)
Lemma dropped_midpoint v : minkowski n (p0 :: ps) v -> ~ In v out ->
  exists u w, minkowski n (p0 :: ps) u /\ minkowski n (p0 :: ps) w /\ u <> w /\ row_add u w = row_add v v.
Proof.
  intros Hv Hno. apply mink_iff in Hv as (c & Hc & Ev).
  assert (Hcnt : length (filter (fun c => roweqb (vec_sum n c) v) L) <> 1%nat) by (intros H; apply Hno, (convex_hull_spec F char0 n p0 ps out Hw Hd Hout); exact H).
  assert (Hcin : In c (filter (fun c => roweqb (vec_sum n c) v) L)) by (apply filter_In; split; [exact Hc|apply roweqb_spec, Ev]).
  assert (Hnd : NoDup (filter (fun c => roweqb (vec_sum n c) v) L)) by (apply NoDup_filter, NoDup_L).
  assert (Hd2 : exists a b, a <> b /\ In a (filter (fun c => roweqb (vec_sum n c) v) L) /\ In b (filter (fun c => roweqb (vec_sum n c) v) L)).
  { destruct (filter (fun c => roweqb (vec_sum n c) v) L) as [|a [|b l]]; [destruct Hcin|cbn in Hcnt; lia|]. exists a, b. inversion Hnd as [|? ? Ha _]; subst.
    split; [intros ->; apply Ha; left; reflexivity|]. split; [left; reflexivity|right; left; reflexivity]. }
  destruct Hd2 as (a & b & Hne & Ha & Hb). apply filter_In in Ha as [Ha Ea]. apply filter_In in Hb as [Hb Eb]. apply roweqb_spec in Ea, Eb.
  destruct (Forall2_swap _ row_dec _ a b (proj1 (tuple_forall2 a) Ha) (proj1 (tuple_forall2 b) Hb) Hne) as (a1 & x & a2 & b1 & y & b2 & E1 & E2 & Hxy & H1 & H2).
  apply tuple_forall2 in H1. apply tuple_forall2 in H2.
  exists (vec_sum n (a1 ++ y :: a2)), (vec_sum n (b1 ++ x :: b2)). split; [apply mink_iff; eauto|]. split; [apply mink_iff; eauto|].
  assert (Eu : forall j, (j < n)%nat -> getZ j (vec_sum n (a1 ++ y :: a2)) = (getZ j v - getZ j x + getZ j y)%Z).
  { intros j Hj. rewrite <- Ea, E1. rewrite !vec_sum_get by exact Hj. rewrite !map_app, !sumZ_app. cbn [map]. rewrite !sumZ_cons. lia. }
  assert (Ew : forall j, (j < n)%nat -> getZ j (vec_sum n (b1 ++ x :: b2)) = (getZ j v - getZ j y + getZ j x)%Z).
  { intros j Hj. rewrite <- Eb, E2. rewrite !vec_sum_get by exact Hj. rewrite !map_app, !sumZ_app. cbn [map]. rewrite !sumZ_cons. lia. }
  pose proof (tuple_lengths _ Ha) as La. rewrite E1 in La. apply Forall_app in La as [_ La]. inversion La as [|? ? Lx _]; subst x0 l.
  pose proof (tuple_lengths _ Hb) as Lb. rewrite E2 in Lb. apply Forall_app in Lb as [_ Lb]. inversion Lb as [|? ? Ly _]; subst x0 l.
  assert (Lv : length v = n) by (rewrite <- Ev; apply vec_sum_length).
  split.
  - intros E. apply Hxy. apply row_eq; [congruence|]. rewrite Lx. intros j Hj. pose proof (Eu j Hj) as e1. rewrite E, (Ew j Hj) in e1. lia.
  - apply row_eq; [rewrite !row_add_length; rewrite ?vec_sum_length; auto|]. rewrite row_add_length, vec_sum_length by (rewrite !vec_sum_length; reflexivity).
    intros j Hj. rewrite !getZ_row_add by (rewrite ?vec_sum_length; lia). rewrite Eu, Ew by exact Hj. lia.
Qed.
(** every linear functional takes its minimum over all points on a surviving point *)
Lemma functional_minimum f : length f = n -> forall v, minkowski n (p0 :: ps) v -> exists w, In w out /\ (dotZ w f <= dotZ v f)%Z.
Proof.
  intros Hf v Hv. apply mink_iff in Hv as (c & Hc & <-).
  assert (Hne : map (vec_sum n) L <> []) by (intros E; apply map_eq_nil in E; rewrite E in Hc; destruct Hc).
  destruct (lex_min (fun w => dotZ w f :: w) (map (vec_sum n) L) Hne) as (m & Hm & Hmin).
  assert (Hmk : forall u, In u (map (vec_sum n) L) <-> minkowski n (p0 :: ps) u) by (intros u; rewrite mink_iff, in_map_iff; split; intros (d & H1 & H2); exists d; auto).
  assert (Hlen : forall u, In u (map (vec_sum n) L) -> length u = n) by (intros u Hu; apply in_map_iff in Hu as (d & <- & _); apply vec_sum_length).
  exists m. split.
  - destruct (in_dec row_dec m out) as [|Hno]; [assumption|exfalso]. destruct (dropped_midpoint m (proj1 (Hmk m) Hm) Hno) as (u & w & Hu & Hw' & Huw & E).
    apply Hmk in Hu. apply Hmk in Hw'. pose proof (Hlen m Hm) as Lm. pose proof (Hlen u Hu) as Lu. pose proof (Hlen w Hw') as Lw.
    assert (Hum : u <> m /\ w <> m).
    { assert (Hg : forall j, (j < n)%nat -> (getZ j u + getZ j w = getZ j m + getZ j m)%Z) by (intros j Hj; rewrite <- !getZ_row_add by lia; rewrite E; reflexivity).
      split; intros ->; apply Huw; apply row_eq; try lia; intros j Hj; specialize (Hg j ltac:(lia)); lia. }
    destruct Hum as [H1 H2].
    pose proof (Hmin u Hu) as Ku. pose proof (Hmin w Hw') as Kw. apply lexle_lt_eq in Ku as [Ku|Ku]; [|injection Ku; intros; congruence]. apply lexle_lt_eq in Kw as [Kw|Kw]; [|injection Kw; intros; congruence].
    assert (K : lexlt (row_add (dotZ m f :: m) (dotZ m f :: m)) (row_add (dotZ u f :: u) (dotZ w f :: w))) by (apply lexlt_add; cbn; congruence || assumption).
    assert (EE : row_add (dotZ u f :: u) (dotZ w f :: w) = row_add (dotZ m f :: m) (dotZ m f :: m)).
    { unfold row_add in *. cbn [combine map fst snd]. rewrite E. f_equal. pose proof (f_equal (fun r => dotZ r f) E) as ED. cbn beta in ED. fold (row_add u w) (row_add m m) in ED. rewrite !(dotZ_row_add _ _ f n) in ED by assumption. exact ED. }
    rewrite EE in K. exact (lexlt_irrefl _ K).
  - assert (H : In (vec_sum n c) (map (vec_sum n) L)) by (apply in_map, Hc). specialize (Hmin _ H). apply lexle_lt_eq in Hmin as [K|K]; [|injection K; intros; lia].
    apply lexlt_cons in K as [K|[K _]]; lia.
Qed.
(** terms whose sum lies on a face minimise the facet's functional separately *)
Lemma face_terms f a es : length f = n -> (forall w, In w out -> (0 <= dotZ w f + a)%Z) -> Forall2 (fun e p => In e (map fst (ptm p))) es (p0 :: ps) ->
  (dotZ (vec_sum n es) f + a = 0)%Z ->
  Forall2 (fun e (p : Poly) => forall e', In e' (map fst (ptm p)) -> (dotZ e f <= dotZ e' f)%Z) es (p0 :: ps).
Proof.
  intros Hf Hval Hes Hv0.
  assert (Hval' : forall v, minkowski n (p0 :: ps) v -> (0 <= dotZ v f + a)%Z).
  { intros v Hv. destruct (functional_minimum f Hf v Hv) as (w & Hw' & Hle). specialize (Hval w Hw'). lia. }
  assert (Hlens : forall es' : list (list Z), Forall2 (fun e (p : Poly) => In e (map fst (ptm p))) es' (p0 :: ps) -> Forall (fun e => length e = n) es').
  { intros es' H. clear - H Hw. induction H as [|e p es' ps' He H IH]; [constructor|]. inversion Hw as [|? ? [Hp Hpw] Hw']; subst. constructor; [|apply IH, Hw'].
    apply in_map_iff in He as (t & <- & Ht). unfold pwf in Hpw. rewrite Forall_forall in Hpw. apply Hpw, Ht. }
  assert (K : forall es1 ps1 es2 ps2, es = es1 ++ es2 -> p0 :: ps = ps1 ++ ps2 -> Forall2 (fun e p => In e (map fst (ptm p))) es1 ps1 -> Forall2 (fun e p => In e (map fst (ptm p))) es2 ps2 ->
    Forall2 (fun e (p : Poly) => forall e', In e' (map fst (ptm p)) -> (dotZ e f <= dotZ e' f)%Z) es2 ps2).
  { intros es1 ps1 es2 ps2 E1 E2 H1 H2. revert es1 ps1 E1 E2 H1. induction H2 as [|e p es2 ps2 He H2 IH]; intros es1 ps1 E1 E2 H1; constructor.
    - intros e' He'. assert (Hnew : Forall2 (fun e p => In e (map fst (ptm p))) (es1 ++ e' :: es2) (p0 :: ps)) by (rewrite E2; apply Forall2_app; [exact H1|constructor; assumption]).
      specialize (Hval' _ (ex_intro _ _ (conj Hnew eq_refl))). rewrite dotZ_vec_sum in Hval' by (auto; apply Hlens, Hnew).
      rewrite dotZ_vec_sum in Hv0 by (auto; apply Hlens, Hes). rewrite E1 in Hv0. rewrite map_app, sumZ_app in Hv0, Hval'. cbn [map] in Hv0, Hval'. rewrite sumZ_cons in Hv0, Hval'. lia.
    - apply (IH (es1 ++ [e]) (ps1 ++ [p])); [rewrite <- app_assoc; exact E1|rewrite <- app_assoc; exact E2|]. apply Forall2_app; [exact H1|constructor; [exact He|constructor]]. }
  apply (K [] [] es (p0 :: ps)); auto.
Qed.
End Vertex.
