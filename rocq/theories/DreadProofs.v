(** The graph given to dreadnaut determines the array up to the order of rows and columns. *)
From Coq Require Import FinFun.
From Verif Require Import MatSortProofs SymProofs.
From Verif Require Export SymSpec.
Local Open Scope nat_scope.

Lemma elem_inj w r c r' c' : c < w -> c' < w -> r * w + c = r' * w + c' -> r = r' /\ c = c'.
Proof. intros H H' E. rewrite (Nat.mul_comm r), (Nat.mul_comm r') in E. apply (Nat.div_mod_unique w r r' c c' H H') in E. exact E. Qed.
Lemma inj_perm f n : (forall v, v < n -> f v < n) -> (forall u v, u < n -> v < n -> f u = f v -> u = v) -> Permutation (map f (seq 0 n)) (seq 0 n).
Proof.
  intros Hb Hi. apply NoDup_Permutation_bis.
  - assert (K : forall l, NoDup l -> (forall v, In v l -> v < n) -> NoDup (map f l)).
    { induction 1 as [|v l Hv Hl IH]; intros Hn; cbn [map]; constructor.
      - intros H. apply in_map_iff in H. destruct H as [u [H1 H2]]. apply Hv. rewrite <- (Hi u v); [exact H2|apply Hn; right; exact H2|apply Hn; left; reflexivity|exact H1].
      - apply IH. intros u Hu. apply Hn. right. exact Hu. }
    apply K; [apply seq_NoDup|]. intros v H. apply in_seq in H. lia.
  - rewrite map_length. lia.
  - intros v H. apply in_map_iff in H. destruct H as [u [<- Hu]]. apply in_seq in Hu. apply in_seq. specialize (Hb u). lia.
Qed.
Lemma index_of_nodup {X} (dec : forall a b : X, {a = b} + {a <> b}) l : NoDup l -> forall x k, index_of dec x l = Some k <-> nth_error l k = Some x.
Proof.
  intros Hn x k. split; [apply index_of_spec|]. intros H. destruct (index_of_in dec x l (nth_error_In _ _ H)) as [k' Hk']. rewrite Hk'. f_equal.
  apply index_of_spec in Hk'. rewrite NoDup_nth_error in Hn. symmetry. apply Hn; [apply nth_error_Some; congruence|congruence].
Qed.
Lemma nth_error_combine_seq {A} (l : list A) : forall s i, nth_error (combine (seq s (length l)) l) i = match nth_error l i with Some x => Some (s + i, x) | None => None end.
Proof.
  induction l as [|x l IH]; intros s i; cbn [length seq combine]; [destruct i; reflexivity|]. destruct i as [|i]; cbn [nth_error]; [f_equal; f_equal; lia|].
  rewrite IH. destruct (nth_error l i); [|reflexivity]. f_equal. f_equal. lia.
Qed.
Lemma concat_nth w : forall (m : list (list Z)) i j, rect w m -> i < length m -> j < w -> nth_error (concat m) (i * w + j) = Some (nth j (nth i m []) 0%Z).
Proof.
  induction m as [|r m IH]; intros i j Hr Hi Hj; [cbn in Hi; lia|]. apply Forall_cons_iff in Hr. destruct Hr as [H1 H2]. cbn [concat].
  destruct i as [|i].
  - cbn [nth Nat.mul plus]. rewrite nth_error_app1 by lia. apply nth_error_nth'. lia.
  - rewrite nth_error_app2 by nia. replace (S i * w + j - length r) with (i * w + j) by nia. cbn [nth]. apply IH; [exact H2|cbn in Hi; lia|exact Hj].
Qed.
Lemma concat_length w (m : list (list Z)) : rect w m -> length (concat m) = length m * w.
Proof. induction 1 as [|r m H1 H2 IH]; [reflexivity|]. cbn [concat length]. rewrite app_length, IH, H1. reflexivity. Qed.

Section Graph.
Context {C : Type}.
Variable cdec : forall a b : C, {a = b} + {a <> b}.
Variables (w R : nat) (uexp : list Z) (ucoeff : list C).
Hypothesis Hw : 0 < w.
Hypothesis Ue : NoDup uexp.
Hypothesis Uc : NoDup ucoeff.
Notation cv j := j.
Notation rv i := (w + i).
Notation ev i j := (w + R + (i * w + j)).
Notation xv k := (w + R + R * w + k).
Notation kv k := (w + R + R * w + length uexp + k).
Notation NN := (w + R + R * w + length uexp + length ucoeff).
Lemma ev_lt i j : i < R -> j < w -> i * w + j < R * w.
Proof. nia. Qed.

Section One.
Variables (m : list (list Z)) (cs : list C).
Hypothesis Hm : rect w m.
Hypothesis Hr : length m = R.
Hypothesis Hc : length cs = R.
Notation edges := (dread_edges cdec w m cs uexp ucoeff).
Definition edge_form (u v : nat) : Prop :=
  (exists i j, i < R /\ j < w /\ u = cv j /\ v = ev i j) \/
  (exists i j, i < R /\ j < w /\ u = rv i /\ v = ev i j) \/
  (exists i j k, i < R /\ j < w /\ nth_error uexp k = Some (nth j (nth i m []) 0%Z) /\ u = ev i j /\ v = xv k) \/
  (exists i k, i < R /\ nth_error ucoeff k = nth_error cs i /\ u = kv k /\ v = rv i).
Lemma edge_iff u v : In (u, v) edges <-> edge_form u v.
Proof.
  unfold dread_edges. rewrite Hr. rewrite !in_app_iff. unfold edge_form. 
  match goal with |- ?a1 \/ ?a2 \/ ?a3 \/ ?a4 <-> ?b1 \/ ?b2 \/ ?b3 \/ ?b4 => cut ((a1 <-> b1) /\ (a2 <-> b2) /\ (a3 <-> b3) /\ (a4 <-> b4)); [tauto|] end.
  split; [|split; [|split]].
  - rewrite in_flat_map. split.
    + intros [c [H1 H2]]. apply in_map_iff in H2. destruct H2 as [r [H2 H3]]. apply in_seq in H1. apply in_seq in H3. injection H2 as <- <-. exists r, c. repeat split; lia.
    + intros [i [j [Hi [Hj [-> ->]]]]]. exists j. split; [apply in_seq; lia|]. apply in_map_iff. exists i. split; [f_equal; lia|apply in_seq; lia].
  - rewrite in_flat_map. split.
    + intros [r [H1 H2]]. apply in_map_iff in H2. destruct H2 as [c [H2 H3]]. apply in_seq in H1. apply in_seq in H3. injection H2 as <- <-. exists r, c. repeat split; lia.
    + intros [i [j [Hi [Hj [-> ->]]]]]. exists i. split; [apply in_seq; lia|]. apply in_map_iff. exists j. split; [f_equal; lia|apply in_seq; lia].
  - rewrite in_flat_map. rewrite <- Hr, <- (concat_length w m Hm), Hr. split.
    + intros [q [H1 H2]]. apply In_nth_error in H1. destruct H1 as [p H1]. rewrite nth_error_combine_seq in H1.
      destruct (nth_error (concat m) p) as [x|] eqn:Ex; [|discriminate]. injection H1 as <-. cbn [fst snd] in H2.
      destruct (index_of Z.eq_dec x uexp) as [k|] eqn:Ei; [|destruct H2]. destruct H2 as [H2|[]]. injection H2 as <- <-. apply index_of_nodup in Ei; [|exact Ue].
      assert (Hp : p < R * w). { rewrite <- Hr, <- (concat_length w m Hm). apply nth_error_Some. congruence. }
      exists (p / w), (p mod w), k. assert (Hd := Nat.div_mod p w ltac:(lia)). assert (Hmod := Nat.mod_upper_bound p w ltac:(lia)).
      assert (Hdiv : p / w < R) by (apply Nat.div_lt_upper_bound; lia).
      assert (Hpe : p / w * w + p mod w = p) by lia. rewrite Hpe.
      split; [exact Hdiv|]. split; [exact Hmod|]. split; [|rewrite (concat_length w m Hm), Hr; split; [reflexivity|reflexivity]].
      rewrite Ei, <- Ex, <- Hpe at 1. apply concat_nth; [exact Hm|lia|exact Hmod].
    + intros [i [j [k [Hi [Hj [Hk [-> ->]]]]]]]. exists (i * w + j, nth j (nth i m []) 0%Z). split.
      * apply (nth_error_In _ (i * w + j)). rewrite nth_error_combine_seq, concat_nth by (try exact Hm; lia). reflexivity.
      * cbn [fst snd]. apply (index_of_nodup Z.eq_dec) in Hk; [|exact Ue]. rewrite Hk. left. rewrite (concat_length w m Hm), Hr. reflexivity.
  - rewrite in_flat_map. split.
    + intros [k [H1 H2]]. apply in_flat_map in H2. destruct H2 as [q [H2 H3]]. apply In_nth_error in H2. destruct H2 as [i H2]. rewrite <- Hc in H2 at 1. rewrite nth_error_combine_seq in H2.
      destruct (nth_error cs i) as [x|] eqn:Ex; [|discriminate]. injection H2 as <-. cbn [fst snd] in H3. destruct (nth_error ucoeff k) as [u0|] eqn:Eu; [|destruct H3].
      destruct (cdec x u0) as [->|]; [|destruct H3]. destruct H3 as [H3|[]]. injection H3 as <- <-. exists i, k. split; [rewrite <- Hc; apply nth_error_Some; congruence|]. repeat split; congruence.
    + intros [i [k [Hi [Hk [-> ->]]]]]. destruct (nth_error cs i) as [x|] eqn:Ex; [|apply nth_error_None in Ex; lia]. exists k.
      split; [apply in_seq; assert (k < length ucoeff) by (apply nth_error_Some; congruence); lia|]. apply in_flat_map. exists (i, x). split.
      * apply (nth_error_In _ i). rewrite <- Hc at 1. rewrite nth_error_combine_seq, Ex. reflexivity.
      * rewrite Hk. cbn [fst snd]. destruct (cdec x x) as [_|n]; [left; reflexivity|congruence].
Qed.
Lemma edge_ce u i j : u < w -> i < R -> j < w -> (adjacent edges u (ev i j) <-> u = j).
Proof.
  intros Hu Hi Hj. assert (Hlt := ev_lt i j Hi Hj). unfold adjacent. rewrite !edge_iff. unfold edge_form. split.
  - intros [[H|[H|[H|H]]]|[H|[H|[H|H]]]].
    + destruct H as [i' [j' [Hi' [Hj' [-> H]]]]]. destruct (elem_inj w i j i' j' Hj Hj' ltac:(lia)) as [_ ->]. reflexivity.
    + destruct H as [i' [j' H]]. lia.
    + destruct H as [i' [j' [k H]]]. lia.
    + destruct H as [i' [k H]]. lia.
    + destruct H as [i' [j' H]]. lia.
    + destruct H as [i' [j' H]]. lia.
    + destruct H as [i' [j' [k H]]]. lia.
    + destruct H as [i' [k H]]. lia.
  - intros ->. left. left. exists i, j. auto.
Qed.
Lemma edge_re i' i j : i' < R -> i < R -> j < w -> (adjacent edges (rv i') (ev i j) <-> i' = i).
Proof.
  intros Hi' Hi Hj. assert (Hlt := ev_lt i j Hi Hj). unfold adjacent. rewrite !edge_iff. unfold edge_form. split.
  - intros [[H|[H|[H|H]]]|[H|[H|[H|H]]]].
    + destruct H as [i2 [j2 H]]. lia.
    + destruct H as [i2 [j2 [Hi2 [Hj2 [H1 H2]]]]]. destruct (elem_inj w i j i2 j2 Hj Hj2 ltac:(lia)) as [-> _]. lia.
    + destruct H as [i2 [j2 [k H]]]. lia.
    + destruct H as [i2 [k H]]. lia.
    + destruct H as [i2 [j2 H]]. lia.
    + destruct H as [i2 [j2 H]]. lia.
    + destruct H as [i2 [j2 [k H]]]. lia.
    + destruct H as [i2 [k H]]. lia.
  - intros ->. left. right. left. exists i, j. auto.
Qed.
Lemma edge_ex i j k : i < R -> j < w -> k < length uexp -> (adjacent edges (ev i j) (xv k) <-> nth_error uexp k = Some (nth j (nth i m []) 0%Z)).
Proof.
  intros Hi Hj Hk. assert (Hlt := ev_lt i j Hi Hj). unfold adjacent. rewrite !edge_iff. unfold edge_form. split.
  - intros [[H|[H|[H|H]]]|[H|[H|[H|H]]]].
    + destruct H as [i2 [j2 H]]. assert (Hlt2 := ev_lt i2 j2 ltac:(tauto) ltac:(tauto)). lia.
    + destruct H as [i2 [j2 H]]. assert (Hlt2 := ev_lt i2 j2 ltac:(tauto) ltac:(tauto)). lia.
    + destruct H as [i2 [j2 [k2 [Hi2 [Hj2 [H0 [H1 H2]]]]]]]. destruct (elem_inj w i j i2 j2 Hj Hj2 ltac:(lia)) as [-> ->]. replace k with k2 by lia. exact H0.
    + destruct H as [i2 [k2 H]]. lia.
    + destruct H as [i2 [j2 H]]. lia.
    + destruct H as [i2 [j2 H]]. lia.
    + destruct H as [i2 [j2 [k2 H]]]. assert (Hlt2 := ev_lt i2 j2 ltac:(tauto) ltac:(tauto)). lia.
    + destruct H as [i2 [k2 H]]. lia.
  - intros H. left. right. right. left. exists i, j, k. auto.
Qed.
Lemma edge_kr i k : i < R -> k < length ucoeff -> (adjacent edges (kv k) (rv i) <-> nth_error ucoeff k = nth_error cs i).
Proof.
  intros Hi Hk. unfold adjacent. rewrite !edge_iff. unfold edge_form. split.
  - intros [[H|[H|[H|H]]]|[H|[H|[H|H]]]].
    + destruct H as [i2 [j2 H]]. lia.
    + destruct H as [i2 [j2 H]]. lia.
    + destruct H as [i2 [j2 [k2 H]]]. lia.
    + destruct H as [i2 [k2 [Hi2 [H0 [H1 H2]]]]]. replace i with i2 by lia. replace k with k2 by lia. exact H0.
    + destruct H as [i2 [j2 H]]. lia.
    + destruct H as [i2 [j2 H]]. assert (Hlt2 := ev_lt i2 j2 ltac:(tauto) ltac:(tauto)). lia.
    + destruct H as [i2 [j2 [k2 H]]]. lia.
    + destruct H as [i2 [k2 H]]. lia.
  - intros H. left. right. right. right. exists i, k. auto.
Qed.
End One.

Lemma colour_col m v : length m = R -> (dread_colour w m v = 0 <-> v < w).
Proof. intros Hl. unfold dread_colour. rewrite Hl. destruct (Nat.ltb_spec v w), (Nat.ltb_spec v (w + R)), (Nat.ltb_spec v (w + R + R * w)); lia. Qed.
Lemma colour_row m v : length m = R -> (dread_colour w m v = 1 <-> w <= v < w + R).
Proof. intros Hl. unfold dread_colour. rewrite Hl. destruct (Nat.ltb_spec v w), (Nat.ltb_spec v (w + R)), (Nat.ltb_spec v (w + R + R * w)); lia. Qed.
Lemma colour_elem m v : length m = R -> (dread_colour w m v = 2 <-> w + R <= v < w + R + R * w).
Proof. intros Hl. unfold dread_colour. rewrite Hl. destruct (Nat.ltb_spec v w), (Nat.ltb_spec v (w + R)), (Nat.ltb_spec v (w + R + R * w)); lia. Qed.
Lemma colour_rest m v k : length m = R -> (dread_colour w m v = 3 + k <-> v = w + R + R * w + k).
Proof. intros Hl. unfold dread_colour. rewrite Hl. destruct (Nat.ltb_spec v w), (Nat.ltb_spec v (w + R)), (Nat.ltb_spec v (w + R + R * w)); lia. Qed.

Section Two.
Variables (ma mb : list (list Z)) (ca cb : list C).
Hypothesis Ha : rect w ma. Hypothesis Hb : rect w mb.
Hypothesis La : length ma = R. Hypothesis Lb : length mb = R.
Hypothesis Ka : length ca = R. Hypothesis Kb : length cb = R.
Hypothesis Ea : forall r x, In r ma -> In x r -> In x uexp. Hypothesis Eb : forall r x, In r mb -> In x r -> In x uexp.
Hypothesis Ca : forall c, In c ca -> In c ucoeff. Hypothesis Cb : forall c, In c cb -> In c ucoeff.
Notation Ga := (dread_edges cdec w ma ca uexp ucoeff).
Notation Gb := (dread_edges cdec w mb cb uexp ucoeff).
Definition entry (m : list (list Z)) (i j : nat) : Z := nth j (nth i m []) 0%Z.
Lemma entry_in m i j : rect w m -> (forall r x, In r m -> In x r -> In x uexp) -> i < length m -> j < w -> exists k, k < length uexp /\ nth_error uexp k = Some (entry m i j).
Proof.
  intros Hm He Hi Hj. assert (Hin : In (nth i m []) m) by (apply nth_In, Hi). assert (Hx : In (entry m i j) uexp).
  { apply (He _ _ Hin). unfold entry. apply nth_In. unfold rect in Hm. rewrite Forall_forall in Hm. rewrite (Hm _ Hin). exact Hj. }
  apply In_nth_error in Hx. destruct Hx as [k Hk]. exists k. split; [apply nth_error_Some; congruence|exact Hk].
Qed.

Lemma iso_entries f : graph_isomorphism NN (dread_colour w mb) (dread_colour w ma) Gb Ga f ->
  exists sigma rho, (forall j, j < w -> sigma j < w) /\ (forall i, i < R -> rho i < R) /\
    (forall j j', j < w -> j' < w -> sigma j = sigma j' -> j = j') /\ (forall i i', i < R -> i' < R -> rho i = rho i' -> i = i') /\
    (forall i j, i < R -> j < w -> entry mb i j = entry ma (rho i) (sigma j)) /\ (forall i, i < R -> nth_error cb i = nth_error ca (rho i)).
Proof.
  intros [Fb [Fi [Fc Fe]]]. exists f, (fun i => f (rv i) - w).
  assert (Hcol : forall j, j < w -> f j < w).
  { intros j Hj. apply (colour_col ma _ La). rewrite Fc by lia. apply (colour_col mb _ Lb), Hj. }
  assert (Hrow : forall i, i < R -> w <= f (rv i) < w + R).
  { intros i Hi. apply (colour_row ma _ La). rewrite Fc by lia. apply (colour_row mb _ Lb). lia. }
  assert (Hrest : forall k, k < length uexp + length ucoeff -> f (w + R + R * w + k) = w + R + R * w + k).
  { intros k Hk. apply (colour_rest ma _ k La). rewrite Fc by lia. apply (colour_rest mb _ k Lb). reflexivity. }
  assert (Hel : forall i j, i < R -> j < w -> f (ev i j) = ev (f (rv i) - w) (f j)).
  { intros i j Hi Hj. assert (Hlt := ev_lt i j Hi Hj). assert (Hfe : w + R <= f (ev i j) < w + R + R * w).
    { apply (colour_elem ma _ La). rewrite Fc by lia. apply (colour_elem mb _ Lb). lia. }
    set (p := f (ev i j) - (w + R)). assert (Hp : p < R * w) by (unfold p; lia).
    assert (Hd := Nat.div_mod p w ltac:(lia)). assert (Hmod := Nat.mod_upper_bound p w ltac:(lia)). assert (Hdiv : p / w < R) by (apply Nat.div_lt_upper_bound; lia).
    assert (Hfp : f (ev i j) = ev (p / w) (p mod w)) by (unfold p in *; lia).
    assert (H1 : adjacent Gb j (ev i j)) by (apply (edge_ce mb cb Hb Lb Kb); auto).
    apply Fe in H1; [|lia|lia]. rewrite Hfp in H1. apply (edge_ce ma ca Ha La Ka) in H1; [|apply Hcol, Hj|exact Hdiv|exact Hmod].
    assert (H2 : adjacent Gb (rv i) (ev i j)) by (apply (edge_re mb cb Hb Lb Kb); auto).
    apply Fe in H2; [|lia|lia]. rewrite Hfp in H2. assert (Hri := Hrow i Hi). replace (f (rv i)) with (rv (f (rv i) - w)) in H2 by lia.
    apply (edge_re ma ca Ha La Ka) in H2; [|lia|exact Hdiv|exact Hmod]. rewrite Hfp. rewrite H2, H1. reflexivity. }
  assert (Hrho : forall i, i < R -> f (rv i) - w < R) by (intros i Hi; specialize (Hrow i Hi); lia).
  split; [exact Hcol|]. split; [exact Hrho|]. split; [|split; [|split]].
  - intros j j' Hj Hj' H. apply Fi; [lia|lia|exact H].
  - intros i i' Hi Hi' H. assert (A := Hrow i Hi). assert (A' := Hrow i' Hi'). assert (rv i = rv i') by (apply Fi; lia). lia.
  - intros i j Hi Hj. destruct (entry_in mb i j Hb Eb ltac:(lia) Hj) as [k [Hk Hx]]. assert (Hlt := ev_lt i j Hi Hj).
    assert (H1 : adjacent Gb (ev i j) (xv k)) by (apply (edge_ex mb cb Hb Lb Kb); auto).
    apply Fe in H1; [|lia|lia]. rewrite Hrest in H1 by lia. rewrite Hel in H1 by assumption. apply (edge_ex ma ca Ha La Ka) in H1; [|apply Hrho, Hi|apply Hcol, Hj|exact Hk].
    unfold entry in *. congruence.
  - intros i Hi. destruct (nth_error cb i) as [x|] eqn:Ex; [|apply nth_error_None in Ex; lia]. assert (Hx := Cb x (nth_error_In _ _ Ex)). apply In_nth_error in Hx. destruct Hx as [k Hk].
    assert (Hkl : k < length ucoeff) by (apply nth_error_Some; congruence).
    assert (H1 : adjacent Gb (kv k) (rv i)) by (apply (edge_kr mb cb Hb Lb Kb); [exact Hi|exact Hkl|congruence]).
    apply Fe in H1; [|lia|lia]. replace (kv k) with (w + R + R * w + (length uexp + k)) in H1 by lia. rewrite Hrest in H1 by lia.
    assert (Hri := Hrow i Hi). replace (f (rv i)) with (rv (f (rv i) - w)) in H1 by lia. rewrite Nat.add_assoc in H1. apply (edge_kr ma ca Ha La Ka) in H1; [|apply Hrho, Hi|exact Hkl]. congruence.
Qed.
Lemma combine_entries (cs : list C) m d : length cs = R -> length m = R -> rect w m ->
  combine cs m = map (fun i => (nth i cs d, map (entry m i) (seq 0 w))) (seq 0 R).
Proof.
  intros H1 H2 Hm. apply (nth_ext _ _ (d, []) (nth 0 cs d, map (entry m 0) (seq 0 w))); [rewrite combine_length, map_length, seq_length; lia|].
  rewrite combine_length. intros i Hi. rewrite combine_nth by congruence. rewrite (map_nth (fun i => (nth i cs d, map (entry m i) (seq 0 w))) (seq 0 R) 0). rewrite seq_nth by lia. cbn [plus]. f_equal.
  unfold entry. apply list_mapseq. unfold rect in Hm. rewrite Forall_forall in Hm. apply Hm, nth_In. lia.
Qed.
Lemma iso_to_perm f : graph_isomorphism NN (dread_colour w mb) (dread_colour w ma) Gb Ga f -> same_up_to_order w ca ma cb mb.
Proof.
  intros Hf. destruct (iso_entries f Hf) as [sigma [rho [S1 [R1 [S2 [R2 [He Hco]]]]]]]. exists (map sigma (seq 0 w)). split; [apply inj_perm; assumption|].
  destruct (Nat.eq_dec R 0) as [Z0|NZ].
  { assert (cb = []) by (destruct cb; [reflexivity|cbn in Kb; lia]). assert (ca = []) by (destruct ca; [reflexivity|cbn in Ka; lia]). subst. reflexivity. }
  assert (Hd : exists d, nth_error ca 0 = Some d) by (destruct (nth_error ca 0) eqn:E0; [eauto|apply nth_error_None in E0; lia]). destruct Hd as [d _].
  rewrite (combine_entries cb mb d Kb Lb Hb), (combine_entries ca ma d Ka La Ha). rewrite map_map. cbn [fst snd].
  rewrite <- (inj_perm rho R R1 R2) at 2. rewrite map_map.
  match goal with |- Permutation ?l ?l' => replace l with l'; [reflexivity|] end. apply map_ext_in. intros i Hi. apply in_seq in Hi. f_equal.
  - specialize (Hco i ltac:(lia)). unfold entry. erewrite nth_error_nth; [|symmetry; rewrite <- Hco; symmetry; apply nth_error_nth'; lia]. reflexivity.
  - rewrite map_map. apply map_ext_in. intros j Hj. apply in_seq in Hj. rewrite He by lia. rewrite nth_mapseq by (apply S1; lia). reflexivity.
Qed.

Lemma perm_to_iso : same_up_to_order w ca ma cb mb -> exists f, graph_isomorphism NN (dread_colour w mb) (dread_colour w ma) Gb Ga f.
Proof.
  intros [tau [Ht Hp]].
  assert (HR : exists rho, (forall i, i < R -> rho i < R) /\ (forall i i', i < R -> i' < R -> rho i = rho i' -> i = i') /\
    (forall i j, i < R -> j < w -> entry mb i j = entry ma (rho i) (nth j tau 0)) /\ (forall i, i < R -> nth_error cb i = nth_error ca (rho i))).
  { destruct (Nat.eq_dec R 0) as [Z0|NZ]; [exists (fun i => i); repeat split; intros; lia|].
    assert (Hd : exists d, nth_error ca 0 = Some d) by (destruct (nth_error ca 0) eqn:E0; [eauto|apply nth_error_None in E0; lia]). destruct Hd as [d _].
    apply Permutation_sym in Hp. apply (Permutation_nth _ _ (d, [])) in Hp. destruct Hp as [_ [rho [B1 [B2 B3]]]]. rewrite map_length, combine_length, La, Ka, Nat.min_id in *. unfold bFun in B1. unfold bInjective in B2.
    assert (Hval : forall i, i < R -> nth i cb d = nth (rho i) ca d /\ nth i mb [] = map (fun j => nth j (nth (rho i) ma []) 0%Z) tau).
    { intros i Hi. specialize (B3 i Hi). rewrite combine_nth in B3 by congruence.
      rewrite (nth_indep _ (d, []) ((fun q : C * list Z => (fst q, map (fun j => nth j (snd q) 0%Z) tau)) (d, []))) in B3 by (rewrite map_length, combine_length, La, Ka, Nat.min_id; apply B1, Hi).
      rewrite (map_nth (fun q : C * list Z => (fst q, map (fun j => nth j (snd q) 0%Z) tau))) in B3. rewrite combine_nth in B3 by congruence. cbn [fst snd] in B3. injection B3 as E1 E2. auto. }
    exists rho. split; [exact B1|]. split; [intros; apply B2; assumption|]. split.
    - intros i j Hi Hj. unfold entry. destruct (Hval i Hi) as [_ ->]. rewrite (nth_indep _ 0%Z (nth 0 (nth (rho i) ma []) 0%Z)) by (rewrite map_length, (Permutation_length Ht), seq_length; exact Hj).
      apply (map_nth (fun j => nth j (nth (rho i) ma []) 0%Z)).
    - intros i Hi. destruct (Hval i Hi) as [E1 _]. rewrite !(nth_error_nth' _ d) by (rewrite ?Ka, ?Kb; auto). congruence. }
  destruct HR as [rho [R1 [R2 [He Hco]]]].
  assert (S1 : forall j, j < w -> nth j tau 0 < w) by (intros j Hj; apply (perm_seq_bound tau w Ht j Hj)).
  assert (S2 : forall j j', j < w -> j' < w -> nth j tau 0 = nth j' tau 0 -> j = j').
  { intros j j' Hj Hj' H. assert (Hn : NoDup tau) by (eapply Permutation_NoDup; [symmetry; exact Ht|apply seq_NoDup]). rewrite NoDup_nth in Hn. apply (Hn j j'); [rewrite (Permutation_length Ht), seq_length; exact Hj|rewrite (Permutation_length Ht), seq_length; exact Hj'|exact H]. }
  set (f := fun v => if v <? w then nth v tau 0 else if v <? w + R then rv (rho (v - w)) else if v <? w + R + R * w then ev (rho ((v - (w + R)) / w)) (nth ((v - (w + R)) mod w) tau 0) else v).
  assert (F1 : forall j, j < w -> f j = nth j tau 0) by (intros j Hj; unfold f; destruct (Nat.ltb_spec j w); [reflexivity|lia]).
  assert (F2 : forall i, i < R -> f (rv i) = rv (rho i)).
  { intros i Hi. unfold f. destruct (Nat.ltb_spec (w + i) w); [lia|]. destruct (Nat.ltb_spec (w + i) (w + R)); [|lia]. do 2 f_equal. lia. }
  assert (F3 : forall i j, i < R -> j < w -> f (ev i j) = ev (rho i) (nth j tau 0)).
  { intros i j Hi Hj. assert (Hlt := ev_lt i j Hi Hj). unfold f. destruct (Nat.ltb_spec (ev i j) w); [lia|]. destruct (Nat.ltb_spec (ev i j) (w + R)); [lia|]. destruct (Nat.ltb_spec (ev i j) (w + R + R * w)); [|lia].
    replace (ev i j - (w + R)) with (i * w + j) by lia. rewrite Nat.div_add_l, (Nat.div_small j), Nat.add_0_r by lia. rewrite (Nat.add_comm (i * w) j), Nat.mod_add, Nat.mod_small by lia. lia. }
  assert (F4 : forall k, f (w + R + R * w + k) = w + R + R * w + k).
  { intros k. unfold f. destruct (Nat.ltb_spec (w + R + R * w + k) w); [lia|]. destruct (Nat.ltb_spec (w + R + R * w + k) (w + R)); [lia|]. destruct (Nat.ltb_spec (w + R + R * w + k) (w + R + R * w)); [lia|]. reflexivity. }
  assert (Cl : forall v, v < NN -> v < w \/ (exists i, i < R /\ v = rv i) \/ (exists i j, i < R /\ j < w /\ v = ev i j) \/ (exists k, k < length uexp + length ucoeff /\ v = w + R + R * w + k)).
  { intros v Hv. destruct (Nat.lt_ge_cases v w); [left; assumption|]. right. destruct (Nat.lt_ge_cases v (w + R)); [left; exists (v - w); split; lia|]. right.
    destruct (Nat.lt_ge_cases v (w + R + R * w)).
    - left. set (p := v - (w + R)). exists (p / w), (p mod w). assert (Hd := Nat.div_mod p w ltac:(lia)). assert (Hmod := Nat.mod_upper_bound p w ltac:(lia)).
      assert (Hdiv : p / w < R) by (apply Nat.div_lt_upper_bound; unfold p; lia). split; [exact Hdiv|]. split; [exact Hmod|]. unfold p in *. lia.
    - right. exists (v - (w + R + R * w)). lia. }
  clearbody f.
  assert (FC : forall v, v < NN -> f v < NN /\ dread_colour w ma (f v) = dread_colour w mb v).
  { intros v Hv. destruct (Cl v Hv) as [Hc|[[i [Hi ->]]|[[i [j [Hi [Hj ->]]]]|[k [Hk ->]]]]].
    - rewrite F1 by exact Hc. assert (A := S1 v Hc). split; [lia|]. transitivity 0; [apply (colour_col ma _ La), A|symmetry; apply (colour_col mb _ Lb), Hc].
    - rewrite F2 by exact Hi. assert (A := R1 i Hi). split; [lia|]. transitivity 1; [apply (colour_row ma _ La); lia|symmetry; apply (colour_row mb _ Lb); lia].
    - rewrite F3 by assumption. assert (A := ev_lt (rho i) (nth j tau 0) (R1 i Hi) (S1 j Hj)). assert (A' := ev_lt i j Hi Hj). split; [lia|]. transitivity 2; [apply (colour_elem ma _ La); lia|symmetry; apply (colour_elem mb _ Lb); lia].
    - rewrite F4. split; [lia|]. transitivity (3 + k); [apply (colour_rest ma _ k La); reflexivity|symmetry; apply (colour_rest mb _ k Lb); reflexivity]. }
  assert (FI : forall u v, u < NN -> v < NN -> f u = f v -> u = v).
  { intros u v Hu Hv Huv. assert (Hcol : dread_colour w mb u = dread_colour w mb v) by (rewrite <- (proj2 (FC u Hu)), <- (proj2 (FC v Hv)), Huv; reflexivity).
    destruct (Cl u Hu) as [Hc|[[i [Hi ->]]|[[i [j [Hi [Hj ->]]]]|[k [Hk ->]]]]].
    - rewrite (proj2 (colour_col mb u Lb) Hc) in Hcol. symmetry in Hcol. apply (colour_col mb _ Lb) in Hcol. rewrite !F1 in Huv by assumption. apply S2; assumption.
    - rewrite (proj2 (colour_row mb (rv i) Lb) ltac:(lia)) in Hcol. symmetry in Hcol. apply (colour_row mb _ Lb) in Hcol. replace v with (rv (v - w)) in * by lia. rewrite !F2 in Huv by lia.
      assert (i = v - w) by (apply R2; lia). lia.
    - assert (A := ev_lt i j Hi Hj). rewrite (proj2 (colour_elem mb (ev i j) Lb) ltac:(lia)) in Hcol. symmetry in Hcol. apply (colour_elem mb _ Lb) in Hcol.
      destruct (Cl v Hv) as [Hc'|[[i' [Hi' ->]]|[[i' [j' [Hi' [Hj' ->]]]]|[k' [Hk' ->]]]]]; try lia. rewrite !F3 in Huv by assumption.
      destruct (elem_inj w (rho i) (nth j tau 0) (rho i') (nth j' tau 0) (S1 j Hj) (S1 j' Hj') ltac:(lia)) as [E1 E2]. rewrite (R2 i i' Hi Hi' E1), (S2 j j' Hj Hj' E2). reflexivity.
    - rewrite (proj2 (colour_rest mb (w + R + R * w + k) k Lb) eq_refl) in Hcol. symmetry in Hcol. apply (colour_rest mb _ k Lb) in Hcol. congruence. }
  exists f. split; [intros v Hv; apply FC, Hv|]. split; [exact FI|]. split; [intros v Hv; apply FC, Hv|].
  assert (FE : forall u v, In (u, v) Gb -> In (f u, f v) Ga).
  { intros u v H. apply (edge_iff mb cb Hb Lb Kb) in H. apply (edge_iff ma ca Ha La Ka). destruct H as [H|[H|[H|H]]].
    - destruct H as [i [j [Hi [Hj [-> ->]]]]]. left. exists (rho i), (nth j tau 0). rewrite F1, F3 by assumption. auto.
    - destruct H as [i [j [Hi [Hj [-> ->]]]]]. right. left. exists (rho i), (nth j tau 0). rewrite F2, F3 by assumption. auto.
    - destruct H as [i [j [k [Hi [Hj [Hk [-> ->]]]]]]]. right. right. left. exists (rho i), (nth j tau 0), k. rewrite F3, F4 by assumption. repeat split; auto. rewrite Hk. f_equal. apply He; assumption.
    - destruct H as [i [k [Hi [Hk [-> ->]]]]]. right. right. right. exists (rho i), k. rewrite F2 by assumption. rewrite <- (Nat.add_assoc _ (length uexp) k), F4. split; [auto|]. split; [rewrite Hk; apply Hco, Hi|]. split; [lia|reflexivity]. }
  assert (FE' : forall u v, u < NN -> v < NN -> In (f u, f v) Ga -> In (u, v) Gb).
  { intros u v Hu Hv H. apply (edge_iff ma ca Ha La Ka) in H. apply (edge_iff mb cb Hb Lb Kb).
    assert (Cu := proj2 (FC u Hu)). assert (Cv := proj2 (FC v Hv)).
    assert (U1 : f u < w -> u < w) by (intros A; apply (colour_col mb _ Lb); rewrite <- Cu; apply (colour_col ma _ La), A).
    assert (U2 : forall x, x < NN -> w <= f x < w + R -> exists i, i < R /\ x = rv i).
    { intros x Hx A. apply (colour_row ma _ La) in A. rewrite (proj2 (FC x Hx)) in A. apply (colour_row mb _ Lb) in A. exists (x - w). lia. }
    assert (U3 : forall x, x < NN -> w + R <= f x < w + R + R * w -> exists i j, i < R /\ j < w /\ x = ev i j).
    { intros x Hx A. apply (colour_elem ma _ La) in A. rewrite (proj2 (FC x Hx)) in A. apply (colour_elem mb _ Lb) in A.
      destruct (Cl x Hx) as [Hc|[[i [Hi ->]]|[He'|[k [Hk ->]]]]]; try lia. exact He'. }
    assert (U4 : forall x k, x < NN -> f x = w + R + R * w + k -> x = w + R + R * w + k).
    { intros x k Hx A. apply (colour_rest ma _ k La) in A. rewrite (proj2 (FC x Hx)) in A. apply (colour_rest mb _ k Lb) in A. exact A. }
    destruct H as [H|[H|[H|H]]].
    - destruct H as [i [j [Hi [Hj [E1 E2]]]]]. assert (A := ev_lt i j Hi Hj). assert (Hu1 := U1 ltac:(lia)). destruct (U3 v Hv ltac:(lia)) as [i' [j' [Hi' [Hj' ->]]]].
      rewrite F1 in E1 by exact Hu1. rewrite F3 in E2 by assumption. destruct (elem_inj w (rho i') (nth j' tau 0) i j (S1 j' Hj') Hj ltac:(lia)) as [G1 G2].
      left. exists i', j'. repeat split; try assumption. apply S2; congruence.
    - destruct H as [i [j [Hi [Hj [E1 E2]]]]]. assert (A := ev_lt i j Hi Hj). destruct (U2 u Hu ltac:(lia)) as [i0 [Hi0 ->]]. destruct (U3 v Hv ltac:(lia)) as [i' [j' [Hi' [Hj' ->]]]].
      rewrite F2 in E1 by exact Hi0. rewrite F3 in E2 by assumption. destruct (elem_inj w (rho i') (nth j' tau 0) i j (S1 j' Hj') Hj ltac:(lia)) as [G1 G2].
      right. left. exists i', j'. repeat split; try assumption. f_equal. apply R2; try assumption. lia.
    - destruct H as [i [j [k [Hi [Hj [Hk [E1 E2]]]]]]]. assert (A := ev_lt i j Hi Hj). destruct (U3 u Hu ltac:(lia)) as [i' [j' [Hi' [Hj' ->]]]]. apply (U4 v k Hv) in E2. subst v.
      rewrite F3 in E1 by assumption. destruct (elem_inj w (rho i') (nth j' tau 0) i j (S1 j' Hj') Hj ltac:(lia)) as [G1 G2].
      right. right. left. exists i', j', k. repeat split; try assumption. rewrite Hk. f_equal. rewrite <- G1, <- G2. symmetry. apply (He i' j' Hi' Hj').
    - destruct H as [i [k [Hi [Hk [E1 E2]]]]]. destruct (U2 v Hv ltac:(lia)) as [i0 [Hi0 ->]]. rewrite <- Nat.add_assoc in E1. apply (U4 u _ Hu) in E1. subst u.
      rewrite F2 in E2 by exact Hi0. right. right. right. exists i0, k. repeat split; try assumption; [|lia]. rewrite Hk. rewrite (Hco i0 Hi0). f_equal. lia. }
  intros u v Hu Hv. unfold adjacent. split; intros [H|H]; [left|right|left|right]; auto.
Qed.
End Two.
End Graph.
