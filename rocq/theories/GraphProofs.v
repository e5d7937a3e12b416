(** Cuts, rows, and connectedness of the cut graph in terms of vertex names. *)
From Coq Require Import List Lia ZArith Bool Arith Permutation.
From Verif Require Import GraphSpec GraphConn GraphModel GraphMat MiscSpec MiscProofs.
Import ListNotations.

(** sublists of a duplicate-free list are given by membership *)
Definition inb (c : list nat) (i : nat) : bool := existsb (Nat.eqb i) c.
Lemma inb_in : forall c i, inb c i = true <-> In i c.
Proof. intros c i. unfold inb. rewrite existsb_exists. split; [intros (x & I & E); apply Nat.eqb_eq in E; subst; exact I|intros I; exists i; split; [exact I|apply Nat.eqb_refl]]. Qed.
Lemma inb_false : forall c i, inb c i = false <-> ~ In i c.
Proof. intros c i. rewrite <- inb_in. destruct (inb c i); split; congruence. Qed.
Lemma sublist_filter : forall {A} (f : A -> bool) l, sublist (filter f l) l.
Proof. intros A f. induction l as [|x l IH]; [constructor|]. cbn [filter]. destruct (f x); constructor; exact IH. Qed.
Lemma filter_sublist : forall (c l : list nat), NoDup l -> sublist c l -> filter (inb c) l = c.
Proof.
  intros c l Hn H. induction H as [|x c l H IH|x c l H IH]; [reflexivity| |].
  - apply NoDup_cons_iff in Hn. destruct Hn as [Hx Hn]. cbn [filter]. assert (E : inb (x :: c) x = true) by (apply inb_in; left; reflexivity). rewrite E. f_equal.
    rewrite <- (IH Hn) at 2. apply filter_ext_in. intros y Hy. unfold inb. cbn [existsb]. destruct (Nat.eqb_spec y x) as [->|]; [contradiction|reflexivity].
  - apply NoDup_cons_iff in Hn. destruct Hn as [Hx Hn]. cbn [filter]. destruct (inb c x) eqn:E; [|exact (IH Hn)].
    exfalso. apply inb_in in E. apply Hx, (sublist_in c l H), E.
Qed.
Lemma filter_split : forall {A} (f : A -> bool) l, Permutation l (filter f l ++ filter (fun x => negb (f x)) l).
Proof.
  intros A f. induction l as [|x l IH]; [constructor|]. cbn [filter]. destruct (f x); cbn [negb app]; [constructor; exact IH|].
  apply Permutation_cons_app, IH.
Qed.

Lemma filter_map_c : forall {A B} (f : B -> bool) (g : A -> B) l, filter f (map g l) = map g (filter (fun x => f (g x)) l).
Proof. intros A B f g. induction l as [|x l IH]; [reflexivity|]. cbn [map filter]. destruct (f (g x)); cbn [map]; rewrite IH; reflexivity. Qed.

(** exponent vectors of cuts *)
Definition expo (P : nat) (cut : list nat) : list Z := fold_left (fun r i => upd i 1%Z r) cut (repeat 0%Z P).
Lemma fold_upd_nth : forall cut r, Forall (fun i => i < length r) cut ->
  length (fold_left (fun r i => upd i 1%Z r) cut r) = length r /\
  forall i, nth i (fold_left (fun r i => upd i 1%Z r) cut r) 0%Z = if inb cut i then 1%Z else nth i r 0%Z.
Proof.
  induction cut as [|k cut IH]; intros r H; [split; reflexivity|]. apply Forall_cons_iff in H. destruct H as [Hk H]. cbn [fold_left].
  destruct (IH (upd k 1%Z r)) as [E1 E2]; [rewrite upd_length'; exact H|]. split; [rewrite E1; apply upd_length'|]. intros i. rewrite E2.
  rewrite nth_upd' by exact Hk. unfold inb. cbn [existsb]. destruct (existsb (Nat.eqb i) cut); [rewrite orb_true_r; reflexivity|]. rewrite orb_false_r. reflexivity.
Qed.
Lemma expo_nth : forall P cut, Forall (fun i => i < P) cut -> length (expo P cut) = P /\ forall i, nth i (expo P cut) 0%Z = if inb cut i then 1%Z else 0%Z.
Proof.
  intros P cut H. unfold expo. destruct (fold_upd_nth cut (repeat 0%Z P)) as [E1 E2]; [rewrite repeat_length; exact H|]. rewrite repeat_length in E1. split; [exact E1|].
  intros i. rewrite E2. destruct (inb cut i); [reflexivity|]. destruct (Nat.lt_ge_cases i P) as [L|L]; [apply nth_repeat|apply nth_overflow; rewrite repeat_length; exact L].
Qed.
Definition cut_of (row : list Z) : list nat := filter (fun i => Z.eqb (nth i row 0%Z) 1) (seq 0 (length row)).

Lemma in_comb : forall P r cut, In cut (combinations r (seq 0 P)) -> sublist cut (seq 0 P) /\ length cut = r /\ Forall (fun i => i < P) cut.
Proof.
  intros P r cut H. apply combinations_spec in H. destruct H as [H1 H2]. split; [exact H1|]. split; [exact H2|].
  apply Forall_forall. intros i I. apply (sublist_in _ _ H1) in I. apply in_seq in I. lia.
Qed.
Lemma cut_of_expo : forall P r cut, In cut (combinations r (seq 0 P)) -> cut_of (expo P cut) = cut.
Proof.
  intros P r cut H. destruct (in_comb P r cut H) as (H1 & _ & H3). destruct (expo_nth P cut H3) as [E1 E2]. unfold cut_of. rewrite E1.
  transitivity (filter (inb cut) (seq 0 P)); [|apply filter_sublist; [apply seq_NoDup|exact H1]].
  apply filter_ext. intros i. rewrite E2. destruct (inb cut i); reflexivity.
Qed.
Lemma degree_cut_of : forall row, Forall (fun e => e = 0%Z \/ e = 1%Z) row -> degree row = Z.of_nat (length (cut_of row)).
Proof.
  unfold cut_of. intros row H.
  induction H as [|e row He H IH]; [reflexivity|]. cbn [degree fold_right length]. fold (degree row). rewrite IH. rewrite <- cons_seq. cbn [filter]. change (nth 0 (e :: row) 0%Z) with e.
  rewrite <- seq_shift. assert (E : length (filter (fun i => Z.eqb (nth i (e :: row) 0%Z) 1) (map S (seq 0 (length row)))) = length (filter (fun i => Z.eqb (nth i row 0%Z) 1) (seq 0 (length row)))).
  { rewrite filter_map_c, map_length. reflexivity. }
  destruct He as [->| ->]; cbn [Z.eqb Pos.eqb length]; rewrite E; lia.
Qed.
Lemma expo_cut_of : forall (G : list (nat * nat)) row, cut_row G row ->
  expo (length G) (cut_of row) = row /\ In (cut_of row) (combinations (length (cut_of row)) (seq 0 (length G))).
Proof.
  intros G row [HL HF].
  assert (HB : Forall (fun i => i < length G) (cut_of row)).
  { apply Forall_forall. intros i I. apply filter_In in I. destruct I as [I _]. apply in_seq in I. lia. }
  destruct (expo_nth (length G) (cut_of row) HB) as [E1 E2]. split.
  - apply nth_ext with 0%Z 0%Z; [congruence|]. intros i Hi. rewrite E2. rewrite E1, <- HL in Hi.
    destruct (inb (cut_of row) i) eqn:Q.
    + apply inb_in, filter_In in Q. destruct Q as [_ Q]. apply Z.eqb_eq in Q. congruence.
    + apply inb_false in Q. rewrite Forall_forall in HF. destruct (HF (nth i row 0%Z) (nth_In row 0%Z Hi)) as [K|K]; [congruence|].
      exfalso. apply Q, filter_In. split; [apply in_seq; lia|apply Z.eqb_eq, K].
  - apply combinations_spec. split; [|reflexivity]. unfold cut_of. rewrite <- HL. apply sublist_filter.
Qed.
Lemma expo_row : forall (G : list (nat * nat)) r cut, In cut (combinations r (seq 0 (length G))) ->
  cut_row G (expo (length G) cut) /\ degree (expo (length G) cut) = Z.of_nat r.
Proof.
  intros G r cut H. destruct (in_comb _ _ _ H) as (H1 & H2 & H3). destruct (expo_nth _ cut H3) as [E1 E2].
  assert (C : cut_row G (expo (length G) cut)).
  { split; [exact E1|]. apply Forall_forall. intros e He. apply (In_nth _ _ 0%Z) in He. destruct He as (i & _ & <-). rewrite E2. destruct (inb cut i); auto. }
  split; [exact C|]. rewrite degree_cut_of by apply C. rewrite (cut_of_expo _ r) by exact H. rewrite H2. reflexivity.
Qed.

(** the lines that are kept *)
Lemma uncut_pos : forall (d : nat * nat) G row, length row = length G ->
  uncut row G = map (fun i => nth i G d) (filter (fun i => Z.eqb (nth i row 0%Z) 0) (seq 0 (length G))).
Proof.
  intros d. induction G as [|e G IH]; intros [|k row] H; cbn [length] in H; try lia; [reflexivity|]. unfold uncut in *. cbn [combine filter fst length].
  rewrite <- cons_seq. cbn [filter]. change (nth 0 (k :: row) 0%Z) with k.
  assert (Q : map (fun i => nth i (e :: G) d) (filter (fun i => Z.eqb (nth i (k :: row) 0%Z) 0) (seq 1 (length G))) = map snd (filter (fun p => Z.eqb (fst p) 0) (combine row G))).
  { rewrite (IH row) by lia. rewrite <- seq_shift. rewrite filter_map_c, map_map. reflexivity. }
  destruct (Z.eqb k 0); cbn [map snd]; [change (nth 0 (e :: G) d) with e; f_equal|]; symmetry; exact Q.
Qed.
Definition keep (P : nat) (cut : list nat) : list nat := filter (fun i => negb (inb cut i)) (seq 0 P).
Lemma keep_perm : forall P r cut, In cut (combinations r (seq 0 P)) -> Permutation (seq 0 P) (cut ++ keep P cut).
Proof.
  intros P r cut H. destruct (in_comb _ _ _ H) as (H1 & _ & _). unfold keep. rewrite <- (filter_sublist cut (seq 0 P) (seq_NoDup _ _) H1) at 1. 
  apply filter_split.
Qed.
Lemma keep_length : forall P r cut, In cut (combinations r (seq 0 P)) -> length (keep P cut) + r = P.
Proof.
  intros P r cut H. destruct (in_comb _ _ _ H) as (_ & H2 & _). pose proof (Permutation_length (keep_perm P r cut H)) as Q. rewrite app_length, seq_length in Q. lia.
Qed.
Lemma uncut_keep : forall (d : nat * nat) G r cut, In cut (combinations r (seq 0 (length G))) ->
  uncut (expo (length G) cut) G = map (fun i => nth i G d) (keep (length G) cut).
Proof.
  intros d G r cut H. destruct (in_comb _ _ _ H) as (_ & _ & H3). destruct (expo_nth _ cut H3) as [E1 E2].
  rewrite (uncut_pos d) by exact E1. f_equal. apply filter_ext. intros i. rewrite E2. destruct (inb cut i); reflexivity.
Qed.
Lemma uncut_incl : forall row G e, In e (uncut row G) -> In e G.
Proof.
  intros row G e H. unfold uncut in H. apply in_map_iff in H. destruct H as ([k e'] & E & H). cbn in E. subst e'. apply filter_In in H. destruct H as [H _].
  apply in_combine_r in H. exact H.
Qed.
Lemma uncut_length : forall G row, cut_row G row -> (Z.of_nat (length (uncut row G)) + degree row = Z.of_nat (length G))%Z.
Proof.
  intros G row H. destruct (expo_cut_of G row H) as [E I]. rewrite (degree_cut_of row) by apply H. rewrite <- E at 1.
  rewrite (uncut_keep (0, 0) G _ _ I), map_length. pose proof (keep_length _ _ _ I). lia.
Qed.

(** index_of *)
Lemma index_lt : forall v ord, In v ord -> index_of v ord < length ord.
Proof.
  intros v. induction ord as [|w ord IH]; intros H; [destruct H|]. cbn [index_of length]. destruct (Nat.eqb_spec v w); [lia|].
  destruct H as [H|H]; [congruence|]. specialize (IH H). lia.
Qed.
Lemma nth_index : forall v ord d, In v ord -> nth (index_of v ord) ord d = v.
Proof.
  intros v. induction ord as [|w ord IH]; intros d H; [destruct H|]. cbn [index_of]. destruct (Nat.eqb_spec v w); [symmetry; assumption|].
  destruct H as [H|H]; [congruence|]. apply IH, H.
Qed.
Lemma index_nth : forall ord i d, NoDup ord -> i < length ord -> index_of (nth i ord d) ord = i.
Proof.
  induction ord as [|w ord IH]; intros i d Hn Hi; cbn [length] in Hi; [lia|]. apply NoDup_cons_iff in Hn. destruct Hn as [Hw Hn]. destruct i as [|i]; cbn [nth index_of].
  - rewrite Nat.eqb_refl. reflexivity.
  - destruct (Nat.eqb_spec (nth i ord d) w) as [Q|Q]; [|f_equal; apply IH; [exact Hn|lia]].
    exfalso. apply Hw. rewrite <- Q. apply nth_In. lia.
Qed.

Section Graph.
Variable F : Fld.
Variable ord : list nat. Variable ils : list (car F * (nat * nat)). Variable els : list (list (car F) * nat).
Hypothesis Hnd : NoDup ord.
Hypothesis Hord : forall v, In v ord <-> vertex (map snd ils) v.
Hypothesis Hext : forall l, In l els -> In (snd l) ord.
Notation G := (map snd ils).
Notation P := (length ils).
Notation V := (length ord).
Notation N := (numvert F ord els).

(** name of the vertex with index [i]; an external vertex stands for the vertex it is attached to *)
Definition nm (i : nat) : nat := if Nat.ltb i V then nth i ord 0 else snd (nth (i - V) els ([], 0)).

Lemma lineP : forall i, i < P -> In (fst (nth i G (0, 0))) ord /\ In (snd (nth i G (0, 0))) ord.
Proof.
  intros i Hi. assert (I : In (nth i G (0, 0)) G) by (apply nth_In; rewrite map_length; exact Hi).
  split; apply Hord; exists (nth i G (0, 0)); auto.
Qed.
Lemma ends_eq : forall i, ends F ord ils i = (index_of (fst (nth i G (0, 0))) ord, index_of (snd (nth i G (0, 0))) ord).
Proof. intros i. unfold ends. rewrite <- (map_nth snd ils (f0, (0, 0)) i). reflexivity. Qed.
Lemma ext_in : forall i, i < length els -> In (snd (nth i els ([], 0))) ord.
Proof. intros i Hi. apply Hext, nth_In, Hi. Qed.

Lemma lines_below : forall ix, Forall (fun i => i < P) ix -> below N (map (ends F ord ils) ix).
Proof.
  intros ix H. unfold below. apply Forall_forall. intros e I. apply in_map_iff in I. destruct I as (i & <- & I). rewrite Forall_forall in H.
  rewrite ends_eq. destruct (lineP i (H i I)) as [Ha Hb]. cbn [fst snd]. unfold numvert, gV. pose proof (index_lt _ _ Ha). pose proof (index_lt _ _ Hb). lia.
Qed.
Lemma exts_below : below N (map (ext_ends F ord els) (seq 0 (length els))).
Proof.
  unfold below. apply Forall_forall. intros e I. apply in_map_iff in I. destruct I as (i & <- & I). apply in_seq in I. cbn [ext_ends fst snd].
  unfold numvert, gV. pose proof (index_lt _ _ (ext_in i ltac:(lia))). lia.
Qed.
Definition ext_lines := map (ext_ends F ord els) (seq 0 (length els)).
Definition kept_lines (cut : list nat) := map (ends F ord ils) (keep P cut).

Lemma cut_adj : forall r cut, In cut (combinations r (seq 0 P)) -> adj_matrix N (kept_lines cut ++ ext_lines) (cut_matrix F ord ils els cut).
Proof.
  intros r cut H. destruct (in_comb _ _ _ H) as (H1 & H2 & H3).
  assert (HK : Forall (fun i => i < P) (keep P cut)). { apply Forall_forall. intros i I. apply filter_In in I. destruct I as [I _]. apply in_seq in I. lia. }
  assert (HS : Forall (fun i => i < P) (seq 0 P)). { apply Forall_forall. intros i I. apply in_seq in I. lia. }
  split.
  { unfold below. apply Forall_app. split; [apply lines_below, HK|apply exts_below]. }
  intros i j Hi Hj. unfold cut_matrix, vertmatrix, gP.
  destruct (add_lines 1 N (map (ends F ord ils) (seq 0 P)) (identity N)) as [S1 K1]; [apply tab_square|apply lines_below, HS|].
  destruct (add_lines 1 N ext_lines _ S1 exts_below) as [S2 K2].
  destruct (add_lines (-1) N (map (ends F ord ils) cut) _ S2 (lines_below cut H3)) as [S3 K3].
  unfold ext_lines in K3. rewrite K3. unfold ext_lines in K2. rewrite K2, K1. unfold identity. rewrite mget_tab by assumption.
  rewrite (occs_perm _ _ i j (Permutation_map (ends F ord ils) (keep_perm P r cut H))).
  rewrite map_app, !occs_app. unfold kept_lines, ext_lines. lia.
Qed.

Lemma conn_names : forall r cut, In cut (combinations r (seq 0 P)) -> forall i j, i < N -> j < N ->
  (conn (kept_lines cut ++ ext_lines) i j <-> conn (uncut (expo P cut) G) (nm i) (nm j)).
Proof.
  intros r cut H i j Hi Hj. pose proof H as H'. rewrite <- (map_length snd ils) in H'. pose proof (uncut_keep (0, 0) G r cut H') as EU.
  rewrite map_length in EU. rewrite EU. clear EU H'.
  assert (Hk : forall k, In k (keep P cut) -> k < P). { intros k I. apply filter_In in I. destruct I as [I _]. apply in_seq in I. lia. }
  assert (NI : forall v, In v ord -> nm (index_of v ord) = v).
  { intros v I. unfold nm. pose proof (index_lt v ord I) as L. apply Nat.ltb_lt in L. rewrite L. apply nth_index, I. }
  assert (NE : forall k, k < length els -> nm (V + k) = snd (nth k els ([], 0))).
  { intros k Hk'. unfold nm. destruct (Nat.ltb_spec (V + k) V); [lia|]. replace (V + k - V) with k by lia. reflexivity. }
  split.
  - apply (conn_least _ (fun i j => conn _ (nm i) (nm j))); [intros; apply conn_refl|intros; apply conn_sym; assumption|intros u v w; apply conn_trans|].
    intros e I. apply in_app_iff in I. destruct I as [I|I]; apply in_map_iff in I; destruct I as (k & <- & I).
    + rewrite ends_eq. cbn [fst snd]. destruct (lineP k (Hk k I)) as [Ha Hb]. rewrite !NI by assumption. apply conn_edge.
      apply (in_map (fun i => nth i G (0, 0)) _ _ I).
    + apply in_seq in I. cbn [ext_ends fst snd]. unfold gV. rewrite NE by lia. rewrite NI by (apply ext_in; lia). apply conn_refl.
  - intros C. set (E := kept_lines cut ++ ext_lines).
    assert (Q : conn E (index_of (nm i) ord) (index_of (nm j) ord)).
    { revert C. generalize (nm i) (nm j). intros u v. apply (conn_least _ (fun u v => conn E (index_of u ord) (index_of v ord))); [intros; apply conn_refl|intros; apply conn_sym; assumption|intros ? ? ?; apply conn_trans|].
      intros e I. apply in_map_iff in I. destruct I as (k & <- & I). 
      change (conn E (fst (index_of (fst (nth k G (0, 0))) ord, index_of (snd (nth k G (0, 0))) ord)) (snd (index_of (fst (nth k G (0, 0))) ord, index_of (snd (nth k G (0, 0))) ord))).
      apply conn_edge. rewrite <- ends_eq. unfold E. apply in_app_iff. left. unfold kept_lines. apply in_map, I. }
    assert (B : forall i, i < N -> conn E i (index_of (nm i) ord)).
    { intros k Hk'. unfold nm. destruct (Nat.ltb_spec k V) as [L|L]; [rewrite index_nth by assumption; apply conn_refl|].
      unfold numvert, gV in Hk'. assert (X : In (ext_ends F ord els (k - V)) E). { unfold E, ext_lines. apply in_app_iff. right. apply in_map, in_seq. lia. }
      apply conn_edge in X. cbn [ext_ends fst snd] in X. unfold gV in X. replace (V + (k - V)) with k in X by lia. exact X. }
    apply (conn_trans E i _ j (B i Hi)). apply (conn_trans E _ _ j Q), conn_sym, B, Hj.
Qed.

Theorem cut_power_conn : forall r cut, In cut (combinations r (seq 0 P)) -> forall i j, i < N -> j < N ->
  (mget (cut_power F ord ils els cut) i j <> 0%Z <-> conn (uncut (expo P cut) G) (nm i) (nm j)).
Proof.
  intros r cut H i j Hi Hj. unfold cut_power. rewrite (adj_power N _ _ (cut_adj r cut H) i j Hi Hj). apply (conn_names r cut H i j Hi Hj).
Qed.

Lemma nm_ord : forall i, i < N -> In (nm i) ord.
Proof.
  intros i Hi. unfold nm, numvert, gV in *. destruct (Nat.ltb_spec i V) as [L|L]; [apply nth_In, L|]. apply ext_in. lia.
Qed.
Lemma nm_index : forall v, In v ord -> index_of v ord < N /\ nm (index_of v ord) = v.
Proof.
  intros v I. unfold nm, numvert, gV. pose proof (index_lt v ord I) as L. split; [lia|]. apply Nat.ltb_lt in L. rewrite L. apply nth_index, I.
Qed.
Lemma square_power : forall e M, square N (matrix_power N M e).
Proof. intros [|e] M; cbn [matrix_power]; apply tab_square. Qed.

Theorem connected_cut : forall r cut, In cut (combinations r (seq 0 P)) ->
  (contains_zero (cut_power F ord ils els cut) = false <-> forall u v, In u ord -> In v ord -> conn (uncut (expo P cut) G) u v).
Proof.
  intros r cut H. pose proof (square_power N (cut_matrix F ord ils els cut)) as HS. fold (cut_power F ord ils els cut) in HS. split.
  - intros Z u v Hu Hv. destruct (nm_index u Hu) as [L1 E1]. destruct (nm_index v Hv) as [L2 E2]. rewrite <- E1, <- E2.
    apply (cut_power_conn r cut H); [exact L1|exact L2|]. intros Q. assert (T : contains_zero (cut_power F ord ils els cut) = true); [|congruence].
    apply existsb_exists. exists (nth (index_of u ord) (cut_power F ord ils els cut) []). split; [apply nth_In; rewrite (proj1 HS); exact L1|].
    apply existsb_exists. exists 0%Z. split; [|reflexivity]. rewrite <- Q. unfold mget. apply nth_In. rewrite (square_row N); assumption.
  - intros C. destruct (contains_zero (cut_power F ord ils els cut)) eqn:Z; [|reflexivity]. exfalso. apply existsb_exists in Z. destruct Z as (rw & I & Z).
    apply existsb_exists in Z. destruct Z as (e & I2 & Z). apply Z.eqb_eq in Z. apply (In_nth _ _ []) in I. destruct I as (i & Hi & <-). apply (In_nth _ _ 0%Z) in I2.
    destruct I2 as (j & Hj & E). rewrite (proj1 HS) in Hi. rewrite (square_row N) in Hj by assumption.
    assert (K : mget (cut_power F ord ils els cut) i j <> 0%Z) by (apply (cut_power_conn r cut H); try assumption; apply C; apply nm_ord; assumption).
    apply K. unfold mget. congruence.
Qed.

Lemma inside_uncut : forall row, inside ord (uncut row G).
Proof. intros row e I. apply uncut_incl in I. split; apply Hord; exists e; auto. Qed.

(** spanning trees *)
Theorem tree_cut : forall row, V - 1 <= P -> V <> 0 ->
  (cut_row G row /\ spanning_tree G (uncut row G) <->
   exists cut, In cut (combinations (P - (V - 1)) (seq 0 P)) /\ contains_zero (cut_power F ord ils els cut) = false /\ row = expo P cut).
Proof.
  intros row HP HV. assert (Hne : ord <> []) by (intros ->; apply HV; reflexivity). split.
  - intros [HR [HC HA]].
    assert (C1 : forall u v, In u ord -> In v ord -> conn (uncut row G) u v) by (intros u v Hu Hv; apply HC; apply Hord; assumption).
    pose proof (ncomp_forest ord (uncut row G) Hnd (inside_uncut row) HA) as Q. rewrite (proj2 (ncomp_one ord (uncut row G) Hne) C1) in Q.
    pose proof (uncut_length G row HR) as QL. rewrite map_length in QL. destruct (expo_cut_of G row HR) as [E I]. rewrite map_length in E, I.
    pose proof (degree_cut_of row (proj2 HR)) as QD. exists (cut_of row).
    assert (Elen : length (cut_of row) = P - (V - 1)) by lia. rewrite Elen in I. split; [exact I|]. split; [|symmetry; exact E].
    apply (connected_cut _ _ I). rewrite E. exact C1.
  - intros (cut & I & Z & ->). pose proof I as I'. rewrite <- (map_length snd ils) in I' at 2. destruct (expo_row G _ cut I') as [HR HD]. rewrite map_length in HR, HD.
    pose proof (proj1 (connected_cut _ _ I) Z) as C. split; [exact HR|]. split; [intros u v Hu Hv; apply C; apply Hord; assumption|].
    apply (forest_ncomp ord); [exact Hnd|apply inside_uncut|]. rewrite (proj2 (ncomp_one ord _ Hne) C).
    pose proof (uncut_length G _ HR) as QL. rewrite map_length in QL. lia.
Qed.
End Graph.
