(** Properties C11-C14, C16, C17: helper functions of misc.py. *)
From Verif Require Import MiscProofs.
Local Open Scope nat_scope.

(** C11.  What the code guarantees for every [min_length] and [stride >= 1]. *)
Theorem C11_powerset_members : forall (A : Type) (s : list A) m st L, 0 < st -> powerset s m st = Some L ->
  forall c, In c L <-> sublist c s /\ exists k, length c = m + k * st.
Proof. exact @powerset_in. Qed.
Print Assumptions C11_powerset_members.
(** the documented behaviour (sizes are multiples of [stride], at least [min_length]) when [min_length] is itself a
    multiple of [stride], in particular for the default stride 1 and for the default min_length 0 *)
Theorem C11_powerset_multiples : forall (A : Type) (s : list A) m st L, 0 < st -> Nat.divide st m -> powerset s m st = Some L ->
  forall c, In c L <-> sublist c s /\ m <= length c /\ Nat.divide st (length c).
Proof.
  intros A s m st L Hst [q ->] HL c. rewrite (powerset_in s (q * st) st L Hst HL c). split.
  - intros [H (k & E)]. split; [exact H|]. split; [lia|]. exists (q + k). lia.
  - intros [H [Hm (k & E)]]. split; [exact H|]. exists (k - q). rewrite E in Hm |- *. nia.
Qed.
Print Assumptions C11_powerset_multiples.
(** otherwise the documented "multiple of stride" fails: powerset([1,2,3], 1, 2) contains [1] and lacks [1,2] *)
Theorem C11_powerset_multiples_refuted : exists L, powerset [1;2;3] 1 2 = Some L /\
  In [1] L /\ ~ Nat.divide 2 (length [1]) /\ sublist [1;2] [1;2;3] /\ ~ In [1;2] L.
Proof.
  eexists. split; [reflexivity|]. repeat split.
  - left. reflexivity.
  - intros [k H]. cbn in H. lia.
  - repeat constructor.
  - cbn. intros H. repeat (destruct H as [H|H]; [discriminate|]). exact H.
Qed.
Print Assumptions C11_powerset_multiples_refuted.
Theorem C11_powerset_once_in_order : forall (A : Type) (s : list A) m st L, 0 < st -> powerset s m st = Some L ->
  (NoDup s -> NoDup L) /\ StronglySorted (fun a b => length a <= length b) L.
Proof. intros A s m st L H1 H2. split; [apply powerset_NoDup with m st; assumption|apply powerset_lengths with s m st; assumption]. Qed.
Print Assumptions C11_powerset_once_in_order.
(** subsets are by position: the items are the images of the subsets of positions 0..n-1, whatever the entries *)
Theorem C11_powerset_by_position : forall (A : Type) (d : A) (s : list A) m st,
  powerset s m st = option_map (map (map (fun i => nth i s d))) (powerset (seq 0 (length s)) m st).
Proof. intros A d s m st. rewrite <- powerset_map, map_nth_seq. reflexivity. Qed.
Print Assumptions C11_powerset_by_position.
Theorem C11_combinations_lexicographic : forall n r, StronglySorted lex_lt_nat (combinations r (seq 0 n)).
Proof. intros n r. apply combinations_lex, seq_sorted. Qed.
Print Assumptions C11_combinations_lexicographic.
Example C11_ex : powerset [5;6;7] 0 2 = Some [[]; [5;6]; [5;7]; [6;7]] /\ NoDup [5;6;7] /\ Nat.divide 2 0.
Proof. split; [reflexivity|]. split; [repeat constructor; cbn; lia|exists 0; reflexivity]. Qed.

(** C12 *)
Theorem C12_rangecomb_members : forall low high,
  (length low <> length high -> rangecomb low high = None) /\
  (length low = length high -> exists L, rangecomb low high = Some L /\
     (forall v, In v L <-> length v = length low /\
        forall i, i < length low -> (nth i low 0 <= nth i v 0 <= nth i high 0)%Z) /\
     StronglySorted lexlt L /\ NoDup L).
Proof.
  intros low high. split; intros H.
  - unfold rangecomb. apply Nat.eqb_neq in H. rewrite H. reflexivity.
  - destruct (rangecomb low high) as [L|] eqn:E.
    + exists L. split; [reflexivity|]. split; [exact (rangecomb_in low high L E)|].
      pose proof (rangecomb_sorted _ _ _ E) as Hs. split; [exact Hs|].
      clear - Hs. induction Hs as [|a l Hs IH Ha]; constructor; [|exact IH].
      intros Hin. rewrite Forall_forall in Ha. exact (lexlt_irrefl a (Ha a Hin)).
    + unfold rangecomb in E. apply Nat.eqb_eq in H. rewrite H in E. discriminate.
Qed.
Print Assumptions C12_rangecomb_members.
Theorem C12_rangecomb_count : forall low high L, rangecomb low high = Some L ->
  length L = fold_right Nat.mul 1 (map (fun lh => Z.to_nat (snd lh + 1 - fst lh)) (combine low high)).
Proof.
  intros low high L H. unfold rangecomb in H. destruct (Nat.eqb _ _); [|discriminate]. injection H as <-.
  rewrite product_length, map_map. f_equal. apply map_ext. intros [l h]. cbn [fst snd]. unfold arange. rewrite map_length, seq_length. reflexivity.
Qed.
Print Assumptions C12_rangecomb_count.
Example C12_ex : rangecomb [-1;-2]%Z [0;0]%Z = Some [[-1;-2];[-1;-1];[-1;0];[0;-2];[0;-1];[0;0]]%Z.
Proof. reflexivity. Qed.

(** C13 *)
Theorem C13_missing_multiset_difference : forall (A : Type) (eqb : A -> A -> bool),
  (forall x y, eqb x y = true <-> x = y) -> forall full part m, missing eqb full part = Some m ->
  Permutation full (part ++ m) /\ sublist m full /\ m = drop_first eqb part full.
Proof.
  intros A eqb Hs full part m H. split; [|split].
  - exact (missing_perm eqb Hs part full m H).
  - exact (missing_sublist eqb Hs part full m H).
  - exact (missing_drop_first eqb Hs part full m H).
Qed.
Print Assumptions C13_missing_multiset_difference.
Theorem C13_missing_error : forall (A : Type) (eqb : A -> A -> bool),
  (forall x y, eqb x y = true <-> x = y) -> forall full part,
  missing eqb full part = None <-> ~ exists rest, Permutation full (part ++ rest).
Proof.
  intros A eqb Hs full part. split.
  - intros H (rest & P). destruct (missing_total eqb Hs part full rest P) as (m & E). congruence.
  - intros H. destruct (missing eqb full part) as [m|] eqn:E; [|reflexivity].
    exfalso. apply H. exists m. exact (missing_perm eqb Hs part full m E).
Qed.
Print Assumptions C13_missing_error.
Example C13_ex : missing Nat.eqb [1;2;3;1] [1;2] = Some [3;1] /\ missing Nat.eqb [1;2;3] [1;4] = None
  /\ (forall x y, Nat.eqb x y = true <-> x = y).
Proof. split; [reflexivity|]. split; [reflexivity|]. exact Nat.eqb_eq. Qed.

(** C14 *)
Theorem C14_all_pairs_matchings : forall (A : Type) (l : list A),
  (Nat.even (length l) = false -> all_pairs l = None) /\
  (Nat.even (length l) = true -> exists L, all_pairs l = Some L /\
     (forall m, In m L -> is_matching m l) /\
     (forall m, is_matching m l -> exists m', In m' L /\ same_matching m m')).
Proof.
  intros A l. unfold all_pairs. split; intros H; rewrite H; [reflexivity|]. eexists. split; [reflexivity|]. split.
  - intros m Hm. eapply all_pairs_rec_sound; [|exact H|exact Hm]. lia.
  - intros m Hm. apply all_pairs_rec_complete; [lia|exact Hm].
Qed.
Print Assumptions C14_all_pairs_matchings.
(** no matching is listed twice (distinct entries; for repeated entries use the positions, see below) *)
Theorem C14_all_pairs_once : forall (A : Type) (l : list A) L, NoDup l -> all_pairs l = Some L ->
  ForallOrdPairs (fun m n => ~ same_matching m n) L.
Proof.
  intros A l L Hn H. unfold all_pairs in H. destruct (Nat.even (length l)) eqn:E; [|discriminate]. injection H as <-.
  apply all_pairs_rec_distinct; [lia|exact E|exact Hn].
Qed.
Print Assumptions C14_all_pairs_once.
Theorem C14_all_pairs_by_position : forall (A : Type) (d : A) (l : list A),
  all_pairs l = option_map (map (map (fun p => (nth (fst p) l d, nth (snd p) l d)))) (all_pairs (seq 0 (length l))).
Proof.
  intros A d l. unfold all_pairs. rewrite seq_length. destruct (Nat.even (length l)); [|reflexivity]. cbn.
  f_equal. rewrite <- (map_nth_seq l d) at 2. rewrite (all_pairs_rec_map (fun i => nth i l d)). reflexivity.
Qed.
Print Assumptions C14_all_pairs_by_position.
Theorem C14_all_pairs_count : forall (A : Type) (l : list A) n L, length l = 2 * n -> all_pairs l = Some L ->
  length L = odd_double_factorial n.
Proof.
  intros A l n L Hl H. unfold all_pairs in H. destruct (Nat.even (length l)); [|discriminate]. injection H as <-.
  apply all_pairs_rec_count; [exact Hl|lia].
Qed.
Print Assumptions C14_all_pairs_count.
Example C14_ex : all_pairs [1;2;3;4] = Some [[(1,2);(3,4)];[(1,3);(2,4)];[(1,4);(2,3)]] /\ NoDup [1;2;3;4].
Proof. split; [reflexivity|]. repeat constructor; cbn; lia. Qed.

(** C16 *)
Theorem C16_argsort_2D : forall rows : list (list Z),
  Permutation (argsort_2D rows) (seq 0 (length rows)) /\
  StronglySorted lexle (gather rows (argsort_2D rows)) /\
  (forall r, filter (row_is rows r) (argsort_2D rows) = filter (row_is rows r) (seq 0 (length rows))).
Proof. intros rows. split; [apply argsort_perm|]. split; [apply argsort_sorted|apply argsort_stable]. Qed.
Print Assumptions C16_argsort_2D.
(** the three conditions determine the result: any stable sorting permutation (numpy's merge sort) is this one *)
Theorem C16_argsort_2D_unique : forall rows ks,
  Permutation ks (seq 0 (length rows)) -> StronglySorted lexle (gather rows ks) ->
  (forall r, filter (row_is rows r) ks = filter (row_is rows r) (seq 0 (length rows))) ->
  ks = argsort_2D rows.
Proof. exact argsort_unique. Qed.
Print Assumptions C16_argsort_2D_unique.
Theorem C16_argsort_3D : forall ms : list (list (list Z)), argsort_3D ms = argsort_2D (map (@concat Z) ms)
  /\ Permutation (argsort_3D ms) (seq 0 (length ms)).
Proof. intros ms. split; [reflexivity|]. unfold argsort_3D. rewrite <- (map_length (@concat Z) ms). apply argsort_perm. Qed.
Print Assumptions C16_argsort_3D.
(** equal rows end up next to each other *)
Theorem C16_equal_rows_adjacent : forall rows i j k, i < j -> j < k -> k < length rows ->
  let s := gather rows (argsort_2D rows) in nth i s [] = nth k s [] -> nth i s [] = nth j s [].
Proof.
  intros rows i j k Hij Hjk Hk s E. pose proof (argsort_sorted rows) as Hs. fold s in Hs.
  assert (HL : length s = length rows).
  { unfold s. pose proof (gather_argsort (fun r => r) rows) as G. rewrite map_id in G. rewrite G. apply Permutation_length. apply sort_by_perm. }
  rewrite <- HL in Hk. clearbody s. clear HL rows.
  assert (Hle : forall (l : list (list Z)) a b, StronglySorted lexle l -> a < b -> b < length l -> lexle (nth a l []) (nth b l [])).
  { induction l as [|x l IH]; intros a b Hs' Hab Hb; [cbn in Hb; lia|]. inversion Hs' as [|? ? Hs1 Hx]; subst.
    destruct a as [|a], b as [|b]; try lia.
    - cbn. rewrite Forall_forall in Hx. apply Hx. apply nth_In. cbn in Hb. lia.
    - cbn. apply IH; [exact Hs1|lia|cbn in Hb; lia]. }
  apply lexle_antisym; [apply Hle; [exact Hs|lia|lia]|]. rewrite E. apply Hle; [exact Hs|lia|lia].
Qed.
Print Assumptions C16_equal_rows_adjacent.
Example C16_ex : argsort_2D [[1;2;3];[2;3;4];[1;2;3]]%Z = [0;2;1].
Proof. reflexivity. Qed.

(** C17 *)
Theorem C17_chunks : forall (A : Type) (l : list A) n,
  concat (chunks l n) = l /\ chunked (Nat.max 1 n) (chunks l n).
Proof. intros A l n. split; [apply chunks_concat|apply chunks_shape]. Qed.
Print Assumptions C17_chunks.
Example C17_ex : chunks [1;2;3;4;5] 2 = [[1;2];[3;4];[5]] /\ chunks [1;2] 0 = [[1];[2]].
Proof. split; reflexivity. Qed.

(** C57 *)
Theorem C57_rec_subs_fixed_point : forall (A : Type) (eqb : A -> A -> bool), (forall x y, eqb x y = true <-> x = y) ->
  forall step n e, (forall r, rec_subs eqb step n e = Some r -> step r = r /\ exists k, k < n /\ r = Nat.iter k step e) /\
  (rec_subs eqb step n e = None <-> forall k, k < n -> Nat.iter (S k) step e <> Nat.iter k step e).
Proof. intros A eqb Hs step n e. split; [intros r; apply rec_subs_fix, Hs|apply rec_subs_none, Hs]. Qed.
Print Assumptions C57_rec_subs_fixed_point.
Example C57_ex : rec_subs Nat.eqb Nat.div2 200 100 = Some 0 /\ rec_subs Nat.eqb S 200 0 = None.
Proof. split; reflexivity. Qed.
