From Verif Require Export SectorProofs.
Local Open Scope nat_scope.

Section SP2.
Variable F : Fld.
Add Field Ffield_sec2 : (@f_th F).
Notation Poly := (@poly F).

(** * primary decomposition *)
Section Primary.
Local Open Scope fld_scope.
Lemma delete_col_eval i (p : Poly) x : pwf p -> length x = pnv p -> (i < pnv p)%nat ->
  peval (delete_col i p) (delete_nth i x) = peval p (set_coord i 1 x).
Proof.
  intros Hp HL Hi. unfold delete_col. apply (peval_map_rows F (delete_nth i)). intros t Ht.
  unfold pwf in Hp. rewrite Forall_forall in Hp. specialize (Hp t Ht).
  rewrite meval_delete by lia. unfold set_coord. rewrite meval_set_coord by lia. rewrite zpow_1. ring.
Qed.
Lemma delete_col_wf i (p : Poly) : pwf p -> (i < pnv p)%nat -> pwf (delete_col i p).
Proof.
  unfold pwf. cbn [delete_col ptm pnv]. intros H Hi. apply Forall_map. eapply Forall_impl; [|exact H].
  intros t Ht. cbn [fst]. rewrite delete_nth_length by (rewrite Ht; exact Hi). rewrite Ht. reflexivity.
Qed.
Lemma zero_col_eval i (p : Poly) x : pwf p -> length x = pnv p -> (i < pnv p)%nat ->
  peval (zero_col i p) x = peval p (set_coord i 1 x).
Proof.
  intros Hp HL Hi. unfold zero_col. apply (peval_map_rows F (upd i 0%Z)). intros t Ht.
  unfold pwf in Hp. rewrite Forall_forall in Hp. specialize (Hp t Ht).
  unfold set_coord. rewrite meval_set_coord by lia. rewrite zpow_1. ring.
Qed.
Lemma zero_col_wf i (p : Poly) : pwf p -> pwf (zero_col i p).
Proof.
  unfold pwf. cbn [zero_col ptm pnv]. intros H. apply Forall_map. eapply Forall_impl; [|exact H].
  intros t Ht. cbn [fst]. rewrite upd_length. exact Ht.
Qed.
Definition prim_at (ix : list nat) (k : nat) (p : Poly) : Poly := nth k (primary_decomposition_polynomial p (Some ix)) (pconst 0 0).
Lemma prim_at_single i p : prim_at [i] 0 p = zero_col i p. Proof. reflexivity. Qed.
Lemma prim_at_many ix k p : length ix <> 1%nat -> (k < length ix)%nat -> prim_at ix k p = delete_col (nth k ix 0%nat) p.
Proof.
  intros H Hk. unfold prim_at, primary_decomposition_polynomial. destruct ix as [|a [|b ix]]; [cbn in Hk; lia|cbn in H; lia|].
  change (pconst 0 0) with (pconst (F := F) 0 0). rewrite (nth_indep _ (pconst 0 0) (delete_col 0 p)) by (rewrite map_length; exact Hk).
  rewrite (map_nth (fun i => delete_col i p)). reflexivity.
Qed.
Lemma primary_at (s : sector F) ix k : (k < length ix)%nat -> nth_error (primary_decomposition s (Some ix)) k =
  Some (mkSector (map (fun c => (prim_at ix k (fst c), prim_at ix k (snd c))) (scast s)) (map (prim_at ix k) (sother s)) (prim_at ix k (sjac s))).
Proof.
  intros Hk. unfold primary_decomposition. rewrite nth_error_map.
  replace (nth_error (seq 0 (length ix)) k) with (Some k); [reflexivity|].
  symmetry. rewrite (nth_error_nth' _ 0%nat) by (rewrite seq_length; exact Hk). rewrite seq_nth by exact Hk. reflexivity.
Qed.
Lemma primary_None (s : sector F) : primary_decomposition s None = primary_decomposition s (Some (seq 0 (sector_nv s))).
Proof. unfold primary_decomposition. rewrite seq_length. reflexivity. Qed.
Lemma primary_length (s : sector F) ix : length (primary_decomposition s (Some ix)) = length ix.
Proof. unfold primary_decomposition. rewrite map_length, seq_length. reflexivity. Qed.
End Primary.

(** * find_singular_set *)
Lemma becomes_zero_nullifies (p : Poly) s : becomes_zero_for p s = true <-> nullifies s p.
Proof.
  unfold becomes_zero_for, nullifies. rewrite forallb_forall, Forall_forall. split; intros H t Ht; specialize (H t Ht).
  - apply existsb_exists in H as (i & Hi & E). exists i. split; [exact Hi|]. apply Z.ltb_lt, E.
  - destruct H as (i & Hi & E). apply existsb_exists. exists i. split; [exact Hi|]. apply Z.ltb_lt, E.
Qed.
Lemma has_const_spec (p : Poly) ix : has_constant_term p (Some ix) = true <-> exists t, In t (ptm p) /\ Forall (fun i => getZ i (fst t) = 0%Z) ix.
Proof.
  unfold has_constant_term. rewrite existsb_exists. split; intros (t & Ht & H); exists t; split; try exact Ht.
  - rewrite forallb_forall in H. apply Forall_forall. intros i Hi. apply Z.eqb_eq, H, Hi.
  - apply forallb_forall. rewrite Forall_forall in H. intros i Hi. apply Z.eqb_eq, H, Hi.
Qed.
Lemma get_poly_none (cast : list (Poly * Poly)) ix : get_poly_to_transform cast ix = None <->
  Forall (fun c => has_constant_term (snd c) (Some ix) = true) cast.
Proof.
  induction cast as [|c cast IH]; [split; [constructor|reflexivity]|]. cbn. destruct (has_constant_term (snd c) (Some ix)) eqn:E.
  - rewrite IH. split; [intros H; constructor; assumption|]. intros H; inversion H; assumption.
  - split; [discriminate|]. intros H; inversion H; congruence.
Qed.
Lemma get_poly_some (cast : list (Poly * Poly)) ix p : get_poly_to_transform cast ix = Some p ->
  exists c1 c c2, cast = c1 ++ c :: c2 /\ p = snd c /\ has_constant_term (snd c) (Some ix) = false /\
    Forall (fun c => has_constant_term (snd c) (Some ix) = true) c1.
Proof.
  induction cast as [|c cast IH]; [discriminate|]. cbn. destruct (has_constant_term (snd c) (Some ix)) eqn:E.
  - intros H. destruct (IH H) as (c1 & c' & c2 & -> & -> & Hc & Hf). exists (c :: c1), c', c2. repeat split; auto.
  - intros H. injection H as <-. exists [], c, cast. repeat split; auto.
Qed.
Lemma possible_loop_spec (p : Poly) sets : forall acc,
  StronglySorted (fun a b : list nat => length a <= length b) sets ->
  (forall a b, In a acc -> In b acc -> length a = length b) ->
  (forall a s, In a acc -> In s sets -> length a <= length s) ->
  let R := possible_sets_loop p sets acc in
  (forall s, In s R -> In s acc \/ In s sets /\ becomes_zero_for p s = true) /\
  (forall a b, In a R -> In b R -> length a = length b) /\
  (forall s, In s acc -> In s R) /\
  (forall s, In s sets -> becomes_zero_for p s = true -> R <> [] /\ forall a, In a R -> length a <= length s /\ (length a = length s -> In s R)).
Proof.
  induction sets as [|s sets IH]; intros acc Hs Hacc Hle R; subst R; cbn [possible_sets_loop].
  { split; [auto|]. split; [exact Hacc|]. split; [auto|]. intros s []. }
  inversion Hs as [|? ? Hs' Hh]; subst. rewrite Forall_forall in Hh.
  destruct (match acc with [] => false | a0 :: _ => Nat.ltb (length a0) (length s) end) eqn:Ebr.
  - destruct acc as [|a0 acc]; [discriminate|]. apply Nat.ltb_lt in Ebr.
    split; [auto|]. split; [exact Hacc|]. split; [auto|]. intros s' Hs'' _. split; [discriminate|].
    intros a Ha. assert (La : length a = length a0) by (apply Hacc; [exact Ha|left; reflexivity]).
    assert (Ls : length s <= length s') by (destruct Hs'' as [<-|Hin]; [lia|apply Hh, Hin]). split; [lia|]. intros E. lia.
  - assert (Hsame : forall a, In a acc -> length a = length s).
    { intros a Ha. pose proof (Hle a s Ha (or_introl eq_refl)) as H. destruct acc as [|a0 acc]; [destruct Ha|].
      apply Nat.ltb_ge in Ebr. assert (La : length a = length a0) by (apply Hacc; [exact Ha|left; reflexivity]). lia. }
    destruct (becomes_zero_for p s) eqn:Ez.
    + destruct (IH (acc ++ [s])) as (H1 & H2 & H3 & H4).
      * exact Hs'.
      * intros a b Ha Hb. apply in_app_iff in Ha as [Ha|[<-|[]]], Hb as [Hb|[<-|[]]]; auto. symmetry. auto.
      * intros a s' Ha Hin. apply in_app_iff in Ha as [Ha|[<-|[]]]; [apply Hle; [exact Ha|right; exact Hin]|apply Hh, Hin].
      * split; [|split; [exact H2|split]].
        -- intros s' Hs''. destruct (H1 s' Hs'') as [Hin|[Hin Hz]]; [|right; split; [right; exact Hin|exact Hz]].
           apply in_app_iff in Hin as [Hin|[<-|[]]]; [left; exact Hin|right; split; [left; reflexivity|exact Ez]].
        -- intros s' Hs''. apply H3, in_app_iff. left. exact Hs''.
        -- assert (HsR : In s (possible_sets_loop p sets (acc ++ [s]))) by (apply H3, in_app_iff; right; left; reflexivity).
           intros s' [<-|Hin] Hz.
           ++ split; [intros E; rewrite E in HsR; destruct HsR|]. intros a Ha. rewrite (H2 a s Ha HsR). split; [lia|]. intros _. exact HsR.
           ++ apply H4; assumption.
    + destruct (IH acc) as (H1 & H2 & H3 & H4); [exact Hs'|exact Hacc|intros a s' Ha Hin; apply Hle; [exact Ha|right; exact Hin]|].
      split; [|split; [exact H2|split; [exact H3|]]].
      * intros s' Hs''. destruct (H1 s' Hs'') as [Hin|[Hin Hz]]; [left; exact Hin|right; split; [right; exact Hin|exact Hz]].
      * intros s' [<-|Hin] Hz; [congruence|]. apply H4; assumption.
Qed.
(* the loop over the cast polynomials counts independently of the set *)
Definition unfinished ix (cast : list (Poly * Poly)) : nat := length (filter (fun c => negb (has_constant_term (snd c) (Some ix))) cast).
Lemma howmany_fold ix (cast : list (Poly * Poly)) : forall h m best,
  (h + unfinished ix cast <= m -> fold_left (howmany_step ix) cast (h, m, best) = (h + unfinished ix cast, m, best)) /\
  exists m', fold_left (howmany_step ix) cast (h, m, []) = (h + unfinished ix cast, m', []) /\ m <= m' /\ (h <= m -> h + unfinished ix cast <= m').
Proof.
  unfold unfinished. induction cast as [|c cast IH]; intros h m best; cbn [fold_left filter length].
  { rewrite Nat.add_0_r. split; [reflexivity|]. exists m. repeat split; auto. }
  cbn [howmany_step]. destruct (has_constant_term (snd c) (Some ix)) eqn:E; cbn [negb].
  - split.
    + intros H. destruct (Nat.ltb_spec m h) as [Hlt|Hge]; [lia|]. apply IH. exact H.
    + destruct (Nat.ltb_spec m h) as [Hlt|Hge].
      * destruct (IH h h []) as [_ (m' & E' & H1 & H2)]. exists m'. split; [exact E'|]. split; [lia|]. intros; lia.
      * destruct (IH h m []) as [_ (m' & E' & H1 & H2)]. exists m'. split; [exact E'|]. split; [lia|]. exact H2.
  - cbn [length]. split.
    + intros H. destruct (Nat.ltb_spec m (S h)) as [Hlt|Hge]; [lia|].
      destruct (IH (S h) m best) as [IH1 _]. rewrite IH1 by lia. f_equal. f_equal. lia.
    + destruct (Nat.ltb_spec m (S h)) as [Hlt|Hge].
      * destruct (IH (S h) (S h) []) as [_ (m' & E' & H1 & H2)]. exists m'. rewrite E'. split; [f_equal; f_equal; lia|]. split; [lia|]. intros; lia.
      * destruct (IH (S h) m []) as [_ (m' & E' & H1 & H2)]. exists m'. rewrite E'. split; [f_equal; f_equal; lia|]. split; [lia|]. intros; lia.
Qed.
Lemma best_sets_all (cast : list (Poly * Poly)) ix possible : best_sets cast ix possible = possible.
Proof.
  unfold best_sets. destruct possible as [|s sets]; [reflexivity|]. cbn [fold_left].
  assert (H : best_sets_step cast ix (1, []) s = (snd (fst (fold_left (howmany_step ix) cast (0, 1, []))), [s])
              /\ unfinished ix cast <= snd (fst (fold_left (howmany_step ix) cast (0, 1, [])))).
  { destruct (howmany_fold ix cast 0 1 []) as [_ (m' & E & H1 & H2)]. unfold best_sets_step. cbn [fst snd]. rewrite E. cbn [fst snd].
    split; [reflexivity|]. apply H2. lia. }
  destruct H as [-> Hm]. revert Hm. generalize (snd (fst (fold_left (howmany_step ix) cast (0, 1, [])))). intros m Hm.
  change (s :: sets) with ([s] ++ sets). generalize [s]. intros acc. revert acc.
  induction sets as [|s' sets IH]; intros acc; cbn [fold_left]; [cbn; rewrite app_nil_r; reflexivity|].
  unfold best_sets_step at 2. cbn [fst snd]. destruct (howmany_fold ix cast 0 m acc) as [E _]. rewrite E by lia. rewrite IH, <- app_assoc. reflexivity.
Qed.
Lemma pick_fold (p : Poly) sets : forall st,
  (forall m b, st = Some (m, b) -> m = exposum p b) ->
  match fold_left (pick_step p) sets st with
  | None => st = None /\ sets = []
  | Some (m, b) => m = exposum p b /\ (In b sets \/ exists m0, st = Some (m0, b)) /\ (forall s, In s sets -> (exposum p s <= m)%Z)
      /\ (forall m0 b0, st = Some (m0, b0) -> (m0 <= m)%Z)
  end.
Proof.
  induction sets as [|s sets IH]; intros st Hst; cbn [fold_left].
  - destruct st as [[m b]|]; [|split; reflexivity]. split; [apply Hst; reflexivity|]. split; [right; eexists; reflexivity|].
    split; [intros s []|]. intros m0 b0 E. injection E as -> ->. lia.
  - specialize (IH (pick_step p st s)). destruct (fold_left (pick_step p) sets (pick_step p st s)) as [[m b]|] eqn:E.
    + destruct IH as (H1 & H2 & H3 & H4).
      { intros m0 b0 E0. destruct st as [[m1 b1]|]; cbn in E0.
        - destruct (Z.ltb m1 (exposum p s)); injection E0 as <- <-; [reflexivity|apply Hst; reflexivity].
        - injection E0 as <- <-. reflexivity. }
      split; [exact H1|]. split; [|split].
      * destruct H2 as [H2|(m0 & H2)]; [left; right; exact H2|]. destruct st as [[m1 b1]|]; cbn in H2.
        -- destruct (Z.ltb m1 (exposum p s)); injection H2 as _ <-; [left; left; reflexivity|right; eexists; reflexivity].
        -- injection H2 as _ <-. left. left. reflexivity.
      * intros s' [<-|Hin]; [|apply H3, Hin]. destruct st as [[m1 b1]|]; cbn in H4.
        -- destruct (Z.ltb_spec m1 (exposum p s)).
           ++ apply (H4 _ _ eq_refl).
           ++ specialize (H4 _ _ eq_refl). lia.
        -- apply (H4 _ _ eq_refl).
      * intros m0 b0 ->. cbn in H4. destruct (Z.ltb_spec m0 (exposum p s)); specialize (H4 _ _ eq_refl); lia.
    + exfalso. destruct IH as [H _].
      { intros m0 b0 E0. destruct st as [[m1 b1]|]; cbn in E0.
        - destruct (Z.ltb m1 (exposum p s)); injection E0 as <- <-; [reflexivity|apply Hst; reflexivity].
        - injection E0 as <- <-. reflexivity. }
      destruct st as [[m1 b1]|]; cbn in H; [destruct (Z.ltb m1 (exposum p s))|]; discriminate.
Qed.
Lemma powerset2 {A} (l : list A) : exists L, powerset l 2 1 = Some L /\
  (forall c, In c L <-> sublist c l /\ 2 <= length c) /\ StronglySorted (fun a b => length a <= length b) L.
Proof.
  destruct (powerset l 2 1) as [L|] eqn:E; [|discriminate]. exists L. split; [reflexivity|]. split.
  - intros c. rewrite (powerset_in l 2 1 L ltac:(lia) E c). split; intros [H1 H2]; (split; [exact H1|]).
    + destruct H2 as (k & ->). lia.
    + exists (length c - 2). lia.
  - apply (powerset_lengths l 2 1 L ltac:(lia) E).
Qed.
(** the complete specification of find_singular_set without any assumption on the sector *)
Definition is_choice (ix : list nat) (p : Poly) (S0 : list nat) : Prop :=
  sublist S0 ix /\ 2 <= length S0 /\ nullifies S0 p /\
  (forall T, sublist T ix -> 2 <= length T -> nullifies T p ->
     length S0 <= length T /\ (length T = length S0 -> (exposum p T <= exposum p S0)%Z)).
Lemma find_singular_set_general (s : sector F) ix :
  match find_singular_set s ix with
  | EndOfDecomposition => get_poly_to_transform (scast s) ix = None
  | Found S0 => exists p, get_poly_to_transform (scast s) ix = Some p /\ is_choice ix p S0
  | AssertFailed => exists p, get_poly_to_transform (scast s) ix = Some p /\
       forall T, sublist T ix -> 2 <= length T -> ~ nullifies T p
  end.
Proof.
  unfold find_singular_set. destruct (get_poly_to_transform (scast s) ix) as [p|] eqn:Ep; [|reflexivity].
  destruct (powerset2 ix) as (L & -> & HL & Hs).
  pose proof (possible_loop_spec p L [] Hs (fun a b H => match H with end) (fun a b H => match H with end)) as Hpos. cbv zeta in Hpos.
  destruct Hpos as (H1 & H2 & _ & H4). set (P := possible_sets_loop p L []) in *. clearbody P.
  destruct P as [|s0 P'] eqn:EP.
  - exists p. split; [reflexivity|]. intros T HT Hl Hz. apply becomes_zero_nullifies in Hz.
    assert (Hin : In T L) by (apply HL; split; assumption). destruct (H4 T Hin Hz) as [H _]. congruence.
  - rewrite best_sets_all. rewrite <- EP in *. assert (Hne : P <> []) by (rewrite EP; discriminate). clear EP s0 P'.
    pose proof (pick_fold p P None) as Hp. destruct (fold_left (pick_step p) P None) as [[m b]|] eqn:E.
    + destruct Hp as (Hm & Hb & Hmax & _); [discriminate|]. destruct Hb as [Hb|(m0 & Hb)]; [|discriminate].
      exists p. split; [reflexivity|]. destruct (H1 b Hb) as [[]|[HbL Hbz]]. apply HL in HbL as [Hsub Hlen].
      split; [exact Hsub|]. split; [exact Hlen|]. split; [apply becomes_zero_nullifies, Hbz|].
      intros T HT HTl HTz. apply becomes_zero_nullifies in HTz. assert (HTL : In T L) by (apply HL; split; assumption).
      destruct (H4 T HTL HTz) as [_ H]. destruct (H b Hb) as [Hle Heq]. split; [exact Hle|]. intros El. rewrite <- Hm. apply Hmax, Heq. lia.
    + destruct Hp as [_ Hp]; [discriminate|]. congruence.
Qed.
Lemma sublist_refl {A} (l : list A) : sublist l l. Proof. induction l; constructor; assumption. Qed.
Lemma find_singular_set_refactorized (s : sector F) ix n : swf n s -> srefactorized ix s -> NoDup ix ->
  match find_singular_set s ix with
  | EndOfDecomposition => standard_form ix s
  | Found S0 => ~ standard_form ix s /\ exists c1 c c2, scast s = c1 ++ c :: c2 /\
       Forall (fun c => exists t, In t (ptm (snd c)) /\ Forall (fun i => getZ i (fst t) = 0%Z) ix) c1 /\
       is_choice ix (snd c) S0 /\ (forall T, sublist T ix -> nullifies T (snd c) -> length S0 <= length T)
  | AssertFailed => False
  end.
Proof.
  intros Hwf Href Hnd. pose proof (find_singular_set_general s ix) as H.
  assert (Hsf : standard_form ix s <-> Forall (fun c => has_constant_term (snd c) (Some ix) = true) (scast s)).
  { unfold standard_form. rewrite !Forall_forall. split; intros H' c Hc; apply has_const_spec; apply H'; exact Hc. }
  assert (Hsmall : forall c T, In c (scast s) -> sublist T ix -> nullifies T (snd c) -> 2 <= length T).
  { intros c T Hc HT Hz. unfold srefactorized in Href. rewrite Forall_forall in Href. specialize (Href c Hc).
    unfold swf in Hwf. rewrite Forall_forall in Hwf.
    assert (Hne : ptm (snd c) <> []). { apply (Hwf (snd c)). rewrite !in_app_iff. right. left. apply in_map, Hc. }
    destruct T as [|i [|j T]]; [| |cbn; lia]; exfalso.
    - unfold nullifies in Hz. destruct (ptm (snd c)) as [|t ts]; [congruence|]. inversion Hz as [|? ? (i & [] & _) _].
    - assert (Hi : In i ix) by (eapply sublist_in; [exact HT|left; reflexivity]). rewrite Forall_forall in Href. specialize (Href i Hi).
      destruct (col_min_spec F (snd c) i Hne) as [(t & Ht & E) _]. unfold nullifies in Hz. rewrite Forall_forall in Hz.
      destruct (Hz t Ht) as (i' & [<-|[]] & Hpos). lia. }
  destruct (find_singular_set s ix) as [S0| |].
  - destruct H as (p & Ep & Hch). destruct (get_poly_some _ _ _ Ep) as (c1 & c & c2 & Ec & -> & Hc & Hc1).
    split.
    + intros Hst. apply Hsf in Hst. rewrite Ec in Hst. apply Forall_app in Hst as [_ Hst]. inversion Hst; congruence.
    + exists c1, c, c2. split; [exact Ec|]. split.
      * eapply Forall_impl; [|exact Hc1]. intros d Hd. apply has_const_spec, Hd.
      * split; [exact Hch|]. intros T HT Hz. destruct Hch as (_ & _ & _ & Hmin). apply Hmin; [exact HT| |exact Hz].
        apply (Hsmall c T); [rewrite Ec; apply in_app_iff; right; left; reflexivity|exact HT|exact Hz].
  - apply Hsf, get_poly_none, H.
  - destruct H as (p & Ep & Hno). destruct (get_poly_some _ _ _ Ep) as (c1 & c & c2 & Ec & -> & Hc & Hc1).
    assert (Hcin : In c (scast s)) by (rewrite Ec; apply in_app_iff; right; left; reflexivity).
    assert (Hz : nullifies ix (snd c)).
    { unfold nullifies. apply Forall_forall. intros t Ht.
      destruct (existsb (fun i => Z.ltb 0 (getZ i (fst t))) ix) eqn:E.
      - apply existsb_exists in E as (i & Hi & E). exists i. split; [exact Hi|apply Z.ltb_lt, E].
      - exfalso. assert (Hconst : has_constant_term (snd c) (Some ix) = true); [|congruence].
        apply has_const_spec. exists t. split; [exact Ht|]. apply Forall_forall. intros i Hi.
        unfold srefactorized in Href. rewrite Forall_forall in Href. specialize (Href c Hcin). rewrite Forall_forall in Href. specialize (Href i Hi).
        assert (Hne : ptm (snd c) <> []) by (intros E'; rewrite E' in Ht; destruct Ht).
        destruct (col_min_spec F (snd c) i Hne) as [_ Hm]. rewrite Forall_forall in Hm. specialize (Hm t Ht). cbv beta in Hm.
        assert (Hle : ~ (0 < getZ i (fst t))%Z). { intros Hpos. assert (existsb (fun i => Z.ltb 0 (getZ i (fst t))) ix = true); [|congruence].
          apply existsb_exists. exists i. split; [exact Hi|apply Z.ltb_lt, Hpos]. }
        lia. }
    apply (Hno ix); [apply sublist_refl| |exact Hz]. apply (Hsmall c ix Hcin); [apply sublist_refl|exact Hz].
Qed.
End SP2.
Arguments is_choice {F} _ _ _. Arguments prim_at {F} _ _ _.
