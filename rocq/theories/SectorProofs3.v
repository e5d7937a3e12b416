From Verif Require Export SectorProofs2.
Local Open Scope nat_scope.

Section SP3.
Variable F : Fld.
Add Field Ffield_sec3 : (@f_th F).
Notation Poly := (@poly F).

(** * the ordered sets *)
Lemma swap0_spec (l : list nat) i : i < length l -> exists bs, swap0 l i = nth i l 0 :: bs /\ Permutation (nth i l 0 :: bs) l.
Proof.
  destruct l as [|a l]; [cbn; lia|]. intros Hi. destruct i as [|i].
  - exists l. cbn. split; reflexivity.
  - cbn [swap0 upd nth]. exists (upd i a l). cbn [length] in Hi. rewrite (nth_indep l a 0) by lia. split; [reflexivity|].
    clear -Hi. assert (Hi' : i < length l) by lia. clear Hi. revert i Hi'. induction l as [|b l IH]; intros [|i] Hi; cbn in *; try lia.
    + apply perm_swap.
    + rewrite (perm_swap b (nth i l 0)). rewrite perm_swap. transitivity (b :: nth i l 0 :: upd i a l); [apply perm_swap|].
      rewrite (IH i) by lia. apply perm_swap.
Qed.
Lemma subsector_sets_perm S0 sp : In sp (subsector_sets S0) -> Permutation sp S0 /\ exists a bs, sp = a :: bs.
Proof.
  unfold subsector_sets. intros H. apply in_map_iff in H as (i & <- & Hi). apply in_seq in Hi.
  destruct (swap0_spec S0 i) as (bs & -> & Hp); [lia|]. split; [exact Hp|]. eauto.
Qed.
Lemma subsector_sets_heads S0 : map (hd 0) (subsector_sets S0) = S0.
Proof.
  unfold subsector_sets. rewrite map_map. apply (nth_ext _ _ 0 0); rewrite map_length, seq_length; [reflexivity|].
  intros i Hi. rewrite (nth_map_seq (fun x => hd 0 (swap0 S0 x))) by exact Hi.
  destruct (swap0_spec S0 i Hi) as (bs & -> & _). reflexivity.
Qed.

(** * one subsector *)
Local Open Scope fld_scope.
Definition good_set (n : nat) (sp : list nat) : Prop := NoDup sp /\ sp <> [] /\ Forall (fun i => (i < n)%nat) sp.
Lemma swf_get n (s : sector F) : swf n s ->
  (forall c, In c (scast s) -> (pnv (fst c) = n /\ pwf (fst c) /\ ptm (fst c) <> []) /\ (pnv (snd c) = n /\ pwf (snd c) /\ ptm (snd c) <> [])) /\
  (forall p, In p (sother s) -> pnv p = n /\ pwf p /\ ptm p <> []) /\ (pnv (sjac s) = n /\ pwf (sjac s) /\ ptm (sjac s) <> []).
Proof.
  intros H. unfold swf in H. rewrite Forall_forall in H. repeat split; intros; apply H; rewrite !in_app_iff.
  all: try (left; apply in_map; assumption). all: try (right; left; apply in_map; assumption).
  all: try (right; right; left; assumption). all: right; right; right; left; reflexivity.
Qed.
Lemma swf_intro n (s : sector F) :
  (forall c, In c (scast s) -> (pnv (fst c) = n /\ pwf (fst c) /\ ptm (fst c) <> []) /\ (pnv (snd c) = n /\ pwf (snd c) /\ ptm (snd c) <> [])) ->
  (forall p, In p (sother s) -> pnv p = n /\ pwf p /\ ptm p <> []) -> (pnv (sjac s) = n /\ pwf (sjac s) /\ ptm (sjac s) <> []) -> swf n s.
Proof.
  intros H1 H2 H3. unfold swf. apply Forall_forall. intros p Hp. rewrite !in_app_iff in Hp.
  destruct Hp as [Hp|[Hp|[Hp|[<-|[]]]]]; [| |apply H2, Hp|exact H3]; apply in_map_iff in Hp as (c & <- & Hc); apply H1, Hc.
Qed.
Lemma shift_pair_ok a (m p : Poly) : pwf m -> pwf p -> ptm m <> [] -> ptm p <> [] ->
  let r := refactorize (m, p) [a] in pnv (fst r) = pnv m /\ pnv (snd r) = pnv p /\ pwf (fst r) /\ pwf (snd r) /\ ptm (fst r) <> [] /\ ptm (snd r) <> [].
Proof.
  intros Hm Hp Nm Np. cbn [refactorize refactorize_params fold_left refactorize1 fst snd].
  repeat split; try apply shift_col_wf; try assumption; apply shift_col_ne; assumption.
Qed.
Lemma subsector_swf n (s : sector F) sp : swf n s -> good_set n sp -> swf n (subsector s sp).
Proof.
  intros H (Hnd & Hne & Hr). destruct (swf_get n s H) as (H1 & H2 & H3). destruct sp as [|a bs]; [congruence|].
  assert (R : forall p : Poly, pnv p = n /\ pwf p /\ ptm p <> [] -> pnv (remap_poly (a :: bs) p) = n /\ pwf (remap_poly (a :: bs) p) /\ ptm (remap_poly (a :: bs) p) <> []).
  { intros p (E1 & E2 & E3). destruct (remap_poly_inv F (a :: bs) p) as (R1 & R2 & _ & R4). rewrite R1. auto. }
  apply swf_intro.
  - intros c Hc. cbn [subsector scast] in Hc. apply in_map_iff in Hc as (c0 & <- & Hc0). destruct (H1 c0 Hc0) as [A B].
    apply R in A as (A1 & A2 & A3). apply R in B as (B1 & B2 & B3).
    destruct (shift_pair_ok a _ _ A2 B2 A3 B3) as (Q1 & Q2 & Q3 & Q4 & Q5 & Q6).
    rewrite Q1, Q2, A1, B1. auto.
  - intros p Hp. cbn [subsector sother] in Hp. apply in_map_iff in Hp as (p0 & <- & Hp0). apply R, H2, Hp0.
  - cbn [subsector sjac]. apply R in H3 as (A1 & A2 & A3). destruct (remap_jac_inv F (a :: bs) (remap_poly (a :: bs) (sjac s))) as (J1 & J2 & J3).
    rewrite J1, A1. auto.
Qed.
Lemma add_col_other a b j (p : Poly) : pwf p -> (a < pnv p)%nat -> j <> a -> col_min j (add_col a b p) = col_min j p.
Proof.
  intros Hp Ha Hj. unfold col_min. f_equal. cbn [add_col ptm]. rewrite map_map. apply map_ext_in. intros t Ht. cbn [fst].
  unfold pwf in Hp. rewrite Forall_forall in Hp. rewrite getZ_upd by (rewrite Hp by exact Ht; exact Ha).
  destruct (Nat.eqb_spec a j); [congruence|reflexivity].
Qed.
Lemma remap_poly_col_min a bs j (p : Poly) : pwf p -> (a < pnv p)%nat -> j <> a -> col_min j (remap_poly (a :: bs) p) = col_min j p.
Proof.
  cbn [remap_poly]. revert p. induction bs as [|b bs IH]; intros p Hp Ha Hj; [reflexivity|]. cbn [fold_left].
  rewrite IH; [apply add_col_other; assumption|apply add_col_wf, Hp|exact Ha|exact Hj].
Qed.
Lemma subsector_refactorized n ix (s : sector F) sp : swf n s -> good_set n sp -> srefactorized ix s -> srefactorized ix (subsector s sp).
Proof.
  intros H (Hnd & Hne & Hr) Href. destruct (swf_get n s H) as (H1 & _ & _). destruct sp as [|a bs]; [congruence|].
  inversion Hr as [|? ? Ha _]; subst.
  unfold srefactorized in *. rewrite Forall_forall in *. intros c Hc. cbn [subsector scast] in Hc.
  apply in_map_iff in Hc as (c0 & <- & Hc0). destruct (H1 c0 Hc0) as [_ (B1 & B2 & B3)].
  destruct (remap_poly_inv F (a :: bs) (snd c0)) as (R1 & R2 & _ & R4).
  specialize (Href c0 Hc0). rewrite Forall_forall in *. intros j Hj. cbn [refactorize].
  rewrite refactorize_params_col_min; [|apply R2, B2|apply R4, B3|constructor; [rewrite R1, B1; exact Ha|constructor]].
  cbn [existsb]. destruct (Nat.eqb_spec j a) as [->|E]; [reflexivity|]. cbn [orb].
  rewrite remap_poly_col_min; [apply Href, Hj|exact B2|rewrite B1; exact Ha|exact E].
Qed.
Lemma remap_nz_eval n sp (p : Poly) y : pnv p = n -> pwf p -> good_set n sp -> length y = n -> Forall (fun v => v <> 0) y ->
  peval (remap_poly sp p) y = peval p (sector_subst sp y).
Proof.
  intros E Hp (Hnd & _ & Hr) HL Hy. apply remap_poly_eval; [exact Hp|congruence|exact Hnd|rewrite E; exact Hr|left; exact Hy].
Qed.
Lemma subsector_transformed n (s : sector F) sp : swf n s -> good_set n sp ->
  sector_transformed n s (subsector s sp) (sector_subst sp) (subst_jac sp).
Proof.
  intros H Hg y HL Hy. destruct (swf_get n s H) as (H1 & H2 & H3). pose proof Hg as (Hnd & Hne & Hr). destruct sp as [|a bs]; [congruence|].
  inversion Hr as [|? ? Ha _]; subst.
  assert (Hy_a : nth a y 0 <> 0) by (rewrite Forall_forall in Hy; apply Hy, nth_In; lia).
  split; [|split].
  - cbn [subsector scast]. assert (G : forall l, (forall c, In c l -> In c (scast s)) -> Forall2 (fun c c' => peval (fst c') y * peval (snd c') y
       = peval (fst c) (sector_subst (a :: bs) y) * peval (snd c) (sector_subst (a :: bs) y)) l
       (map (fun c => refactorize (remap_poly (a :: bs) (fst c), remap_poly (a :: bs) (snd c)) [a]) l)).
    { induction l as [|c l IH]; intros Hl; constructor; [|apply IH; intros; apply Hl; right; assumption].
      destruct (H1 c (Hl c (or_introl eq_refl))) as [(A1 & A2 & A3) (B1 & B2 & B3)].
      destruct (remap_poly_inv F (a :: bs) (fst c)) as (P1 & P2 & _ & P4). destruct (remap_poly_inv F (a :: bs) (snd c)) as (Q1 & Q2 & _ & Q4).
      cbn [refactorize]. rewrite refactorize_params_spec; [|apply P2, A2|apply Q2, B2|congruence|congruence|apply Q4, B3|constructor; [split; [lia|exact Hy_a]|constructor]].
      rewrite (remap_nz_eval (length y)) by first [assumption|reflexivity]. rewrite (remap_nz_eval (length y)) by first [assumption|reflexivity]. reflexivity. }
    apply G. auto.
  - cbn [subsector sother]. assert (G : forall l, (forall p, In p l -> In p (sother s)) -> Forall2 (fun p p' => peval p' y = peval p (sector_subst (a :: bs) y)) l (map (remap_poly (a :: bs)) l)).
    { induction l as [|p l IH]; intros Hl; constructor; [|apply IH; intros; apply Hl; right; assumption].
      destruct (H2 p (Hl p (or_introl eq_refl))) as (A1 & A2 & _). apply (remap_nz_eval (length y)); first [assumption|reflexivity]. }
    apply G. auto.
  - cbn [subsector sjac]. destruct H3 as (A1 & A2 & _). destruct (remap_poly_inv F (a :: bs) (sjac s)) as (P1 & P2 & _ & _).
    rewrite remap_jac_eval; [|apply P2, A2|congruence|discriminate|rewrite P1, A1; exact Hr|left; exact Hy].
    rewrite (remap_nz_eval (length y)) by first [assumption|reflexivity]. reflexivity.
Qed.

(** * the whole decomposition *)
Lemma transformed_refl n (s : sector F) : sector_transformed n s s (fun y => y) (fun _ => 1).
Proof.
  intros y HL Hy. split; [|split; [|ring]]; [induction (scast s)|induction (sother s)]; constructor; auto.
Qed.
Lemma transformed_trans n (s s1 s2 : sector F) f j g k : sector_transformed n s s1 f j -> sector_transformed n s1 s2 g k ->
  (forall y, length y = n -> length (g y) = n) -> (forall y, length y = n -> Forall (fun v => v <> 0) y -> Forall (fun v => v <> 0) (g y)) ->
  sector_transformed n s s2 (fun y => f (g y)) (fun y => j (g y) * k y).
Proof.
  intros H1 H2 HL Hz y Hy Hny. destruct (H2 y Hy Hny) as (A1 & A2 & A3). destruct (H1 (g y) (HL y Hy) (Hz y Hy Hny)) as (B1 & B2 & B3).
  split; [|split; [|rewrite A3, B3; ring]].
  - clear -A1 B1. revert B1. generalize (scast s). induction A1 as [|c c' l l' Hc _ IH]; intros l0 B; inversion B; subst; constructor; [congruence|auto].
  - clear -A2 B2. revert B2. generalize (sother s). induction A2 as [|c c' l l' Hc _ IH]; intros l0 B; inversion B; subst; constructor; [congruence|auto].
Qed.
Lemma path_subst_length path (y : list F) : length (path_subst path y) = length y.
Proof. induction path as [|sp path IH]; [reflexivity|]. cbn [path_subst]. rewrite sector_subst_length. exact IH. Qed.
Lemma path_subst_nz path n (y : list F) : Forall (good_set n) path -> length y = n -> Forall (fun v => v <> 0) y -> Forall (fun v => v <> 0) (path_subst path y).
Proof.
  intros Hp HL Hy. induction Hp as [|sp path (_ & _ & Hr) _ IH]; [exact Hy|]. cbn [path_subst]. apply sector_subst_nz; [exact IH|].
  rewrite path_subst_length, HL. exact Hr.
Qed.

(* induction principle for a successful decomposition *)
Lemma fold_opt (f : sector F -> option (list (sector F))) l r :
  fold_right (fun sub acc => match f sub, acc with Some a, Some b => Some (a ++ b) | _, _ => None end) (Some []) l = Some r ->
  exists rs, map f l = map Some rs /\ r = concat rs.
Proof.
  revert r. induction l as [|x l IH]; intros r H; cbn [fold_right] in H.
  - injection H as <-. exists []. split; reflexivity.
  - destruct (f x) as [a|] eqn:Ea; [|discriminate]. destruct (fold_right _ _ l) as [b|] eqn:Eb; [|discriminate]. injection H as <-.
    destruct (IH b eq_refl) as (rs & E & ->). exists (a :: rs). cbn. rewrite Ea, E. split; reflexivity.
Qed.
Lemma sublist_NoDup {A} (c l : list A) : sublist c l -> NoDup l -> NoDup c.
Proof.
  intros H. induction H as [|x c l Hs IH|x c l Hs IH]; intros Hn; [constructor| |]; inversion Hn; subst; auto.
  constructor; [|auto]. intros Hin. apply H1. eapply sublist_in; eassumption.
Qed.
Definition good_ix (n : nat) (ix : list nat) : Prop := NoDup ix /\ Forall (fun i => (i < n)%nat) ix.
Lemma choice_good n ix (p : Poly) S0 sp : good_ix n ix -> is_choice ix p S0 -> In sp (subsector_sets S0) -> good_set n sp.
Proof.
  intros [Hn Hr] (Hs & Hl & _) Hin. apply subsector_sets_perm in Hin as [Hp (a & bs & ->)].
  split; [|split; [discriminate|]].
  - eapply Permutation_NoDup; [symmetry; exact Hp|]. eapply sublist_NoDup; eassumption.
  - apply Forall_forall. intros i Hi. rewrite Forall_forall in Hr. apply Hr. eapply sublist_in; [exact Hs|]. eapply Permutation_in; eassumption.
Qed.
Lemma decomposition_ind n ix (P : sector F -> list (sector F) -> Prop) : good_ix n ix ->
  (forall s, swf n s -> srefactorized ix s -> standard_form ix s -> P s [s]) ->
  (forall s S0 rs, swf n s -> srefactorized ix s -> ~ standard_form ix s -> NoDup S0 -> (2 <= length S0)%nat -> Forall (fun i => (i < n)%nat) S0 -> sublist S0 ix ->
     Forall2 (fun sp r => swf n (subsector s sp) /\ srefactorized ix (subsector s sp) /\ P (subsector s sp) r) (subsector_sets S0) rs -> P s (concat rs)) ->
  forall fuel s l, swf n s -> srefactorized ix s -> iterative_decomposition fuel s ix = Some l -> P s l.
Proof.
  intros Hix Hend Hstep. induction fuel as [|fuel IH]; intros s l Hwf Href H; [discriminate|].
  cbn [iterative_decomposition] in H. unfold iteration_step in H.
  pose proof (find_singular_set_refactorized F s ix n Hwf Href (proj1 Hix)) as Hf.
  destruct (find_singular_set s ix) as [S0| |]; [| |discriminate].
  2:{ injection H as <-. apply Hend; assumption. }
  destruct Hf as (Hns & c1 & c & c2 & Ec & Hc1 & Hch & Hmin). apply fold_opt in H as (rs & Hrs & ->).
  pose proof Hch as (Hsub & Hlen & _).
  apply (Hstep s S0); try assumption.
  - eapply sublist_NoDup; [exact Hsub|apply Hix].
  - apply Forall_forall. intros i Hi. destruct Hix as [_ Hr]. rewrite Forall_forall in Hr. apply Hr. eapply sublist_in; eassumption.
  - assert (Hg : forall sp, In sp (subsector_sets S0) -> good_set n sp) by (intros sp Hsp; eapply choice_good; eassumption).
    revert rs Hrs Hg. generalize (subsector_sets S0). induction l as [|sp l IHl]; intros [|r rs] Hrs Hg; cbn [map] in Hrs; try discriminate; constructor.
    + injection Hrs as E _. pose proof (subsector_swf n s sp Hwf (Hg sp (or_introl eq_refl))) as W.
      pose proof (subsector_refactorized n ix s sp Hwf (Hg sp (or_introl eq_refl)) Href) as W'.
      split; [exact W|]. split; [exact W'|]. apply IH; assumption.
    + injection Hrs as _ E. apply IHl; [exact E|]. intros; apply Hg; right; assumption.
Qed.
Lemma good_sets_of n S0 : NoDup S0 -> Forall (fun i => (i < n)%nat) S0 -> forall sp, In sp (subsector_sets S0) -> good_set n sp.
Proof.
  intros Hn Hr sp Hin. apply subsector_sets_perm in Hin as [Hp (a & bs & ->)]. split; [|split; [discriminate|]].
  - eapply Permutation_NoDup; [symmetry; exact Hp|exact Hn].
  - apply Forall_forall. intros i Hi. rewrite Forall_forall in Hr. apply Hr. eapply Permutation_in; eassumption.
Qed.
End SP3.
Arguments good_set _ _ : clear implicits.
