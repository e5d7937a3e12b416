(** Proofs about the decomposition with splitting. *)
From Coq Require Import Reals Lra Permutation.
From Verif Require Import PolyProofs SectorProofs SectorProofs2 SectorInt CubeInt SplitProofs SplitProofs2 SplitReal SplitProofs3 PropSector PropSplit SecSplitNonzero.
From Verif Require Export SecSplitModel SplitSpec.
Local Open Scope nat_scope.
Notation LForall := List.Forall.
Definition sdistinct (s : sector R_Fld) : Prop := LForall (fun c : poly R_Fld * poly R_Fld => distinct (ptm (snd c))) (scast s).
Definition good (n : nat) (s : sector R_Fld) : Prop := sgood R_Fld n s /\ sdistinct s.
Lemma distinct_rows (f : list Z -> list Z) (g : term R_Fld -> R) (ts : list (term R_Fld)) n : (forall a b, length a = n -> length b = n -> f a = f b -> a = b) -> LForall (fun t : term R_Fld => length (fst t) = n) ts ->
  (forall t, In t ts -> snd t <> 0%R -> g t <> 0%R) -> distinct ts -> distinct (map (fun t : term R_Fld => (f (fst t), g t)) ts).
Proof.
  intros Hf W Hg (N & C). split.
  - rewrite map_map. cbn [fst]. clear C Hg. induction ts as [|t ts IH]; [constructor|]. cbn [map] in *. inversion N as [|? ? H1 H2]; subst. apply List.Forall_cons_iff in W as (W1 & W). constructor; [|apply IH; assumption].
    intros K. apply H1. apply in_map_iff in K as (u & E & Hu). apply in_map_iff. exists u. split; [|exact Hu]. rewrite List.Forall_forall in W. apply Hf; [apply W, Hu|exact W1|exact E].
  - apply List.Forall_map, List.Forall_forall. intros t Ht. cbn [snd]. apply Hg; [exact Ht|]. rewrite List.Forall_forall in C. apply C, Ht.
Qed.
Lemma upd_inj a (k : list Z -> Z) (x y : list Z) n : a < n -> length x = n -> length y = n -> ((forall j, j <> a -> getZ j x = getZ j y) -> k x = k y -> getZ a x = getZ a y) -> upd a (k x) x = upd a (k y) y -> x = y.
Proof.
  intros Ha Lx Ly Hk E. assert (O : forall j, j <> a -> getZ j x = getZ j y).
  { intros j Hj. pose proof (f_equal (getZ j) E) as H. rewrite !getZ_upd in H by lia. destruct (Nat.eqb_spec a j); [congruence|exact H]. }
  assert (K : k x = k y). { pose proof (f_equal (getZ a) E) as H. rewrite !getZ_upd, !Nat.eqb_refl in H by lia. exact H. }
  apply (nth_ext _ _ 0%Z 0%Z); [congruence|]. intros j _. change (getZ j x = getZ j y). destruct (Nat.eq_dec j a) as [->|Hj]; [apply Hk; assumption|apply O, Hj].
Qed.
Lemma pwf_rows (p : poly R_Fld) n : pnv p = n -> pwf p -> LForall (fun t : term R_Fld => length (fst t) = n) (ptm p).
Proof. intros <- H. exact H. Qed.
Lemma shift_col_distinct i k n (p : poly R_Fld) : i < n -> pnv p = n -> pwf p -> distinct (ptm p) -> distinct (ptm (shift_col i k p)).
Proof.
  intros Hi E W D. cbn [shift_col ptm]. apply (distinct_rows (fun e => upd i (getZ i e + k)%Z e) snd _ n); [|apply pwf_rows; assumption|auto|exact D].
  intros a b La Lb H. apply (upd_inj i (fun e => getZ i e + k)%Z a b n Hi La Lb); [intros _ K; lia|exact H].
Qed.
Lemma remap_poly_distinct sp n (p : poly R_Fld) : NoDup sp -> LForall (fun i => i < n) sp -> pnv p = n -> pwf p -> distinct (ptm p) -> distinct (ptm (remap_poly sp p)).
Proof.
  intros Nd Hr E W D. destruct sp as [|a bs]; [exact D|]. rewrite remap_poly_rows. inversion Nd as [|? ? Na _]; subst. apply List.Forall_cons_iff in Hr as (Ha & _).
  apply (distinct_rows (rrow (a :: bs)) snd _ (pnv p)); [|apply pwf_rows; auto|auto|exact D].
  intros x y Lx Ly H. rewrite !rrow_spec in H by (lia || assumption). apply (upd_inj a (fun e => getZ a e + sumZ_at bs e)%Z x y _ Ha Lx Ly); [|exact H].
  intros O K. assert (S : sumZ_at bs x = sumZ_at bs y); [|lia]. clear -O Na. induction bs as [|b bs IH]; [reflexivity|]. cbn [sumZ_at fold_right]. fold (sumZ_at bs x) (sumZ_at bs y). rewrite IH by (intros H; apply Na; right; exact H).
  f_equal. apply O. intros ->. apply Na. left. reflexivity.
Qed.
Lemma subsector_good n (s : sector R_Fld) sp : good n s -> good_set n sp -> good n (subsector s sp).
Proof.
  intros ((H1 & H2 & H3) & H4) G. split; [split; [apply subsector_swf; assumption|split; [apply (subsector_nonneg R_Fld n); assumption|]]|].
  - unfold smono in *. cbn [subsector scast]. apply List.Forall_map. eapply Forall_impl; [|exact H3]. intros c Hc. destruct G as (_ & Ne & _). destruct sp as [|a bs]; [congruence|].
    cbn [refactorize refactorize_params fold_left refactorize1 fst shift_col ptm]. rewrite map_length, remap_poly_rows, map_length. exact Hc.
  - unfold sdistinct in *. cbn [subsector scast]. apply List.Forall_map, List.Forall_forall. intros c Hc. rewrite List.Forall_forall in H4. specialize (H4 c Hc). destruct G as (Nd & Ne & Hr). destruct sp as [|a bs]; [congruence|].
    destruct (swf_get R_Fld n s H1) as (W & _). destruct (W c Hc) as (_ & E & Wp & _). cbn [refactorize refactorize_params fold_left refactorize1 snd].
    destruct (remap_poly_inv R_Fld (a :: bs) (snd c)) as (R1 & R2 & _). apply (shift_col_distinct a _ n); [apply (List.Forall_inv Hr)|congruence|apply R2, Wp|]. apply (remap_poly_distinct _ n); assumption.
Qed.
Lemma rescale_good n i v (s : sector R_Fld) : good n s -> i < n -> v <> 0%R -> good n (@rescale_sector R_Fld i v s).
Proof.
  intros (H1 & H2) Hi Hv. split; [apply (rescale_ok R_Fld n i v s H1 Hi)|]. unfold sdistinct in *. cbn [rescale_sector scast]. apply List.Forall_map, List.Forall_forall. intros c Hc. rewrite List.Forall_forall in H2. cbn [snd].
  destruct (sgood_get R_Fld n s H1) as (G & _). destruct (G c Hc) as (_ & (E & W & _) & _). rewrite multiply_by_terms.
  apply (distinct_rows (fun e => e) (@preplace_coeff R_Fld v i) _ n); [auto|apply pwf_rows; assumption| |apply H2, Hc].
  intros t _ Ht. unfold preplace_coeff. destruct (@feqb R_Fld v (@f0 R_Fld)) eqn:Ef; [apply (@feqb_spec R_Fld) in Ef; contradiction|]. destruct (@feqb R_Fld v (@f1 R_Fld)); [exact Ht|].
  apply (Rmult_integral_contrapositive_currified (@zpow R_Fld v (getZ i (fst t))) (snd t)); [apply (@zpow_neq0 R_Fld), Hv|exact Ht].
Qed.
Lemma sorted_distinct (p : poly R_Fld) : rows_sorted (ptm p) -> NoDup (map fst (ptm p)).
Proof.
  unfold rows_sorted. induction 1 as [|t l H IH Hl]; [constructor|]. cbn [map]. constructor; [|exact IH]. intros K. apply in_map_iff in K as (u & E & Hu). rewrite List.Forall_forall in Hl. specialize (Hl u Hu). exact (lexlt_irrefl _ (eq_ind _ (fun r => lexlt (fst t) r) Hl _ E)).
Qed.
Lemma remap_distinct n (p q : poly R_Fld) i : pok R_Fld n p -> i < n -> distinct (ptm p) -> remap_one_to_zero p [i] = Some q -> pok R_Fld n q /\ distinct (ptm q).
Proof.
  intros Hp Hi D E. destruct (remap_pok R_Fld n p [i] Hp) as (q' & E' & Q1 & Q2 & Q3); [repeat constructor; intros []|repeat constructor; exact Hi|]. assert (q' = q) as -> by congruence. clear E'. split; [exact Q1|].
  destruct Q2 as (S & [(C & _)|Z]); [split; [apply sorted_distinct, S|exact C]|]. exfalso.
  destruct (nonzero_point n (ptm p)) as (x & Lx & Hx); [apply pok_twf, Hp|exact D|apply Hp|]. apply Hx.
  assert (V : @peval R_Fld q (@flip_coords R_Fld [i] x) = 0%R). { rewrite Z. unfold peval, pconst. cbn [ptm map sumF fst snd]. change (@eq R (0 * @meval R_Fld (zrow (pnv q)) (@flip_coords R_Fld [i] x) + 0)%R 0%R). ring. }
  rewrite Q3 in V by (rewrite flip_length; exact Lx). rewrite flip_flip in V. exact V.
Qed.
Lemma flip_good n i (s s1 : sector R_Fld) : good n s -> i < n -> flip_sector i s = Some s1 -> good n s1.
Proof.
  intros (H1 & H2) Hi E. destruct (flip_ok R_Fld n i s H1 Hi) as (s' & E' & G & _). assert (s' = s1) as -> by congruence. clear E'. split; [exact G|]. unfold flip_sector in E.
  destruct (all_some (map (remap_cast i) (scast s))) as [cs|] eqn:Ec; [|discriminate]. destruct (all_some _) as [o|] in E; [|discriminate]. destruct (remap_one_to_zero (sjac s) [i]) as [j|]; [|discriminate]. injection E as <-. unfold sdistinct in *. cbn [scast].
  destruct (sgood_get R_Fld n s H1) as (GG & _). clear -Hi Ec H2 GG. revert cs Ec. induction (scast s) as [|c l IH]; intros cs Ec; cbn [map all_some] in Ec; [injection Ec as <-; constructor|].
  destruct (remap_cast i c) as [c'|] eqn:Er; [|discriminate]. destruct (all_some _) as [cs'|] eqn:Es in Ec; [|discriminate]. injection Ec as <-. apply List.Forall_cons_iff in H2 as (D & H2).
  constructor; [|apply IH; [exact H2|intros d Hd; apply GG; right; exact Hd|exact Es]]. destruct (GG c (or_introl eq_refl)) as ((Em & Wm & Nm & Qm) & (E & W & N & Q) & _). unfold remap_cast in Er.
  set (k := match ptm (fst c) with [] => 0%Z | t :: _ => getZ i (fst t) end) in *. destruct (remap_one_to_zero _ [i]) as [q|] eqn:Eq in Er; [|discriminate]. injection Er as <-.
  cbn [refactorize refactorize_params fold_left refactorize1 snd].
  assert (Kn : (0 <= k)%Z). { unfold k. destruct (ptm (fst c)) as [|t ts] eqn:Et; [lia|]. apply getZ_nonneg. unfold pnonneg in Qm. rewrite Et in Qm. apply (List.Forall_inv Qm). }
  destruct (remap_distinct n (shift_col i k (snd c)) q i) as ((Eq1 & Eq2 & _) & Dq); [|exact Hi| |exact Eq|apply (shift_col_distinct i _ n); assumption].
  - split; [exact E|]. split; [apply shift_col_wf, W|]. split; [apply shift_col_ne, N|]. unfold pnonneg in *. cbn [shift_col ptm]. apply List.Forall_map. eapply Forall_impl; [|exact Q].
    intros u Hu. cbn [fst]. apply upd_nonneg; [|exact Hu]. pose proof (getZ_nonneg i (fst u) Hu). lia.
  - apply (shift_col_distinct i _ n); assumption.
Qed.
Lemma split_good n ix : forall vs (s : sector R_Fld) l, good n s -> LForall (fun i => i < n) ix -> LForall (fun v => 0 < v < 1)%R vs -> @split_recursively R_Fld s ix vs = Some l -> LForall (good n) l.
Proof.
  induction ix as [|i ix IH]; intros [|v vs] s l G Hi Hv H; cbn [split_recursively] in H; try discriminate; try (injection H as <-; repeat constructor; apply G).
  apply List.Forall_cons_iff in Hi as (Hi1 & Hi). apply List.Forall_cons_iff in Hv as (Hv1 & Hv). destruct (flip_sector i s) as [s1|] eqn:E1; [|discriminate].
  destruct (@split_recursively R_Fld (@rescale_sector R_Fld i v s) ix vs) as [a|] eqn:Ea; [|discriminate]. destruct (@split_recursively R_Fld (@rescale_sector R_Fld i (@fsub R_Fld (@f1 R_Fld) v) s1) ix vs) as [b|] eqn:Eb; [|discriminate]. injection H as <-.
  apply List.Forall_app. split; [apply (IH vs _ a (rescale_good n i v s G Hi1 ltac:(lra)) Hi Hv Ea)|].
  apply (IH vs _ b) in Eb; [exact Eb| |exact Hi|exact Hv]. apply rescale_good; [apply (flip_good n i s s1 G Hi1 E1)|exact Hi1|]. change (1 - v <> 0)%R. lra.
Qed.
Lemma singular_parameters_range (s : sector R_Fld) ix n : good n s -> scast s <> [] -> LForall (fun i => i < n) (singular_parameters s ix).
Proof.
  intros ((W & _) & _) Ne. unfold singular_parameters. apply List.Forall_forall. intros i Hi. apply filter_In in Hi as (Hi & _). apply in_seq in Hi. destruct (swf_get R_Fld n s W) as (G & _).
  unfold sector_nv in Hi. destruct (scast s) as [|c l]; [congruence|]. destruct (G c (or_introl eq_refl)) as (_ & (E & _)). lia.
Qed.
(** integrals *)
Definition I (n : nat) (ks ls : list nat) (s : sector R_Fld) : R := cube_RInt n (fun y => sector_value ks ls s y).
Definition total (n : nat) (ks ls : list nat) (l : list (sector R_Fld)) : R := @sumF R_Fld (map (I n ks ls) l).
Lemma total_app n ks ls a b : total n ks ls (a ++ b) = (total n ks ls a + total n ks ls b)%R.
Proof. unfold total. rewrite map_app, (@sumF_app R_Fld). reflexivity. Qed.
Lemma total_cons n ks ls a b : total n ks ls (a :: b) = (I n ks ls a + total n ks ls b)%R.
Proof. reflexivity. Qed.
Lemma total_nil n ks ls : total n ks ls [] = 0%R. Proof. reflexivity. Qed.
Lemma standard_form_get (s : sector R_Fld) ix : get_poly_to_transform (scast s) ix = None -> standard_form ix s.
Proof. intros H. apply get_poly_none in H. unfold standard_form. eapply Forall_impl; [|exact H]. intros c Hc. apply has_const_spec, Hc. Qed.
Lemma collect_spec {A B} (f : A -> option (list B)) l r : collect f l = Some r -> exists rs, Forall2 (fun a x => f a = Some x) l rs /\ r = concat rs.
Proof.
  revert r. induction l as [|a l IH]; intros r H; cbn [collect fold_right] in H; [injection H as <-; exists []; split; constructor|]. fold (collect f l) in H.
  destruct (f a) as [x|] eqn:Ea; [|discriminate]. destruct (collect f l) as [y|]; [|discriminate]. injection H as <-. destruct (IH y eq_refl) as (rs & H1 & ->). exists (x :: rs). split; [constructor; assumption|reflexivity].
Qed.
Lemma Forall2_total n ks ls (P : sector R_Fld -> Prop) (l : list (sector R_Fld)) rs : Forall2 (fun s r => total n ks ls r = I n ks ls s /\ LForall P r) l rs -> total n ks ls (concat rs) = total n ks ls l /\ LForall P (concat rs).
Proof. induction 1 as [|s r l rs (H1 & H2) H (IH1 & IH2)]; [split; [reflexivity|constructor]|]. cbn [concat]. rewrite total_app, total_cons, H1, IH1. split; [reflexivity|]. apply List.Forall_app. split; assumption. Qed.
Lemma Forall2_weak {A B} (P : A -> Prop) (R S : A -> B -> Prop) l r : LForall P l -> (forall a b, P a -> R a b -> S a b) -> Forall2 R l r -> Forall2 S l r.
Proof. intros Hp H F. revert Hp. induction F as [|a b l r Hab F IH]; intros Hp; [constructor|]. apply List.Forall_cons_iff in Hp as (Ha & Hp). constructor; [apply H; assumption|apply IH, Hp]. Qed.
(** the iterative decomposition without the hypothesis that the sector is refactorized *)
Lemma decomposition_good n ix ks ls : good_ix n ix -> forall fuel s l, good n s -> iterative_decomposition fuel s ix = Some l ->
  total n ks ls l = I n ks ls s /\ LForall (fun s' => good n s' /\ standard_form ix s' /\ length (scast s') = length (scast s)) l.
Proof.
  intros Hix. induction fuel as [|fuel IH]; intros s l G H; [discriminate|]. cbn [iterative_decomposition] in H. unfold iteration_step in H. pose proof (find_singular_set_general R_Fld s ix) as Hf.
  destruct (find_singular_set s ix) as [S0| |]; [| |discriminate].
  - destruct Hf as (p & Ep & Hch). assert (Hg : forall sp, In sp (subsector_sets S0) -> good_set n sp) by (intros sp Hsp; eapply choice_good; eassumption).
    assert (H' : collect (fun sub => iterative_decomposition fuel sub ix) (map (subsector s) (subsector_sets S0)) = Some l) by exact H. apply collect_spec in H' as (rs & HF & ->).
    assert (Gl : LForall (fun s' : sector R_Fld => good n s' /\ length (scast s') = length (scast s)) (map (subsector s) (subsector_sets S0))).
    { apply List.Forall_map, List.Forall_forall. intros sp Hsp. split; [apply subsector_good; [exact G|apply Hg, Hsp]|]. cbn [subsector scast]. apply map_length. }
    destruct (Forall2_total n ks ls (fun s' => good n s' /\ standard_form ix s' /\ length (scast s') = length (scast s)) (map (subsector s) (subsector_sets S0)) rs) as (T & FA).
    + eapply Forall2_weak; [exact Gl| |exact HF]. cbn. intros s' r (G' & L') Er. destruct (IH s' r G' Er) as (A & B). split; [exact A|]. eapply Forall_impl; [|exact B]. cbn. intros a (B1 & B2 & B3). repeat split; try apply B1; try assumption. congruence.
    + split; [|exact FA]. rewrite T. unfold total. rewrite map_map. destruct G as ((W & Nn & _) & _). destruct Hch as (Hsub & Hl & _). unfold I at 2. rewrite sector_integral_R by assumption.
      rewrite <- (step_integral R_Fld char0_R n ks ls s S0); try assumption.
      * apply (@sumF_map_ext R_Fld). intros sp Hsp. unfold I. apply sector_integral_R; [apply subsector_swf; auto|apply (subsector_nonneg R_Fld n); auto].
      * eapply sublist_NoDup; [exact Hsub|apply Hix].
      * intros ->. cbn in Hl. lia.
      * apply List.Forall_forall. destruct Hix as (_ & Hr). rewrite List.Forall_forall in Hr. intros i Hi. apply Hr. eapply SplitProofs3.sublist_in; eassumption.
  - injection H as <-. split; [rewrite total_cons, total_nil; ring|]. constructor; [|constructor]. split; [exact G|]. split; [apply standard_form_get, Hf|reflexivity].
Qed.
Section M.
Variables (n : nat) (ix ks ls : list nat) (points : nat -> R).
Hypothesis Hix : good_ix n ix.
Hypothesis Hp : forall k, (0 < points k < 1)%R.
Lemma points_range k : LForall (fun v => 0 < v < 1)%R (map points (seq 0 k)).
Proof. apply List.Forall_map, List.Forall_forall. intros j _. apply Hp. Qed.
Lemma split_length (s : sector R_Fld) l : scast s <> [] -> good n s -> @split_singular R_Fld points s ix = Some l -> length l = 2 ^ length (singular_parameters s ix) /\ LForall (fun s' : sector R_Fld => good n s' /\ length (scast s') = length (scast s)) l /\ total n ks ls l = I n ks ls s.
Proof.
  intros Ne G H. unfold split_singular in H. pose proof (singular_parameters_range s ix n G Ne) as Hr. set (ps := singular_parameters s ix) in *.
  destruct (split_ok R_Fld n ps (map points (seq 0 (length ps))) s (proj1 G) Hr) as (l' & E & F); [rewrite map_length, seq_length; reflexivity|]. assert (l' = l) as -> by (assert (QQ : Some l' = Some l) by exact (eq_trans (eq_sym E) H); congruence). clear E.
  split; [|split].
  - rewrite <- choices_length. clear -F. induction F; cbn; congruence.
  - pose proof (split_good n ps _ s l G Hr (points_range _) H) as Gl. apply List.Forall_forall. intros s' Hs'. rewrite List.Forall_forall in Gl. split; [apply Gl, Hs'|].
    destruct (Forall2_in_r _ _ _ _ F Hs') as (cs & _ & (_ & M)). destruct (M (repeat 0%R n)) as (M1 & _); [apply repeat_length|]. clear -M1. induction M1; cbn; congruence.
  - unfold total, I. apply (split_integral n ks ls ps (map points (seq 0 (length ps)))); [apply G|exact Hr|apply points_range|exact H].
Qed.
Theorem secondary_good m : m <> 0 -> forall fuel s lsec l, LForall (fun s' : sector R_Fld => good n s' /\ length (scast s') = m) lsec -> @secondary_with_splitting R_Fld points fuel s ix (Some lsec) = Some l ->
  total n ks ls l = total n ks ls lsec /\ LForall (fun s' => good n s' /\ length (scast s') = m /\ standard_form ix s' /\ singular_parameters s' ix = []) l.
Proof.
  intros Hm. induction fuel as [|fuel IH]; intros s lsec l G H; [discriminate|]. cbn [secondary_with_splitting] in H. apply collect_spec in H as (rs & HF & ->). apply Forall2_total. eapply Forall2_weak; [exact G| |exact HF].
  cbn. intros sp r (Gs & Lm) Hr. destruct (iterative_decomposition fuel sp ix) as [ds|] eqn:Ed; [|discriminate]. destruct (decomposition_good n ix ks ls Hix fuel sp ds Gs Ed) as (T & Gd). apply collect_spec in Hr as (rs' & HF' & ->). rewrite <- T.
  apply Forall2_total. eapply Forall2_weak; [exact Gd| |exact HF'].
  cbn. intros d r' (G1 & G2 & G3) Er. destruct (@split_singular R_Fld points d ix) as [l0|] eqn:Es; [|discriminate]. assert (Ne : scast d <> []) by (intros E; rewrite E in G3; cbn in G3; lia).
  destruct (split_length d l0 Ne G1 Es) as (S1 & S2 & S3). destruct (Nat.eqb_spec (length l0) 1) as [E1|E1].
  - injection Er as <-. split; [rewrite total_cons, total_nil; ring|]. constructor; [|constructor]. split; [exact G1|]. split; [congruence|]. split; [exact G2|]. rewrite E1 in S1. destruct (singular_parameters d ix); [reflexivity|]. cbn [length Nat.pow] in S1. lia.
  - rewrite <- S3. apply (IH d l0 r'); [|exact Er]. eapply Forall_impl; [|exact S2]. cbn. intros a (A & B). split; [exact A|congruence].
Qed.
End M.
