(** Symmetric sectors have equal sorted arrays. *)
From Coq Require Import Sorted.
From Verif Require Import SortProofs PolyProofs MatSortProofs4 SectorInt PropMatSort.
From Verif Require Export SymProofs2.
Local Open Scope nat_scope.

Section Min.
Variable F : Fld.
Local Open Scope fld_scope.
Variable E : Type.
Variable edec : forall a b : E, {a = b} + {a <> b}.
Notation xsector := (xsector F E).
Notation cobj := (cobj F E).
Variable n : nat.
Variables kc dc : list nat.
Hypothesis Hkd : Permutation (kc ++ dc) (seq 0 n).
Variable pi : list nat.
Hypothesis Hpi : Permutation pi (seq 0 n).
Hypothesis Hfix : forall k, In k dc -> nth k pi 0%nat = k.
Notation pif := (fun j => nth j pi 0%nat).
Notation idx := (fun k => match index_of Nat.eq_dec k kc with Some p => p | None => 0%nat end).
Definition tau_of : list nat := map idx (map pif kc).

Lemma pi_length : length pi = n.
Proof. rewrite (Permutation_length Hpi), seq_length. reflexivity. Qed.
Lemma pif_kc : Permutation (map pif kc) kc.
Proof.
  apply (Permutation_app_inv_r dc). rewrite Hkd, <- Hpi.
  transitivity (map pif (kc ++ dc)).
  - rewrite map_app. apply Permutation_app_head. rewrite (map_ext_in _ (fun k => k)) by exact Hfix. rewrite map_id. reflexivity.
  - rewrite Hkd. rewrite <- (list_mapseq 0%nat pi n pi_length). reflexivity.
Qed.
Lemma map_idx_kc : map idx kc = seq 0 (length kc).
Proof.
  apply (nth_ext _ _ 0%nat 0%nat); rewrite map_length; [rewrite seq_length; reflexivity|]. intros p Hp. rewrite seq_nth by exact Hp. cbn [plus].
  rewrite (nth_indep _ 0%nat (idx 0%nat)) by (rewrite map_length; exact Hp). rewrite (map_nth idx). rewrite (index_kc kc dc n Hkd) by exact Hp. reflexivity.
Qed.
Lemma tau_perm : Permutation tau_of (seq 0 (length kc)).
Proof. unfold tau_of. rewrite pif_kc, map_idx_kc. reflexivity. Qed.
Lemma kd_lt j : In j (kc ++ dc) -> (j < n)%nat.
Proof. intros H. apply (Permutation_in _ Hkd) in H. apply in_seq in H. lia. Qed.
Lemma getZ_rename j e : (j < n)%nat -> getZ j (rename_row pi e) = getZ (nth j pi 0%nat) e.
Proof.
  intros Hj. unfold getZ, rename_row. rewrite (nth_indep _ 0%Z (nth 0 e 0%Z)) by (rewrite map_length, pi_length; exact Hj).
  apply (map_nth (fun k => nth k e 0%Z)).
Qed.
Lemma cols_dc e : cols dc (rename_row pi e) = cols dc e.
Proof. unfold cols. apply map_ext_in. intros j Hj. rewrite getZ_rename by (apply kd_lt, in_or_app; right; exact Hj). rewrite Hfix by exact Hj. reflexivity. Qed.
Lemma cols_kc e : cols kc (rename_row pi e) = map (fun j => nth j (cols kc e) 0%Z) tau_of.
Proof.
  unfold tau_of, cols. rewrite !map_map. apply map_ext_in. intros j Hj. rewrite getZ_rename by (apply kd_lt, in_or_app; left; exact Hj).
  assert (Hin : In (nth j pi 0%nat) kc) by (apply (Permutation_in _ pif_kc); apply (in_map pif), Hj).
  destruct (index_of_in Nat.eq_dec _ kc Hin) as [p Hp]. rewrite Hp. apply index_of_spec in Hp.
  assert (p < length kc)%nat by (apply nth_error_Some; congruence). rewrite (nth_indep _ 0%Z (getZ 0 e)) by (rewrite map_length; assumption). rewrite (map_nth (fun j => getZ j e)).
  f_equal. symmetry. apply nth_error_nth, Hp.
Qed.
Lemma rename_row_add e m : length e = length m -> rename_row pi (row_add e m) = row_add (rename_row pi e) (rename_row pi m).
Proof.
  intros H. unfold rename_row. clear Hpi Hfix. induction pi as [|k r IH]; [reflexivity|]. cbn [map]. rewrite IH. cbn. f_equal. apply (getZ_row_add' k e m H).
Qed.
Definition rterm (t : term F) : term F := (rename_row pi (fst t), snd t).
Lemma rows_perm t (ts ts' : list (term F)) : Permutation ts' (map rterm ts) -> Permutation (rows_of kc dc t ts') (map (rearr F E tau_of) (rows_of kc dc t ts)).
Proof.
  intros H. unfold rows_of. rewrite H, !map_map. match goal with |- Permutation ?l ?l' => replace l with l'; [reflexivity|] end.
  apply map_ext. intros u. unfold rearr, rterm. cbn [fst snd]. rewrite cols_dc, cols_kc. reflexivity.
Qed.
Lemma expand_perm (c c' : poly F * poly F) e k : ptm (fst c) = [(e, k)] -> Forall (fun t => length (fst t) = length e) (ptm (snd c)) ->
  poly_renamed pi (fst c) (fst c') -> poly_renamed pi (snd c) (snd c') -> Permutation (expand_product c') (map rterm (expand_product c)).
Proof.
  intros Hc Hl H1 H2. unfold poly_renamed in *. rewrite Hc in H1. cbn [map fst snd] in H1. apply Permutation_sym, Permutation_length_1_inv in H1.
  unfold expand_product. rewrite Hc, H1. cbn [fst snd]. rewrite H2, !map_map. match goal with |- Permutation ?l ?l' => replace l with l'; [reflexivity|] end.
  apply map_ext_in. intros u Hu. unfold rterm. cbn [fst snd]. rewrite Forall_forall in Hl. rewrite rename_row_add by (apply Hl, Hu). reflexivity.
Qed.
Lemma index_perm {A B} (RR : A -> B -> Prop) (r : cobj * list Z -> cobj * list Z) (h : nat -> A -> list (cobj * list Z)) (h' : nat -> B -> list (cobj * list Z)) l l' :
  Forall2 RR l l' -> (forall i x x', RR x x' -> In x l -> Permutation (h' i x') (map r (h i x))) -> forall s0,
  Permutation (concat (map (fun q => h' (fst q) (snd q)) (combine (seq s0 (length l')) l'))) (map r (concat (map (fun q => h (fst q) (snd q)) (combine (seq s0 (length l)) l)))).
Proof.
  intros H. induction H as [|x x' l l' Hx Hl IH]; intros Hh s0; [reflexivity|]. cbn [length seq combine map concat fst snd]. rewrite map_app. apply Permutation_app.
  - apply Hh; [exact Hx|left; reflexivity].
  - apply IH. intros i y y' Hy Hin. apply Hh; [exact Hy|right; exact Hin].
Qed.
Lemma Forall2_combine {A B C} (RR : A -> B -> Prop) l l' : Forall2 RR l l' -> forall es : list C, Forall2 (fun p p' => RR (fst p) (fst p') /\ snd p = snd p') (combine l es) (combine l' es).
Proof. induction 1 as [|x x' l l' Hx Hl IH]; intros [|e es]; cbn [combine]; constructor; [auto|apply IH]. Qed.
Lemma renamed_arrays (a b : xsector) : xwf n a -> xwf n b -> terms_renamed pi a b ->
  Permutation (sector2array kc dc b) (map (rearr F E tau_of) (sector2array kc dc a)).
Proof.
  intros Wa Wb [Hc [Ho [Xc [Xo Hj]]]]. unfold sector2array. rewrite !map_app.
  destruct Wa as [Sa [La [La' [Ja [Ca Oa]]]]]. destruct Wb as [Sb [Lb [Lb' [Jb [Cb Ob]]]]].
  apply Permutation_app; [|apply Permutation_app].
  - rewrite <- (map_map fst (fun e => (JacOne, cols kc e)) (ptm (sjac (xs b)))), Hj, !map_map. 
    match goal with |- Permutation ?l ?l' => replace l with l'; [reflexivity|] end. apply map_ext. intros t. unfold rearr. cbn [fst snd]. rewrite cols_kc. reflexivity.
  - rewrite <- Xc. rewrite (seq_combine (scast (xs b)) (xcast a)), (seq_combine (scast (xs a)) (xcast a)) by congruence.
    apply (index_perm (fun p p' => (poly_renamed pi (fst (fst p)) (fst (fst p')) /\ poly_renamed pi (snd (fst p)) (snd (fst p'))) /\ snd p = snd p') (rearr F E tau_of)
      (fun i q => rows_of kc dc (TCast i (snd q)) (expand_product (fst q))) (fun i q => rows_of kc dc (TCast i (snd q)) (expand_product (fst q)))).
    + apply (Forall2_combine (fun c c' => poly_renamed pi (fst c) (fst c') /\ poly_renamed pi (snd c) (snd c'))), Hc.
    + intros i [c e] [c' e'] [[H1 H2] H3] Hin. cbn [fst snd] in *. subst e'. apply rows_perm.
      assert (HcI : In c (scast (xs a))) by (apply in_combine_l in Hin; exact Hin). rewrite Forall_forall in Ca. destruct (Ca c HcI) as [[e0 [k [Hm _]]] _].
      destruct (xwf_cast F E n a) with (c := c) as [A1 [A2 [A3 A4]]]; [repeat split; try assumption; rewrite Forall_forall; assumption|exact HcI|].
      apply (expand_perm c c' e0 k Hm); [|exact H1|exact H2]. unfold pwf in A3, A4. rewrite Hm, A1 in A3. apply Forall_inv in A3. cbn [fst] in A3. rewrite A3, <- A2. exact A4.
  - rewrite <- Xo. rewrite (seq_combine (sother (xs b)) (xother a)), (seq_combine (sother (xs a)) (xother a)) by congruence.
    apply (index_perm (fun p p' => poly_renamed pi (fst p) (fst p') /\ snd p = snd p') (rearr F E tau_of)
      (fun i q => rows_of kc dc (TOther i (snd q)) (ptm (fst q))) (fun i q => rows_of kc dc (TOther i (snd q)) (ptm (fst q)))).
    + apply (Forall2_combine (poly_renamed pi)), Ho.
    + intros i [c e] [c' e'] [H1 H3] Hin. cbn [fst snd] in *. subst e'. apply rows_perm, H1.
Qed.
End Min.
