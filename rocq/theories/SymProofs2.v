(** Merging of equal sectors. *)
From Coq Require Import Sorted.
From Verif Require Import SortProofs PolyProofs MatSortProofs4.
From Verif Require Export SymProofs.
Local Open Scope nat_scope.

Section Merge.
Variable F : Fld.
Local Open Scope fld_scope.
Add Field Fld_fieldSM : (f_th F).
Variable E : Type.
Variable edec : forall a b : E, {a = b} + {a <> b}.
Notation xsector := (xsector F E).
Notation cobj := (cobj F E).
Variable n : nat.

Lemma set_set s (c d : F) : set_jac (set_jac s c : xsector) d = set_jac s d.
Proof. unfold set_jac. cbn [xs scast sother sjac xcast xother]. destruct (ptm (sjac (xs s))) as [|t r] eqn:Ej; [rewrite Ej; reflexivity|]. cbn [ptm pnv fst]. reflexivity. Qed.
Lemma jac_set (s : xsector) c : xwf n s -> jac_coeff (set_jac s c) = c.
Proof. intros H. destruct (xwf_jac F E n s H) as [e [c0 [Hj _]]]. unfold jac_coeff, set_jac. cbn [xs sjac]. rewrite Hj. reflexivity. Qed.
Lemma set_jac_id (s : xsector) : xwf n s -> set_jac s (jac_coeff s) = s.
Proof.
  intros H. destruct (xwf_jac F E n s H) as [e [c0 [Hj _]]]. unfold jac_coeff, set_jac. rewrite Hj. cbn [fst snd].
  destruct s as [[sc so [pn pt]] xc xo]. cbn [xs sjac ptm pnv scast sother xcast xother] in *. subst pt. reflexivity.
Qed.
Lemma arr_set_jac kc dc (s : xsector) c : sector2array kc dc (set_jac s c) = sector2array kc dc s.
Proof. unfold sector2array, set_jac. cbn [xs scast sother sjac xcast xother]. destruct (ptm (sjac (xs s))) as [|t r] eqn:Ej; [rewrite Ej; reflexivity|]. cbn [ptm map fst]. reflexivity. Qed.

Section Sum.
Context {A : Type}.
Variable eqA : A -> A -> bool.
Variable V : xsector -> F.
Hypothesis Vadd : jac_additive n V.
Variable L : list (A * xsector).
Hypothesis Lwf : forall p, In p L -> xwf n (snd p).
Hypothesis Leq : forall p q, In p L -> In q L -> eqA (fst p) (fst q) = true -> forall c, V (set_jac (snd p) c) = V (set_jac (snd q) c).

Lemma merge_sum l : forall o c, In o L -> (forall p, In p l -> In p L) ->
  sumF (map V (merge eqA (fst o, set_jac (snd o) c) l)) = V (set_jac (snd o) c) + sumF (map (fun p => V (snd p)) l).
Proof.
  induction l as [|p l IH]; intros o c Ho Hl; cbn [merge]; [cbn [map sumF snd]; ring|].
  assert (Hp : In p L) by (apply Hl; left; reflexivity). assert (Hl' : forall q, In q l -> In q L) by (intros; apply Hl; right; assumption).
  cbn [map sumF snd fst]. destruct (eqA (fst p) (fst o)) eqn:Eq.
  - unfold add_jac. rewrite set_set, jac_set by (apply Lwf, Ho). rewrite (IH o) by assumption. rewrite Vadd by (apply Lwf, Ho).
    rewrite <- (Leq p o Hp Ho Eq (jac_coeff (snd p))), set_jac_id by (apply Lwf, Hp). ring.
  - cbn [map sumF]. assert (Hpe : p = (fst p, set_jac (snd p) (jac_coeff (snd p)))) by (rewrite set_jac_id by (apply Lwf, Hp); destruct p; reflexivity).
    rewrite Hpe at 1. rewrite IH by assumption. rewrite set_jac_id by (apply Lwf, Hp). ring.
Qed.
Lemma merge_all_sum : sumF (map V (merge_all eqA L)) = sumF (map (fun p => V (snd p)) L).
Proof.
  assert (K : forall l, (forall p, In p l -> In p L) -> sumF (map V (merge_all eqA l)) = sumF (map (fun p => V (snd p)) l)).
  { intros [|p l] Hl; [reflexivity|]. cbn [merge_all]. assert (Hp : In p L) by (apply Hl; left; reflexivity).
    assert (Hpe : p = (fst p, set_jac (snd p) (jac_coeff (snd p)))) by (rewrite set_jac_id by (apply Lwf, Hp); destruct p; reflexivity).
    rewrite Hpe at 1. rewrite merge_sum; [|exact Hp|intros q Hq; apply Hl; right; exact Hq]. rewrite set_jac_id by (apply Lwf, Hp). reflexivity. }
  apply K. auto.
Qed.
End Sum.

(** the representatives *)
Section Reps.
Context {A : Type}.
Variable eqA : A -> A -> bool.
Definition variant (r : A * xsector) (o : xsector) : Prop := exists c, o = set_jac (snd r) c.
Lemma merge_reps l : forall o c, exists reps, Forall2 variant reps (merge eqA (fst o, set_jac (snd o) c) l) /\ (forall r, In r reps -> In r (o :: l)).
Proof.
  induction l as [|p l IH]; intros o c; cbn [merge].
  - exists [o]. split; [repeat constructor; exists c; reflexivity|]. intros r Hr. exact Hr.
  - cbn [fst snd]. destruct (eqA (fst p) (fst o)).
    + unfold add_jac. rewrite set_set. destruct (IH o (jac_coeff (set_jac (snd o) c) + jac_coeff (snd p))) as [reps [H1 H2]]. exists reps. split; [exact H1|]. intros r Hr. destruct (H2 r Hr); [left; assumption|right; right; assumption].
    + assert (Hid : exists c', snd p = set_jac (snd p) c').
      { exists (jac_coeff (snd p)). unfold jac_coeff, set_jac. destruct (snd p) as [[sc so [pn pt]] xc xo]. cbn [xs sjac ptm pnv scast sother xcast xother]. destruct pt as [|[e c0] r]; reflexivity. }
      destruct Hid as [c' Hc']. destruct (IH p c') as [reps [H1 H2]]. rewrite <- Hc' in H1. rewrite <- (surjective_pairing p) in H1. exists (o :: reps). split.
      * constructor; [exists c; reflexivity|exact H1].
      * intros r [<-|Hr]; [left; reflexivity|right; apply H2, Hr].
Qed.
Variable key : A -> list Z.
Variable P : A -> Prop.
Hypothesis Hkey : forall a b, P a -> P b -> eqA a b = false -> key a <> key b.
Lemma merge_reps_sorted l : forall o c, (forall p, In p (o :: l) -> P (fst p)) -> StronglySorted (kle (fun p : A * xsector => key (fst p))) (o :: l) ->
  exists reps, Forall2 variant reps (merge eqA (fst o, set_jac (snd o) c) l) /\ (forall r, In r reps -> In r (o :: l)) /\
    (forall r, In r reps -> lexle (key (fst o)) (key (fst r))) /\ StronglySorted (fun a b : A * xsector => lexlt (key (fst a)) (key (fst b))) reps.
Proof.
  induction l as [|p l IH]; intros o c HP Hs; cbn [merge].
  - exists [o]. split; [repeat constructor; exists c; reflexivity|]. split; [intros r Hr; exact Hr|]. split; [intros r [<-|[]]; apply lexle_refl|repeat constructor].
  - cbn [fst snd]. inversion Hs as [|? ? Hs' Ho]; subst. destruct (eqA (fst p) (fst o)) eqn:Eq.
    + unfold add_jac. rewrite set_set. destruct (IH o (jac_coeff (set_jac (snd o) c) + jac_coeff (snd p))) as [reps [H1 [H2 H3]]].
      { intros q [<-|Hq]; apply HP; [left; reflexivity|right; right; exact Hq]. }
      { constructor; [inversion Hs'; assumption|]. apply Forall_inv_tail in Ho. exact Ho. }
      exists reps. split; [exact H1|]. split; [intros r Hr; destruct (H2 r Hr); [left; assumption|right; right; assumption]|exact H3].
    + assert (Hid : exists c', snd p = set_jac (snd p) c').
      { exists (jac_coeff (snd p)). unfold jac_coeff, set_jac. destruct (snd p) as [[sc so [pn pt]] xc xo]. cbn [xs sjac ptm pnv scast sother xcast xother]. destruct pt as [|[e c0] r]; reflexivity. }
      destruct Hid as [c' Hc']. destruct (IH p c' (fun q Hq => HP q (or_intror Hq)) Hs') as [reps [H1 [H2 [H3 H4]]]]. rewrite <- Hc' in H1. rewrite <- (surjective_pairing p) in H1. exists (o :: reps).
      assert (Hop : lexlt (key (fst o)) (key (fst p))).
      { apply Forall_inv in Ho. unfold kle in Ho. apply lexle_lt_eq in Ho. destruct Ho as [H|H]; [exact H|]. exfalso. apply (Hkey (fst p) (fst o)); [apply HP; right; left; reflexivity|apply HP; left; reflexivity|exact Eq|congruence]. }
      split; [|split; [|split]].
      * constructor; [exists c; reflexivity|exact H1].
      * intros r [<-|Hr]; [left; reflexivity|right; apply H2, Hr].
      * intros r [<-|Hr]; [apply lexle_refl|]. apply (lexle_trans _ (key (fst p))); [apply lexle_lt_eq; left; exact Hop|apply H3, Hr].
      * constructor; [exact H4|]. apply Forall_forall. intros r Hr. eapply lexlt_le_trans; [exact Hop|apply H3, Hr].
Qed.
End Reps.

(** ** the arrays *)
Definition rows (f : cobj -> Z) (arr : list (cobj * list Z)) : list (list Z) := map (fun q => f (fst q) :: snd q) arr.
Lemma split_lengths_map (f : cobj -> Z) (arrays : list (list (cobj * list Z))) :
  split_lengths (map (@length _) arrays) (map f (map fst (concat arrays))) = map (fun a => map f (map fst a)) arrays.
Proof.
  induction arrays as [|a l IH]; [reflexivity|]. cbn [map split_lengths concat]. rewrite !map_app. rewrite firstn_app, skipn_app, !map_length, Nat.sub_diag.
  rewrite firstn_all2, skipn_all2 by (rewrite !map_length; lia). cbn [firstn skipn app]. rewrite app_nil_r, IH. reflexivity.
Qed.
Lemma combine_rows (f : cobj -> Z) (a : list (cobj * list Z)) : map (fun q => fst q :: snd (snd q)) (combine (map f (map fst a)) a) = rows f a.
Proof. induction a as [|q a IH]; [reflexivity|]. cbn [map combine fst snd rows]. f_equal. exact IH. Qed.
Lemma combine_map_self {A B C} (g : A -> B) (h : B * A -> C) (l : list A) : map h (combine (map g l) l) = map (fun a => h (g a, a)) l.
Proof. induction l as [|a l IH]; [reflexivity|]. cbn [map combine]. f_equal. exact IH. Qed.

(** from arrays that are equivalent to a renaming *)
Lemma rows_rect f kc dc (s : xsector) : rect (S (length kc)) (rows f (sector2array kc dc s)).
Proof. unfold rect, rows. rewrite Forall_map. apply Forall_forall. intros q Hq. cbn [length]. f_equal. eapply arr_len; exact Hq. Qed.
Lemma equivalent_tau f kc dc (a b : xsector) : (forall q q', In q (sector2array kc dc b) -> In q' (sector2array kc dc a) -> f (fst q) = f (fst q') -> fst q = fst q') ->
  equivalent fix_first (S (length kc)) (rows f (sector2array kc dc a)) (rows f (sector2array kc dc b)) ->
  exists tau, Permutation tau (seq 0 (length kc)) /\ Permutation (sector2array kc dc b) (map (rearr F E tau) (sector2array kc dc a)).
Proof.
  intros Hf [sigma [Hs [Hfix Hp]]]. destruct sigma as [|z sigma]; [apply Permutation_length in Hs; rewrite seq_length in Hs; discriminate|].
  assert (Hz : z = 0%nat). { assert (H := Hfix 0%nat ltac:(lia)). unfold fix_first in H. cbn [nth] in H. apply H. reflexivity. } subst z.
  cbn [seq] in Hs. apply Permutation_cons_inv in Hs.
  assert (Htau : Permutation (map pred sigma) (seq 0 (length kc))).
  { rewrite (Permutation_map pred Hs). rewrite <- seq_shift, map_map. cbn [pred]. rewrite map_id. reflexivity. }
  exists (map pred sigma). split; [exact Htau|].
  apply (perm_map_inj (fun q : cobj * list Z => f (fst q) :: snd q)).
  - intros q q' Hq Hq' Heq. apply in_map_iff in Hq'. destruct Hq' as [q0 [<- Hq0]]. cbn [rearr fst snd] in Heq. injection Heq as H1 H2. destruct q as [o e]. assert (H3 := Hf (o, e) q0 Hq Hq0 H1). cbn [rearr fst snd] in *. unfold rearr. cbn [fst snd]. congruence.
  - unfold rows in Hp. rewrite map_map. cbn [rearr fst snd]. rewrite Hp. unfold rearrange_cols. rewrite map_map.
    match goal with |- Permutation ?l ?l' => replace l with l'; [reflexivity|] end. apply map_ext. intros q. cbn [map nth]. f_equal. rewrite map_map. apply map_ext_in. intros j Hj.
    apply (Permutation_in _ Hs) in Hj. apply in_seq in Hj. destruct j; [lia|]. reflexivity.
Qed.
(** and back *)
Lemma tau_equivalent f kc dc (a b : xsector) tau : Permutation tau (seq 0 (length kc)) -> Permutation (sector2array kc dc b) (map (rearr F E tau) (sector2array kc dc a)) ->
  equivalent fix_first (S (length kc)) (rows f (sector2array kc dc a)) (rows f (sector2array kc dc b)).
Proof.
  intros Ht Hp. exists (0%nat :: map S tau). split; [|split].
  - cbn [seq]. constructor. rewrite Ht, <- seq_shift. reflexivity.
  - intros [|k] Hk; unfold fix_first; cbn [nth]; [tauto|]. rewrite (nth_indep _ 0%nat (S 0)) by (rewrite map_length, (Permutation_length Ht), seq_length; lia). rewrite map_nth. split; discriminate.
  - unfold rows. rewrite (Permutation_map _ Hp), map_map. unfold rearrange_cols. rewrite map_map.
    match goal with |- Permutation ?l ?l' => replace l with l'; [reflexivity|] end. apply map_ext. intros q. cbn [map nth rearr fst snd]. f_equal. rewrite map_map. reflexivity.
Qed.

(** ** the whole function *)
Lemma squash_unfold fuel hash sf ix (sectors : list xsector) out : squash_sort edec fuel hash sf n ix sectors = Some out ->
  let kc := keep_cols n ix in let dc := drop_cols n ix in
  exists f, (forall s s' q q', In s sectors -> In s' sectors -> In q (sector2array kc dc s) -> In q' (sector2array kc dc s') -> f (fst q) = f (fst q') -> fst q = fst q') /\
    out = merge_all arr_eqb (sort_by (fun p => concat (fst p)) (map (fun s => (sf (rows f (sector2array kc dc s)), s)) sectors)).
Proof.
  unfold squash_sort. set (kc := keep_cols n ix). set (dc := drop_cols n ix). cbn zeta. destruct sectors as [|s0 rest] eqn:Es; [discriminate|]. rewrite <- Es. clear Es.
  destruct (forallb _ _); [|discriminate].
  destruct (collision_safe_hash _ _ _ _) as [hs|] eqn:Eh; [|discriminate]. intros [= <-].
  unfold collision_safe_hash in Eh. apply hash_loop_spec in Eh. destruct Eh as [f [-> Hnd]]. exists f. split.
  - intros s s' q q' Hs Hs' Hq Hq' Heq. eapply inj_of_nodup; [exact Hnd| | |exact Heq].
    + apply in_map, in_concat. exists (sector2array kc dc s). split; [apply in_map, Hs|exact Hq].
    + apply in_map, in_concat. exists (sector2array kc dc s'). split; [apply in_map, Hs'|exact Hq'].
  - f_equal. rewrite split_lengths_map.
    rewrite combine_map_self. cbn [fst snd]. rewrite map_map.
    rewrite (map_ext (fun x => sf _) (fun s => sf (rows f (sector2array kc dc s)))) by (intros s; rewrite combine_rows; reflexivity).
    unfold argsort_3D. rewrite <- (gather_argsort (fun p : list (list Z) * xsector => concat (fst p))).
    replace (combine (map (fun s => sf (rows f (sector2array kc dc s))) sectors) sectors) with (map (fun s => (sf (rows f (sector2array kc dc s)), s)) sectors).
    + f_equal. rewrite !map_map. reflexivity.
    + clear. induction sectors as [|s l IH]; [reflexivity|]. cbn [map combine]. f_equal. exact IH.
Qed.
Lemma squash_total hash sf ix (sectors : list xsector) : sectors <> [] ->
  (forall s s', In s sectors -> In s' sectors -> length (sector2array (keep_cols n ix) (drop_cols n ix) s) = length (sector2array (keep_cols n ix) (drop_cols n ix) s')) ->
  exists fuel out, squash_sort edec fuel hash sf n ix sectors = Some out.
Proof.
  intros Hne Hlen. assert (Hs0 : exists s0 rest, sectors = s0 :: rest) by (destruct sectors as [|s0 rest]; [congruence|eauto]). destruct Hs0 as [s0 [rest Es]].
  destruct (hash_loop_total (cobj_dec edec) (map fst (concat (map (sector2array (keep_cols n ix) (drop_cols n ix)) sectors))) hash) as [fuel [r Hr]].
  exists fuel. assert (Hc : forallb (fun a => Nat.eqb (length a) (length (sector2array (keep_cols n ix) (drop_cols n ix) s0))) (map (sector2array (keep_cols n ix) (drop_cols n ix)) sectors) = true).
  2: { unfold squash_sort. destruct sectors as [|s1 r1]; [discriminate|]. injection Es as -> ->. rewrite Hc. unfold collision_safe_hash. rewrite Hr. eexists. reflexivity. }
  - apply forallb_forall. intros a Ha. apply in_map_iff in Ha. destruct Ha as [s [<- Hs]]. apply Nat.eqb_eq. apply Hlen; [exact Hs|rewrite Es; left; reflexivity].
Qed.

Lemma sort_pairs_in {A} (key : A -> list Z) l p : In p (sort_by key l) <-> In p l.
Proof. split; apply Permutation_in; [|symmetry]; apply sort_by_perm. Qed.

Theorem squash_sum_gen fuel hash sf ix (sectors : list xsector) out (V : xsector -> F) :
  permuting sf -> Forall (xwf n) sectors -> Forall (jac_free (drop_cols n ix)) sectors -> jac_additive n V ->
  (forall a b c, In a sectors -> In b sectors -> symmetric n (drop_cols n ix) (set_jac a c) (set_jac b c) -> V (set_jac a c) = V (set_jac b c)) ->
  squash_sort edec fuel hash sf n ix sectors = Some out -> sumF (map V out) = sumF (map V sectors).
Proof.
  intros Hsf Hwf Hjf Vadd Vinv H. apply squash_unfold in H. cbn zeta in H. destruct H as [f [Hf ->]].
  set (kc := keep_cols n ix) in *. set (dc := drop_cols n ix) in *. set (L0 := map (fun s => (sf (rows f (sector2array kc dc s)), s)) sectors).
  rewrite Forall_forall in Hwf, Hjf.
  assert (Hin : forall p, In p (sort_by (fun p => concat (fst p)) L0) -> In (snd p) sectors /\ fst p = sf (rows f (sector2array kc dc (snd p)))).
  { intros p Hp. apply sort_pairs_in in Hp. unfold L0 in Hp. apply in_map_iff in Hp. destruct Hp as [s [<- Hs]]. auto. }
  rewrite (merge_all_sum arr_eqb V Vadd).
  - rewrite (sumF_perm F _ _ (Permutation_map _ (sort_by_perm _ L0))). unfold L0. rewrite map_map. reflexivity.
  - intros p Hp. apply Hwf, Hin, Hp.
  - intros p q Hp Hq Heq c. destruct (Hin p Hp) as [Sp Ep]. destruct (Hin q Hq) as [Sq Eq].
    unfold arr_eqb in Heq. destruct (list_eq_dec _ (fst p) (fst q)) as [Hpq|]; [|discriminate]. rewrite Ep, Eq in Hpq.
    assert (Hequ : equivalent fix_first (S (length kc)) (rows f (sector2array kc dc (snd p))) (rows f (sector2array kc dc (snd q)))).
    { eapply equivalent_trans; [apply fix_first_equiv|apply Hsf; [lia|apply rows_rect]|]. rewrite Hpq. apply equivalent_sym; [apply fix_first_equiv|apply rows_rect|apply Hsf; [lia|apply rows_rect]]. }
    apply equivalent_tau in Hequ; [|intros q1 q2 H1 H2; apply (Hf (snd q) (snd p)); auto].
    destruct Hequ as [tau [Ht Hperm]]. apply Vinv; auto.
    apply (arrays_symmetric F E edec kc dc n (keep_drop_perm n ix) (snd p) (snd q) tau); auto.
Qed.

Lemma arr_eqb_key a b : arr_eqb a b = false -> (exists w, (1 <= w)%nat /\ rect w a /\ rect w b) -> concat a <> concat b.
Proof.
  unfold arr_eqb. destruct (list_eq_dec _ a b) as [|Hne]; [discriminate|]. intros _ [w [Hw [Ha Hb]]] H. apply Hne. eapply concat_inj; eauto.
Qed.
End Merge.
