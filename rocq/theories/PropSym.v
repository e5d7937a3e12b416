(** Properties C20, C21 and C22: the symmetry finder. *)
From Coq Require Import Sorted QArith Qcanon.
From Verif Require Import SortProofs MatSortProofs4 SectorInt CubeInt RealField PropMatSort PropSector.
From Verif Require Import HashProofs SymProofs3 SymInt DreadProofs.
Local Open Scope nat_scope.

(** * C20 *)
(** the loop ends for every list of objects and every hash function *)
Theorem C20_terminates : forall (X : Type) (xdec : forall a b : X, {a = b} + {a <> b}) (hash : X -> Z) objs,
  exists fuel r, collision_safe_hash xdec fuel hash objs = Some r.
Proof. intros X xdec hash objs. apply (hash_loop_total xdec objs hash). Qed.
Print Assumptions C20_terminates.
(** one number per object; two numbers are equal exactly when the objects are *)
Theorem C20_distinguishes : forall (X : Type) (xdec : forall a b : X, {a = b} + {a <> b}) (hash : X -> Z) fuel objs r,
  collision_safe_hash xdec fuel hash objs = Some r ->
  length r = length objs /\
  forall i j a b, nth_error objs i = Some a -> nth_error objs j = Some b -> (nth_error r i = nth_error r j <-> a = b).
Proof.
  intros X xdec hash fuel objs r H. unfold collision_safe_hash in H. apply hash_loop_spec in H. destruct H as [f [-> Hn]].
  split; [apply map_length|]. intros i j a b Hi Hj. rewrite (map_nth_error f i objs Hi), (map_nth_error f j objs Hj). split.
  - intros [= E]. eapply inj_of_nodup; [exact Hn|eapply nth_error_In, Hi|eapply nth_error_In, Hj|exact E].
  - intros ->. reflexivity.
Qed.
Print Assumptions C20_distinguishes.
(** without collisions the hashes are returned unchanged *)
Theorem C20_no_collision : forall (X : Type) (xdec : forall a b : X, {a = b} + {a <> b}) (hash : X -> Z) fuel objs,
  (forall a b, In a objs -> In b objs -> hash a = hash b -> a = b) -> collision_safe_hash xdec fuel hash objs = Some (map hash objs).
Proof.
  intros X xdec hash fuel objs H. unfold collision_safe_hash. destruct fuel; cbn [hash_loop]; (replace (Nat.eqb _ _) with true; [reflexivity|]); symmetry; apply exit_test.
  all: assert (K : forall l, NoDup l -> (forall a, In a l -> In a objs) -> NoDup (map hash l));
    [induction 1 as [|a l Ha Hl IH]; intros Hs; cbn [map]; constructor;
      [intros Hin; apply in_map_iff in Hin; destruct Hin as [b [E Hb]]; apply Ha; rewrite <- (H b a); auto; [apply Hs; right; exact Hb|apply Hs; left; reflexivity]|apply IH; intros b Hb; apply Hs; right; exact Hb]
    |apply K; [apply NoDup_nodup|intros a Ha; apply nodup_In in Ha; exact Ha]].
Qed.
Print Assumptions C20_no_collision.
(** a cascade: the first correction causes another collision *)
Example C20_case : collision_safe_hash Nat.eq_dec 10 (fun x => if x <? 3 then 5%Z else 6%Z) [1; 2; 3; 1] = Some [5; 7; 6; 5]%Z.
Proof. vm_compute. reflexivity. Qed.

(** * C21 *)
(** the three sort functions, with the number of columns read off the matrix *)
Definition width (m : list (list Z)) : nat := length (hd [] m).
Definition pak (m : list (list Z)) : list (list Z) := match Pak_sort (width m) [] m with Some r => r | None => m end.
Definition light_pak (m : list (list Z)) : list (list Z) := match m with [] => [] | _ => light_Pak_sort (width m) m end.
Definition iterative (fuel : nat) (m : list (list Z)) : list (list Z) := match m with [] => [] | _ => match iterative_sort fuel (width m) m with Some r => r | None => m end end.
Lemma width_rect w m : rect w m -> m <> [] -> width m = w.
Proof. intros H Hne. destruct m as [|r m]; [congruence|]. apply Forall_inv in H. exact H. Qed.
Lemma pak_nil : pak [] = []. Proof. reflexivity. Qed.
Lemma equivalent_self w m : rect w m -> equivalent fix_first w m m.
Proof. intros H. apply equivalent_refl; [apply fix_first_equiv|exact H]. Qed.
Theorem C21_sort_functions : forall fuel, permuting pak /\ permuting light_pak /\ permuting (iterative fuel).
Proof.
  intros fuel. split; [|split]; intros w m Hw Hm; (destruct m as [|r m']; [apply equivalent_self; exact Hm|]).
  - unfold pak. rewrite (width_rect w _ Hm) by discriminate. destruct (C18_Pak_sort_default_permutes w _ Hm) as [r' [-> H]]. exact H.
  - unfold light_pak. rewrite (width_rect w _ Hm) by discriminate. apply light_sound, Hm.
  - unfold iterative. rewrite (width_rect w _ Hm) by discriminate. destruct (iterative_sort fuel w (r :: m')) as [r'|] eqn:Ei; [|apply equivalent_self, Hm].
    apply (C18_iterative_sort_permutes w fuel _ _ Hw Hm Ei).
Qed.
Print Assumptions C21_sort_functions.

Lemma arr_length {F : Fld} {E} n kc dc (s : xsector F E) : xwf n s -> length (sector2array kc dc s) = n_terms s.
Proof.
  intros [_ [H1 [H2 [H3 [H4 _]]]]]. unfold sector2array, n_terms. rewrite !app_length, map_length, H3.
  assert (K : forall (A : Type) (h : nat -> A -> option E -> list (cobj F E * list Z)) (g : A -> nat) (l : list A) (es : list (option E)) s0, length es = length l -> (forall i x e, In x l -> length (h i x e) = g x) ->
    length (concat (map (fun q => h (fst q) (fst (snd q)) (snd (snd q))) (combine (seq s0 (length l)) (combine l es)))) = list_sum (map g l)).
  { intros A h g l. induction l as [|x l IH]; intros es s0 He Hh; [reflexivity|]. destruct es as [|e es]; [discriminate|]. cbn [length seq combine map concat fst snd list_sum fold_right].
    rewrite app_length, Hh, IH by (try (left; reflexivity); try (intros; apply Hh; right; assumption); cbn in He; lia). reflexivity. }
  rewrite (K _ (fun i x e => rows_of kc dc (TCast i e) (expand_product x)) (fun c => length (ptm (snd c)))).
  - rewrite (K _ (fun i x e => rows_of kc dc (TOther i e) (ptm x)) (fun p => length (ptm p))); [lia|exact H2|]. intros. unfold rows_of. apply map_length.
  - exact H1.
  - intros i x e Hx. unfold rows_of. rewrite map_length. rewrite Forall_forall in H4. destruct (H4 x Hx) as [[e0 [k [Hm _]]] _]. unfold expand_product. rewrite Hm. apply map_length.
Qed.
(** sectors with equally many terms are always squashed *)
Theorem C21_terminates : forall (F : Fld) (E : Type) (edec : forall a b : E, {a = b} + {a <> b}) n hash sort_function indices (sectors : list (xsector F E)),
  sectors <> [] -> Forall (xwf n) sectors -> (forall s s', In s sectors -> In s' sectors -> n_terms s = n_terms s') ->
  exists fuel out, squash_sort edec fuel hash sort_function n indices sectors = Some out.
Proof.
  intros F E edec n hash sf ix sectors Hne Hwf Ht. apply squash_total; [exact Hne|]. intros s s' Hs Hs'. rewrite Forall_forall in Hwf. rewrite !(arr_length n) by (apply Hwf; assumption). auto.
Qed.
Print Assumptions C21_terminates.
(** every returned sector is one of the given ones, only the coefficient of the Jacobian may differ *)
Theorem C21_outputs_are_inputs : forall (F : Fld) (E : Type) (edec : forall a b : E, {a = b} + {a <> b}) n fuel hash sort_function indices (sectors : list (xsector F E)) out,
  squash_sort edec fuel hash sort_function n indices sectors = Some out -> forall o, In o out -> exists s c, In s sectors /\ o = set_jac s c.
Proof.
  intros F E edec n fuel hash sf ix sectors out H o Ho. apply squash_unfold in H. cbn zeta in H. destruct H as [f [_ ->]].
  set (L := sort_by _ _) in Ho. assert (HL : forall p, In p L -> In (snd p) sectors). { intros p Hp. apply sort_pairs_in in Hp. apply in_map_iff in Hp. destruct Hp as [s [<- Hs]]. exact Hs. }
  destruct L as [|p l]; [destruct Ho|]. cbn [merge_all] in Ho.
  assert (Hid : exists c', p = (fst p, set_jac (snd p) c')).
  { exists (jac_coeff (snd p)). destruct p as [a s]. cbn [fst snd]. f_equal. unfold jac_coeff, set_jac. destruct s as [[sc so [pn pt]] xc xo]. cbn [xs sjac ptm pnv scast sother xcast xother]. destruct pt as [|[e c0] r]; reflexivity. }
  destruct Hid as [c' Hc']. rewrite Hc' in Ho. destruct (merge_reps F E arr_eqb l p c') as [reps [H1 H2]].
  assert (K : forall (rs : list (list (list Z) * xsector F E)) os, Forall2 (variant F E) rs os -> In o os -> exists r, In r rs /\ variant F E r o).
  { clear. induction 1 as [|r o' rs os Hr Hrs IH]; intros Hin; [destruct Hin|]. destruct Hin as [->|Hin]; [exists r; split; [left; reflexivity|exact Hr]|]. destruct (IH Hin) as [r' [A B]]. exists r'. split; [right; exact A|exact B]. }
  destruct (K _ _ H1 Ho) as [r [Hr [c ->]]]. exists (snd r), c. split; [apply HL, H2, Hr|reflexivity].
Qed.
Print Assumptions C21_outputs_are_inputs.
(** the sum of every quantity that is additive in the Jacobian coefficient and does not depend on the names of the
    variables is preserved *)
Theorem C21_sum_preserved : forall (F : Fld) (E : Type) (edec : forall a b : E, {a = b} + {a <> b}) n fuel hash sort_function indices (sectors : list (xsector F E)) out (V : xsector F E -> F),
  permuting sort_function -> Forall (xwf n) sectors -> Forall (jac_free (drop_cols n indices)) sectors ->
  jac_additive n V -> rename_invariant n (drop_cols n indices) V ->
  squash_sort edec fuel hash sort_function n indices sectors = Some out -> sumF (map V out) = sumF (map V sectors).
Proof.
  intros F E edec n fuel hash sf ix sectors out V Hsf Hwf Hjf Hadd Hren H. eapply squash_sum_gen; try eassumption.
  intros a b c Ha Hb Hs. rewrite Forall_forall in Hwf. apply Hren; [apply xwf_set_jac, Hwf, Ha|apply xwf_set_jac, Hwf, Hb|exact Hs].
Qed.
Print Assumptions C21_sum_preserved.
(** in particular the sum of the integrals over the unit cube, for natural-number exponents *)
Theorem C21_integral_preserved : forall n fuel hash sort_function indices (sectors : list (xsector R_Fld nat)) out,
  permuting sort_function -> Forall (xwf n) sectors -> Forall (fun s => snonneg (xs s)) sectors -> Forall (jac_free (drop_cols n indices)) sectors ->
  squash_sort Nat.eq_dec fuel hash sort_function n indices sectors = Some out ->
  @sumF R_Fld (map (xintegral n) out) = @sumF R_Fld (map (xintegral n) sectors).
Proof.
  intros n fuel hash sf ix sectors out Hsf Hwf Hnn Hjf H. assert (Hout := C21_outputs_are_inputs _ _ _ _ _ _ _ _ _ _ H).
  rewrite Forall_forall in Hwf, Hnn.
  transitivity (@sumF R_Fld (map (xmoment R_Fld n) out)).
  { apply (@sumF_map_ext R_Fld). intros o Ho. destruct (Hout o Ho) as [s [c [Hs ->]]]. symmetry. apply xmoment_integral; [apply xwf_set_jac, Hwf, Hs|apply snonneg_set_jac, Hnn, Hs]. }
  transitivity (@sumF R_Fld (map (xmoment R_Fld n) sectors)).
  2: { apply (@sumF_map_ext R_Fld). intros o Ho. apply xmoment_integral; [apply Hwf, Ho|apply Hnn, Ho]. }
  eapply squash_sum_gen; try eassumption; [apply Forall_forall; exact Hwf|apply xmoment_additive|]. intros a b c Ha Hb Hs.
  assert (Wa := xwf_set_jac R_Fld nat n a c (Hwf a Ha)). assert (Wb := xwf_set_jac R_Fld nat n b c (Hwf b Hb)).
  assert (Na := snonneg_set_jac R_Fld a c (Hnn a Ha)). assert (Nb := snonneg_set_jac R_Fld b c (Hnn b Hb)).
  rewrite !xmoment_integral by assumption. eapply symmetric_integral; eassumption.
Qed.
Print Assumptions C21_integral_preserved.

(** with [Pak_sort] all symmetries are found: no two returned sectors differ only by the names of the variables *)
Theorem C21_Pak_finds_all : forall (F : Fld) (E : Type) (edec : forall a b : E, {a = b} + {a <> b}) n fuel hash indices (sectors : list (xsector F E)) out,
  Forall (xwf n) sectors -> keep_cols n indices <> [] -> squash_sort edec fuel hash pak n indices sectors = Some out ->
  ForallOrdPairs (fun a b => forall pi, Permutation pi (seq 0 n) -> (forall k, In k (drop_cols n indices) -> nth k pi 0 = k) -> ~ terms_renamed pi a b) out.
Proof.
  intros F E edec n fuel hash ix sectors out Hwf Hkc H. apply squash_unfold in H. cbn zeta in H. destruct H as [f [_ ->]].
  set (kc := keep_cols n ix) in *. set (dc := drop_cols n ix) in *. assert (Hkd : Permutation (kc ++ dc) (seq 0 n)) by apply keep_drop_perm. rewrite Forall_forall in Hwf.
  assert (Hw : 2 <= S (length kc)) by (destruct kc; [congruence|cbn; lia]).
  set (RW := fun s : xsector F E => rows F E f (sector2array kc dc s)).
  assert (Hrect : forall s, rect (S (length kc)) (RW s)) by (intros s; apply rows_rect).
  assert (Hpak : forall s, xwf n s -> Pak_sort (S (length kc)) [] (RW s) = Some (pak (RW s))).
  { intros s Hs. unfold pak. rewrite (width_rect _ _ (Hrect s)).
    - destruct (C18_Pak_sort_default_permutes _ _ (Hrect s)) as [r [-> _]]. reflexivity.
    - intros Hnil. assert (Hl := arr_length n kc dc s Hs). unfold RW, rows in Hnil. apply map_eq_nil in Hnil. rewrite Hnil in Hl. cbn in Hl. discriminate. }
  set (L := sort_by _ _). assert (HL : forall p, In p L -> In (snd p) sectors /\ fst p = pak (RW (snd p))). { intros p Hp. apply sort_pairs_in in Hp. apply in_map_iff in Hp. destruct Hp as [s [<- Hs]]. split; [exact Hs|reflexivity]. }
  assert (Hsorted : StronglySorted (kle (fun p : list (list Z) * xsector F E => concat (fst p))) L) by apply sort_by_sorted.
  destruct L as [|p l]; [constructor|]. cbn [merge_all].
  assert (Hid : exists c', p = (fst p, set_jac (snd p) c')) by (exists (jac_coeff (snd p)); rewrite (set_jac_id F E n) by (apply Hwf, HL; left; reflexivity); destruct p; reflexivity).
  destruct Hid as [c' Hc']. rewrite Hc'.
  destruct (merge_reps_sorted F E arr_eqb (fun a => concat a) (rect (S (length kc)))) with (l := l) (o := p) (c := c') as [reps [H1 [H2 [_ H4]]]].
  - intros a b Ha Hb Hab. apply arr_eqb_key; [exact Hab|]. exists (S (length kc)). repeat split; [lia|exact Ha|exact Hb].
  - intros q Hq. destruct (HL q Hq) as [_ ->]. eapply equivalent_rect. apply (proj1 (C21_sort_functions 0)); [lia|apply Hrect].
  - exact Hsorted.
  - assert (Hin : forall r, In r reps -> In (snd r) sectors /\ fst r = pak (RW (snd r))) by (intros r Hr; apply HL, H2, Hr).
    clear -H1 H4 Hin Hwf Hpak Hrect Hw Hkd. revert Hin H4. induction H1 as [|r o rs os [c ->] Hrs IH]; intros Hin Hs; [constructor|].
    inversion Hs as [|? ? Hs' Hlt]; subst. constructor; [|apply IH; [intros q Hq; apply Hin; right; exact Hq|exact Hs']].
    clear IH Hs. assert (Hin' : forall q, In q rs -> In (snd q) sectors /\ fst q = pak (RW (snd q))) by (intros q Hq; apply Hin; right; exact Hq).
    destruct (Hin r (or_introl eq_refl)) as [Sr Er]. clear Hin Hs'.
    induction Hrs as [|q o' rs os [c2 ->] Hrs IH]; [constructor|]. constructor; [|apply IH; [inversion Hlt; assumption|intros q' Hq'; apply Hin'; right; exact Hq']].
    intros pi Hpi Hfix Hren. apply Forall_inv in Hlt. destruct (Hin' q (or_introl eq_refl)) as [Sq Eq].
    apply (renamed_arrays F E n kc dc Hkd pi Hpi Hfix) in Hren; [|apply xwf_set_jac, Hwf, Sr|apply xwf_set_jac, Hwf, Sq]. rewrite !arr_set_jac in Hren.
    assert (Hequ : equivalent fix_first (S (length kc)) (RW (snd r)) (RW (snd q))) by (eapply tau_equivalent; [apply (tau_perm n kc dc Hkd pi Hpi Hfix)|exact Hren]).
    apply (C19_Pak_sort_canonical _ _ _ Hw) in Hequ; [|apply Hrect|apply Hrect]. rewrite !Hpak in Hequ by (apply Hwf; assumption). injection Hequ as Hequ.
    rewrite Er, Eq, Hequ in Hlt. exact (lexlt_irrefl _ Hlt).
Qed.
Print Assumptions C21_Pak_finds_all.

(** Jacobians that contain a variable excluded by [indices]: the factor is ignored, sectors with different integrals are
    merged *)
Definition qterm (e : list Z) : term Qc_Fld := (e, qz 1).
Definition xp (ts : list (term Qc_Fld)) : poly Qc_Fld := mkPoly 2 ts.
Definition jsec (e : list Z) : xsector Qc_Fld nat :=
  mkX (mkSector [(xp [qterm [0;0]%Z], xp [qterm [0;0]%Z; qterm [1;0]%Z])] [] (xp [qterm e])) [None] [].
Lemma jsec_wf e : length e = 2 -> xwf 2 (jsec e).
Proof.
  intros He. split; [|split; [reflexivity|split; [reflexivity|split; [reflexivity|split]]]].
  - unfold swf, pwf. cbn. repeat match goal with |- Forall _ _ => constructor | |- _ /\ _ => split | |- _ => first [exact He | reflexivity | discriminate] end.
  - constructor; [|constructor]. split; [exists [0;0]%Z, (qz 1); split; [reflexivity|intros H; vm_compute in H; discriminate]|exists (qterm [0;0]%Z); split; [left; reflexivity|intros H; vm_compute in H; discriminate]].
  - constructor.
Qed.
Theorem C21_ignored_variables_refuted : exists (sectors : list (xsector Qc_Fld nat)) hash out,
  Forall (xwf 2) sectors /\ squash_sort Nat.eq_dec 5 hash pak 2 (Some [0]) sectors = Some out /\
  sumF (map (xmoment Qc_Fld 2) out) <> sumF (map (xmoment Qc_Fld 2) sectors).
Proof.
  set (hash := fun c : cobj Qc_Fld nat => match c with JacOne => 1 | Zero => 0 | Tagged _ _ _ => 7 end%Z).
  assert (H : match squash_sort Nat.eq_dec 5 hash pak 2 (Some [0]) [jsec [0;1]%Z; jsec [0;0]%Z] with
              | Some o => Qeq_bool (this (sumF (map (xmoment Qc_Fld 2) o))) (this (sumF (map (xmoment Qc_Fld 2) [jsec [0;1]%Z; jsec [0;0]%Z]))) | None => true end = false) by (vm_compute; reflexivity).
  exists [jsec [0;1]%Z; jsec [0;0]%Z], hash. destruct (squash_sort _ _ _ _ _ _ _) as [out|]; [|discriminate]. exists out. split; [|split].
  - constructor; [apply jsec_wf; reflexivity|constructor; [apply jsec_wf; reflexivity|constructor]].
  - reflexivity.
  - intros E. rewrite E in H. rewrite Qeq_bool_refl in H. discriminate.
Qed.
Print Assumptions C21_ignored_variables_refuted.

(** concrete case for the positive theorems: x0 <-> x1 exchanges the two sectors *)
Definition asec (e1 e2 : list Z) (k : Z) : xsector Qc_Fld nat :=
  mkX (mkSector [(xp [qterm [0;0]%Z], xp [(e1, qz 2); (e2, qz 3)])] [] (xp [(e1, qz k)])) [Some 2] [].
Example C21_case : match squash_sort Nat.eq_dec 5 (fun c => match c with JacOne => 1 | Zero => 0 | Tagged _ _ _ => 7 end)%Z pak 2 None
    [asec [0;1]%Z [1;0]%Z 3; asec [1;0]%Z [0;1]%Z 5] with Some [o] => Qeq_bool (this (jac_coeff o)) 8 | _ => false end = true /\
    n_terms (asec [0;1]%Z [1;0]%Z 3) = n_terms (asec [1;0]%Z [0;1]%Z 5) /\ keep_cols 2 None <> [].
Proof. split; [vm_compute; reflexivity|]. split; [reflexivity|discriminate]. Qed.

(** * C22 *)
(** the graphs are isomorphic exactly when the arrays agree up to the order of terms and variables *)
Theorem C22_graph_encodes_array : forall (C : Type) (cdec : forall a b : C, {a = b} + {a <> b}) w (uexp : list Z) (ucoeff : list C) ma mb ca cb,
  0 < w -> NoDup uexp -> NoDup ucoeff -> rect w ma -> rect w mb -> length mb = length ma -> length ca = length ma -> length cb = length ma ->
  (forall r x, In r (ma ++ mb) -> In x r -> In x uexp) -> (forall c, In c (ca ++ cb) -> In c ucoeff) ->
  ((exists f, graph_isomorphism (dread_n w ma uexp ucoeff) (dread_colour w mb) (dread_colour w ma) (dread_edges cdec w mb cb uexp ucoeff) (dread_edges cdec w ma ca uexp ucoeff) f)
   <-> same_up_to_order w ca ma cb mb).
Proof.
  intros C cdec w uexp ucoeff ma mb ca cb Hw Ue Uc Ha Hb Lb Ka Kb He Hc. unfold dread_n.
  assert (Ea : forall r x, In r ma -> In x r -> In x uexp) by (intros r x Hr; apply He, in_or_app; left; exact Hr).
  assert (Eb : forall r x, In r mb -> In x r -> In x uexp) by (intros r x Hr; apply He, in_or_app; right; exact Hr).
  assert (Ca : forall c, In c ca -> In c ucoeff) by (intros c Hx; apply Hc, in_or_app; left; exact Hx).
  assert (Cb : forall c, In c cb -> In c ucoeff) by (intros c Hx; apply Hc, in_or_app; right; exact Hx).
  split.
  - intros [f Hf]. eapply (iso_to_perm cdec w (length ma) uexp ucoeff); eauto.
  - intros H. eapply (perm_to_iso cdec w (length ma) uexp ucoeff); eauto.
Qed.
Print Assumptions C22_graph_encodes_array.
(** arrays with different numbers of terms give graphs of different sizes *)
Theorem C22_number_of_terms : forall (C : Type) w (uexp : list Z) (ucoeff : list C) ma mb,
  dread_n w ma uexp ucoeff = dread_n w mb uexp ucoeff -> length ma = length mb.
Proof. intros C w uexp ucoeff ma mb. unfold dread_n. intros H. nia. Qed.
Print Assumptions C22_number_of_terms.
Example C22_case : dread_edges Nat.eq_dec 2 [[0;1]%Z; [2;0]%Z] [7;8] [0;1;2]%Z [7;8] <> [] /\ same_up_to_order 2 [7;8] [[0;1]%Z; [2;0]%Z] [8;7] [[0;2]%Z; [1;0]%Z].
Proof. split; [discriminate|]. exists [1;0]. split; [apply perm_swap|]. cbn. apply perm_swap. Qed.

(** * C21 with dreadnaut *)
Definition graph_of {F : Fld} {E} (edec : forall a b : E, {a = b} + {a <> b}) kc dc uexp ucoeff (s : xsector F E) : nat * (nat -> nat) * list (nat * nat) :=
  let a := sector2array kc dc s in
  (dread_n (length kc) (map snd a) uexp ucoeff, dread_colour (length kc) (map snd a), dread_edges (cobj_dec edec) (length kc) (map snd a) (map fst a) uexp ucoeff).
(** equal reports of dreadnaut imply isomorphic graphs *)
Definition dreadnaut_sound {F : Fld} {E H G} (edec : forall a b : E, {a = b} + {a <> b}) kc dc uexp ucoeff (heqb : H -> H -> bool) (geqb : G -> G -> bool) (report : xsector F E -> H * G) (sectors : list (xsector F E)) : Prop :=
  forall a b, In a sectors -> In b sectors -> heqb (fst (report a)) (fst (report b)) && geqb (snd (report a)) (snd (report b)) = true ->
    match graph_of edec kc dc uexp ucoeff a, graph_of edec kc dc uexp ucoeff b with
    | (na, cola, ea), (nb, colb, eb) => na = nb /\ exists f, graph_isomorphism na colb cola eb ea f
    end.
Lemma gather_perm {A} (l : list A) ks : Permutation ks (seq 0 (length l)) -> Permutation (gather l ks) l.
Proof.
  intros H. unfold gather. rewrite (Permutation_flat_map _ H). clear. assert (K := gather_seq l []). cbn [length app] in K. unfold gather in K. rewrite K. reflexivity.
Qed.
Lemma combine_fst_snd {A B} (l : list (A * B)) : combine (map fst l) (map snd l) = l.
Proof. induction l as [|[a b] l IH]; [reflexivity|]. cbn. rewrite IH. reflexivity. Qed.
Theorem C21_dreadnaut_sum_preserved : forall (F : Fld) (E H G : Type) (edec : forall a b : E, {a = b} + {a <> b}) n indices uexp ucoeff (heqb : H -> H -> bool) (geqb : G -> G -> bool)
    (report : xsector F E -> H * G) order (sectors : list (xsector F E)) (V : xsector F E -> F),
  let kc := keep_cols n indices in let dc := drop_cols n indices in
  kc <> [] -> NoDup uexp -> NoDup ucoeff ->
  (forall s q, In s sectors -> In q (sector2array kc dc s) -> In (fst q) ucoeff /\ forall x, In x (snd q) -> In x uexp) ->
  dreadnaut_sound edec kc dc uexp ucoeff heqb geqb report sectors -> Permutation order (seq 0 (length sectors)) ->
  Forall (xwf n) sectors -> Forall (jac_free dc) sectors -> jac_additive n V -> rename_invariant n dc V ->
  sumF (map V (squash_dreadnaut heqb geqb report order sectors)) = sumF (map V sectors).
Proof.
  intros F E H G edec n ix uexp ucoeff heqb geqb report order sectors V kc dc Hkc Ue Uc Hall Hsound Hord Hwf Hjf Hadd Hren. unfold squash_dreadnaut.
  rewrite Forall_forall in Hwf, Hjf.
  set (L0 := combine (map report sectors) sectors). assert (HL0 : L0 = map (fun s => (report s, s)) sectors) by (unfold L0; clear; induction sectors as [|s l IH]; [reflexivity|cbn [map combine]; rewrite IH; reflexivity]).
  assert (Hlen : length L0 = length sectors) by (rewrite HL0; apply map_length).
  assert (HP : Permutation (gather L0 order) L0) by (apply gather_perm; rewrite Hlen; exact Hord).
  assert (Hin : forall p, In p (gather L0 order) -> In (snd p) sectors /\ fst p = report (snd p)).
  { intros p Hp. apply (Permutation_in _ HP) in Hp. rewrite HL0 in Hp. apply in_map_iff in Hp. destruct Hp as [s [<- Hs]]. auto. }
  rewrite (merge_all_sum F E n _ V Hadd).
  - rewrite (sumF_perm F _ _ (Permutation_map _ HP)), HL0, map_map. reflexivity.
  - intros p Hp. apply Hwf, Hin, Hp.
  - intros p q Hp Hq Heq c. destruct (Hin p Hp) as [Sp Ep]. destruct (Hin q Hq) as [Sq Eq]. rewrite Ep, Eq in Heq. clear Ep Eq. set (a := snd p) in *. set (b := snd q) in *.
    assert (Hs := Hsound a b Sp Sq Heq). unfold graph_of in Hs. destruct Hs as [Hn Hf].
    assert (Hrect : forall s : xsector F E, rect (length kc) (map snd (sector2array kc dc s))).
    { intros s. unfold rect. rewrite Forall_map. apply Forall_forall. intros x Hx. eapply arr_len; exact Hx. }
    apply C22_graph_encodes_array in Hf; [|destruct kc; [congruence|cbn; lia]|exact Ue|exact Uc|apply Hrect|apply Hrect|symmetry; eapply C22_number_of_terms; exact Hn|rewrite !map_length; reflexivity| | |].
    + destruct Hf as [tau [Ht Hperm]]. rewrite !combine_fst_snd in Hperm.
      apply Hren; [apply xwf_set_jac, Hwf, Sp|apply xwf_set_jac, Hwf, Sq|].
      apply (arrays_symmetric F E edec kc dc n (keep_drop_perm n ix) a b tau); auto.
    + apply C22_number_of_terms in Hn. rewrite !map_length in *. congruence.
    + intros r x Hr Hx. apply in_app_iff in Hr. destruct Hr as [Hr|Hr]; apply in_map_iff in Hr; destruct Hr as [y [<- Hy]]; [apply (Hall a y Sp Hy)|apply (Hall b y Sq Hy)]; exact Hx.
    + intros r Hr. apply in_app_iff in Hr. destruct Hr as [Hr|Hr]; apply in_map_iff in Hr; destruct Hr as [y [<- Hy]]; [apply (Hall a y Sp Hy)|apply (Hall b y Sq Hy)].
Qed.
Print Assumptions C21_dreadnaut_sum_preserved.
