(** The nested series that is made from the terms. *)
From Verif Require Export TextDistRead.
From Coq Require Import Permutation.
Lemma skipn_cons {A} (l : list A) i p : nth_error l i = Some p -> skipn i l = p :: skipn (S i) l.
Proof. revert l. induction i as [|i IH]; intros [|a l] H; try discriminate; [injection H as ->; reflexivity|]. cbn [skipn]. apply IH, H. Qed.
Section Group.
Context {A : Type} (f : A -> option Z).
Definition inv (g : list (Z * list A)) (l : list A) : Prop := Permutation (concat (map snd g)) l /\ NoDup (map fst g) /\ Forall (fun px => snd px <> [] /\ Forall (fun x => f x = Some (fst px)) (snd px)) g.
Lemma add_keys p (x : A) g q : In q (map fst (group_add p x g)) -> q = p \/ In q (map fst g).
Proof. induction g as [|[q' xs] g IH]; cbn [group_add map fst]; [intros [H|[]]; auto|]. destruct (Z.eqb_spec q' p); cbn [map fst]; [intros [H|H]; auto; right; [left|right]; assumption|]. intros [H|H]; [right; left; exact H|]. destruct (IH H); auto. right. right. assumption. Qed.
Lemma add_inv p x g l : f x = Some p -> inv g l -> inv (group_add p x g) (l ++ [x]).
Proof.
  intros Hx (PM & ND & FA). split; [|split].
  - transitivity (x :: l); [|apply Permutation_cons_append]. transitivity (x :: concat (map snd g)); [|constructor; exact PM]. clear. induction g as [|[q xs] g IH]; [reflexivity|]. cbn [group_add]. destruct (Z.eqb q p); cbn [map snd concat].
    + rewrite <- app_assoc. cbn [app]. symmetry. apply Permutation_middle.
    + rewrite IH. symmetry. apply Permutation_middle.
  - clear -ND. induction g as [|[q xs] g IH]; [repeat constructor; intros []|]. cbn [group_add]. destruct (Z.eqb_spec q p) as [->|N]; cbn [map fst] in *; [exact ND|]. inversion ND as [|? ? NI ND']; subst. constructor; [|apply IH, ND']. intros H. apply add_keys in H. destruct H; [contradiction|contradiction].
  - clear -FA Hx. induction g as [|[q xs] g IH]; [repeat constructor; [discriminate|exact Hx]|]. cbn [group_add]. inversion FA as [|? ? [N F] FA']; subst. cbn [fst snd] in *. destruct (Z.eqb_spec q p) as [->|Ne].
    + constructor; [|exact FA']. cbn [fst snd]. split; [destruct xs; discriminate|]. apply Forall_app. split; [exact F|repeat constructor; exact Hx].
    + constructor; [split; assumption|apply IH, FA'].
Qed.
Lemma group_inv : forall l g l0, inv g l0 -> Forall (fun x => f x <> None) l -> exists g', group_by f l g = Some g' /\ inv g' (l0 ++ l).
Proof.
  induction l as [|x l IH]; intros g l0 H F; [exists g; rewrite app_nil_r; split; [reflexivity|exact H]|]. inversion F as [|? ? Fx Fr]; subst. cbn [group_by]. destruct (f x) as [p|] eqn:E; [|contradiction]. destruct (IH (group_add p x g) (l0 ++ [x]) (add_inv p x g l0 E H) Fr) as (g' & E' & H'). exists g'. split; [exact E'|]. rewrite <- app_assoc in H'. exact H'.
Qed.
Lemma group_ok l : Forall (fun x => f x <> None) l -> exists g, group_by f l [] = Some g /\ inv g l.
Proof. intros F. apply (group_inv l [] []); [|exact F]. repeat constructor. Qed.
End Group.
Lemma max_ok l : l <> [] -> exists m, max_list l = Some m /\ In m l /\ Forall (fun k => (k <= m)%Z) l.
Proof.
  induction l as [|a l IH]; intros N; [contradiction|]. destruct l as [|b l]; [exists a; repeat split; [left; reflexivity|repeat constructor; lia]|]. destruct IH as (m & E & I & F); [discriminate|]. change (max_list (a :: b :: l)) with (option_map (Z.max a) (max_list (b :: l))). rewrite E. exists (Z.max a m). split; [reflexivity|]. split.
  - destruct (Z.max_spec a m) as [[_ ->]|[_ ->]]; [right; exact I|left; reflexivity].
  - constructor; [lia|]. eapply Forall_impl; [|exact F]. intros k Hk. cbn in Hk. lia.
Qed.
Lemma nodup_part {A B} (g : A -> B) (gs : list (list A)) xs : NoDup (map g (concat gs)) -> In xs gs -> NoDup (map g xs).
Proof.
  intros ND H. induction gs as [|a gs IH]; [contradiction|]. cbn [concat] in ND. rewrite map_app in ND. destruct H as [->|H].
  - clear -ND. induction (map g xs) as [|b l IHl]; [constructor|]. inversion ND; subst. constructor; [intros X; apply H1; apply in_or_app; left; exact X|apply IHl; assumption].
  - apply IH; [|exact H]. clear -ND. induction (map g a) as [|b l IHl]; [exact ND|]. inversion ND; subst. apply IHl. assumption.
Qed.
Section T.
Context {P : Type}.
Variables (K : Fld) (I : K) (env : text -> K) (num : P -> K).
Local Open Scope fld_scope.
Add Field KF3 : (f_th K).
(** the value of what Python has read, with the order terms ([omega]) *)
Section V.
Variable omega : K.
Fixpoint pv (mean : bool) (v : pval P) : K :=
  match v with
  | PNum _ p => if mean then pnum K I num p else 0
  | PPair _ m s => if mean then pv true m else pv true s
  | PSer _ terms x o => sumF (map (fun ck => pv mean (fst ck) * zpow (env (var_text x)) (snd ck)) terms) + match o with Some k => zpow (env (var_text x)) k * omega | None => 0 end
  end.
End V.
Definition pair_of (s : slots P) (d : pval P) : Prop := exists a b, s = (Some a, Some b) /\ d = PPair P (PNum P a) (PNum P b).
Definition slot_value (mean : bool) (s : slots P) : K := match (if mean then fst s else snd s) with Some p => pnum K I num p | None => 0 end.
Definition full (l : coeffs P) : Prop := Forall (fun kc => exists d, pair_of (snd kc) d) l.
Definition tree_ok (vars : list text) (i : nat) (l : coeffs P) : Prop := exists v, rec P vars i l = Some v /\ layered vars v /\
  (forall k s, In (k, s) l -> exists d, pat v (skipn i k) d /\ pair_of s d) /\ (forall ks d, pat v ks d -> exists k s, In (k, s) l /\ skipn i k = ks /\ pair_of s d) /\
  (forall mean, pv 0 mean v = sumF (map (fun kc => slot_value mean (snd kc) * monomial_value K env vars (skipn i (fst kc))) l)).
Lemma concat_in {A} (gs : list (list A)) (x : A) : In x (concat gs) <-> exists g, In g gs /\ In x g.
Proof. rewrite in_concat. split; intros (g & H1 & H2); exists g; auto. Qed.
Lemma tree_all : forall vars i l, l <> [] -> full l -> Forall (fun kc => length (fst kc) = (i + length vars)%nat) l -> NoDup (map (fun kc => skipn i (fst kc)) l) -> tree_ok vars i l.
Proof.
  induction vars as [|x vs IH]; intros i l N FU LE ND.
  - assert (E : forall kc, In kc l -> skipn i (fst kc) = []). { intros kc H. rewrite Forall_forall in LE. specialize (LE kc H). cbn in LE. apply skipn_all2. lia. }
    destruct l as [|[k s] l]; [contradiction|]. destruct l as [|[k' s'] l].
    2:{ exfalso. cbn [map] in ND. inversion ND as [|? ? NI _]; subst. apply NI. left. transitivity (@nil Z); [apply (E (k', s')); cbn; auto|symmetry; apply (E (k, s)); cbn; auto]. }
    inversion FU as [|? ? (d & a & b & Es & Ed) _]; subst. cbn [snd] in Es. subst s. exists (PPair P (PNum P a) (PNum P b)). split; [reflexivity|]. split; [constructor|]. split; [|split].
    + intros k0 s0 [H|[]]. injection H as <- <-. eexists. rewrite (E (k, (Some a, Some b)) (or_introl eq_refl) : skipn i k = []). split; [constructor|]. exists a, b. split; reflexivity.
    + intros ks d H. inversion H; subst. exists k, (Some a, Some b). split; [left; reflexivity|]. split; [apply (E (k, (Some a, Some b)) (or_introl eq_refl))|]. exists a, b. split; reflexivity.
    + intros mean. cbn [map sumF]. unfold monomial_value. cbn [fst snd]. rewrite (E (k, (Some a, Some b)) (or_introl eq_refl) : skipn i k = []). cbn [combine map prodF]. unfold slot_value. destruct mean; cbn [pv fst snd]; ring.
  - destruct (group_ok (fun kc : list Z * slots P => nth_error (fst kc) i) l) as (co & EG & PM & NDc & FA).
    { eapply Forall_impl; [|exact LE]. intros kc H X. cbn [length] in H. apply nth_error_None in X. lia. }
    assert (SK : forall p xs, In (p, xs) co -> forall kc, In kc xs -> skipn i (fst kc) = p :: skipn (S i) (fst kc)). { intros p xs Hc kc Hk. rewrite Forall_forall in FA. destruct (FA _ Hc) as [_ F]. cbn [fst snd] in F. rewrite Forall_forall in F. apply skipn_cons, F, Hk. }
    assert (INL : forall kc, In kc l <-> exists p xs, In (p, xs) co /\ In kc xs).
    { intros kc. split.
      - intros H. apply (Permutation_in _ (Permutation_sym PM)) in H. apply concat_in in H. destruct H as (g & Hg & Hk). apply in_map_iff in Hg. destruct Hg as ([p xs] & <- & Hc). exists p, xs. auto.
      - intros (p & xs & Hc & Hk). apply (Permutation_in _ PM). apply concat_in. exists xs. split; [|exact Hk]. apply in_map_iff. exists (p, xs). auto. }
    assert (TR : forall p xs, In (p, xs) co -> tree_ok vs (S i) xs).
    { intros p xs Hc. apply IH.
      - rewrite Forall_forall in FA. destruct (FA _ Hc) as [Nx _]. exact Nx.
      - apply Forall_forall. intros kc Hk. unfold full in FU. rewrite Forall_forall in FU. apply FU, INL. exists p, xs. auto.
      - apply Forall_forall. intros kc Hk. rewrite Forall_forall in LE. specialize (LE kc (proj2 (INL kc) (ex_intro _ p (ex_intro _ xs (conj Hc Hk))))). cbn [length] in LE. lia.
      - assert (ND2 : NoDup (map (fun kc => skipn i (fst kc)) xs)). { apply (nodup_part _ (map snd co)); [|apply in_map_iff; exists (p, xs); auto]. eapply Permutation_NoDup; [|exact ND]. apply Permutation_map. symmetry. exact PM. }
        rewrite (map_ext_in _ (fun kc => p :: skipn (S i) (fst kc)) _ (SK p xs Hc)) in ND2. rewrite <- (map_map (fun kc => skipn (S i) (fst kc)) (cons p)) in ND2. apply NoDup_map_inv in ND2. exact ND2. }
    assert (VS : exists vals, Forall2 (fun pc w => rec P vs (S i) (snd pc) = Some w /\ layered vs w /\ (forall k s, In (k, s) (snd pc) -> exists d, pat w (skipn (S i) k) d /\ pair_of s d) /\
        (forall ks d, pat w ks d -> exists k s, In (k, s) (snd pc) /\ skipn (S i) k = ks /\ pair_of s d) /\ (forall mean, pv 0 mean w = sumF (map (fun kc => slot_value mean (snd kc) * monomial_value K env vs (skipn (S i) (fst kc))) (snd pc)))) co vals).
    { clear -TR. induction co as [|[p xs] co IHc]; [exists []; constructor|]. destruct IHc as [vals Hv]; [intros p' xs' H; apply (TR p'); right; exact H|]. destruct (TR p xs (or_introl eq_refl)) as (w & Hw). exists (w :: vals). constructor; [exact Hw|exact Hv]. }
    destruct VS as [vals VS]. set (terms := combine vals (map fst co)).
    assert (LV : length vals = length co) by (clear -VS; induction VS; cbn; auto).
    assert (ET : all_some (map (fun pc => option_map (fun v => (v, fst pc)) (rec P vs (S i) (snd pc))) co) = Some terms).
    { unfold terms. clear -VS. induction VS as [|pc w co vals (E & _) VS IHV]; [reflexivity|]. cbn [map]. rewrite E. cbn [option_map all_some]. fold (@all_some (pval P * Z)). rewrite IHV. reflexivity. }
    assert (ES : map snd terms = map fst co) by (unfold terms; clear -LV; revert vals LV; induction co as [|a co IHc]; intros [|w vals] L; try discriminate; [reflexivity|]; cbn; f_equal; apply IHc; injection L; auto).
    assert (NC : map fst co <> []). { destruct co; [|discriminate]. cbn in PM. apply Permutation_nil in PM. contradiction. }
    destruct (max_ok (map fst co) NC) as (m & EM & IM & FM).
    assert (TI : forall w p, In (w, p) terms -> exists xs, In (p, xs) co /\ layered vs w /\ (forall k s, In (k, s) xs -> exists d, pat w (skipn (S i) k) d /\ pair_of s d) /\ (forall ks d, pat w ks d -> exists k s, In (k, s) xs /\ skipn (S i) k = ks /\ pair_of s d)).
    { unfold terms. clear -VS. induction VS as [|[q ys] w co vals (E & L1 & L2 & L3 & _) VS IHV]; intros w' p H; [contradiction|]. cbn [combine map fst] in H. destruct H as [H|H]; [injection H as <- <-; exists ys; split; [left; reflexivity|auto]|]. destruct (IHV _ _ H) as (xs & Hx & Q). exists xs. split; [right; exact Hx|exact Q]. }
    assert (TJ : forall p xs, In (p, xs) co -> exists w, In (w, p) terms /\ (forall k s, In (k, s) xs -> exists d, pat w (skipn (S i) k) d /\ pair_of s d)).
    { unfold terms. clear -VS. induction VS as [|[q ys] w co vals (E & L1 & L2 & L3 & _) VS IHV]; intros p xs H; [contradiction|]. cbn [combine map fst]. destruct H as [H|H]; [injection H as <- <-; exists w; split; [left; reflexivity|exact L2]|]. destruct (IHV _ _ H) as (w' & Hx & Q). exists w'. split; [right; exact Hx|exact Q]. }
    exists (PSer P terms (Some x) (Some (m + 1)%Z)). split; [cbn [rec]; rewrite EG, ET, EM; reflexivity|]. split; [|split; [|split]].
    + constructor; rewrite ?ES; auto.
      * intros X. apply NC. rewrite <- ES, X. reflexivity.
      * apply Forall_forall. intros [w p] H. cbn [fst]. destruct (TI w p H) as (xs & _ & L & _). exact L.
    + intros k s H. apply INL in H. destruct H as (p & xs & Hc & Hk). destruct (TJ p xs Hc) as (w & Hw & Q). destruct (Q k s Hk) as (d & Hd & Hp). exists d. split; [|exact Hp]. rewrite (SK p xs Hc (k, s) Hk : skipn i k = _). econstructor; eassumption.
    + intros ks d H. inversion H as [|? ? ? c p ks' ? Hin Hp]; subst. destruct (TI c p Hin) as (xs & Hc & _ & _ & Q). destruct (Q ks' d Hp) as (k & s & Hk & Ek & Hd). exists k, s. split; [apply INL; exists p, xs; auto|]. split; [|exact Hd]. rewrite (SK p xs Hc (k, s) Hk : skipn i k = _). cbn [fst]. rewrite Ek. reflexivity.
    + intros mean. cbn [pv var_text]. replace (sumF (map (fun kc => slot_value mean (snd kc) * monomial_value K env (x :: vs) (skipn i (fst kc))) l)) with (sumF (map (fun kc => slot_value mean (snd kc) * monomial_value K env (x :: vs) (skipn i (fst kc))) (concat (map snd co)))) by (apply sumF_perm, Permutation_map, PM).
      replace (zpow (env x) (m + 1) * 0) with (0 : K) by ring. clear -VS SK. unfold terms. induction VS as [|[p xs] w co vals (_ & _ & _ & _ & L4) VS IHV]; [cbn; ring|]. cbn [combine map fst snd concat sumF]. rewrite map_app, sumF_app, <- IHV by (intros p' xs' Hc; apply (SK p'); right; exact Hc).
      rewrite L4. cbn [snd]. replace (sumF (map (fun kc => slot_value mean (snd kc) * monomial_value K env (x :: vs) (skipn i (fst kc))) xs)) with (sumF (map (fun kc => slot_value mean (snd kc) * monomial_value K env vs (skipn (S i) (fst kc))) xs) * zpow (env x) p); [ring|].
      assert (SX := SK p xs (or_introl eq_refl)). clear -SX. induction xs as [|kc xs IHx]; [cbn; ring|]. cbn [map sumF]. rewrite <- IHx by (intros kc' H; apply SX; right; exact H). rewrite (SX kc (or_introl eq_refl)). unfold monomial_value. cbn [combine map fst snd prodF]. ring.
Qed.
End T.
