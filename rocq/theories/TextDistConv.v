(** Conversion of what was read from disteval. *)
From Verif Require Export TextDistTree TextMathProofs.
Section C.
Context {P : Type} (g18 g18plus : P -> text) (K : Fld) (I omega : K) (env : text -> K) (num : P -> K).
Local Open Scope fld_scope.
Add Field KF4 : (f_th K).
Notation pv := (pv K I env num).
Section G.
Variables (lit slit : text -> K -> Prop) (pow ord : text).
Hypothesis lit_g18 : forall a, lit (g18 a) (num a).
Hypothesis slit_g18 : forall a, slit (g18plus a) (num a).
Notation ds := (dsum K I omega env lit slit pow ord).
Notation dt := (dterm K I omega env lit slit pow ord).
Notation fv := (fmt_value P g18 g18plus pow ord).
Lemma num_ok p : dt (fv true (PNum P p)) (pnum K I num p).
Proof.
  destruct p as [a|a b]; cbn [fmt_value pnum]; [apply D_lit, lit_g18|].
  apply D_fac. replace (txt "(" ++ g18 a ++ g18plus b ++ txt "*I)") with (txt "(" ++ (g18 a ++ g18plus b ++ txt "*I") ++ txt ")") by (rewrite <- !app_assoc; reflexivity). apply D_brackets, D_imag; [apply D_term, D_lit, lit_g18|apply slit_g18].
Qed.
Lemma run_terms mean x : symbol x -> env x <> 0 -> forall terms : list (pval P * Z), Forall (fun ck => dt (fv mean (fst ck)) (pv omega mean (fst ck))) terms -> forall s a, ds s a ->
  ds (s ++ plusses (map (fun t => fmt_term pow (fv mean (fst t)) x (snd t)) terms)) (a + sumF (map (fun ck => pv omega mean (fst ck) * zpow (env x) (snd ck)) terms)).
Proof.
  intros Hx Hn. induction 1 as [|[c k] terms Hc _ IH]; intros s a Hs; [cbn; rewrite app_nil_r; replace (a + 0) with a by ring; exact Hs|].
  cbn [map sumF fst snd]. unfold plusses. cbn [map concat]. fold (plusses (map (fun t => fmt_term pow (fv mean (fst t)) x (snd t)) terms)).
  specialize (IH (s ++ txt " + " ++ fmt_term pow (fv mean c) x k) (a + pv omega mean c * zpow (env x) k)). rewrite <- !app_assoc in IH. rewrite <- !app_assoc.
  replace (a + (pv omega mean c * zpow (env x) k + sumF (map (fun ck => pv omega mean (fst ck) * zpow (env x) (snd ck)) terms))) with (a + pv omega mean c * zpow (env x) k + sumF (map (fun ck => pv omega mean (fst ck) * zpow (env x) (snd ck)) terms)) by ring. apply IH.
  apply D_plus; [exact Hs|]. apply term_ok; assumption.
Qed.
Lemma series_terms mean x terms m : terms <> [] -> symbol x -> env x <> 0 -> Forall (fun ck => dt (fv mean (fst ck)) (pv omega mean (fst ck))) terms ->
  ds (join (txt " + ") (map (fun t => fmt_term pow (fv mean (fst t)) x (snd t)) terms) ++ fmt_order pow ord x (Some m)) (pv omega mean (PSer P terms (Some x) (Some m))).
Proof.
  intros N Hx Hn F. cbn [TextDistTree.pv var_text]. apply order_ok; [|exact Hx]. destruct terms as [|[c k] terms]; [contradiction|]. inversion F; subst. cbn [map fst snd sumF]. rewrite join_plus. apply run_terms; auto. apply D_term, term_ok; assumption.
Qed.
Lemma layered_ok mean : forall vars v, Forall (fun x => symbol x /\ env x <> 0) vars -> layered vars v -> dt (fv mean v) (pv omega mean v).
Proof.
  induction vars as [|x vs IH]; intros v S L; inversion L as [a b|? ? terms m N ND F IM FM]; subst.
  - cbn [fmt_value TextDistTree.pv]. destruct mean; [exact (num_ok a)|exact (num_ok b)].
  - inversion S as [|? ? [Sx Ex] Sr]; subst. cbn [fmt_value]. apply D_fac. rewrite app_assoc with (l := join _ _). apply D_brackets. cbn [var_text]. apply series_terms; auto. eapply Forall_impl; [|exact F]. intros ck Hc. apply IH; assumption.
Qed.
Lemma layered_series mean x vars v : Forall (fun x => symbol x /\ env x <> 0) (x :: vars) -> layered (x :: vars) v -> exists t, fmt_series P g18 g18plus pow ord mean v = Some t /\ ds t (pv omega mean v).
Proof.
  intros S L. inversion L as [|? ? terms m N ND F IM FM]; subst. inversion S as [|? ? [Sx Ex] Sr]; subst. cbn [fmt_series]. eexists. split; [reflexivity|]. cbn [var_text]. apply series_terms; auto. eapply Forall_impl; [|exact F]. intros ck Hc. eapply layered_ok; eassumption.
Qed.
End G.
Section M.
Variables (lit slit : text -> K -> Prop).
Hypothesis lit_g18 : forall a, lit (replace_e (g18 a)) (num a).
Hypothesis slit_g18 : forall a, slit (replace_e (g18plus a)) (num a).
Notation ms := (msum K I omega env lit slit).
Notation mt := (mterm K I omega env lit slit).
Notation fv := (fmt_value_m P g18 g18plus).
Lemma num_ok_m p : exists t, fv true (PNum P p) = Some t /\ mt t (pnum K I num p).
Proof.
  destruct p as [a|a b]; cbn [fmt_value_m pnum]; (eexists; split; [reflexivity|]); [apply M_lit, lit_g18|].
  rewrite !replace_app. change (replace_e (txt "(")) with (txt "("). change (replace_e (txt "*I)")) with (txt "*I" ++ txt ")").
  apply M_fac. replace (txt "(" ++ replace_e (g18 a) ++ replace_e (g18plus b) ++ txt "*I" ++ txt ")") with (txt "(" ++ (replace_e (g18 a) ++ replace_e (g18plus b) ++ txt "*I") ++ txt ")") by (rewrite <- !app_assoc; reflexivity). apply M_brackets, M_imag; [apply M_term, M_lit, lit_g18|apply slit_g18].
Qed.
Lemma all_some_inv {A B} (f : A -> option B) : forall l ts, all_some (map f l) = Some ts -> Forall2 (fun a t => f a = Some t) l ts.
Proof.
  induction l as [|a l IH]; intros ts H; [injection H as <-; constructor|]. cbn [map all_some] in H. destruct (f a) as [t|] eqn:E; [|discriminate]. fold (@all_some B) in H. destruct (all_some (map f l)) as [ts'|]; [|discriminate]. injection H as <-. constructor; [exact E|apply IH; reflexivity].
Qed.
Lemma all_some_fwd {A B} (f : A -> option B) : forall l ts, Forall2 (fun a t => f a = Some t) l ts -> all_some (map f l) = Some ts.
Proof. induction 1 as [|a t l ts E F IH]; [reflexivity|]. cbn [map all_some]. rewrite E. fold (@all_some B). rewrite IH. reflexivity. Qed.
Lemma run_terms_m mean x : symbol_m x -> env x <> 0 -> forall (terms : list (pval P * Z)) ts, Forall2 (fun ck t => mt t (pv omega mean (fst ck))) terms ts -> forall s a, ms s a ->
  ms (s ++ plusses (map (fun te => fmt_term (txt "^") (fst te) x (snd te)) (combine ts (map snd terms)))) (a + sumF (map (fun ck => pv omega mean (fst ck) * zpow (env x) (snd ck)) terms)).
Proof.
  intros Hx Hn. induction 1 as [|[c k] t terms ts Hc _ IH]; intros s a Hs; [cbn; rewrite app_nil_r; replace (a + 0) with a by ring; exact Hs|].
  cbn [map sumF fst snd combine]. unfold plusses. cbn [map concat fst snd]. fold (plusses (map (fun te => fmt_term (txt "^") (fst te) x (snd te)) (combine ts (map snd terms)))).
  specialize (IH (s ++ txt " + " ++ fmt_term (txt "^") t x k) (a + pv omega mean c * zpow (env x) k)). rewrite <- !app_assoc in IH. rewrite <- !app_assoc.
  replace (a + (pv omega mean c * zpow (env x) k + sumF (map (fun ck => pv omega mean (fst ck) * zpow (env x) (snd ck)) terms))) with (a + pv omega mean c * zpow (env x) k + sumF (map (fun ck => pv omega mean (fst ck) * zpow (env x) (snd ck)) terms)) by ring. apply IH.
  apply M_plus; [exact Hs|]. apply term_ok_m; assumption.
Qed.
Lemma list_ok_m mean : forall (terms : list (pval P * Z)) ts, terms <> [] -> Forall2 (fun ck t => ms t (pv omega mean (fst ck))) terms ts -> mlist K I omega env lit slit (join (txt ", ") ts) (map (fun ck => pv omega mean (fst ck)) terms).
Proof.
  intros terms ts N F. induction F as [|c t l ts Hc F IH]; [contradiction|]. destruct F as [|c' t' l ts Hc' F]; [apply M_one, Hc|].
  change (join (txt ", ") (t :: t' :: ts)) with (t ++ txt ", " ++ join (txt ", ") (t' :: ts)). apply M_cons; [exact Hc|]. apply IH. discriminate.
Qed.
Lemma zlist_true a : forall b, zlist_eqb a b = true -> a = b.
Proof. induction a as [|x a IH]; intros [|y b] H; try discriminate; [reflexivity|]. cbn in H. apply andb_prop in H. destruct H as [H1 H2]. apply Z.eqb_eq in H1. f_equal; [exact H1|apply IH, H2]. Qed.
Lemma sum_orders mean x : forall (terms : list (pval P * Z)) mn, map snd terms = ends_orders mn (length terms) ->
  sumF (map (fun iv => snd iv * zpow (env x) (mn + Z.of_nat (fst iv))) (combine (seq 0 (length (map (fun ck => pv omega mean (fst ck)) terms))) (map (fun ck => pv omega mean (fst ck)) terms))) = sumF (map (fun ck => pv omega mean (fst ck) * zpow (env x) (snd ck)) terms).
Proof.
  induction terms as [|[c k] terms IH]; intros mn E; [reflexivity|]. cbn [map length] in *. rewrite ends_orders_S in E. injection E as E1 E2. cbn [map length seq combine fst snd sumF]. rewrite sum_shift, (IH (mn + 1)%Z E2). f_equal. f_equal. f_equal. cbn in E1. lia.
Qed.
Lemma layered_ok_m mean : forall vars v, Forall (fun x => symbol_m x /\ env x <> 0) vars -> layered vars v -> forall t, fv mean v = Some t -> ms t (pv omega mean v) /\ (vars = [] -> mt t (pv omega mean v)).
Proof.
  induction vars as [|x vs IH]; intros v S L t E; inversion L as [a b|? ? terms m N ND F IM FM]; subst.
  - assert (M : mt t (pv omega mean (PPair P (PNum P a) (PNum P b)))). { cbn [TextDistTree.pv]. destruct mean.
      - destruct (num_ok_m a) as (t' & E' & H). change (fv true (PNum P a) = Some t) in E. rewrite E' in E. injection E as <-. exact H.
      - destruct (num_ok_m b) as (t' & E' & H). change (fv true (PNum P b) = Some t) in E. rewrite E' in E. injection E as <-. exact H. }
    split; [apply M_term, M|auto].
  - inversion S as [|? ? [Sx Ex] Sr]; subst. split; [|discriminate]. cbn [fmt_value_m] in E. destruct (all_some (map (fun t => fv mean (fst t)) terms)) as [ts|] eqn:ET; [|discriminate]. apply all_some_inv in ET. cbn [var_text] in E. unfold fmt_series_m in E.
    assert (F2 : Forall2 (fun ck t => ms t (pv omega mean (fst ck))) terms ts). { clear -ET F IH Sr. induction ET as [|c t l ts Hc F2 IHf]; constructor; inversion F; subst; auto. eapply IH; eauto. }
    destruct (existsb (fun t0 => is_series P (fst t0)) terms) eqn:EX.
    + destruct (zlist_eqb (map snd terms) (zrange (min_list 0 (map snd terms)) (m + 1))) eqn:EZ; [|discriminate]. injection E as <-. apply zlist_true in EZ. set (mn := min_list 0 (map snd terms)) in *.
      assert (LN : length terms = Z.to_nat (m + 1 - mn)). { rewrite <- (map_length snd terms), EZ. unfold zrange. rewrite map_length, seq_length. reflexivity. }
      assert (EO : map snd terms = ends_orders mn (length terms)). { rewrite EZ at 1. unfold zrange, ends_orders. rewrite <- LN. reflexivity. }
      assert (LP : (0 < length terms)%nat) by (destruct terms; [contradiction|cbn; lia]). assert (EK : (m + 1 = mn + Z.of_nat (length (map (fun ck => pv omega mean (fst ck)) terms)))%Z) by (rewrite map_length; lia).
      pose proof (M_series K I omega env lit slit x _ _ mn (m + 1) Sx (list_ok_m mean terms ts N F2) EK) as MM. rewrite (sum_orders mean x terms mn EO) in MM. apply M_term, M_fac. cbn [TextDistTree.pv var_text]. exact MM.
    + injection E as <-. cbn [TextDistTree.pv var_text]. apply order_ok_m; auto.
      assert (F3 : Forall2 (fun ck t => mt t (pv omega mean (fst ck))) terms ts).
      { assert (V0 : vs = []). { destruct vs as [|y ys]; [reflexivity|]. exfalso. destruct terms as [|[c k] tr]; [contradiction|]. inversion F as [|? ? Lc _]; subst. cbn [fst] in Lc. inversion Lc; subst. discriminate EX. }
        subst vs. clear -ET F IH. induction ET as [|c t l ts Hc F2 IHf]; constructor; inversion F; subst; auto. apply (IH (fst c) ltac:(constructor) ltac:(assumption) t Hc). reflexivity. }
      destruct F3 as [|[c k] t0 terms' ts' Hc F3]; [contradiction|]. cbn [combine map fst snd sumF]. rewrite join_plus. apply run_terms_m; auto. apply M_term, term_ok_m; assumption.
Qed.
Lemma layered_single mean x v : layered [x] v -> exists t, fv mean v = Some t.
Proof.
  intros L. inversion L as [|? ? terms m N ND F IM FM]; subst. cbn [fmt_value_m].
  assert (X : exists ts, all_some (map (fun t => fv mean (fst t)) terms) = Some ts). { clear -F. induction F as [|[c k] l Hc _ [ts IH]]; [exists []; reflexivity|]. cbn [fst] in Hc. inversion Hc; subst. cbn [map fst all_some]. fold (@all_some text). rewrite IH. cbn [fmt_value_m]. destruct mean; destruct a, b; eexists; reflexivity. }
  destruct X as [ts ->]. unfold fmt_series_m. assert (EX : existsb (fun t => is_series P (fst t)) terms = false). { clear -F. induction F as [|[c k] l Hc _ IH]; [reflexivity|]. cbn [existsb]. rewrite IH. cbn [fst] in *. inversion Hc; subst. reflexivity. }
  rewrite EX. eexists. reflexivity.
Qed.
End M.
End C.
