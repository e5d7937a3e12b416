(** The Mathematica converter. *)
From Verif Require Export TextOutProofs.
Lemma replace_app a b : replace_e (a ++ b) = replace_e a ++ replace_e b.
Proof. induction a as [|c a IH]; [reflexivity|]. cbn [app replace_e]. rewrite IH. destruct (Ascii.eqb c "e"); [rewrite <- app_assoc|]; reflexivity. Qed.
Lemma min_orders n : forall d mn, (0 < n)%nat -> min_list d (ends_orders mn n) = mn.
Proof.
  induction n as [|n IH]; intros d mn H; [lia|]. rewrite ends_orders_S. cbn [min_list]. destruct n as [|n]; [cbn; lia|]. rewrite IH by lia. lia.
Qed.
Lemma zlist_refl l : zlist_eqb l l = true. Proof. induction l as [|a l IH]; [reflexivity|]. cbn. rewrite Z.eqb_refl. exact IH. Qed.
Lemma zrange_orders mn n : zrange mn (mn + Z.of_nat n) = ends_orders mn n.
Proof. unfold zrange, ends_orders. replace (Z.to_nat (mn + Z.of_nat n - mn)) with n by lia. reflexivity. Qed.
Lemma orders_length mn n : length (ends_orders mn n) = n. Proof. unfold ends_orders. rewrite map_length, seq_length. reflexivity. Qed.
Lemma snd_combine {A B} (l : list A) (r : list B) : length l = length r -> map snd (combine l r) = r.
Proof. revert r. induction l as [|a l IH]; intros [|b r] H; try discriminate; [reflexivity|]. cbn. f_equal. apply IH. injection H. auto. Qed.
Lemma all_some_map {A B C} (f : A -> option B) (l : list A) (es : list C) : length l = length es -> forall ts, Forall2 (fun a t => f a = Some t) l ts -> all_some (map (fun t => f (fst t)) (combine l es)) = Some ts.
Proof.
  revert es. induction l as [|a l IH]; intros [|e es] H ts F; try discriminate; inversion F; subst; [reflexivity|]. cbn [combine map fst]. match goal with E : f a = Some _ |- _ => rewrite E end. cbn [all_some]. fold (@all_some B).
  rewrite (IH es ltac:(injection H; auto) _ ltac:(eassumption)). reflexivity.
Qed.
Section M.
Context {P : Type} (float_of : text -> option P) (g18 g18plus : P -> text) (K : Fld) (I omega : K) (env : text -> K) (num : P -> K).
Local Open Scope fld_scope.
Add Field KF : (f_th K).
Variables (lit slit : text -> K -> Prop).
Hypothesis lit_g18 : forall a, lit (replace_e (g18 a)) (num a).
Hypothesis slit_g18 : forall a, slit (replace_e (g18plus a)) (num a).
Hypothesis lit_0 : lit (txt "0") 0.
Notation ms := (msum K I omega env lit slit).
Notation mt := (mterm K I omega env lit slit).
Notation rd := (reading K I omega env (num_text float_of K num)).
Notation fv := (fmt_value_m P g18 g18plus).
Notation tl := (tailv float_of K I omega env num).
Lemma term_ok_m s a x e : mt s a -> symbol_m x -> env x <> 0 -> mt (fmt_term (txt "^") s x e) (a * zpow (env x) e).
Proof.
  intros H Hx Hn. unfold fmt_term. destruct (Z.eqb_spec e 0) as [->|E0]. { cbn [zpow]. replace (a * 1) with a by ring. exact H. }
  destruct (Z.eqb_spec e 1) as [->|E1]. { rewrite zpow_1_r. apply M_mul; [exact H|]. apply M_name, Hx. }
  destruct (Z.eqb_spec e (-1)) as [->|E2]. { replace (a * zpow (env x) (-1)) with (a / env x). apply M_div; [exact H|apply M_name, Hx|exact Hn]. change (-1)%Z with (- (1))%Z. rewrite zpow_opp, zpow_1_r by exact Hn. field. exact Hn. }
  destruct (Z.ltb_spec e 0) as [E3|E3].
  - replace (a * zpow (env x) e) with (a / zpow (env x) (- e)). { apply M_div; [exact H|apply M_pow; [exact Hx|lia]|apply zpow_neq0, Hn]. }
    replace (zpow (env x) e) with (finv (zpow (env x) (- e))) by (rewrite <- zpow_opp by exact Hn; f_equal; lia). field. apply zpow_neq0, Hn.
  - apply M_mul; [exact H|]. apply M_pow; [exact Hx|lia].
Qed.
Lemma order_ok_m s a x k : ms s a -> symbol_m x -> env x <> 0 -> ms (s ++ fmt_order_m x k) (a + zpow (env x) k * omega).
Proof.
  intros H Hx Hn. unfold fmt_order_m. destruct (Z.eqb_spec k 1) as [->|E1].
  - rewrite zpow_1_r. apply M_plus with (t := txt "O[" ++ x ++ txt "]"); [exact H|]. apply M_fac, M_order, Hx.
  - destruct (Z.ltb_spec 0 k) as [E|E].
    + apply M_plus with (t := txt "O[" ++ x ++ txt "]^" ++ zdec k); [exact H|]. apply M_fac, M_order_pow; [exact Hx|exact E].
    + assert (E2 : zpow (env x) k * omega = (env x * omega) / zpow (env x) (1 - k)).
      { replace (zpow (env x) k) with (env x * finv (zpow (env x) (1 - k))); [field; apply zpow_neq0, Hn|]. rewrite <- zpow_opp by exact Hn. rewrite <- zpow_succ by exact Hn. f_equal. lia. }
      rewrite E2. replace (txt " + O[" ++ x ++ txt "]/" ++ x ++ txt "^" ++ zdec (1 - k)) with (txt " + " ++ ((txt "O[" ++ x ++ txt "]") ++ txt "/" ++ (x ++ txt "^" ++ zdec (1 - k)))).
      2:{ rewrite <- !app_assoc. reflexivity. }
      apply M_plus; [exact H|]. apply M_div; [apply M_fac, M_order, Hx|apply M_pow; [exact Hx|lia]|apply zpow_neq0, Hn].
Qed.
Lemma value_ok_m mean v p : seen_value P float_of v p -> exists t, fv mean (PNum P p) = Some t /\ mt t (if mean then number K I (num_text float_of K num) v else 0).
Proof.
  intros H. rewrite (seen_number float_of K I num _ _ H). destruct mean; [|exists (txt "0"); split; [destruct p; reflexivity|apply M_lit, lit_0]]. destruct p as [a|a b]; cbn [fmt_value_m pnum]; (eexists; split; [reflexivity|]); [apply M_lit, lit_g18|].
  rewrite !replace_app. change (replace_e (txt "(")) with (txt "("). change (replace_e (txt "*I)")) with (txt "*I" ++ txt ")").
  apply M_fac. replace (txt "(" ++ replace_e (g18 a) ++ replace_e (g18plus b) ++ txt "*I" ++ txt ")") with (txt "(" ++ (replace_e (g18 a) ++ replace_e (g18plus b) ++ txt "*I") ++ txt ")") by (rewrite <- !app_assoc; reflexivity). apply M_brackets, M_imag; [apply M_term, M_lit, lit_g18|apply slit_g18].
Qed.
Lemma run_ok_m (mean tr : bool) x : symbol_m x -> env x <> 0 -> forall (l : list coef) (ts : list text), Forall2 (fun c t => mt t (rd mean c)) l ts -> forall mn s a, ms s a ->
  ms (s ++ plusses (map (fun te => fmt_term (txt "^") (fst te) x (snd te)) (combine ts (ends_orders mn (length l)))) ++ (if tr then fmt_order_m x (mn + Z.of_nat (length l))%Z else [])) (a + tl mean tr x mn l).
Proof.
  intros Hx Hn. induction 1 as [|c t l ts Hc _ IH]; intros mn s a Hs.
  - cbn [length combine map plusses concat app tailv]. replace (mn + Z.of_nat 0)%Z with mn by lia. destruct tr; [apply order_ok_m; assumption|]. rewrite app_nil_r. replace (a + 0) with a by ring. exact Hs.
  - cbn [length]. rewrite ends_orders_S. cbn [combine map fst snd]. unfold plusses. cbn [map concat]. fold (plusses (map (fun te => fmt_term (txt "^") (fst te) x (snd te)) (combine ts (ends_orders (mn + 1) (length l))))).
    cbn [tailv]. rewrite <- !app_assoc. replace (mn + Z.of_nat (S (length l)))%Z with ((mn + 1) + Z.of_nat (length l))%Z by lia.
    specialize (IH (mn + 1)%Z (s ++ txt " + " ++ fmt_term (txt "^") t x mn) (a + rd mean c * zpow (env x) mn)). rewrite <- !app_assoc in IH.
    replace (a + (rd mean c * zpow (env x) mn + tl mean tr x (mn + 1) l)) with (a + rd mean c * zpow (env x) mn + tl mean tr x (mn + 1) l) by ring. apply IH.
    apply M_plus; [exact Hs|]. apply term_ok_m; assumption.
Qed.
Lemma list_ok mean : forall (l : list coef) (ts : list text), l <> [] -> Forall2 (fun c t => ms t (rd mean c)) l ts -> mlist K I omega env lit slit (join (txt ", ") ts) (map (rd mean) l).
Proof.
  intros l ts Hl F. induction F as [|c t l ts Hc F IH]; [contradiction|]. destruct F as [|c' t' l ts Hc' F]; [apply M_one, Hc|].
  change (join (txt ", ") (t :: t' :: ts)) with (t ++ txt ", " ++ join (txt ", ") (t' :: ts)). change (map (rd mean) (c :: c' :: l)) with (rd mean c :: map (rd mean) (c' :: l)). apply M_cons; [exact Hc|]. apply IH. discriminate.
Qed.
Lemma sum_shift (vs : list K) : forall (mn : Z) (y : K) (j : nat), sumF (map (fun iv => snd iv * zpow y (mn + Z.of_nat (fst iv))) (combine (seq (S j) (length vs)) vs)) = sumF (map (fun iv => snd iv * zpow y (mn + 1 + Z.of_nat (fst iv))) (combine (seq j (length vs)) vs)).
Proof.
  induction vs as [|v vs IH]; intros mn y j; [reflexivity|]. cbn [length seq combine map fst snd sumF]. f_equal; [f_equal; f_equal; lia|]. apply IH.
Qed.
Lemma sum_tail mean x : forall l mn, sumF (map (fun iv => snd iv * zpow (env x) (mn + Z.of_nat (fst iv))) (combine (seq 0 (length (map (rd mean) l))) (map (rd mean) l))) + zpow (env x) (mn + Z.of_nat (length (map (rd mean) l))) * omega = tl mean true x mn l.
Proof.
  induction l as [|c l IH]; intros mn. { cbn. replace (mn + 0)%Z with mn by lia. ring. }
  cbn [map length seq combine fst snd sumF tailv]. rewrite sum_shift, <- IH. replace (mn + Z.of_nat 0)%Z with mn by lia. replace (mn + Z.of_nat (S (length (map (rd mean) l))))%Z with (mn + 1 + Z.of_nat (length (map (rd mean) l)))%Z by lia. ring.
Qed.
Definition is_ser (c : coef) : Prop := match c with CSer _ _ _ _ => True | _ => False end.
Definition fm (mean : bool) (c : coef) : Prop := good c -> nests_truncated c -> (forall x, uses c x -> symbol_m x /\ env x <> 0) -> forall v, seen P float_of c v ->
  exists t, fv mean v = Some t /\ ms t (rd mean c) /\ (~ is_ser c -> mt t (rd mean c)).
Lemma texts_ok mean l ps : Forall (fm mean) l -> Forall good l -> Forall nests_truncated l -> (forall c x, In c l -> uses c x -> symbol_m x /\ env x <> 0) -> Forall2 (seen P float_of) l ps ->
  exists ts, Forall2 (fun v t => fv mean v = Some t) ps ts /\ Forall2 (fun c t => ms t (rd mean c)) l ts /\ (Forall (fun c => ~ is_ser c) l -> Forall2 (fun c t => mt t (rd mean c)) l ts).
Proof.
  intros IH G N U F. induction F as [|c v l ps Hc F IHF]. { exists []. repeat split; constructor. }
  inversion IH; inversion G; inversion N; subst. destruct IHF as (ts & A & B & D); auto. { intros; eapply U; [right|]; eassumption. }
  match goal with H : fm mean c |- _ => destruct (H ltac:(assumption) ltac:(assumption) (fun x Hx => U c x (or_introl eq_refl) Hx) v Hc) as (t & E & M1 & M2) end.
  exists (t :: ts). split; [constructor; assumption|]. split; [constructor; assumption|]. intros Q. inversion Q; subst. constructor; auto.
Qed.
Lemma series_flags l (ps : list (pval P)) (es : list Z) : length es = length ps -> Forall2 (seen P float_of) l ps -> existsb (fun t => is_series P (fst t)) (combine ps es) = false -> Forall (fun c => ~ is_ser c) l.
Proof.
  intros HL F. revert es HL. induction F as [|c v l ps Hc F IH]; intros es HL E; [constructor|]. destruct es as [|e es]; [discriminate|]. cbn in E. apply orb_false_iff in E. destruct E as [E1 E2]. constructor.
  - intros Hs. destruct Hc; [exact Hs|exact Hs|discriminate E1].
  - apply (IH es); [injection HL; auto|exact E2].
Qed.
Lemma no_series l (ps : list (pval P)) (es : list Z) : Forall2 (seen P float_of) l ps -> Forall (fun c => ~ is_ser c) l -> existsb (fun t => is_series P (fst t)) (combine ps es) = false.
Proof.
  intros F. revert es. induction F as [|c v l ps Hc F IH]; intros es Q; [reflexivity|]. destruct es as [|e es]; [reflexivity|]. inversion Q; subst. cbn [combine existsb fst]. rewrite IH by assumption. destruct Hc; try reflexivity. elim H1. exact Logic.I.
Qed.
Lemma format_ok_m mean : forall c, fm mean c.
Proof.
  apply (TextRound.coef_rec (fm mean)).
  - intros v _ _ _ w S. inversion S; subst. match goal with H : seen_value _ _ _ _ |- _ => destruct (value_ok_m mean _ _ H) as (t & E & M) end. exists t. split; [exact E|]. split; [apply M_term, M|intros _; exact M].
  - intros v u _ _ _ w S. inversion S as [|? ? p q H1 H2|]; subst. cbn [fmt_value_m reading]. destruct mean.
    + destruct (value_ok_m true _ _ H1) as (t & E & M). exists t. split; [exact E|]. split; [apply M_term, M|intros _; exact M].
    + destruct (value_ok_m true _ _ H2) as (t & E & M). exists t. split; [exact E|]. split; [apply M_term, M|intros _; exact M].
  - intros mn l tr x IH G N U v S. inversion G as [| |? ? ? ? Nl Gl Hx]; subst. inversion N as [| |? ? ? ? Nt Nc]; subst. destruct (U x (U_here _ _ _ _)) as [Sx Ex].
    destruct (ser_seen float_of mn l tr x v Nl S) as (ps & var & -> & F & V). clear S.
    assert (LP : length ps = length l) by (clear -F; induction F; cbn; auto).
    destruct (texts_ok mean l ps IH Gl Nt) as (ts & A & B & D); [intros c y Hc Hy; apply U; apply (U_in mn l tr x c y Hc Hy)|exact F|].
    cbn [fmt_value_m]. rewrite (all_some_map (fv mean) ps (ends_orders mn (length l))) with (ts := ts); [|rewrite orders_length; exact LP|exact A].
    assert (LT : length ts = length l) by (clear -B; induction B; cbn; auto).
    unfold fmt_series_m. rewrite snd_combine by (rewrite orders_length; exact LP). rewrite reading_ser.
    assert (FLAT : forall (o : text) , Forall (fun c => ~ is_ser c) l -> (tr = true -> o = fmt_order_m x (mn + Z.of_nat (length l)) /\ var = Some x) -> (tr = false -> o = []) ->
      ms (join (txt " + ") (map (fun te => fmt_term (txt "^") (fst te) (var_text var) (snd te)) (combine ts (ends_orders mn (length l)))) ++ o) (tl mean tr x mn l)).
    { intros o Q Ho1 Ho2. specialize (D Q). destruct l as [|c l]; [contradiction|]. inversion D as [|? t ? ts' Mt Dr]; subst. cbn [length]. rewrite ends_orders_S. cbn [combine map fst snd]. rewrite join_plus.
      destruct V as [->|(-> & -> & -> & L)].
      - cbn [var_text tailv]. rewrite <- app_assoc.
        replace o with (if tr then fmt_order_m x (mn + 1 + Z.of_nat (length l)) else []). { apply run_ok_m; [exact Sx|exact Ex|exact Dr|]. apply M_term, term_ok_m; assumption. }
        destruct tr; [|symmetry; apply Ho2; reflexivity]. destruct (Ho1 eq_refl) as [-> _]. f_equal. cbn [length]. lia.
      - destruct l; [|discriminate L]. inversion Dr; subst. rewrite (Ho2 eq_refl). cbn [tailv combine map plusses concat zpow]. unfold fmt_term. cbn [Z.eqb]. rewrite !app_nil_r. replace (rd mean c * 1 + 0) with (rd mean c) by ring. apply M_term, Mt. }
    destruct tr.
    + assert (var = Some x) as -> by (destruct V as [|(_ & V & _)]; [assumption|discriminate]).
      destruct (existsb (fun t => is_series P (fst t)) (combine ps (ends_orders mn (length l)))) eqn:EX.
      * assert (Z0 : (0 < length l)%nat) by (destruct l; [contradiction|cbn; lia]). rewrite min_orders by exact Z0. rewrite zrange_orders, zlist_refl. eexists. split; [reflexivity|]. split; [|intros Q; elim Q; exact Logic.I].
        pose proof (M_series K I omega env lit slit x (join (txt ", ") ts) (map (rd mean) l) mn _ Sx (list_ok mean l ts Nl B) eq_refl) as MM.
        rewrite sum_tail in MM. rewrite map_length in MM. apply M_term, M_fac, MM.
      * eexists. split; [reflexivity|]. split; [|intros Q; elim Q; exact Logic.I]. apply FLAT; [apply (series_flags l ps (ends_orders mn (length l))); [rewrite orders_length; auto|exact F|exact EX]|auto|discriminate].
    + eexists. split; [reflexivity|]. split; [|intros Q; elim Q; exact Logic.I]. rewrite <- (app_nil_r (join _ _)). apply FLAT; [|discriminate|auto].
      destruct Nc as [|Nc]; [discriminate|]. eapply Forall_impl; [|exact Nc]. intros [| |] Q; auto.
Qed.
Lemma convert_one_ok_m mn l tr x : good (CSer mn l tr x) -> readable float_of (CSer mn l tr x) -> nests_truncated (CSer mn l tr x) -> (forall y, uses (CSer mn l tr x) y -> symbol_m y /\ env y <> 0) ->
  exists a b, convert_one_m P float_of g18 g18plus (show (CSer mn l tr x)) = Some (a, b) /\ ms a (rd true (CSer mn l tr x)) /\ ms b (rd false (CSer mn l tr x)).
Proof.
  intros G R N U. destruct (readable_seen float_of _ R) as [v S]. unfold convert_one_m. rewrite (round_trip P float_of mn l tr x v G S).
  destruct (format_ok_m true _ G N U v S) as (a & -> & A & _). destruct (format_ok_m false _ G N U v S) as (b & -> & B & _). exists a, b. auto.
Qed.
End M.
