From Verif Require Export TextOutProofs TextJsonModel.
(** ** specification *)
(** the coefficient of a nested series at the given orders, the outermost first *)
Inductive at_orders : coef -> list Z -> coef -> Prop :=
| A_num v : at_orders (CNum v) [] (CNum v)
| A_dev v u : at_orders (CDev v u) [] (CDev v u)
| A_ser mn l tr x i c ks d : nth_error l i = Some c -> at_orders c ks d -> at_orders (CSer mn l tr x) ((mn + Z.of_nat i)%Z :: ks) d.
(** nested series in the given regulators, all with ([dev]) or all without deviations; a series that consists of the order 0 only is truncated *)
Inductive nested (dev : bool) : list text -> coef -> Prop :=
| Ne_num v : dev = false -> nested dev [] (CNum v)
| Ne_dev v u : dev = true -> nested dev [] (CDev v u)
| Ne_ser x xs mn l tr : Forall (nested dev xs) l -> (tr = true \/ mn <> 0%Z \/ length l <> 1%nat) -> nested dev (x :: xs) (CSer mn l tr x).
Section S.
Context {P : Type} (float_of : text -> option P).
(** what the dictionary should have for a coefficient *)
Inductive entry_of : coef -> entry P -> Prop :=
| E_num v p : seen_value P float_of v p -> entry_of (CNum v) (PNum P p, None)
| E_dev v u p q : seen_value P float_of v p -> seen_value P float_of u q -> entry_of (CDev v u) (PNum P p, Some (PNum P q)).
(** ** proofs *)
Lemma keyb_spec a b : keyb a b = true <-> a = b.
Proof.
  revert b. induction a as [|x a IH]; intros [|y b]; cbn; try (split; [discriminate|intros H; discriminate H] || tauto).
  rewrite andb_true_iff, Z.eqb_eq, IH. split; [intros [-> ->]; reflexivity|intros H; injection H; auto].
Qed.
Lemma get_update (d : dict P) k e k' : get P (update P d k e) k' = if keyb k k' then Some e else get P d k'.
Proof.
  induction d as [|[k1 e1] d IH]; cbn [update get]; [reflexivity|]. destruct (keyb k1 k) eqn:E.
  - apply keyb_spec in E. subst. cbn [get]. destruct (keyb k k'); reflexivity.
  - cbn [get]. rewrite IH. destruct (keyb k1 k') eqn:E1; [|reflexivity]. destruct (keyb k k') eqn:E2; [|reflexivity]. apply keyb_spec in E1, E2. subst. assert (X : keyb k' k' = true) by (apply keyb_spec; reflexivity). congruence.
Qed.
(** processing [c] with prefix [order]: keys that extend [order] by an order of [c] are set; others keep their value *)
Definition jok (dev : bool) (c : coef) : Prop := forall xs v vars order st, nested dev xs c -> seen P float_of c v -> good c ->
  exists st', parse_terms P dev vars order v st = Some st' /\ snd st' = vars ++ map Some xs /\
    (forall ks d, at_orders c ks d -> exists e, get P (fst st') (order ++ ks) = Some e /\ entry_of d e) /\
    (forall k, (forall ks d, at_orders c ks d -> k <> order ++ ks) -> get P (fst st') k = get P (fst st) k).
Definition jgo dev vars order x := fix go (ts : list (pval P * Z)) (st : dict P * list (option text)) : option (dict P * list (option text)) :=
  match ts with [] => Some st | (c, k) :: r => match parse_terms P dev (vars ++ [x]) (order ++ [k]) c st with Some st' => go r st' | None => None end end.
Lemma parse_ser dev vars order ts x o st : parse_terms P dev vars order (PSer P ts x o) st = jgo dev vars order x ts st. Proof. reflexivity. Qed.
Lemma jgo_ok dev xs x : forall l ps, Forall (jok dev) l -> Forall (nested dev xs) l -> Forall good l -> Forall2 (seen P float_of) l ps -> forall vars order mn st,
  exists st', jgo dev vars order (Some x) (combine ps (ends_orders mn (length l))) st = Some st' /\ (l <> [] \/ snd st = vars ++ Some x :: map Some xs -> snd st' = vars ++ Some x :: map Some xs) /\
    (forall i c ks d, nth_error l i = Some c -> at_orders c ks d -> exists e, get P (fst st') (order ++ (mn + Z.of_nat i)%Z :: ks) = Some e /\ entry_of d e) /\
    (forall k, (forall i c ks d, nth_error l i = Some c -> at_orders c ks d -> k <> order ++ (mn + Z.of_nat i)%Z :: ks) -> get P (fst st') k = get P (fst st) k).
Proof.
  intros l ps HJ HN HG F. induction F as [|c v l ps Hc F IH]; intros vars order mn st.
  { exists st. split; [reflexivity|]. split; [intros [H|H]; [contradiction|exact H]|]. split; [intros i c ks d H; destruct i; discriminate|auto]. }
  inversion HJ as [|? ? J1 J2]; inversion HN as [|? ? N1 N2]; inversion HG as [|? ? G1 G2]; subst. cbn [length]. rewrite ends_orders_S. cbn [combine jgo].
  destruct (J1 xs v (vars ++ [Some x]) (order ++ [mn]) st N1 Hc G1) as (st1 & E1 & R1 & A1 & B1). rewrite E1. fold (jgo dev vars order (Some x)).
  destruct (IH J2 N2 G2 vars order (mn + 1)%Z st1) as (st2 & E2 & R2 & A2 & B2). exists st2. split; [exact E2|]. split; [|split].
  - intros _. apply R2. right. rewrite R1, <- app_assoc. reflexivity.
  - intros [|i] c0 ks d Hi Ha.
    + injection Hi as <-. destruct (A1 ks d Ha) as (e & Ee & He). exists e. split; [|exact He]. replace (mn + Z.of_nat 0)%Z with mn by lia. rewrite <- app_assoc in Ee. cbn [app] in Ee. rewrite <- Ee. apply B2.
      intros j c' ks' d' Hj Ha' EQ. apply app_inv_head in EQ. injection EQ as EQ _. lia.
    + destruct (A2 i c0 ks d Hi Ha) as (e & Ee & He). exists e. split; [|exact He]. rewrite <- Ee. f_equal. f_equal. f_equal. lia.
  - intros k Hk. rewrite B2; [apply B1|].
    + intros ks d Ha. rewrite <- app_assoc. cbn [app]. specialize (Hk 0%nat c ks d eq_refl Ha). replace (mn + Z.of_nat 0)%Z with mn in Hk by lia. exact Hk.
    + intros i c0 ks d Hi Ha. specialize (Hk (S i) c0 ks d Hi Ha). replace (mn + 1 + Z.of_nat i)%Z with (mn + Z.of_nat (S i))%Z by lia. exact Hk.
Qed.
Lemma json_ok dev : forall c, jok dev c.
Proof.
  apply (TextRound.coef_rec (jok dev)).
  - intros v xs w vars order st N S G. inversion N; inversion S; subst. cbn [parse_terms]. eexists. split; [reflexivity|]. cbn [fst snd map]. rewrite app_nil_r. split; [reflexivity|]. split.
    + intros ks d A. inversion A; subst. rewrite app_nil_r, get_update. replace (keyb order order) with true by (symmetry; apply keyb_spec; reflexivity). eexists. split; [reflexivity|]. constructor. assumption.
    + intros k Hk. rewrite get_update. destruct (keyb order k) eqn:E; [|reflexivity]. apply keyb_spec in E. elim (Hk [] (CNum v)); [constructor|]. rewrite app_nil_r. auto.
  - intros v u xs w vars order st N S G. inversion N; inversion S; subst. cbn [parse_terms]. eexists. split; [reflexivity|]. cbn [fst snd map]. rewrite app_nil_r. split; [reflexivity|]. split.
    + intros ks d A. inversion A; subst. rewrite app_nil_r, get_update. replace (keyb order order) with true by (symmetry; apply keyb_spec; reflexivity). eexists. split; [reflexivity|]. constructor; assumption.
    + intros k Hk. rewrite get_update. destruct (keyb order k) eqn:E; [|reflexivity]. apply keyb_spec in E. elim (Hk [] (CDev v u)); [constructor|]. rewrite app_nil_r. auto.
  - intros mn l tr x IH xs v vars order st N S G. inversion N as [| |? xs' ? ? ? Nl Tr]; subst. inversion G as [| |? ? ? ? NE Gl Hx]; subst.
    destruct (ser_seen float_of mn l tr x v NE S) as (ps & var & -> & F & V). assert (var = Some x) as ->. { destruct V as [|(_ & -> & -> & L)]; [assumption|]. destruct Tr as [|[|]]; [discriminate|contradiction|contradiction]. }
    rewrite parse_ser. destruct (jgo_ok dev xs' x l ps IH Nl Gl F vars order mn st) as (st' & E & R & A & B). exists st'. split; [exact E|]. split; [apply R; left; exact NE|]. split.
    + intros ks d H. inversion H; subst. eapply A; eassumption.
    + intros k Hk. apply B. intros i c ks d Hi Ha. apply (Hk ((mn + Z.of_nat i)%Z :: ks) d). econstructor; eassumption.
Qed.
Lemma contains_skip p a t : contains p t = true -> contains p (a ++ t) = true.
Proof. intros H. induction a as [|c a IH]; [exact H|]. cbn [app contains]. rewrite IH. apply orb_true_r. Qed.
Lemma contains_more p t r : contains p t = true -> contains p (t ++ r) = true.
Proof.
  assert (ST : forall p t, starts p t = true -> starts p (t ++ r) = true). { clear. induction p as [|a p IH]; intros [|b t] H; cbn in *; auto; try discriminate. apply andb_prop in H. destruct H as [-> H]. apply IH, H. }
  induction t as [|c t IH]; cbn [contains]; intros H.
  - apply orb_prop in H. destruct H as [H|H]; [|discriminate]. specialize (ST p [] H). cbn [app] in *. destruct r; cbn [contains]; rewrite ST; reflexivity.
  - cbn [app contains]. apply orb_prop in H. destruct H as [H|H]; [specialize (ST p (c :: t) H); cbn [app] in ST; rewrite ST; reflexivity|]. rewrite IH by exact H. apply orb_true_r.
Qed.
Lemma flag_dev : forall c xs, nested true xs c -> good c -> contains (txt "+/-") (show c) = true.
Proof.
  apply (TextRound.coef_rec (fun c => forall xs, nested true xs c -> good c -> contains (txt "+/-") (show c) = true)).
  - intros v xs N. inversion N. discriminate.
  - intros v u xs _ _. cbn [show]. replace (show_value v ++ txt " +/- " ++ show_value u) with ((show_value v ++ txt " ") ++ txt "+/-" ++ (txt " " ++ show_value u)) by (rewrite <- !app_assoc; reflexivity). apply contains_app.
  - intros mn l tr x IH xs N G. inversion N as [| |? xs' ? ? ? Nl _]; inversion G as [| |? ? ? ? NE Gl _]; subst. rewrite show_ser. destruct l as [|c l]; [contradiction|]. inversion IH; inversion Nl; inversion Gl; subst. cbn [show_terms]. apply contains_skip, contains_more. eauto.
Qed.
Lemma flag_plain : forall c xs, nested false xs c -> good c -> lacks "/" (show c).
Proof.
  apply (TextRound.coef_rec (fun c => forall xs, nested false xs c -> good c -> lacks "/" (show c))).
  - intros v xs _ G. inversion G; subst. apply value_lacks; auto; try reflexivity; discriminate.
  - intros v u xs N. inversion N. discriminate.
  - intros mn l tr x IH xs N G. inversion N as [| |? xs' ? ? ? Nl _]; inversion G as [| |? ? ? ? NE Gl Hx]; subst. rewrite show_ser. clear N G NE. revert mn. induction l as [|c l IHl]; intros mn; cbn [show_terms].
    + destruct tr; [|intros []]. unfold show_order. change (if Z.eqb mn 1 then [] else txt "^" ++ zdec mn) with (expo_text mn). repeat (apply lacks_app; split); try (apply lacks_dec; reflexivity); [apply name_lacks; auto|apply expo_lacks; [reflexivity|discriminate]].
    + inversion IH; inversion Nl; inversion Gl; subst. repeat (apply lacks_app; split); try (apply lacks_dec; reflexivity); eauto. apply show_power_lacks; auto; discriminate.
Qed.
Lemma json_all dev x xs c : nested dev (x :: xs) c -> good c -> readable float_of c ->
  exists d, series_to_json P float_of (show c) = Some (d, map Some (x :: xs)) /\ forall ks,
    (forall e, get P d ks = Some e -> exists b, at_orders c ks b /\ entry_of b e) /\ (forall b, at_orders c ks b -> exists e, get P d ks = Some e /\ entry_of b e).
Proof.
  intros N G R. destruct (readable_seen float_of _ R) as [v S]. inversion N as [| |? ? mn l tr Nl Tr]; subst. unfold series_to_json. rewrite (round_trip P float_of mn l tr x v G S).
  assert (FL : contains (txt "+/-") (show (CSer mn l tr x)) = dev).
  { destruct dev; [eapply flag_dev; eassumption|]. apply (contains_lacks _ _ "/"); [cbn; auto|eapply flag_plain; eassumption]. }
  rewrite FL. destruct (json_ok dev _ (x :: xs) v [] [] ([], []) N S G) as ([d r] & E & Rg & A & B). cbn [fst snd app] in *. subst r. exists d. split; [exact E|]. intros ks.
  assert (EX : (exists b, at_orders (CSer mn l tr x) ks b) \/ forall ks' b, at_orders (CSer mn l tr x) ks' b -> ks <> ks').
  { assert (DEC : forall c ks, (exists b, at_orders c ks b) \/ ~ exists b, at_orders c ks b).
    { apply (TextRound.coef_rec (fun c => forall ks, (exists b, at_orders c ks b) \/ ~ exists b, at_orders c ks b)).
      - intros w [|k ks0]; [left; eexists; constructor|right; intros [b H]; inversion H].
      - intros w u [|k ks0]; [left; eexists; constructor|right; intros [b H]; inversion H].
      - intros mn0 l0 tr0 x0 IH [|k ks0]; [right; intros [b H]; inversion H|].
        destruct (Z.leb_spec mn0 k) as [LE|GT]; [|right; intros [b H]; inversion H; lia].
        destruct (nth_error l0 (Z.to_nat (k - mn0))) as [c|] eqn:En.
        + rewrite Forall_forall in IH. destruct (IH c (nth_error_In _ _ En) ks0) as [[b Hb]|Nb].
          * left. exists b. replace k with (mn0 + Z.of_nat (Z.to_nat (k - mn0)))%Z by lia. econstructor; eassumption.
          * right. intros [b H]. inversion H as [| |? ? ? ? i c' ? ? Hi Ha]; subst. apply Nb. exists b. replace (Z.to_nat (mn0 + Z.of_nat i - mn0)) with i in En by lia. rewrite Hi in En. injection En as <-. exact Ha.
        + right. intros [b H]. inversion H as [| |? ? ? ? i c' ? ? Hi Ha]; subst. replace (Z.to_nat (mn0 + Z.of_nat i - mn0)) with i in En by lia. congruence. }
    destruct (DEC (CSer mn l tr x) ks) as [H|H]; [left; exact H|right]. intros ks' b Hb ->. apply H. exists b. exact Hb. }
  split.
  - intros e He. destruct EX as [[b Hb]|NO].
    + destruct (A ks b Hb) as (e' & Ee & Eb). rewrite He in Ee. injection Ee as <-. exists b. split; assumption.
    + rewrite (B ks NO) in He. discriminate He.
  - intros b Hb. apply A, Hb.
Qed.
End S.
