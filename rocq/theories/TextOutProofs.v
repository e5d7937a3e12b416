From Verif Require Export TextProofs TextRound TextConvModel TextOutSpec.
Definition ends_orders (mn : Z) (n : nat) : list Z := map (fun i => (mn + Z.of_nat i)%Z) (seq 0 n).
Lemma ends_orders_S i n : ends_orders i (S n) = i :: ends_orders (i + 1) n.
Proof. unfold ends_orders. cbn [seq map]. f_equal; [lia|]. rewrite <- seq_shift, map_map. apply map_ext. intros k. lia. Qed.
Lemma show_lacks d : number_char d = false -> name_char d = false -> is_expo d = false -> d <> "("%char -> d <> ")"%char -> d <> ","%char -> d <> "^"%char -> d <> "*"%char -> lacks d (txt " +/- ") -> lacks d (txt " + (O)") ->
  forall c, good c -> lacks d (show c).
Proof.
  intros D1 D2 D3 D4 D5 D6 D7 D8 D9 D10.
  assert (E1 : lacks d (txt " + (")) by (intros H; apply D10; cbn in *; tauto).
  assert (E2 : lacks d (txt " + O(")) by (intros H; apply D10; cbn in *; tauto).
  assert (E3 : lacks d (txt ")")) by (intros H; apply D10; cbn in *; tauto).
  apply (TextRound.coef_rec (fun c => good c -> lacks d (show c))).
  - intros v G. inversion G; subst. apply value_lacks; auto.
  - intros v u G. inversion G; subst. cbn [show]. apply lacks_app; split; [apply value_lacks; auto|]. apply lacks_app; split; [exact D9|apply value_lacks; auto].
  - intros mn l tr x IH G. inversion G as [| |? ? ? ? _ Gl Hx]; subst. rewrite show_ser. clear G. revert mn. induction l as [|c l IHl]; intros mn; cbn [show_terms].
    + destruct tr; [|intros []]. unfold show_order. change (if Z.eqb mn 1 then [] else txt "^" ++ zdec mn) with (expo_text mn).
      apply lacks_app; split; [exact E2|]. apply lacks_app; split; [apply name_lacks; auto|]. apply lacks_app; split; [apply expo_lacks; auto|exact E3].
    + inversion IH; inversion Gl; subst. apply lacks_app; split; [exact E1|]. apply lacks_app; split; [auto|]. apply lacks_app; split; [exact E3|]. apply lacks_app; split; [apply show_power_lacks; auto|apply IHl; auto].
Qed.
Lemma show_lines c : good c -> Forall (fun d => is_newline d = false) (show c).
Proof.
  intros G. apply Forall_forall. intros d Hd. destruct (is_newline d) eqn:E; [|reflexivity]. exfalso. revert Hd. 
  apply show_lacks; [..|exact G]; clear G; revert E; destruct d as [[|] [|] [|] [|] [|] [|] [|] [|]]; cbn; try reflexivity; intros E; try discriminate E; try (intros H; discriminate H); apply lacks_dec; reflexivity.
Qed.
Lemma splitlines_one cur t : Forall (fun d => is_newline d = false) t -> forall r, splitlines_aux cur (t ++ r) = splitlines_aux (cur ++ t) r.
Proof.
  intros H. revert cur. induction H as [|c t Hc H IH]; intros cur r; [rewrite app_nil_r; reflexivity|]. cbn [app splitlines_aux]. rewrite Hc, IH, <- app_assoc. reflexivity.
Qed.
Lemma splitlines_all (l : list text) : Forall (Forall (fun d => is_newline d = false)) l -> splitlines (concat (map (fun t => t ++ ["010"%char]) l)) = l.
Proof.
  unfold splitlines. induction 1 as [|t l Ht _ IH]; [reflexivity|]. cbn [map concat]. rewrite <- app_assoc, splitlines_one by exact Ht. cbn [app splitlines_aux is_newline]. 
  change (is_newline "010"%char) with true. cbv iota. f_equal. exact IH.
Qed.
Lemma splitlines_single t : t <> [] -> Forall (fun d => is_newline d = false) t -> splitlines t = [t].
Proof. intros Hn H. unfold splitlines. rewrite <- (app_nil_r t) at 1. rewrite splitlines_one by exact H. cbn [app splitlines_aux]. destruct t; [contradiction|reflexivity]. Qed.
Section S.
Context {P : Type} (float_of : text -> option P).
Lemma readable_seen_v v : readable_v float_of v -> exists p, seen_value P float_of v p.
Proof.
  intros [a H|a b H1 H2].
  - destruct (float_of a) as [p|] eqn:E; [|contradiction]. exists (PReal P p). constructor. exact E.
  - destruct (float_of a) as [p|] eqn:E1; [|contradiction]. destruct (float_of b) as [q|] eqn:E2; [|contradiction]. exists (PCplx P p q). constructor; assumption.
Qed.
Lemma readable_seen : forall c, readable float_of c -> exists v, seen P float_of c v.
Proof.
  apply (TextRound.coef_rec (fun c => readable float_of c -> exists v, seen P float_of c v)).
  - intros v H. inversion H; subst. destruct (readable_seen_v v) as [p Hp]; [assumption|]. exists (PNum P p). constructor. exact Hp.
  - intros v u H. inversion H; subst. destruct (readable_seen_v v) as [p Hp]; [assumption|]. destruct (readable_seen_v u) as [q Hq]; [assumption|]. eexists. constructor; eassumption.
  - intros mn l tr x IH H. inversion H; subst. assert (E : exists ps, Forall2 (seen P float_of) l ps).
    { clear H. induction l as [|c l IHl]; [exists []; constructor|]. inversion IH; subst. match goal with HF : Forall (readable _) (_ :: _) |- _ => inversion HF; subst end.
      destruct IHl as [ps Hps]; [assumption|assumption|]. match goal with HH : _ -> exists v, seen _ _ c v |- _ => destruct HH as [w Hw]; [assumption|] end. exists (w :: ps). constructor; assumption. }
    destruct E as [ps Hps]. eexists. constructor. exact Hps.
Qed.
Variables (g18 g18plus : P -> text) (K : Fld) (I omega : K) (env : text -> K) (num : P -> K).
Local Open Scope fld_scope.
Add Field KF : (f_th K).
Definition num_text (a : text) : K := match float_of a with Some p => num p | None => 0 end.
Notation rd := (reading K I omega env num_text).
Definition pnum (p : pvalue P) : K := match p with PReal _ a => num a | PCplx _ a b => num a + num b * I end.
Lemma seen_number v p : seen_value P float_of v p -> number K I num_text v = pnum p.
Proof. intros [a q H|a b q r H1 H2]; cbn; unfold num_text; rewrite ?H, ?H1, ?H2; reflexivity. Qed.
Definition tailv (mean : bool) (tr : bool) (x : text) : Z -> list coef -> K :=
  fix go (i : Z) (l : list coef) : K := match l with [] => if tr then zpow (env x) i * omega else 0 | c :: r => rd mean c * zpow (env x) i + go (i + 1)%Z r end.
Lemma reading_ser mean mn l tr x : rd mean (CSer mn l tr x) = tailv mean tr x mn l. Proof. reflexivity. Qed.
Lemma ser_seen mn l tr x v : l <> [] -> seen P float_of (CSer mn l tr x) v -> exists ps var, v = PSer P (combine ps (ends_orders mn (length l))) var (if tr then Some (mn + Z.of_nat (length l))%Z else None) /\ Forall2 (seen P float_of) l ps /\
  (var = Some x \/ (var = None /\ tr = false /\ mn = 0%Z /\ length l = 1%nat)).
Proof.
  intros Hl S. inversion S as [| |? ? ? ? ps F]; subst. exists ps. eexists. split; [reflexivity|]. split; [exact F|].
  destruct (andb (negb tr) (andb (Z.eqb mn 0) (Nat.eqb (length l) 1))) eqn:E; [right|left; reflexivity]. apply andb_prop in E. destruct E as [E1 E]. apply andb_prop in E. destruct E as [E2 E3].
  destruct tr; [discriminate|]. apply Z.eqb_eq in E2. apply Nat.eqb_eq in E3. auto.
Qed.
Definition plusses (l : list text) : text := concat (map (fun t => txt " + " ++ t) l).
Lemma join_plus t l : join (txt " + ") (t :: l) = t ++ plusses l.
Proof. revert t. induction l as [|u l IH]; intros t; [cbn; rewrite app_nil_r; reflexivity|]. change (join (txt " + ") (t :: u :: l)) with (t ++ txt " + " ++ join (txt " + ") (u :: l)). rewrite IH. unfold plusses. cbn [map concat]. rewrite <- app_assoc. reflexivity. Qed.
Section G.
Variables (lit slit : text -> K -> Prop) (pow ord : text).
Hypothesis lit_g18 : forall a, lit (g18 a) (num a).
Hypothesis slit_g18 : forall a, slit (g18plus a) (num a).
Hypothesis lit_0 : lit (txt "0") 0.
Notation ds := (dsum K I omega env lit slit pow ord).
Notation dt := (dterm K I omega env lit slit pow ord).
Notation df := (dfac K I omega env lit slit pow ord).
Lemma term_ok s a x e : dt s a -> symbol x -> env x <> 0 -> dt (fmt_term pow s x e) (a * zpow (env x) e).
Proof.
  intros H Hx Hn. unfold fmt_term. destruct (Z.eqb_spec e 0) as [->|E0]. { cbn [zpow]. replace (a * 1) with a by ring. exact H. }
  destruct (Z.eqb_spec e 1) as [->|E1]. { rewrite zpow_1_r. apply D_mul; [exact H|]. apply D_name, Hx. }
  destruct (Z.eqb_spec e (-1)) as [->|E2]. { replace (a * zpow (env x) (-1)) with (a / env x). apply D_div; [exact H|apply D_name, Hx|exact Hn]. change (-1)%Z with (- (1))%Z. rewrite zpow_opp, zpow_1_r by exact Hn. field. exact Hn. }
  destruct (Z.ltb_spec e 0) as [E3|E3].
  - replace (a * zpow (env x) e) with (a / zpow (env x) (- e)). { apply D_div; [exact H|apply D_pow; [exact Hx|lia]|apply zpow_neq0, Hn]. }
    replace (zpow (env x) e) with (finv (zpow (env x) (- e))) by (rewrite <- zpow_opp by exact Hn; f_equal; lia). field. apply zpow_neq0, Hn.
  - apply D_mul; [exact H|]. apply D_pow; [exact Hx|lia].
Qed.
Lemma order_ok s a x k : ds s a -> symbol x -> ds (s ++ fmt_order pow ord x (Some k)) (a + zpow (env x) k * omega).
Proof.
  intros H Hx. unfold fmt_order. destruct (Z.eqb_spec k 1) as [->|E1].
  - apply D_plus; [exact H|]. apply D_fac, D_order. rewrite zpow_1_r. apply D_name, Hx.
  - destruct (Z.ltb_spec 0 k) as [E|E].
    + apply D_plus; [exact H|]. apply D_fac. replace (ord ++ txt "(" ++ x ++ pow ++ zdec k ++ txt ")") with (ord ++ txt "(" ++ (x ++ pow ++ zdec k) ++ txt ")") by (rewrite <- !app_assoc; reflexivity). apply D_order, D_pow; [exact Hx|exact E].
    + apply D_plus; [exact H|]. apply D_fac. replace (ord ++ txt "(" ++ x ++ pow ++ txt "(" ++ zdec k ++ txt "))") with (ord ++ txt "(" ++ (x ++ pow ++ txt "(" ++ zdec k ++ txt ")") ++ txt ")") by (rewrite <- !app_assoc; reflexivity). apply D_order, D_pow_brackets, Hx.
Qed.
Lemma value_ok mean v p : seen_value P float_of v p -> dt (fmt_value P g18 g18plus pow ord mean (PNum P p)) (if mean then number K I num_text v else 0).
Proof.
  intros H. rewrite (seen_number _ _ H). destruct mean; [|destruct p; apply D_lit, lit_0]. destruct p as [a|a b]; cbn [fmt_value pnum]; [apply D_lit, lit_g18|].
  apply D_fac. replace (txt "(" ++ g18 a ++ g18plus b ++ txt "*I)") with (txt "(" ++ (g18 a ++ g18plus b ++ txt "*I") ++ txt ")") by (rewrite <- !app_assoc; reflexivity). apply D_brackets, D_imag; [apply D_term, D_lit, lit_g18|apply slit_g18].
Qed.
Lemma run_ok (mean tr : bool) x : symbol x -> env x <> 0 -> forall (l : list coef) (ps : list (pval P)), Forall2 (fun c v => dt (fmt_value P g18 g18plus pow ord mean v) (rd mean c)) l ps -> forall mn s a, ds s a ->
  ds (s ++ plusses (map (fun t => fmt_term pow (fmt_value P g18 g18plus pow ord mean (fst t)) x (snd t)) (combine ps (ends_orders mn (length l)))) ++ fmt_order pow ord x (if tr then Some (mn + Z.of_nat (length l))%Z else None)) (a + tailv mean tr x mn l).
Proof.
  intros Hx Hn. induction 1 as [|c v l ps Hc _ IH]; intros mn s a Hs.
  - cbn [length combine map plusses concat app tailv]. replace (mn + Z.of_nat 0)%Z with mn by lia. destruct tr; [apply order_ok; assumption|]. cbn [fmt_order]. rewrite app_nil_r. replace (a + 0) with a by ring. exact Hs.
  - cbn [length]. rewrite ends_orders_S. cbn [combine map fst snd]. unfold plusses. cbn [map concat]. fold (plusses (map (fun t => fmt_term pow (fmt_value P g18 g18plus pow ord mean (fst t)) x (snd t)) (combine ps (ends_orders (mn + 1) (length l))))).
    cbn [tailv]. rewrite <- !app_assoc. replace (mn + Z.of_nat (S (length l)))%Z with ((mn + 1) + Z.of_nat (length l))%Z by lia.
    specialize (IH (mn + 1)%Z (s ++ txt " + " ++ fmt_term pow (fmt_value P g18 g18plus pow ord mean v) x mn) (a + rd mean c * zpow (env x) mn)). rewrite <- !app_assoc in IH.
    replace (a + (rd mean c * zpow (env x) mn + tailv mean tr x (mn + 1) l)) with (a + rd mean c * zpow (env x) mn + tailv mean tr x (mn + 1) l) by ring. apply IH.
    apply D_plus; [exact Hs|]. apply term_ok; assumption.
Qed.
Lemma series_ok mean mn l tr x v : l <> [] -> symbol x -> env x <> 0 -> seen P float_of (CSer mn l tr x) v ->
  (forall c w, In c l -> seen P float_of c w -> dt (fmt_value P g18 g18plus pow ord mean w) (rd mean c)) ->
  exists t, fmt_series P g18 g18plus pow ord mean v = Some t /\ ds t (rd mean (CSer mn l tr x)) /\ fmt_value P g18 g18plus pow ord mean v = txt "(" ++ t ++ txt ")".
Proof.
  intros Hl Hx Hn S IH. destruct (ser_seen _ _ _ _ _ Hl S) as (ps & var & -> & F & V). cbn [fmt_series]. eexists. split; [reflexivity|]. split; [|cbn [fmt_value]; rewrite <- !app_assoc; reflexivity]. rewrite reading_ser. clear S.
  assert (F' : Forall2 (fun c v => dt (fmt_value P g18 g18plus pow ord mean v) (rd mean c)) l ps). { clear V Hl. induction F as [|c w l ps Hc F IHF]; constructor; [apply IH; [left; reflexivity|exact Hc]|apply IHF; intros; apply IH; [right|]; assumption]. }
  destruct l as [|c l]; [contradiction|]. inversion F' as [|? w ? ps' Hw Fr]; subst. cbn [length]. rewrite ends_orders_S. cbn [combine map fst snd]. rewrite join_plus. destruct V as [->|(-> & -> & -> & L)].
  - cbn [var_text tailv]. rewrite <- app_assoc. replace (mn + Z.of_nat (S (length l)))%Z with ((mn + 1) + Z.of_nat (length l))%Z by lia. apply run_ok; [exact Hx|exact Hn|exact Fr|]. apply D_term, term_ok; assumption.
  - destruct l; [|discriminate L]. inversion Fr; subst. cbn [tailv combine map plusses concat fmt_order zpow]. unfold fmt_term. cbn [Z.eqb]. rewrite !app_nil_r. replace (rd mean c * 1 + 0) with (rd mean c) by ring. apply D_term, Hw.
Qed.
Lemma format_ok mean : forall c, good c -> (forall x, uses c x -> symbol x /\ env x <> 0) -> forall v, seen P float_of c v -> dt (fmt_value P g18 g18plus pow ord mean v) (rd mean c).
Proof.
  apply (TextRound.coef_rec (fun c => good c -> (forall x, uses c x -> symbol x /\ env x <> 0) -> forall v, seen P float_of c v -> dt (fmt_value P g18 g18plus pow ord mean v) (rd mean c))).
  - intros v _ _ w S. inversion S; subst. apply value_ok. assumption.
  - intros v u _ _ w S. inversion S; subst. cbn [fmt_value reading]. destruct mean; [apply (value_ok true v)|apply (value_ok true u)]; assumption.
  - intros mn l tr x IH G U v S. inversion G as [| |? ? ? ? Nl Gl Hx]; subst. destruct (U x (U_here _ _ _ _)) as [Sx Ex].
    destruct (series_ok mean mn l tr x v Nl Sx Ex S) as (t & _ & D & ->).
    + intros c w Hc Sc. rewrite Forall_forall in IH, Gl. apply IH; auto. intros y Hy. apply U. apply (U_in mn l tr x c y Hc Hy).
    + apply D_fac, D_brackets, D.
Qed.
Lemma convert_one_ok mn l tr x : good (CSer mn l tr x) -> readable float_of (CSer mn l tr x) -> (forall y, uses (CSer mn l tr x) y -> symbol y /\ env y <> 0) ->
  exists a b, convert_one P float_of g18 g18plus pow ord (show (CSer mn l tr x)) = Some (a, b) /\ ds a (rd true (CSer mn l tr x)) /\ ds b (rd false (CSer mn l tr x)).
Proof.
  intros G R U. destruct (readable_seen _ R) as [v S]. unfold convert_one. rewrite (round_trip P float_of mn l tr x v G S). inversion G as [| |? ? ? ? Nl Gl Hx]; subst. destruct (U x (U_here _ _ _ _)) as [Sx Ex].
  assert (IH : forall mean c w, In c l -> seen P float_of c w -> dt (fmt_value P g18 g18plus pow ord mean w) (rd mean c)).
  { intros mean c w Hc Sc. rewrite Forall_forall in Gl. apply format_ok; auto. intros y Hy. apply U. apply (U_in mn l tr x c y Hc Hy). }
  destruct (series_ok true mn l tr x v Nl Sx Ex S (IH true)) as (a & -> & Da & _). destruct (series_ok false mn l tr x v Nl Sx Ex S (IH false)) as (b & -> & Db & _). exists a, b. auto.
Qed.
End G.
End S.
