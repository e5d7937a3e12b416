(** Reading the text that disteval writes. *)
From Verif Require Export TextOutProofs TextDistSpec.
From Verif Require Import TextJsonProofs.
Ltac lk := first [reflexivity | discriminate].
Lemma split_pieces (c : ascii) : forall (l : list text) (a : text) f, Forall (lacks c) (a :: l) -> (length (join [c] (a :: l)) < f)%nat -> split_aux f [c] [] (join [c] (a :: l)) = a :: l.
Proof.
  induction l as [|b l IH]; intros a f F Hf; inversion F as [|? ? La Fr]; subst.
  - change (join [c] [a]) with a in *. pose proof (split_skip [c] a [] [] (f - length a)) as SK. rewrite app_nil_r in SK. replace (length a + (f - length a))%nat with f in SK by lia. rewrite SK.
    + cbn [app]. destruct (f - length a)%nat eqn:Ef; [lia|]. reflexivity.
    + intros s Hs (q & E). rewrite app_nil_r. destruct (starts [c] s) eqn:Es; [|reflexivity]. elim La. eapply suffix_in; [exact E|]. eapply starts_incl; [exact Es|left; reflexivity].
  - change (join [c] (a :: b :: l)) with (a ++ [c] ++ join [c] (b :: l)) in *. rewrite !app_length in Hf. cbn [length] in Hf. pose proof (split_skip [c] a [] ([c] ++ join [c] (b :: l)) (f - length a)) as SK. replace (length a + (f - length a))%nat with f in SK by lia. rewrite SK.
    + cbn [app]. destruct (f - length a)%nat as [|g] eqn:Eg; [lia|]. cbn [split_aux starts length skipn]. rewrite Ascii.eqb_refl. cbn [andb]. f_equal. apply IH; [exact Fr|lia].
    + intros s Hs (q & E). destruct s as [|d s]; [contradiction|]. cbn [app starts]. destruct (Ascii.eqb_spec c d) as [<-|]; [|reflexivity]. elim La. eapply suffix_in; [exact E|left; reflexivity].
Qed.
Lemma split_join (c : ascii) (l : list text) : l <> [] -> Forall (lacks c) l -> split_text [c] (join [c] l) = l.
Proof. intros N F. destruct l as [|a l]; [contradiction|]. apply split_pieces; [exact F|lia]. Qed.
Definition power_text (r : text) (p : Z) : text := r ++ txt "^" ++ zdec p.
Lemma power_lacks r p d : is_name r -> name_char d = false -> is_expo d = false -> d <> "^"%char -> lacks d (power_text r p).
Proof. intros Hr D1 D2 D3. unfold power_text. apply lacks_app; split; [apply name_lacks; assumption|]. apply lacks_app; split; [intros [E|[]]; congruence|apply zdec_lacks, D2]. Qed.
Lemma power_split r p : is_name r -> split_text (txt "^") (power_text r p) = [r; zdec p].
Proof.
  intros Hr. apply (split_two (txt "^") "^"); [discriminate|left; reflexivity|apply zdec_lacks; reflexivity|].
  intros s Hs (q & E). destruct s as [|d s]; [contradiction|]. cbn [txt list_ascii_of_string app starts]. destruct (Ascii.eqb_spec "^" d) as [<-|]; [|reflexivity]. exfalso. apply (name_lacks r "^" Hr eq_refl). eapply suffix_in; [exact E|left; reflexivity].
Qed.
Section Stem.
Variables (regs : list text) (ps : list Z).
Hypothesis (Hn : regs <> []) (Hr : Forall is_name regs) (Hl : length ps = length regs).
Lemma stem_pieces : split_text (txt "*") (stem regs ps) = map (fun rp => power_text (fst rp) (snd rp)) (combine regs ps).
Proof.
  unfold stem. apply split_join.
  - destruct regs; [contradiction|]. destruct ps; [discriminate|]. discriminate.
  - clear Hn. revert ps Hl. induction Hr as [|r rs H F IH]; intros [|p q] L; try discriminate; [constructor|]. cbn [combine map fst snd]. constructor; [apply power_lacks; auto; lk|]. apply IH; [assumption|injection L; auto].
Qed.
Lemma names_ok : stem_names (stem regs ps) = regs.
Proof.
  unfold stem_names. rewrite stem_pieces, map_map. clear Hn. revert ps Hl. induction Hr as [|r rs H F IH]; intros [|p q] L; try discriminate; [reflexivity|]. cbn [combine map fst snd]. rewrite power_split by exact H. cbn [hd]. f_equal. apply IH; [assumption|injection L; auto].
Qed.
Lemma powers_ok : stem_powers (stem regs ps) = Some ps.
Proof.
  unfold stem_powers. rewrite stem_pieces, map_map. clear Hn. revert ps Hl. induction Hr as [|r rs H F IH]; intros [|p q] L; try discriminate; [reflexivity|]. cbn [combine map fst snd]. rewrite power_split by exact H. rewrite pyint_zdec. cbn [all_some]. fold (@all_some Z). rewrite IH by first [assumption | injection L; auto]. reflexivity.
Qed.
Lemma stem_lacks d : name_char d = false -> is_expo d = false -> d <> "^"%char -> d <> "*"%char -> lacks d (stem regs ps).
Proof.
  intros D1 D2 D3 D4. unfold stem. clear Hn. revert ps Hl. induction Hr as [|r rs H F IH]; intros [|p q] L; try discriminate; [intros []|]. cbn [combine map fst snd]. assert (L' : length q = length rs) by (injection L; auto). specialize (IH F q L').
  destruct (map (fun rp => fst rp ++ txt "^" ++ zdec (snd rp)) (combine rs q)) as [|b m] eqn:E; cbn [join]; [apply (power_lacks r p); auto|]. fold (join (txt "*")). apply lacks_app; split; [apply (power_lacks r p); auto|]. apply lacks_app; split; [intros [X|[]]; congruence|exact IH].
Qed.
End Stem.
(** ** the numbers *)
Lemma sci_break : forall t d a c b, sci_tail d t = true -> t = a ++ c :: b -> is_sign c = true -> (a = [] -> d = false) /\ (forall e q, a = q ++ [e] -> is_digit e = false).
Proof.
  induction t as [|x t IH]; intros d a c b H E Hc; [destruct a; discriminate|]. cbn [sci_tail] in H. apply andb_prop in H. destruct H as [H H2]. apply andb_prop in H. destruct H as [_ H1]. destruct a as [|y a].
  - injection E as -> ->. split; [|intros e q Q; destruct q; discriminate]. intros _. rewrite Hc in H1. destruct d; [discriminate|reflexivity].
  - injection E as <- E. split; [discriminate|]. intros e q Q. destruct (IH _ _ _ _ H2 E Hc) as [A B]. destruct q as [|z q]; [injection Q as -> ->; apply A; reflexivity|]. injection Q as -> Q. apply (B e q Q).
Qed.
Lemma sci_end : forall t d, sci_tail d t = true -> t <> [] -> exists q e, t = q ++ [e] /\ is_digit e = true.
Proof.
  induction t as [|x t IH]; intros d H N; [contradiction|]. cbn [sci_tail] in H. apply andb_prop in H. destruct H as [_ H]. destruct t as [|y t]; [exists [], x; split; [reflexivity|exact H]|]. destruct (IH _ H) as (q & e & E & He); [discriminate|]. exists (x :: q), e. rewrite E. split; [reflexivity|exact He].
Qed.
Lemma sci_signed t : sci t -> signed_part t = true.
Proof.
  destruct t as [|s r]; [contradiction|]. intros [Hs Hr]. destruct r as [|c r]; [discriminate|]. cbn [signed_part]. rewrite Hs. cbn [andb]. destruct (sci_end _ _ Hr) as (q & e & -> & He); [discriminate|]. rewrite rev_app_distr. exact He.
Qed.
Lemma sci_break2 t a c b : sci t -> t = a ++ c :: b -> is_sign c = true -> a <> [] -> forall e q, a = q ++ [e] -> is_digit e = false.
Proof.
  destruct t as [|s r]; [contradiction|]. intros [Hs Hr] E Hc N e q Q. destruct a as [|y a]; [contradiction|]. injection E as -> E. destruct a as [|z a].
  - destruct q as [|y' q]; [|destruct q; discriminate]. injection Q as ->. destruct e as [[|] [|] [|] [|] [|] [|] [|] [|]]; try discriminate Hs; reflexivity.
  - destruct q as [|y' q]; [discriminate|]. injection Q as -> Q. destruct (sci_break _ _ _ _ _ Hr E Hc) as [_ B]. apply (B e q Q).
Qed.
Lemma parts_ok re im : sci re -> sci im -> forall n, (length re <= n)%nat -> (n <= length re + length im)%nat -> split_parts n (re ++ im) = Some (re, im).
Proof.
  intros Hr Hi. induction n as [|n IH]; intros L1 L2.
  - destruct re; [contradiction|cbn in L1; lia].
  - cbn [split_parts]. destruct (Nat.eq_dec (length re) (S n)) as [E|E].
    + rewrite <- E, firstn_app, skipn_app, firstn_all, skipn_all, Nat.sub_diag. cbn [firstn skipn app]. rewrite app_nil_r, (sci_signed re Hr), (sci_signed im Hi). reflexivity.
    + assert (X : signed_part (firstn (S n) (re ++ im)) && signed_part (skipn (S n) (re ++ im)) = false).
      { rewrite firstn_app, skipn_app, (firstn_all2 re), (skipn_all2 re) by lia. cbn [app]. remember (S n - length re)%nat as k eqn:Ek. assert (KP : (0 < k)%nat) by lia. pose proof (firstn_skipn k im) as FS.
        destruct (skipn k im) as [|c b] eqn:Esk; [rewrite andb_false_r; reflexivity|]. destruct (is_sign c) eqn:Ec; [|cbn [signed_part]; destruct b; [rewrite andb_false_r; reflexivity|rewrite Ec; rewrite andb_false_r; reflexivity]].
        assert (NF : firstn k im <> []). { destruct im; [contradiction|]. destruct k; [lia|]. discriminate. }
        destruct (exists_last NF) as (q & e & Q). pose proof (sci_break2 im (firstn k im) c b Hi (eq_sym FS) Ec NF e q Q) as De. rewrite Q.
        replace (signed_part (re ++ q ++ [e])) with false; [reflexivity|]. destruct re as [|r re]; [contradiction|]. cbn [app signed_part]. destruct (re ++ q ++ [e]) as [|y z] eqn:Ez; [destruct re; [destruct q|]; discriminate|].
        rewrite <- Ez, app_assoc, rev_app_distr. cbn [rev app]. rewrite De. rewrite andb_false_r. reflexivity. }
      rewrite X. apply IH; lia.
Qed.
(** ** the lines *)
Lemma until_open_ok a b : lacks "(" a -> until_open (a ++ "("%char :: b) = (a, "("%char :: b).
Proof. induction a as [|c a IH]; intros L; cbn [app until_open]; [reflexivity|]. destruct (Ascii.eqb_spec c "(") as [->|]; [elim L; left; reflexivity|]. rewrite IH by (intros H; apply L; right; exact H). reflexivity. Qed.
Lemma ends_app a p : ends p (a ++ p) = true. Proof. unfold ends. rewrite rev_app_distr. apply starts_app. Qed.
Lemma drop_ok a p : drop_end p (a ++ p) = Some a.
Proof. unfold drop_end. rewrite ends_app, app_length. replace (length a + length p - length p)%nat with (length a) by lia. rewrite firstn_app, firstn_all, Nat.sub_diag. cbn [firstn]. rewrite app_nil_r. reflexivity. Qed.
Lemma rx_ok regs ps re im (pm : bool) : regs <> [] -> Forall is_name regs -> length ps = length regs -> sci re -> sci im ->
  rx_dist (txt "+" ++ stem regs ps ++ txt "*(" ++ re ++ im ++ (if pm then txt "j)*plusminus" else txt "j)")) = Some (stem regs ps, re, im, pm).
Proof.
  intros N Hr Hl S1 S2. cbn [txt list_ascii_of_string app rx_dist]. rewrite Ascii.eqb_refl.
  match goal with |- context [until_open (stem regs ps ++ ?c :: ?d :: ?B)] => replace (stem regs ps ++ c :: d :: B) with ((stem regs ps ++ txt "*") ++ "("%char :: B) by (rewrite <- app_assoc; reflexivity) end.
  rewrite until_open_ok by (apply lacks_app; split; [apply stem_lacks; auto; lk|apply lacks_dec; reflexivity]). rewrite drop_ok.
  assert (PO : split_parts (length (re ++ im)) (re ++ im) = Some (re, im)) by (apply parts_ok; auto; rewrite app_length; lia).
  destruct pm.
  - rewrite app_assoc, drop_ok, PO. reflexivity.
  - rewrite app_assoc. assert (DN : drop_end (txt "j)*plusminus") ((re ++ im) ++ txt "j)") = None). { unfold drop_end. replace (ends (txt "j)*plusminus") ((re ++ im) ++ txt "j)")) with false; [reflexivity|]. unfold ends. rewrite rev_app_distr. reflexivity. }
    cbn [txt list_ascii_of_string] in DN. rewrite DN, drop_ok, PO. reflexivity.
Qed.
Section R.
Context {P : Type} (float_of : text -> option P) (is0 : P -> bool).
Definition val_of (re im : text) : option (pvalue P) := match float_of re, float_of im with Some a, Some b => Some (if is0 b then PReal P a else PCplx P a b) | _, _ => None end.
Lemma val_seen re im p : val_of re im = Some p -> seen_num float_of is0 re im p.
Proof.
  unfold val_of. destruct (float_of re) as [a|] eqn:Ea; [|discriminate]. destruct (float_of im) as [b|] eqn:Eb; [|discriminate]. intros H. injection H as <-. destruct (is0 b) eqn:E0; econstructor; eassumption.
Qed.
Lemma val_exists re im : float_of re <> None -> float_of im <> None -> exists p, val_of re im = Some p.
Proof. unfold val_of. intros A B. destruct (float_of re); [|contradiction]. destruct (float_of im); [|contradiction]. eexists. reflexivity. Qed.
Variables (regs : list text).
Hypothesis (Hn : regs <> []) (Hr : Forall is_name regs).
Notation rstate := (rstate P).
Notation read_line := (read_line P float_of is0).
Notation read_lines := (read_lines P float_of is0).
Lemma line_tight (pm : bool) ps re im : tight (txt "+" ++ stem regs ps ++ txt "*(" ++ re ++ im ++ (if pm then txt "j)*plusminus" else txt "j)")).
Proof.
  split; [eexists _, _; split; [reflexivity|reflexivity]|]. destruct pm.
  - exists "s"%char, (txt "+" ++ stem regs ps ++ txt "*(" ++ re ++ im ++ txt "j)*plusminu"). split; [rewrite <- !app_assoc; reflexivity|reflexivity].
  - exists ")"%char, (txt "+" ++ stem regs ps ++ txt "*(" ++ re ++ im ++ txt "j"). split; [rewrite <- !app_assoc; reflexivity|reflexivity].
Qed.
Lemma line_ok (pm : bool) ps re im p s : length ps = length regs -> sci re -> sci im -> val_of re im = Some p ->
  read_line (txt "    +" ++ stem regs ps ++ txt "*(" ++ re ++ im ++ (if pm then txt "j)*plusminus" else txt "j)")) s =
  Some (mkR P (r_done P s) (set_slot P (r_cur P s) ps pm p) (match r_vars P s with None => Some regs | v => v end)).
Proof.
  intros Hl S1 S2 V. unfold TextDistModel.read_line. 
  assert (E : strip (txt "    +" ++ stem regs ps ++ txt "*(" ++ re ++ im ++ (if pm then txt "j)*plusminus" else txt "j)")) = txt "+" ++ stem regs ps ++ txt "*(" ++ re ++ im ++ (if pm then txt "j)*plusminus" else txt "j)")).
  { rewrite <- (strip_tight (txt "    ") _ [] ltac:(repeat constructor) ltac:(constructor) (line_tight pm ps re im)). rewrite app_nil_r. reflexivity. }
  rewrite E, rx_ok by assumption. rewrite powers_ok, names_ok by assumption. unfold val_of in V. destruct (float_of re) as [a|]; [|discriminate]. destruct (float_of im) as [b|]; [|discriminate]. injection V as <-. reflexivity.
Qed.
Lemma keyb_refl k : keyb k k = true. Proof. apply keyb_spec. reflexivity. Qed.
Lemma keyb_neq k k' : k <> k' -> keyb k k' = false. Proof. intros H. destruct (keyb k k') eqn:E; [apply keyb_spec in E; contradiction|reflexivity]. Qed.
Lemma slot_new (d : coeffs P) k e v : ~ In k (map fst d) -> set_slot P d k e v = d ++ [(k, if e then (None, Some v) else (Some v, None))].
Proof. induction d as [|[k' s] d IH]; intros H; [reflexivity|]. cbn [set_slot app]. rewrite keyb_neq by (intros ->; apply H; left; reflexivity). rewrite IH by (intros X; apply H; right; exact X). reflexivity. Qed.
Lemma slot_last (d : coeffs P) k v w : ~ In k (map fst d) -> set_slot P (d ++ [(k, (Some v, None))]) k true w = d ++ [(k, (Some v, Some w))].
Proof. induction d as [|[k' s] d IH]; intros H; cbn [app set_slot]; [rewrite keyb_refl; reflexivity|]. rewrite keyb_neq by (intros ->; apply H; left; reflexivity). rewrite IH by (intros X; apply H; right; exact X). reflexivity. Qed.
Definition slots_of (t : dterm_out) : option (list Z * slots P) := match val_of (t_re t) (t_im t), val_of (t_ere t) (t_eim t) with Some v, Some e => Some (t_pow t, (Some v, Some e)) | _, _ => None end.
Definition term_lines (ts : list dterm_out) : list text := flat_map (fun t => [term_line regs t; error_line regs t]) ts.
Lemma read_app l1 : forall l2 s, read_lines (l1 ++ l2) s = match read_lines l1 s with Some s' => read_lines l2 s' | None => None end.
Proof. induction l1 as [|a l1 IH]; intros l2 s; cbn [app TextDistModel.read_lines]; [reflexivity|]. destruct (read_line a s); [apply IH|reflexivity]. Qed.
Lemma terms_read : forall ts cs s, Forall (good_term regs) ts -> Forall2 (fun t c => slots_of t = Some c) ts cs -> NoDup (map t_pow ts) -> (forall k, In k (map t_pow ts) -> ~ In k (map fst (r_cur P s))) -> (r_vars P s = None \/ r_vars P s = Some regs) -> ts <> [] \/ r_vars P s = Some regs ->
  read_lines (term_lines ts) s = Some (mkR P (r_done P s) (r_cur P s ++ cs) (Some regs)).
Proof.
  intros ts cs s G F. revert s. induction F as [|t c ts cs Hc F IH]; intros s ND FR V N.
  - cbn [term_lines flat_map TextDistModel.read_lines]. destruct N as [N|N]; [contradiction|]. destruct s as [d cu va]. cbn in *. subst va. rewrite app_nil_r. reflexivity.
  - inversion G as [|? ? (L & S1 & S2 & S3 & S4) Gr]; subst. cbn [map] in ND, FR. inversion ND as [|? ? NI ND']; subst. unfold slots_of in Hc. destruct (val_of (t_re t) (t_im t)) as [v|] eqn:Ev; [|discriminate]. destruct (val_of (t_ere t) (t_eim t)) as [e|] eqn:Ee; [|discriminate]. injection Hc as <-.
    change (term_lines (t :: ts)) with (term_line regs t :: error_line regs t :: term_lines ts). cbn [TextDistModel.read_lines]. unfold term_line.
    pose proof (line_ok false (t_pow t) (t_re t) (t_im t) v s L S1 S2 Ev) as E1. cbv iota in E1. rewrite E1. cbv iota beta. unfold error_line.
    match goal with |- context [read_line ?l ?s1] => pose proof (line_ok true (t_pow t) (t_ere t) (t_eim t) e s1 L S3 S4 Ee) as E2 end. cbv iota in E2. rewrite E2. cbv iota beta. cbn [r_done r_cur r_vars].
    assert (NC : ~ In (t_pow t) (map fst (r_cur P s))) by (apply FR; left; reflexivity). rewrite (slot_new (r_cur P s) (t_pow t) false v NC). cbv iota. rewrite slot_last by exact NC.
    assert (VV : match match r_vars P s with None => Some regs | Some v0 => Some v0 end with None => Some regs | Some v0 => Some v0 end = Some regs) by (destruct V as [-> | ->]; reflexivity). rewrite VV.
    rewrite IH; cbn [r_done r_cur r_vars]; auto.
    + rewrite <- app_assoc. reflexivity.
    + intros k Hk X. rewrite map_app in X. apply in_app_or in X. destruct X as [X|[X|[]]]; [apply (FR k); [right; exact Hk|exact X]|]. cbn in X. subst k. contradiction.
Qed.
Definition sum_lines (ts : list dterm_out) (final : bool) : list text := [txt "  ("] ++ term_lines ts ++ (match ts with [] => [txt "    0"] | _ => [] end) ++ [if final then txt "  )" else txt "  ),"].
Lemma sum_read ts cs (final : bool) s : ts <> [] -> Forall (good_term regs) ts -> Forall2 (fun t c => slots_of t = Some c) ts cs -> NoDup (map t_pow ts) -> r_cur P s = [] -> (r_vars P s = None \/ r_vars P s = Some regs) ->
  read_lines (sum_lines ts final) s = Some (if final then mkR P (r_done P s) cs (Some regs) else mkR P (r_done P s ++ [cs]) [] (Some regs)).
Proof.
  intros N G F ND EC V. unfold sum_lines. destruct ts as [|t0 ts0] eqn:Et; [contradiction|]. rewrite <- Et in *. replace (match ts with [] => [txt "    0"] | _ => [] end) with (@nil text) by (subst; reflexivity).
  rewrite read_app. change (read_lines [txt "  ("] s) with (Some s). cbv iota. cbn [app]. rewrite read_app, (terms_read ts cs s G F ND); auto.
  2:{ intros k _. rewrite EC. intros []. }
  rewrite EC. cbn [app]. destruct final; reflexivity.
Qed.
Fixpoint all_lines (sums : list (list dterm_out)) : list text := match sums with [] => [] | ts :: r => sum_lines ts (match r with [] => true | _ => false end) ++ all_lines r end.
Lemma sums_read : forall sums css s, sums <> [] -> Forall (fun ts => ts <> [] /\ Forall (good_term regs) ts /\ NoDup (map t_pow ts)) sums -> Forall2 (Forall2 (fun t c => slots_of t = Some c)) sums css -> r_cur P s = [] -> (r_vars P s = None \/ r_vars P s = Some regs) ->
  exists s', read_lines (all_lines sums) s = Some s' /\ r_done P s' ++ [r_cur P s'] = r_done P s ++ css /\ r_vars P s' = Some regs.
Proof.
  intros sums css s N G F. revert s N. induction F as [|ts cs sums css Hc F IH]; intros s N EC V; [contradiction|]. inversion G as [|? ? (NE & Gt & ND) Gr]; subst. cbn [all_lines]. rewrite read_app, (sum_read ts cs _ s NE Gt Hc ND EC V).
  destruct sums as [|ts' sums'].
  - inversion F; subst. eexists. split; [reflexivity|]. split; reflexivity.
  - destruct (IH Gr (mkR P (r_done P s ++ [cs]) [] (Some regs))) as (s' & E & D & V'); [discriminate|reflexivity|right; reflexivity|]. exists s'. split; [exact E|]. split; [|exact V']. cbn [r_done] in D. rewrite D, <- app_assoc. reflexivity.
Qed.
(** ** the text is made of these lines *)
Definition unlines (l : list text) : text := concat (map (fun t => t ++ ["010"%char]) l).
Lemma unlines_app a b : unlines (a ++ b) = unlines a ++ unlines b. Proof. unfold unlines. rewrite map_app, concat_app. reflexivity. Qed.
Lemma sum_text_lines ts final : sum_text regs ts final = unlines (sum_lines ts final).
Proof.
  unfold sum_text, sum_lines. rewrite !unlines_app. replace (txt "  (" ++ nl ++ concat (map (fun t => term_line regs t ++ nl ++ error_line regs t ++ nl) ts) ++ match ts with [] => txt "    0" ++ nl | _ :: _ => [] end ++ (if final then txt "  )" ++ nl else txt "  )," ++ nl)) with ((txt "  (" ++ nl) ++ concat (map (fun t => term_line regs t ++ nl ++ error_line regs t ++ nl) ts) ++ match ts with [] => txt "    0" ++ nl | _ :: _ => [] end ++ (if final then txt "  )" ++ nl else txt "  )," ++ nl)) by (rewrite <- app_assoc; reflexivity).
  apply f_equal2; [reflexivity|]. apply f_equal2; [|apply f_equal2; [destruct ts; reflexivity|destruct final; reflexivity]].
  induction ts as [|t ts IH]; [reflexivity|]. cbn [map concat]. rewrite IH. change (term_lines (t :: ts)) with ([term_line regs t; error_line regs t] ++ term_lines ts). rewrite unlines_app. unfold unlines at 2. cbn [map concat]. unfold nl. rewrite <- !app_assoc. cbn [app]. rewrite <- ?app_assoc. reflexivity.
Qed.
Lemma sums_text_lines sums : sums_text regs sums = unlines (all_lines sums).
Proof. induction sums as [|ts r IH]; [reflexivity|]. cbn [sums_text all_lines]. rewrite unlines_app, sum_text_lines, IH. reflexivity. Qed.
Lemma splitlines_last l t : Forall (Forall (fun d => is_newline d = false)) l -> t <> [] -> Forall (fun d => is_newline d = false) t -> splitlines (unlines l ++ t) = l ++ [t].
Proof.
  intros H Nt Ht. unfold splitlines. induction H as [|a l Ha _ IH].
  - cbn [unlines map concat app]. rewrite <- (app_nil_r t) at 1. rewrite splitlines_one by exact Ht. cbn [app splitlines_aux]. destruct t; [contradiction|reflexivity].
  - change (unlines (a :: l)) with ((a ++ ["010"%char]) ++ unlines l). rewrite <- !app_assoc, splitlines_one by exact Ha. cbn [app splitlines_aux]. change (is_newline "010"%char) with true. cbv iota. f_equal. exact IH.
Qed.
Lemma newline_cases d : is_newline d = true -> number_char d = false /\ name_char d = false /\ is_expo d = false /\ d <> "^"%char /\ d <> "*"%char.
Proof. destruct d as [[|] [|] [|] [|] [|] [|] [|] [|]]; intros H; try discriminate H; repeat split; discriminate. Qed.
Lemma all_newline (t : text) : (forall d, is_newline d = true -> lacks d t) -> Forall (fun d => is_newline d = false) t.
Proof. intros H. apply Forall_forall. intros d Hd. destruct (is_newline d) eqn:E; [elim (H d E Hd)|reflexivity]. Qed.
Lemma sci_chars t : sci t -> Forall (fun d => number_char d = true) t.
Proof.
  destruct t as [|s r]; [contradiction|]. intros [Hs Hq]. constructor; [revert Hs; unfold is_sign, number_char; intros Hs; rewrite <- !orb_assoc, Hs; rewrite !orb_true_r; reflexivity|]. revert Hq. generalize false. induction r as [|c r IH]; intros d Hq; [constructor|]. cbn [sci_tail] in Hq. apply andb_prop in Hq. destruct Hq as [H1 H2]. apply andb_prop in H1. destruct H1 as [H1 _]. constructor; [exact H1|apply (IH _ H2)].
Qed.
Lemma plain_line (c : string) : forallb (fun d => negb (is_newline d)) (txt c) = true -> Forall (fun d => is_newline d = false) (txt c).
Proof. intros H. apply Forall_forall. intros d Hd. rewrite forallb_forall in H. specialize (H d Hd). destruct (is_newline d); [discriminate|reflexivity]. Qed.
Lemma one_line ps re im c : length ps = length regs -> sci re -> sci im -> forallb (fun d => negb (is_newline d)) (txt c) = true -> Forall (fun d => is_newline d = false) (txt "    +" ++ stem regs ps ++ txt "*(" ++ re ++ im ++ txt c).
Proof.
  intros L S1 S2 C. assert (NUM : forall t, sci t -> Forall (fun d => is_newline d = false) t). { intros t S. eapply Forall_impl; [|apply sci_chars, S]. intros d Hd. destruct (is_newline d) eqn:E; [|reflexivity]. destruct (newline_cases d E) as [X _]. congruence. }
  repeat (apply Forall_app; split); try (apply plain_line; reflexivity || assumption); try (apply NUM; assumption). apply all_newline. intros d Hd. destruct (newline_cases d Hd) as (_ & A & B & D & E). apply stem_lacks; auto.
Qed.
Lemma lines_clean sums : Forall (fun ts => ts <> [] /\ Forall (good_term regs) ts /\ NoDup (map t_pow ts)) sums -> Forall (Forall (fun d => is_newline d = false)) (all_lines sums).
Proof.
  induction 1 as [|ts r (NE & G & _) _ IH]; [constructor|]. cbn [all_lines]. apply Forall_app. split; [|exact IH]. unfold sum_lines. apply Forall_app. split; [repeat constructor|]. apply Forall_app. split; [|apply Forall_app; split].
  - clear NE. induction G as [|t ts (L & S1 & S2 & S3 & S4) _ IHt]; [constructor|]. change (term_lines (t :: ts)) with (term_line regs t :: error_line regs t :: term_lines ts). constructor; [apply one_line; auto|]. constructor; [apply one_line; auto|exact IHt].
  - destruct ts; [contradiction|constructor].
  - destruct r; repeat constructor.
Qed.
Lemma text_read sums css : sums <> [] -> Forall (fun ts => ts <> [] /\ Forall (good_term regs) ts /\ NoDup (map t_pow ts)) sums -> Forall2 (Forall2 (fun t c => slots_of t = Some c)) sums css ->
  parse_disteval P float_of is0 (result_to_sympy regs sums) = all_some (map (rec P regs 0) css).
Proof.
  intros N G F. unfold parse_disteval, result_to_sympy. replace (txt "[" ++ nl ++ sums_text regs sums ++ txt "]") with (unlines (txt "[" :: all_lines sums) ++ txt "]").
  2:{ rewrite sums_text_lines. unfold nl. change (unlines (txt "[" :: all_lines sums)) with ((txt "[" ++ ["010"%char]) ++ unlines (all_lines sums)). rewrite <- !app_assoc. reflexivity. }
  rewrite splitlines_last; [|constructor; [repeat constructor|apply lines_clean, G]|discriminate|repeat constructor]. rewrite <- app_comm_cons. cbn [TextDistModel.read_lines].
  change (read_line (txt "[") (mkR P [] [] None)) with (Some (mkR P [] [] None)). cbv iota beta. rewrite read_app.
  destruct (sums_read sums css (mkR P [] [] None) N G F eq_refl (or_introl eq_refl)) as (s' & E & D & V). rewrite E. cbv iota beta. cbn [TextDistModel.read_lines]. change (read_line (txt "]") s') with (Some s'). cbv iota beta. rewrite V. cbn [r_done app] in D. rewrite D. reflexivity.
Qed.
End R.
