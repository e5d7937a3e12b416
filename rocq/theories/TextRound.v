(** Reading a printed series gives the series. *)
From Verif Require Import TextSpec TextProofs.
Lemma coef_rec (Q : coef -> Prop) : (forall v, Q (CNum v)) -> (forall v u, Q (CDev v u)) -> (forall mn l tr x, Forall Q l -> Q (CSer mn l tr x)) -> forall c, Q c.
Proof.
  intros H1 H2 H3. fix self 1. intros [v|v u|mn l tr x]; [apply H1|apply H2|]. apply H3. induction l as [|c l IH]; constructor; [apply self|exact IH].
Qed.
Fixpoint show_terms (tr : bool) (x : text) (i : Z) (l : list coef) : text :=
  match l with [] => if tr then show_order x i else [] | c :: r => txt " + (" ++ show c ++ txt ")" ++ show_power x i ++ show_terms tr x (i + 1)%Z r end.
Lemma show_ser mn l tr x : show (CSer mn l tr x) = show_terms tr x mn l.
Proof. revert mn. induction l as [|c l IH]; intros mn; [reflexivity|]. cbn [show_terms]. rewrite <- IH. reflexivity. Qed.
Lemma name_lacks x c : is_name x -> name_char c = false -> lacks c x.
Proof. intros [_ H] E. exact (lacks_all name_char c x H E). Qed.
Lemma number_lacks a c : is_number a -> number_char c = false -> lacks c a.
Proof. intros [_ H] E. exact (lacks_all number_char c a H E). Qed.
Lemma zdec_lacks z c : is_expo c = false -> lacks c (zdec z).
Proof. intros E. exact (lacks_all is_expo c _ (zdec_expo z) E). Qed.
Lemma expo_lacks i c : is_expo c = false -> c <> "^"%char -> lacks c (expo_text i).
Proof. intros E N. unfold expo_text. destruct (Z.eqb i 1); [intros []|]. intros [H|H]; [congruence|]. exact (zdec_lacks i c E H). Qed.
Lemma show_power_lacks x i c : is_name x -> name_char c = false -> is_expo c = false -> c <> "^"%char -> c <> "*"%char -> lacks c (show_power x i).
Proof.
  intros Hx E1 E2 N1 N2. unfold show_power. destruct (Z.eqb i 0); [intros []|]. intros [H|H]; [congruence|]. cbn [txt list_ascii_of_string app] in H. apply in_app_iff in H. destruct H as [H|H]; [exact (name_lacks x c Hx E1 H)|].
  exact (expo_lacks i c E2 N1 H).
Qed.
Ltac chars := first [reflexivity | discriminate].
Lemma lacks_dec c t : existsb (Ascii.eqb c) t = false -> lacks c t.
Proof. intros H I. assert (E : existsb (Ascii.eqb c) t = true) by (apply existsb_exists; exists c; split; [exact I|apply Ascii.eqb_refl]). congruence. Qed.
Lemma value_lacks v c : good_value v -> number_char c = false -> c <> "("%char -> c <> ")"%char -> c <> ","%char -> lacks c (show_value v).
Proof.
  intros G E N1 N2 N3. destruct v as [a|a b]; cbn [show_value good_value] in *; [apply number_lacks; assumption|]. destruct G as [Ga Gb].
  repeat (apply lacks_app; split); try (apply number_lacks; assumption); intros [H|[]]; congruence.
Qed.
Lemma value_dyck v : good_value v -> dyck 0 (show_value v) = Some 0.
Proof.
  destruct v as [a|a b]; cbn [show_value good_value]; [intros G; apply dyck_flat; apply number_lacks; assumption || reflexivity|]. intros [Ga Gb].
  cbn [txt list_ascii_of_string app dyck Ascii.eqb Bool.eqb]. rewrite dyck_app, (dyck_flat a 1) by (apply number_lacks; assumption || reflexivity). cbn [dyck Ascii.eqb Bool.eqb]. rewrite dyck_app, (dyck_flat b 1) by (apply number_lacks; assumption || reflexivity). reflexivity.
Qed.
Lemma lift d e t : dyck 0 t = Some e -> dyck d t = Some (e + d). Proof. intros H. exact (dyck_shift t 0 e d H). Qed.
Lemma dyck_cat a b : dyck 0 a = Some 0 -> dyck 0 b = Some 0 -> dyck 0 (a ++ b) = Some 0.
Proof. intros A B. rewrite dyck_app, A. exact B. Qed.
Lemma dyck_paren a : dyck 0 a = Some 0 -> dyck 0 (txt "(" ++ a ++ txt ")") = Some 0.
Proof. intros A. cbn [txt list_ascii_of_string app dyck Ascii.eqb Bool.eqb]. rewrite dyck_app, (lift 1 0 a A). reflexivity. Qed.
Lemma order_dyck x i : is_name x -> dyck 0 (txt "O(" ++ x ++ expo_text i ++ txt ")") = Some 0.
Proof.
  intros Hx. change (txt "O(") with (txt "O" ++ txt "("). rewrite <- app_assoc. apply dyck_cat; [reflexivity|]. rewrite (app_assoc x). apply dyck_paren. apply dyck_cat; apply dyck_flat;
    first [apply name_lacks; [exact Hx|reflexivity]|apply expo_lacks; chars].
Qed.
Lemma show_dyck : forall c, good c -> dyck 0 (show c) = Some 0.
Proof.
  apply (coef_rec (fun c => good c -> dyck 0 (show c) = Some 0)).
  - intros v G. inversion G; subst. apply value_dyck. assumption.
  - intros v u G. inversion G; subst. cbn [show]. apply dyck_cat; [apply value_dyck; assumption|]. apply dyck_cat; [reflexivity|apply value_dyck; assumption].
  - intros mn l tr x IH G. inversion G as [| |? ? ? ? _ Gl Hx]; subst. rewrite show_ser. clear G. revert mn. induction l as [|c l IHl]; intros mn; cbn [show_terms].
    + destruct tr; [|reflexivity]. unfold show_order. change (txt " + O(") with (txt " + " ++ txt "O("). rewrite <- app_assoc. apply dyck_cat; [reflexivity|]. apply (order_dyck x mn Hx).
    + inversion IH; inversion Gl; subst. change (txt " + (") with (txt " + " ++ txt "("). rewrite <- !app_assoc. apply dyck_cat; [reflexivity|]. rewrite (app_assoc (show c)), (app_assoc (txt "(")). apply dyck_cat; [apply dyck_paren; auto|].
      apply dyck_cat; [apply dyck_flat; apply show_power_lacks; auto; chars|]. apply IHl; assumption.
Qed.
Definition noline (c : ascii) : Prop := Nat.eqb (nat_of_ascii c) 10 = false.
Lemma noline_lacks t : lacks "010"%char t -> Forall noline t.
Proof.
  intros H. apply Forall_forall. intros c Hc. unfold noline. destruct (Nat.eqb_spec (nat_of_ascii c) 10) as [E|]; [|reflexivity]. elim H. replace "010"%char with c; [exact Hc|]. rewrite <- (ascii_nat_embedding c), E. reflexivity.
Qed.
Lemma show_noline : forall c, good c -> lacks "010"%char (show c).
Proof.
  apply (coef_rec (fun c => good c -> lacks "010"%char (show c))).
  - intros v G. inversion G; subst. apply value_lacks; auto; chars.
  - intros v u G. inversion G; subst. cbn [show]. repeat (apply lacks_app; split); try (apply value_lacks; auto; chars). apply lacks_dec. reflexivity.
  - intros mn l tr x IH G. inversion G as [| |? ? ? ? _ Gl Hx]; subst. rewrite show_ser. clear G. revert mn. induction l as [|c l IHl]; intros mn; cbn [show_terms].
    + destruct tr; [|intros []]. unfold show_order. change (if Z.eqb mn 1 then [] else txt "^" ++ zdec mn) with (expo_text mn). repeat (apply lacks_app; split); try (apply lacks_dec; reflexivity); [apply name_lacks; auto; chars|apply expo_lacks; chars].
    + inversion IH; inversion Gl; subst. repeat (apply lacks_app; split); try (apply lacks_dec; reflexivity); auto. apply show_power_lacks; auto; chars.
Qed.
(** ** the parts *)
Definition term_text (x : text) (c : coef) (i : Z) : text := txt "(" ++ show c ++ txt ")" ++ show_power x i.
Definition order_text (x : text) (i : Z) : text := txt "O(" ++ x ++ expo_text i ++ txt ")".
Fixpoint parts (tr : bool) (x : text) (i : Z) (l : list coef) : list text :=
  match l with [] => if tr then [order_text x i] else [] | c :: r => term_text x c i :: parts tr x (i + 1)%Z r end.
Lemma iterT_nil cur : iterT cur [] = [cur]. Proof. reflexivity. Qed.
Lemma iter_parts tr x : is_name x -> forall l i cur, Forall good l -> count "(" cur = count ")" cur -> iterT cur (show_terms tr x i l) = cur :: parts tr x i l.
Proof.
  intros Hx. induction l as [|c l IH]; intros i cur Gl B; cbn [show_terms parts].
  - destruct tr; [|apply iterT_nil]. unfold show_order. change (txt " + O(") with (txt " + " ++ txt "O("). rewrite <- app_assoc, iterT_plus, (proj2 (Nat.eqb_eq _ _) B). f_equal.
    rewrite <- (app_nil_r (txt "O(" ++ _)). apply (scan_flat [] []); [intros cur' _; apply iterT_nil| |apply order_dyck, Hx].
    change (if Z.eqb i 1 then [] else txt "^" ++ zdec i) with (expo_text i).
    repeat (apply lacks_app; split); try (apply lacks_dec; reflexivity); [apply name_lacks; auto; chars|apply expo_lacks; chars].
  - inversion Gl; subst. change (txt " + (") with (txt " + " ++ txt "("). rewrite <- app_assoc, iterT_plus, (proj2 (Nat.eqb_eq _ _) B). f_equal.
    assert (E : txt "(" ++ show c ++ txt ")" ++ show_power x i ++ show_terms tr x (i + 1) l = term_text x c i ++ show_terms tr x (i + 1) l) by (unfold term_text; rewrite <- !app_assoc; reflexivity).
    rewrite E. apply scan_term; [intros cur' B'; apply IH; assumption|apply show_dyck; assumption| | |]; apply show_power_lacks; auto; chars.
Qed.
Lemma nonspace_number c : number_char c = true -> is_space c = false.
Proof. destruct c as [[] [] [] [] [] [] [] []]; cbn; intros H; first [reflexivity|discriminate H]. Qed.
Lemma last_cases (t : text) (Q : ascii -> Prop) : t <> [] -> Forall Q t -> exists a r, t = r ++ [a] /\ Q a.
Proof. intros N H. destruct (exists_last N) as (r & a & ->). apply Forall_app in H. destruct H as [_ H]. inversion H; subst. exists a, r. split; [reflexivity|assumption]. Qed.
Lemma expo_nonspace c : is_expo c = true -> is_space c = false.
Proof. destruct c as [[] [] [] [] [] [] [] []]; cbn; intros H; first [reflexivity|discriminate H]. Qed.
Lemma name_nonspace c : name_char c = true -> is_space c = false.
Proof. destruct c as [[] [] [] [] [] [] [] []]; cbn; intros H; first [reflexivity|discriminate H]. Qed.
Lemma power_nonspace x i : is_name x -> Forall (fun c => is_space c = false) (show_power x i).
Proof.
  intros [_ Hx]. unfold show_power. destruct (Z.eqb i 0); [constructor|]. constructor; [reflexivity|]. apply Forall_app. split; [eapply Forall_impl; [|exact Hx]; apply name_nonspace|].
  destruct (Z.eqb i 1); [constructor|]. constructor; [reflexivity|]. eapply Forall_impl; [|apply zdec_expo]. apply expo_nonspace.
Qed.
Lemma term_tight x c i : is_name x -> tight (term_text x c i).
Proof.
  intros Hx. split; [exists "("%char, (show c ++ txt ")" ++ show_power x i); split; reflexivity|]. unfold term_text. destruct (last_cases (txt ")" ++ show_power x i) (fun c => is_space c = false)) as (a & r & E & Ha).
  - discriminate.
  - constructor; [reflexivity|apply power_nonspace, Hx].
  - exists a, (txt "(" ++ show c ++ r). rewrite E, <- !app_assoc. split; [reflexivity|exact Ha].
Qed.
Lemma order_tight x i : tight (order_text x i).
Proof.
  split; [exists "O"%char, (txt "(" ++ x ++ expo_text i ++ txt ")"); split; reflexivity|]. exists ")"%char, (txt "O(" ++ x ++ expo_text i). unfold order_text. rewrite <- !app_assoc. split; reflexivity.
Qed.
Lemma rx_term_ok x c i : is_name x -> good c -> rx_term (term_text x c i) = Some (show c, tail_group x i).
Proof.
  intros Hx G. unfold term_text. cbn [txt list_ascii_of_string app rx_term Ascii.eqb Bool.eqb]. apply greedy_ok; [exact (noline_lacks _ (show_noline c G))|apply show_power_lacks; auto; chars|].
  apply match_tail_ok; [exact (proj1 Hx)|apply name_lacks; auto; chars].
Qed.
Lemma rx_order_ok x i : is_name x -> rx_order (order_text x i) = Some (x, expo_group i).
Proof.
  intros Hx. unfold rx_order, order_text. assert (A : starts (txt "O(") (txt "O(" ++ x ++ expo_text i ++ txt ")") = true) by apply starts_app. rewrite A.
  assert (B : ends (txt ")") (txt "O(" ++ x ++ expo_text i ++ txt ")") = true). { unfold ends. rewrite !rev_app_distr. reflexivity. } rewrite B.
  assert (D : Nat.ltb 2 (List.length (txt "O(" ++ x ++ expo_text i ++ txt ")")) = true). { apply Nat.ltb_lt. rewrite !app_length. cbn. lia. } rewrite D. cbn [andb].
  change (skipn 2 (txt "O(" ++ x ++ expo_text i ++ txt ")")) with (x ++ expo_text i ++ txt ")"). rewrite app_assoc. change (txt ")") with [")"%char]. rewrite removelast_last.
  apply match_power_ok; [exact (proj1 Hx)|apply name_lacks; auto; chars].
Qed.
Section R.
Variables (P : Type) (float_of : text -> option P).
Notation parse := (parse P float_of). Notation parse_series := (parse_series P float_of). Notation term_loop := (term_loop P).
Lemma tight_cons t : tight t -> exists c r, t = c :: r. Proof. intros [(a & r & -> & _) _]. exists a, r. reflexivity. Qed.
Lemma loop_term prs srs p ps terms var order g tl v k : tight p -> rx_term p = Some (g, tl) -> prs g = Some v -> power_of tl = Some k ->
  term_loop prs srs (p :: ps) terms var order = term_loop prs srs ps (terms ++ [(v, k)]) (match tl with Some (x, _) => Some x | None => var end) order.
Proof. intros T E1 E2 E3. cbn [TextModel.term_loop]. rewrite strip_id by exact T. destruct (tight_cons p T) as (c & r & ->). rewrite E1, E2, E3. reflexivity. Qed.
Lemma loop_order prs srs x i terms var order : is_name x -> term_loop prs srs [order_text x i] terms var order = Some (PSer P terms (Some x) (Some i)).
Proof.
  intros Hx. cbn [TextModel.term_loop]. rewrite strip_id by apply order_tight. assert (E : rx_term (order_text x i) = None) by reflexivity. rewrite E. rewrite rx_order_ok by exact Hx. unfold order_text. cbn [txt list_ascii_of_string app].
  unfold expo_group. destruct (Z.eqb_spec i 1) as [->|]; [reflexivity|]. rewrite pyint_zdec. reflexivity.
Qed.
Definition orders (i : Z) (n : nat) : list Z := map (fun k => (i + Z.of_nat k)%Z) (seq 0 n).
Lemma orders_S i n : orders i (S n) = i :: orders (i + 1) n.
Proof. unfold orders. cbn [seq map]. rewrite Z.add_0_r. f_equal. rewrite <- seq_shift, map_map. apply map_ext. intros k. lia. Qed.
Fixpoint var_after (tr : bool) (x : text) (i : Z) (n : nat) (var : option text) : option text :=
  match n with O => if tr then Some x else var | S m => var_after tr x (i + 1) m (if Z.eqb i 0 then var else Some x) end.
Lemma loop_parts prs srs tr x : is_name x -> forall l i vs terms var, Forall good l -> Forall2 (fun c v => prs (show c) = Some v) l vs ->
  term_loop prs srs (parts tr x i l) terms var None = Some (PSer P (terms ++ combine vs (orders i (List.length l))) (var_after tr x i (List.length l) var) (if tr then Some (i + Z.of_nat (List.length l))%Z else None)).
Proof.
  intros Hx. induction l as [|c l IH]; intros i vs terms var Gl F.
  - inversion F; subst. cbn [parts List.length combine]. rewrite app_nil_r. destruct tr; [rewrite (loop_order prs srs x i terms var None Hx), Z.add_0_r; reflexivity|reflexivity].
  - inversion F as [|? v ? vs' Hv F']; subst. inversion Gl; subst. cbn [parts List.length]. rewrite (loop_term prs srs _ _ _ _ _ (show c) (tail_group x i) v i); [|apply term_tight, Hx|apply rx_term_ok; assumption|exact Hv|apply power_ok].
    rewrite (IH (i + 1)%Z vs') by assumption. rewrite orders_S. cbn [combine var_after]. rewrite <- app_assoc. cbn [app]. f_equal. f_equal; [|destruct tr; [f_equal; lia|reflexivity]]. f_equal. unfold tail_group. destruct (Z.eqb i 0); reflexivity.
Qed.
Lemma var_some tr x : forall n i, var_after tr x i n (Some x) = Some x.
Proof. induction n as [|n IH]; intros i; cbn; [destruct tr; reflexivity|]. destruct (Z.eqb i 0); apply IH. Qed.
Lemma var_ok tr x i n : (0 < n)%nat -> var_after tr x i n None = if andb (negb tr) (andb (Z.eqb i 0) (Nat.eqb n 1)) then None else Some x.
Proof.
  intros Hn. destruct n as [|n]; [lia|]. cbn [var_after]. destruct (Z.eqb_spec i 0) as [->|N]; [|rewrite var_some; cbn [andb]; rewrite andb_false_r; reflexivity].
  destruct n as [|n]; [destruct tr; reflexivity|]. cbn [var_after]. change (Z.eqb (0 + 1) 0) with false. cbv iota. rewrite var_some. cbn. rewrite andb_false_r. reflexivity.
Qed.
Lemma starts_head a p b t : Ascii.eqb a b = false -> starts (a :: p) (b :: t) = false. Proof. intros H. cbn. rewrite H. reflexivity. Qed.
Lemma value_head v : good_value v -> exists a r, show_value v = a :: r /\ is_space a = false.
Proof.
  destruct v as [a|a b]; cbn; [|intros _; exists "("%char; eexists; split; reflexivity]. intros [N H]. destruct a as [|c a]; [contradiction|]. inversion H; subst. exists c, a. split; [reflexivity|apply nonspace_number; assumption].
Qed.
Lemma value_tight v : good_value v -> tight (show_value v).
Proof.
  intros G. apply tight_all; [destruct (value_head v G) as (a & r & -> & _); discriminate|]. destruct v as [a|a b]; cbn in *; [eapply Forall_impl; [|exact (proj2 G)]; apply nonspace_number|].
  destruct G as [[_ A] [_ B]]. constructor; [reflexivity|]. apply Forall_app. split; [eapply Forall_impl; [|exact A]; apply nonspace_number|]. constructor; [reflexivity|]. apply Forall_app. split; [eapply Forall_impl; [|exact B]; apply nonspace_number|repeat constructor].
Qed.
Lemma not_plus t : (exists a r, t = a :: r /\ is_space a = false) -> starts (txt " + ") t = false.
Proof. intros (a & r & -> & H). apply starts_head. destruct (Ascii.eqb " " a) eqn:E; [apply Ascii.eqb_eq in E; subst a; discriminate|reflexivity]. Qed.
Lemma parse_value v p fuel : good_value v -> seen_value P float_of v p -> parse (S fuel) (show_value v) = Some (PNum P p).
Proof.
  intros G V. cbn [TextModel.parse]. rewrite (not_plus _ (value_head v G)). rewrite (contains_lacks (txt "+/-") _ "/"%char) by (try (right; left; reflexivity); apply value_lacks; auto; chars).
  inversion V as [a q E|a b q r E1 E2]; subst; cbn [show_value].
  - cbn in G. destruct G as [N H]. destruct a as [|c a]; [contradiction|]. assert (S : starts (txt "(") (c :: a) = false). { apply starts_head. inversion H as [|? ? Hc _]; subst. destruct (Ascii.eqb "(" c) eqn:X; [apply Ascii.eqb_eq in X; subst c; discriminate|reflexivity]. }
    rewrite S. cbn [andb]. rewrite E. reflexivity.
  - cbn in G. destruct G as [Ga Gb]. assert (A : starts (txt "(") (txt "(" ++ a ++ txt "," ++ b ++ txt ")") = true) by apply starts_app. rewrite A.
    assert (B : ends (txt ")") (txt "(" ++ a ++ txt "," ++ b ++ txt ")") = true) by (unfold ends; rewrite !rev_app_distr; reflexivity). rewrite B.
    assert (D : contains (txt ",") (txt "(" ++ a ++ txt "," ++ b ++ txt ")") = true) by (rewrite (app_assoc (txt "(")); apply contains_app). rewrite D. cbn [andb].
    assert (I : inner (txt "(" ++ a ++ txt "," ++ b ++ txt ")") = a ++ txt "," ++ b). { unfold inner. cbn [txt list_ascii_of_string app tl]. change (a ++ ","%char :: b ++ [")"%char]) with (a ++ (","%char :: b) ++ [")"%char]). rewrite app_assoc, removelast_last. reflexivity. }
    rewrite I. rewrite (split_two (txt ",") ","%char a b); [rewrite E1, E2; reflexivity|discriminate|left; reflexivity|apply number_lacks; auto; chars|].
    intros s Hs (q' & Eq). destruct s as [|c s]; [contradiction|]. destruct (Ascii.eqb "," c) eqn:X; [|apply starts_head; exact X]. apply Ascii.eqb_eq in X. subst c. elim (number_lacks a "," Ga eq_refl). rewrite Eq. apply in_or_app. right. left. reflexivity.
Qed.
Lemma parse_dev v u p q fuel : good_value v -> good_value u -> seen_value P float_of v p -> seen_value P float_of u q -> parse (S (S fuel)) (show (CDev v u)) = Some (PPair P (PNum P p) (PNum P q)).
Proof.
  intros Gv Gu Vv Vu. cbn [show]. set (t := show_value v ++ txt " +/- " ++ show_value u).
  assert (Et : t = (show_value v ++ txt " ") ++ txt "+/-" ++ (txt " " ++ show_value u)) by (unfold t; rewrite <- app_assoc; reflexivity).
  assert (H1 : starts (txt " + ") t = false). { apply not_plus. destruct (value_head v Gv) as (a & r & E & Ha). exists a, (r ++ txt " +/- " ++ show_value u). unfold t. rewrite E. split; [reflexivity|exact Ha]. }
  assert (H2 : contains (txt "+/-") t = true) by (rewrite Et; apply contains_app).
  assert (H3 : split_text (txt "+/-") t = [show_value v ++ txt " "; txt " " ++ show_value u]).
  { rewrite Et. apply (split_two (txt "+/-") "/"%char); [discriminate|right; left; reflexivity|apply lacks_app; split; [apply lacks_dec; reflexivity|apply value_lacks; auto; chars]|].
    intros s Hs (q' & Eq). destruct s as [|a s]; [contradiction|]. destruct s as [|b s].
    - assert (Ea : a = " "%char) by (apply app_inj_tail in Eq; destruct Eq as [_ Eq]; symmetry; exact Eq). subst a. reflexivity.
    - cbn [app txt list_ascii_of_string starts]. destruct (Ascii.eqb "/" b) eqn:X; [|rewrite andb_false_r; reflexivity]. apply Ascii.eqb_eq in X. subst b.
      assert (L : lacks "/" (show_value v ++ txt " ")) by (apply lacks_app; split; [apply value_lacks; auto; chars|apply lacks_dec; reflexivity]). elim L. rewrite Eq. apply in_or_app. right. right. left. reflexivity. }
  assert (S1 : strip (show_value v ++ txt " ") = show_value v) by (apply (strip_tight [] (show_value v) (txt " ")); [constructor|repeat constructor|apply value_tight, Gv]).
  assert (S2 : strip (txt " " ++ show_value u) = show_value u). { rewrite <- (app_nil_r (show_value u)) at 1. apply (strip_tight (txt " ") (show_value u) []); [repeat constructor|constructor|apply value_tight, Gu]. }
  change (parse (S (S fuel)) t) with (if starts (txt " + ") t then parse_series (S fuel) t
      else if contains (txt "+/-") t then
        match split_text (txt "+/-") t with
        | [m; s] => match parse (S fuel) (strip m), parse (S fuel) (strip s) with Some a, Some b => Some (PPair P a b) | _, _ => None end
        | _ => None
        end
      else if starts (txt "(") t && ends (txt ")") t && contains (txt ",") t then
        match split_text (txt ",") (inner t) with
        | [re; im] => match float_of re, float_of im with Some a, Some b => Some (PNum P (PCplx P a b)) | _, _ => None end
        | _ => None
        end
      else match float_of t with Some a => Some (PNum P (PReal P a)) | None => None end).
  rewrite H1, H2, H3, S1, S2. rewrite (parse_value v p fuel Gv Vv), (parse_value u q fuel Gu Vu). reflexivity.
Qed.
Lemma terms_length tr x : forall l i c, In c l -> (List.length (show c) + 5 <= List.length (show_terms tr x i l))%nat.
Proof.
  induction l as [|d l IH]; intros i c Hc; [inversion Hc|]. destruct Hc as [->|H]; cbn [show_terms]; rewrite !app_length; cbn [txt list_ascii_of_string List.length]; [lia|]. specialize (IH (i + 1)%Z c H). lia.
Qed.
Definition reads (c : coef) : Prop := good c -> forall v, seen P float_of c v ->
  (forall fuel, (List.length (show c) + 2 <= fuel)%nat -> parse fuel (show c) = Some v) /\
  (forall mn l tr x, c = CSer mn l tr x -> forall fuel, (List.length (show c) + 1 <= fuel)%nat -> parse_series fuel (show c) = Some v).
Lemma read_series mn l tr x : Forall reads l -> reads (CSer mn l tr x).
Proof.
  intros IH G v S. inversion G as [| |? ? ? ? Nl Gl Hx]; subst. inversion S as [| |? ? ? ? vs F]; subst. clear G S.
  assert (PS : forall fuel, (List.length (show (CSer mn l tr x)) + 1 <= fuel)%nat -> parse_series fuel (show (CSer mn l tr x)) =
     Some (PSer P (combine vs (orders mn (List.length l))) (if andb (negb tr) (andb (Z.eqb mn 0) (Nat.eqb (List.length l) 1)) then None else Some x) (if tr then Some (mn + Z.of_nat (List.length l))%Z else None))).
  { intros fuel Hf. rewrite show_ser in *. destruct fuel as [|f]; [lia|]. cbn [TextModel.parse_series]. change (iter_terms (S (List.length (show_terms tr x mn l))) [] (show_terms tr x mn l)) with (iterT [] (show_terms tr x mn l)).
    rewrite iter_parts by (try assumption; reflexivity). cbn [TextModel.term_loop strip rev lstrip].
    rewrite (loop_parts _ _ tr x Hx l mn vs); [cbn [app]; rewrite var_ok by (destruct l; [contradiction|cbn; lia]); reflexivity|exact Gl|].
    assert (LEN : forall c, In c l -> (List.length (show c) + 2 <= f)%nat) by (intros c Hc; pose proof (terms_length tr x l mn c Hc); lia).
    clear Hf Nl. induction F as [|c w l vs Sc F IHF]; [constructor|]. inversion IH; inversion Gl; subst. constructor; [|apply IHF; auto; intros; apply LEN; right; assumption].
    match goal with Hr : reads c |- _ => destruct (Hr ltac:(assumption) w Sc) as [Hp _] end. apply Hp, LEN. left. reflexivity. }
  split; [|intros mn' l' tr' x' E fuel Hf; apply PS, Hf]. intros fuel Hf. destruct fuel as [|f]; [lia|]. cbn [TextModel.parse].
  assert (E : starts (txt " + ") (show (CSer mn l tr x)) = true). { rewrite show_ser. destruct l as [|c l]; [contradiction|]. reflexivity. }
  rewrite E. apply PS. lia.
Qed.
Lemma read_all : forall c, reads c.
Proof.
  apply coef_rec.
  - intros v G w S. inversion G; inversion S; subst. split; [|intros; discriminate]. intros fuel Hf. destruct fuel as [|f]; [lia|]. apply parse_value; assumption.
  - intros v u G w S. inversion G; inversion S; subst. split; [|intros; discriminate]. intros fuel Hf. destruct fuel as [|[|f]]; [lia|lia|]. apply parse_dev; assumption.
  - intros mn l tr x IH. apply read_series, IH.
Qed.
Theorem round_trip mn l tr x v : good (CSer mn l tr x) -> seen P float_of (CSer mn l tr x) v -> parse_text P float_of (show (CSer mn l tr x)) = Some v.
Proof. intros G S. unfold parse_text. apply (proj2 (read_all _ G v S) mn l tr x eq_refl). lia. Qed.
End R.
