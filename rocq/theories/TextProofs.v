(** Proofs about the textual form of results. *)
From Verif Require Import TextSpec.
From Coq Require DecimalString DecimalFacts DecimalZ DecimalPos.
Definition lacks (c : ascii) (t : text) : Prop := ~ In c t.
Lemma lacks_app c a b : lacks c (a ++ b) <-> lacks c a /\ lacks c b.
Proof. unfold lacks. rewrite in_app_iff. tauto. Qed.
Lemma lacks_all (f : ascii -> bool) c t : Forall (fun d => f d = true) t -> f c = false -> lacks c t.
Proof. intros H E I. rewrite Forall_forall in H. specialize (H c I). congruence. Qed.
(** ** starts, contains *)
Lemma starts_app p t : starts p (p ++ t) = true.
Proof. induction p as [|a p IH]; cbn; [reflexivity|]. rewrite Ascii.eqb_refl. exact IH. Qed.
Lemma starts_incl p : forall t c, starts p t = true -> In c p -> In c t.
Proof.
  induction p as [|a p IH]; intros t c H I; [inversion I|]. destruct t as [|b t]; cbn in H; [discriminate|]. apply andb_prop in H. destruct H as [H1 H2]. apply Ascii.eqb_eq in H1. subst b.
  destruct I as [<-|I]; [left; reflexivity|right; apply IH; assumption].
Qed.
Lemma contains_lacks p t c : In c p -> lacks c t -> contains p t = false.
Proof.
  intros I. induction t as [|a t IH]; intros L.
  - cbn. destruct (starts p []) eqn:E; [|reflexivity]. elim (L (starts_incl _ _ _ E I)).
  - cbn. destruct (starts p (a :: t)) eqn:E; [elim (L (starts_incl _ _ _ E I))|]. cbn. apply IH. intros H. apply L. right. exact H.
Qed.
Lemma contains_app p a t : contains p (a ++ p ++ t) = true.
Proof.
  induction a as [|c a IH]; cbn [app]; [|cbn; rewrite IH; apply orb_true_r]. destruct (p ++ t) eqn:E; cbn [contains]; rewrite <- E, starts_app; reflexivity.
Qed.
(** ** strip *)
Lemma lstrip_head c t : is_space c = false -> lstrip (c :: t) = c :: t.
Proof. intros H. cbn. rewrite H. reflexivity. Qed.
Lemma lstrip_spaces s t : Forall (fun c => is_space c = true) s -> lstrip (s ++ t) = lstrip t.
Proof. induction 1 as [|c s H _ IH]; cbn; [reflexivity|]. rewrite H. exact IH. Qed.
Definition tight (t : text) : Prop := (exists a r, t = a :: r /\ is_space a = false) /\ (exists a r, t = r ++ [a] /\ is_space a = false).
Lemma strip_tight s1 t s2 : Forall (fun c => is_space c = true) s1 -> Forall (fun c => is_space c = true) s2 -> tight t -> strip (s1 ++ t ++ s2) = t.
Proof.
  intros H1 H2 ((a & r & E & Ha) & (b & q & E' & Hb)). unfold strip. rewrite lstrip_spaces by exact H1. rewrite E at 1. cbn [app]. rewrite lstrip_head by exact Ha.
  change (a :: r ++ s2) with ((a :: r) ++ s2). rewrite <- E, rev_app_distr, lstrip_spaces by (apply Forall_rev; exact H2). rewrite E', rev_app_distr. cbn [rev app]. rewrite lstrip_head by exact Hb. cbn [rev]. rewrite rev_involutive. reflexivity.
Qed.
Lemma strip_id t : tight t -> strip t = t.
Proof. intros H. pose proof (strip_tight [] t [] (Forall_nil _) (Forall_nil _) H) as E. cbn [app] in E. rewrite app_nil_r in E. exact E. Qed.
Lemma tight_all t : t <> [] -> Forall (fun c => is_space c = false) t -> tight t.
Proof.
  intros N H. split.
  - destruct t as [|a r]; [contradiction|]. inversion H; subst. exists a, r. split; [reflexivity|assumption].
  - destruct (exists_last N) as (r & a & ->). apply Forall_app in H. destruct H as [_ H]. inversion H; subst. exists a, r. split; [reflexivity|assumption].
Qed.
(** ** split *)
Lemma split_skip p : forall a cur rest fuel, (forall s, s <> [] -> (exists q, a = q ++ s) -> starts p (s ++ rest) = false) ->
  split_aux (List.length a + fuel) p cur (a ++ rest) = split_aux fuel p (cur ++ a) rest.
Proof.
  induction a as [|c a IH]; intros cur rest fuel H; cbn [List.length Nat.add app]; [rewrite app_nil_r; reflexivity|]. cbn [split_aux].
  assert (E : starts p (c :: a ++ rest) = false) by (apply (H (c :: a)); [discriminate|exists []; reflexivity]). rewrite E. rewrite IH.
  - rewrite <- app_assoc. reflexivity.
  - intros s Hs (q & ->). apply H; [exact Hs|exists (c :: q); reflexivity].
Qed.
Lemma suffix_in {A} (a q s : list A) (x : A) : a = q ++ s -> In x s -> In x a.
Proof. intros -> H. apply in_or_app. right. exact H. Qed.
Lemma split_two p c a b : p <> [] -> In c p -> lacks c b -> (forall s, s <> [] -> (exists q, a = q ++ s) -> starts p (s ++ p ++ b) = false) -> split_text p (a ++ p ++ b) = [a; b].
Proof.
  intros Np Ic Lb Ha. unfold split_text. replace (S (List.length (a ++ p ++ b))) with (List.length a + S (List.length p + List.length b)) by (rewrite !app_length; lia).
  rewrite split_skip by exact Ha. cbn [app split_aux]. rewrite starts_app. f_equal.
  rewrite skipn_app, skipn_all, Nat.sub_diag. cbn [skipn app].
  assert (Lp : 1 <= List.length p) by (destruct p; [contradiction|cbn; lia]).
  rewrite <- (app_nil_r b) at 2. replace (List.length p + List.length b) with (List.length b + S (List.length p - 1)) by lia. rewrite split_skip.
  - cbn [app split_aux]. destruct p as [|x p]; [contradiction|]. cbn [starts]. reflexivity.
  - intros s Hs (q & E). rewrite app_nil_r. destruct (starts p s) eqn:Es; [|reflexivity]. elim Lb. eapply suffix_in; [exact E|]. eapply starts_incl; eassumption.
Qed.
(** ** brackets *)
Fixpoint dyck (d : nat) (t : text) : option nat :=
  match t with
  | [] => Some d
  | c :: r => if Ascii.eqb c "(" then dyck (S d) r else if Ascii.eqb c ")" then match d with O => None | S d' => dyck d' r end else dyck d r
  end.
Lemma dyck_app a : forall d b, dyck d (a ++ b) = match dyck d a with Some e => dyck e b | None => None end.
Proof.
  induction a as [|c a IH]; intros d b; cbn; [reflexivity|]. destruct (Ascii.eqb c "("); [apply IH|]. destruct (Ascii.eqb c ")"); [destruct d; [reflexivity|apply IH]|apply IH].
Qed.
Lemma dyck_shift a : forall d e k, dyck d a = Some e -> dyck (d + k) a = Some (e + k).
Proof.
  induction a as [|c a IH]; intros d e k H; cbn in *; [injection H as <-; reflexivity|]. destruct (Ascii.eqb c "("); [apply (IH (S d)); exact H|].
  destruct (Ascii.eqb c ")"); [destruct d; [discriminate|]; cbn; apply IH; exact H|apply IH; exact H].
Qed.
Lemma dyck_flat t d : lacks "(" t -> lacks ")" t -> dyck d t = Some d.
Proof.
  induction t as [|c t IH]; intros L R; cbn; [reflexivity|]. destruct (Ascii.eqb c "(") eqn:E; [apply Ascii.eqb_eq in E; subst; elim L; left; reflexivity|].
  destruct (Ascii.eqb c ")") eqn:E'; [apply Ascii.eqb_eq in E'; subst; elim R; left; reflexivity|]. apply IH; intros H; [apply L|apply R]; right; exact H.
Qed.
Lemma count_cons c d t : count c (d :: t) = (if Ascii.eqb c d then 1 else 0) + count c t.
Proof. unfold count. cbn. destruct (Ascii.eqb c d); reflexivity. Qed.
Lemma count_app c a b : count c (a ++ b) = count c a + count c b.
Proof. unfold count. rewrite filter_app, app_length. reflexivity. Qed.
Lemma dyck_count a : forall d e, dyck d a = Some e -> d + count "(" a = e + count ")" a.
Proof.
  induction a as [|c a IH]; intros d e H; [cbn in *; injection H as <-; unfold count; cbn; lia|]. rewrite !count_cons. cbn [dyck] in H. rewrite (Ascii.eqb_sym "(" c), (Ascii.eqb_sym ")" c).
  destruct (Ascii.eqb c "(") eqn:E; [apply Ascii.eqb_eq in E; subst c; cbn; specialize (IH _ _ H); lia|]. destruct (Ascii.eqb c ")") eqn:E'; [destruct d; [discriminate|]|]; specialize (IH _ _ H); lia.
Qed.
Lemma dyck_prefix a b : dyck 0 (a ++ b) <> None -> exists e, dyck 0 a = Some e.
Proof. rewrite dyck_app. destruct (dyck 0 a) as [e|]; [intros _; exists e; reflexivity|intros H; elim H; reflexivity]. Qed.
(** ** iter_terms *)
Lemma iter_fuel : forall f f' cur rest, List.length rest < f -> List.length rest < f' -> iter_terms f cur rest = iter_terms f' cur rest.
Proof.
  induction f as [|f IH]; intros f' cur rest H H'; [lia|]. destruct f' as [|f']; [lia|]. cbn [iter_terms].
  destruct (starts (txt " + ") rest) eqn:E.
  - destruct rest as [|a [|b [|c r]]]; try (cbn in E; discriminate E); try (cbn in E; rewrite andb_false_r in E; discriminate E); try (cbn in E; rewrite !andb_false_r in E; discriminate E).
    cbn [skipn]. cbn in H, H'. destruct (Nat.eqb _ _); [f_equal|]; apply IH; lia.
  - destruct rest as [|c r]; [reflexivity|]. cbn in H, H'. apply IH; lia.
Qed.
Definition iterT (cur rest : text) : list text := iter_terms (S (List.length rest)) cur rest.
Lemma iterT_plus cur R : iterT cur (txt " + " ++ R) = if Nat.eqb (count "(" cur) (count ")" cur) then cur :: iterT [] R else iterT (cur ++ txt " + ") R.
Proof.
  unfold iterT. set (f := S (List.length R)). cbn [iter_terms]. rewrite starts_app. change (skipn 3 (txt " + " ++ R)) with R. destruct (Nat.eqb _ _); [f_equal|]; apply iter_fuel; unfold f; cbn; lia.
Qed.
Lemma iterT_char cur c R : starts (txt " + ") (c :: R) = false -> iterT cur (c :: R) = iterT (cur ++ [c]) R.
Proof. intros H. unfold iterT. cbn [iter_terms]. rewrite H. reflexivity. Qed.
Lemma scan E X : (forall cur, count "(" cur = count ")" cur -> iterT cur E = cur :: X) ->
  forall n u p, List.length u <= n -> (forall q r, u = q ++ " "%char :: r -> count "(" (p ++ q) <> count ")" (p ++ q) /\ In ")"%char r) ->
  count "(" (p ++ u) = count ")" (p ++ u) -> iterT p (u ++ E) = (p ++ u) :: X.
Proof.
  intros HE. induction n as [|n IH]; intros u p Hn Hs Hb.
  - destruct u; [|cbn in Hn; lia]. cbn [app]. rewrite app_nil_r in *. apply HE, Hb.
  - destruct u as [|c u]; [cbn [app]; rewrite app_nil_r in *; apply HE, Hb|]. cbn [app]. destruct (starts (txt " + ") (c :: u ++ E)) eqn:S.
    + cbn [txt list_ascii_of_string starts] in S. apply andb_prop in S. destruct S as [S1 S]. apply Ascii.eqb_eq in S1. subst c.
      destruct (Hs [] u eq_refl) as [D In1]. rewrite app_nil_r in D. destruct u as [|b u]; [inversion In1|]. cbn [app starts] in S. apply andb_prop in S. destruct S as [S1 S]. apply Ascii.eqb_eq in S1. subst b.
      destruct In1 as [In1|In1]; [discriminate|]. destruct u as [|b u]; [inversion In1|]. cbn [app starts] in S. apply andb_prop in S. destruct S as [S1 _]. apply Ascii.eqb_eq in S1. subst b.
      change (" "%char :: ("+"%char :: " "%char :: u) ++ E) with (txt " + " ++ (u ++ E)). rewrite iterT_plus. destruct (Nat.eqb_spec (count "(" p) (count ")" p)) as [Eq|_]; [contradiction|].
      rewrite (IH u (p ++ txt " + ")).
      * rewrite <- app_assoc. reflexivity.
      * cbn in Hn. lia.
      * intros q r Eu. destruct (Hs (txt " + " ++ q) r) as [A B]; [rewrite Eu; reflexivity|]. rewrite <- app_assoc. split; assumption.
      * rewrite <- app_assoc. exact Hb.
    + rewrite iterT_char by exact S. rewrite (IH u (p ++ [c])).
      * rewrite <- app_assoc. reflexivity.
      * cbn in Hn. lia.
      * intros q r Eu. destruct (Hs (c :: q) r) as [A B]; [rewrite Eu; reflexivity|]. rewrite <- app_assoc. split; assumption.
      * rewrite <- app_assoc. exact Hb.
Qed.
Lemma space_in_left (q r a E : text) : q ++ " "%char :: r = a ++ E -> lacks " " E -> exists r', a = q ++ " "%char :: r' /\ r = r' ++ E.
Proof.
  revert a. induction q as [|c q IH]; intros a H L; cbn [app] in H.
  - destruct a as [|b a]; cbn [app] in H; [elim L; rewrite <- H; left; reflexivity|]. injection H as <- ->. exists a. split; reflexivity.
  - destruct a as [|b a]; cbn [app] in H; [elim L; rewrite <- H; right; apply in_or_app; right; left; reflexivity|]. injection H as <- H. destruct (IH a H L) as (r' & -> & ->). exists r'. split; reflexivity.
Qed.
(** a bracketed term is one part *)
Lemma scan_term E X body pw : (forall cur, count "(" cur = count ")" cur -> iterT cur E = cur :: X) -> dyck 0 body = Some 0 -> lacks " " pw -> lacks "(" pw -> lacks ")" pw ->
  iterT [] ((txt "(" ++ body ++ txt ")" ++ pw) ++ E) = (txt "(" ++ body ++ txt ")" ++ pw) :: X.
Proof.
  intros HE Hd Ls Lo Lc. apply (scan E X HE _ _ [] (le_n _)).
  - intros q r H. cbn [app]. destruct q as [|c q]; cbn [app txt list_ascii_of_string] in H; [discriminate|]. injection H as <- H.
    destruct (space_in_left q r body ([")"%char] ++ pw)) as (r' & Eb & ->); [rewrite <- H; reflexivity|apply lacks_app; split; [intros [I|[]]; discriminate|exact Ls]|].
    split; [|apply in_or_app; right; left; reflexivity]. rewrite Eb in Hd. destruct (dyck_prefix q (" "%char :: r')) as [e He]; [rewrite Hd; discriminate|]. apply dyck_count in He.
    rewrite !count_cons. cbn [Ascii.eqb Bool.eqb]. cbn. lia.
  - cbn [app]. assert (D : dyck 0 (txt "(" ++ body ++ txt ")" ++ pw) = Some 0).
    { cbn [txt list_ascii_of_string app dyck Ascii.eqb Bool.eqb]. rewrite dyck_app. pose proof (dyck_shift body 0 0 1 Hd) as D1. cbn [Nat.add] in D1. rewrite D1. cbn. apply dyck_flat; assumption. }
    apply dyck_count in D. lia.
Qed.
Lemma scan_flat E X t : (forall cur, count "(" cur = count ")" cur -> iterT cur E = cur :: X) -> lacks " " t -> dyck 0 t = Some 0 -> iterT [] (t ++ E) = t :: X.
Proof.
  intros HE L D. apply (scan E X HE _ _ [] (le_n _)).
  - intros q r H. elim L. rewrite H. apply in_or_app. right. left. reflexivity.
  - cbn [app]. apply dyck_count in D. lia.
Qed.
(** ** integers *)
Lemma string_back s : string_of_list_ascii (txt s) = s. Proof. apply string_of_list_ascii_of_string. Qed.
Lemma uint_chars u : Forall (fun c => is_digit c = true) (txt (DecimalString.NilEmpty.string_of_uint u)).
Proof. induction u; cbn; constructor; try reflexivity; try exact IHu. Qed.
Lemma uint_chars0 u : Forall (fun c => is_digit c = true) (txt (DecimalString.NilZero.string_of_uint u)).
Proof. unfold DecimalString.NilZero.string_of_uint. destruct u; try apply uint_chars. cbn. repeat constructor. Qed.
Lemma uint_nonempty u : txt (DecimalString.NilZero.string_of_uint u) <> [].
Proof. destruct u; cbn; discriminate. Qed.
Lemma zdec_cases z : exists u, (Z.to_int z = Decimal.Pos u /\ zdec z = txt (DecimalString.NilZero.string_of_uint u)) \/ (Z.to_int z = Decimal.Neg u /\ zdec z = "-"%char :: txt (DecimalString.NilZero.string_of_uint u)).
Proof. unfold zdec. destruct (Z.to_int z) as [u|u]; exists u; [left|right]; split; reflexivity. Qed.
Lemma to_int_nonnil z : Z.to_int z <> Decimal.Pos Decimal.Nil /\ Z.to_int z <> Decimal.Neg Decimal.Nil.
Proof. destruct z; cbn; split; try discriminate; intros H; injection H as H; elim (DecimalPos.Unsigned.to_uint_nonnil _ H). Qed.
Lemma zdec_expo z : Forall (fun c => is_expo c = true) (zdec z).
Proof.
  destruct (zdec_cases z) as (u & [[_ ->]|[_ ->]]); [|constructor; [reflexivity|]]; (eapply Forall_impl; [|apply uint_chars0]); cbv beta; intros c H; unfold is_expo; rewrite H; reflexivity.
Qed.
Lemma zdec_nonempty z : zdec z <> [].
Proof. destruct (zdec_cases z) as (u & [[_ ->]|[_ ->]]); [apply uint_nonempty|discriminate]. Qed.
Lemma pyint_zdec z : pyint (zdec z) = Some z.
Proof.
  destruct (to_int_nonnil z) as [N1 N2]. assert (B : DecimalString.NilZero.int_of_string (string_of_list_ascii (zdec z)) = Some (Z.to_int z)).
  { unfold zdec. rewrite string_back. apply DecimalString.NilZero.isi; assumption. }
  unfold pyint. destruct (zdec z) as [|c r] eqn:E; [elim (zdec_nonempty z E)|].
  assert (Hc : Ascii.eqb c "+" = false).
  { destruct (zdec_cases z) as (u & [[_ Eu]|[_ Eu]]); rewrite E in Eu; [|injection Eu as -> _; reflexivity]. pose proof (uint_chars0 u) as D. rewrite <- Eu in D. inversion D as [|? ? Hd _]; subst. destruct (Ascii.eqb c "+") eqn:X; [|reflexivity]. apply Ascii.eqb_eq in X. subst c. discriminate. }
  rewrite Hc, B. cbn [option_map]. f_equal. apply DecimalZ.of_to.
Qed.
(** ** the regular expressions *)
Lemma until_caret_lacks a r : lacks "^" a -> until_caret (a ++ "^"%char :: r) = (a, "^"%char :: r).
Proof.
  induction a as [|c a IH]; intros L; cbn; [reflexivity|]. destruct (Ascii.eqb c "^") eqn:E; [apply Ascii.eqb_eq in E; subst; elim L; left; reflexivity|]. rewrite IH by (intros H; apply L; right; exact H). reflexivity.
Qed.
Lemma until_caret_end a : lacks "^" a -> until_caret a = (a, []).
Proof.
  induction a as [|c a IH]; intros L; cbn; [reflexivity|]. destruct (Ascii.eqb c "^") eqn:E; [apply Ascii.eqb_eq in E; subst; elim L; left; reflexivity|]. rewrite IH by (intros H; apply L; right; exact H). reflexivity.
Qed.
Definition expo_text (i : Z) : text := if Z.eqb i 1 then [] else txt "^" ++ zdec i.
Definition expo_group (i : Z) : option text := if Z.eqb i 1 then None else Some (zdec i).
Lemma match_power_ok x i : x <> [] -> lacks "^" x -> match_power (x ++ expo_text i) = Some (x, expo_group i).
Proof.
  intros N L. unfold expo_text, expo_group, match_power. destruct (Z.eqb i 1).
  - rewrite app_nil_r, until_caret_end by exact L. destruct x; [contradiction|reflexivity].
  - cbn [txt list_ascii_of_string app]. rewrite until_caret_lacks by exact L. destruct x as [|a x]; [contradiction|]. destruct (zdec i) as [|c r] eqn:E; [elim (zdec_nonempty i E)|].
    assert (F : forallb is_expo (c :: r) = true). { apply forallb_forall. rewrite <- E. apply Forall_forall. apply zdec_expo. } rewrite F. reflexivity.
Qed.
Definition tail_group (x : text) (i : Z) : option (text * option text) := if Z.eqb i 0 then None else Some (x, expo_group i).
Lemma match_tail_ok x i : x <> [] -> lacks "^" x -> match_tail (show_power x i) = Some (tail_group x i).
Proof.
  intros N L. unfold show_power, tail_group. destruct (Z.eqb i 0); [reflexivity|]. cbn [txt list_ascii_of_string app match_tail Ascii.eqb Bool.eqb]. 
  change (if Z.eqb i 1 then [] else "^"%char :: zdec i) with (expo_text i). rewrite match_power_ok by assumption. reflexivity.
Qed.
Lemma power_ok x i : power_of (tail_group x i) = Some i.
Proof. unfold tail_group, expo_group. destruct (Z.eqb_spec i 0) as [->|]; [reflexivity|]. cbn. destruct (Z.eqb_spec i 1) as [->|]; [reflexivity|]. apply pyint_zdec. Qed.
Lemma greedy_none t : lacks ")" t -> match_greedy t = None.
Proof.
  induction t as [|c t IH]; intros L; cbn [match_greedy]; [reflexivity|]. destruct (Nat.eqb _ _); [reflexivity|]. rewrite IH by (intros H; apply L; right; exact H).
  destruct (Ascii.eqb c ")") eqn:E; [apply Ascii.eqb_eq in E; subst; elim L; left; reflexivity|reflexivity].
Qed.
Lemma greedy_ok g r tl : Forall (fun c => Nat.eqb (nat_of_ascii c) 10 = false) g -> lacks ")" r -> match_tail r = Some tl -> match_greedy (g ++ ")"%char :: r) = Some (g, tl).
Proof.
  intros H L M. induction H as [|c g Hc _ IH]; cbn [app match_greedy].
  - cbn [nat_of_ascii]. rewrite greedy_none by exact L. rewrite M. reflexivity.
  - rewrite Hc, IH. reflexivity.
Qed.
