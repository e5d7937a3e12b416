(** Properties C45, C46, C61, C62: option and name checks of the code writer, template files and trees. *)
From Coq Require Import Sorted.
From Verif Require Import StrModel.
From Verif Require MiscModel MiscProofs.
Local Open Scope string_scope.

(** * C45 *)
(** the documented options and what they stand for *)
Inductive qmc_means : string -> string -> Prop :=
| qm_none : qmc_means "none" "none"
| qm_baker : qmc_means "baker" "baker"
| qm_korobov i j : In i ["1";"2";"3";"4";"5";"6"] -> In j ["1";"2";"3";"4";"5";"6"] -> qmc_means ("korobov" ++ i ++ "x" ++ j) ("korobov" ++ i ++ "x" ++ j)
| qm_korobov_short i : In i ["1";"2";"3";"4";"5";"6"] -> qmc_means ("korobov" ++ i) ("korobov" ++ i ++ "x" ++ i)
| qm_sidi i : In i ["1";"2";"3";"4";"5";"6"] -> qmc_means ("sidi" ++ i) ("sidi" ++ i).
(** position of the first occurrence *)
Fixpoint first_index (x : string) (l : list string) : nat := match l with [] => 0 | y :: r => if String.eqb x y then 0 else S (first_index x r) end.

Lemma mem_str_in x l : mem_str x l = true <-> In x l.
Proof.
  unfold mem_str. rewrite existsb_exists. split; [intros (y & Hy & E); apply String.eqb_eq in E; subst; exact Hy|intros H; exists x; split; [exact H|apply String.eqb_refl]].
Qed.
Ltac six H := cbn in H; repeat (destruct H as [<-|H]; [|]); [..|destruct H].
Lemma means_canonical x y : qmc_means x y -> canonical_qmc x = y /\ In y qmc_options.
Proof.
  assert (K : forall y, mem_str y qmc_options = true -> In y qmc_options) by (intros z; apply mem_str_in).
  destruct 1 as [| |i j Hi Hj|i Hi|i Hi]; try (split; [reflexivity|apply K; vm_compute; reflexivity]).
  - cbn in Hi, Hj. destruct Hi as [<-|[<-|[<-|[<-|[<-|[<-|[]]]]]]]; destruct Hj as [<-|[<-|[<-|[<-|[<-|[<-|[]]]]]]]; (split; [vm_compute; reflexivity|apply K; vm_compute; reflexivity]).
  - cbn in Hi. destruct Hi as [<-|[<-|[<-|[<-|[<-|[<-|[]]]]]]]; (split; [vm_compute; reflexivity|apply K; vm_compute; reflexivity]).
  - cbn in Hi. destruct Hi as [<-|[<-|[<-|[<-|[<-|[<-|[]]]]]]]; (split; [vm_compute; reflexivity|apply K; vm_compute; reflexivity]).
Qed.
Lemma option_means y : In y qmc_options -> qmc_means y y.
Proof.
  unfold qmc_options. intros H. apply in_app_or in H as [H|H]; [destruct H as [<-|[]]; constructor|]. apply in_app_or in H as [H|H]; [destruct H as [<-|[]]; constructor|].
  apply in_app_or in H as [H|H].
  - apply in_flat_map in H as (i & Hi & H). apply in_map_iff in H as (j & <- & Hj). constructor; assumption.
  - apply in_map_iff in H as (i & <- & Hi). constructor; assumption.
Qed.
Lemma canonical_means x : In (canonical_qmc x) qmc_options -> qmc_means x (canonical_qmc x).
Proof.
  unfold canonical_qmc. destruct (mem_str x (map (fun i => "korobov" ++ i) digits16)) eqn:E; [|apply option_means].
  intros _. apply mem_str_in in E. apply in_map_iff in E as (i & <- & Hi).
  assert (E : str_drop 7 ("korobov" ++ i) = i) by (cbn in Hi; destruct Hi as [<-|[<-|[<-|[<-|[<-|[<-|[]]]]]]]; reflexivity). rewrite E. constructor. exact Hi.
Qed.
Definition dstep (acc : list string) (i : string) : list string := if mem_str i acc then acc else (acc ++ [i])%list.
Lemma dedup_fold l : forall acc, (forall x, In x (fold_left dstep l acc) <-> In x acc \/ In x l) /\ (NoDup acc -> NoDup (fold_left dstep l acc)).
Proof.
  induction l as [|y l IH]; intros acc; cbn [fold_left]; [split; [intros x; cbn; tauto|auto]|]. pose proof (eq_refl (dstep acc y)) as D. unfold dstep at 2 in D. destruct (IH (dstep acc y)) as [I1 I2]. rewrite D in *. destruct (mem_str y acc) eqn:E.
  - split; [|exact I2]. intros x. rewrite I1. cbn. apply mem_str_in in E. split; [tauto|]. intros [H|[<-|H]]; auto.
  - split; [intros x; rewrite I1, in_app_iff; cbn; tauto|]. intros Hn. apply I2. rewrite <- (rev_involutive (acc ++ [y])). apply NoDup_rev. rewrite rev_app_distr. cbn. constructor; [|apply NoDup_rev, Hn]. rewrite <- in_rev. intros H. apply mem_str_in in H. congruence.
Qed.
Lemma first_index_app x p q : In x p -> first_index x (p ++ q) = first_index x p.
Proof. induction p as [|y p IH]; [intros []|]. intros H. cbn. destruct (String.eqb_spec x y) as [|Hne]; [reflexivity|]. rewrite IH; [reflexivity|]. destruct H as [->|H]; [congruence|exact H]. Qed.
Lemma first_index_lt x p : In x p -> first_index x p < List.length p.
Proof. induction p as [|y p IH]; [intros []|]. intros H. cbn. destruct (String.eqb_spec x y) as [|Hne]; [lia|]. destruct H as [->|H]; [congruence|]. specialize (IH H). lia. Qed.
Lemma first_index_new x p q : ~ In x p -> first_index x (p ++ x :: q) = List.length p.
Proof. induction p as [|y p IH]; intros H; cbn; [rewrite String.eqb_refl; reflexivity|]. destruct (String.eqb_spec x y) as [->|Hne]; [exfalso; apply H; left; reflexivity|]. rewrite IH; [reflexivity|]. intros Hin. apply H. right. exact Hin. Qed.
Lemma dedup_order l : forall p acc, (forall x, In x acc <-> In x p) -> StronglySorted lt (map (fun x => first_index x (p ++ l)) acc) ->
  StronglySorted lt (map (fun x => first_index x (p ++ l)) (fold_left dstep l acc)).
Proof.
  induction l as [|y l IH]; intros p acc Hin Hs; [exact Hs|]. cbn [fold_left]. replace (p ++ y :: l)%list with ((p ++ [y]) ++ l)%list in * by (rewrite <- app_assoc; reflexivity).
  apply IH.
  - intros x. unfold dstep. destruct (mem_str y acc) eqn:E; rewrite !in_app_iff, Hin; cbn; [|tauto]. apply mem_str_in in E. rewrite Hin in E. split; [tauto|]. intros [H|[<-|[]]]; auto.
  - unfold dstep. destruct (mem_str y acc) eqn:E; [exact Hs|]. rewrite map_app. cbn [map].
    assert (Hny : ~ In y p) by (rewrite <- Hin; intros H; apply mem_str_in in H; congruence).
    assert (A : forall l1 k, StronglySorted lt l1 -> Forall (fun a => a < k) l1 -> StronglySorted lt (l1 ++ [k])).
    { induction 1 as [|a l1 H1 IH1 Ha]; intros Hk; cbn; [repeat constructor|]. apply Forall_cons_iff in Hk as [Hk1 Hk]. constructor; [apply IH1, Hk|]. apply Forall_app. split; [exact Ha|repeat constructor; exact Hk1]. }
    apply A; [exact Hs|]. apply Forall_map, Forall_forall. intros x Hx. apply Hin in Hx. rewrite <- app_assoc. cbn [app]. rewrite first_index_new by exact Hny. rewrite first_index_app by exact Hx. apply first_index_lt, Hx.
Qed.
(** a nonempty list is accepted iff it contains only documented options; then the result lists their meanings, without
    repetition, in the order of first appearance *)
Theorem C45_accepted : forall x l, (exists out, validate_qmc (Some (x :: l)) = Some out) <-> (forall a, In a (x :: l) -> exists b, qmc_means a b).
Proof.
  intros x l. unfold validate_qmc. set (L := map canonical_qmc (x :: l)). destruct (dedup_fold L []) as [D1 _]. fold (dedup_str L) in D1. split.
  - intros [out E]. destruct (forallb (fun x0 => mem_str x0 qmc_options) (dedup_str L)) eqn:F; [|discriminate]. rewrite forallb_forall in F. intros a Ha. exists (canonical_qmc a). apply canonical_means, mem_str_in, F, D1. right. apply in_map, Ha.
  - intros H. exists (dedup_str L). replace (forallb (fun x0 => mem_str x0 qmc_options) (dedup_str L)) with true; [reflexivity|]. symmetry. apply forallb_forall. intros y Hy. apply D1 in Hy as [[]|Hy]. apply in_map_iff in Hy as (a & <- & Ha). destruct (H a Ha) as [b Hb]. apply means_canonical in Hb as [E Hb]. apply mem_str_in. rewrite E. exact Hb.
Qed.
Print Assumptions C45_accepted.
Theorem C45_result : forall x l out, validate_qmc (Some (x :: l)) = Some out ->
  NoDup out /\ (forall b, In b out <-> exists a, In a (x :: l) /\ qmc_means a b) /\
  exists meanings, Forall2 qmc_means (x :: l) meanings /\ StronglySorted lt (map (fun b => first_index b meanings) out).
Proof.
  intros x l out E. assert (Hm : forall a, In a (x :: l) -> exists b, qmc_means a b) by (apply C45_accepted; eauto). unfold validate_qmc in E. set (L := map canonical_qmc (x :: l)) in *.
  destruct (forallb (fun x0 => mem_str x0 qmc_options) (dedup_str L)); [|discriminate]. injection E as <-. destruct (dedup_fold L []) as [D1 D2]. fold (dedup_str L) in D1, D2.
  assert (Hc : forall a, In a (x :: l) -> qmc_means a (canonical_qmc a)) by (intros a Ha; destruct (Hm a Ha) as [b Hb]; destruct (means_canonical _ _ Hb) as [-> _]; exact Hb).
  split; [apply D2; constructor|]. split.
  - intros b. rewrite D1. split; [intros [[]|H]; apply in_map_iff in H as (a & <- & Ha); eauto|]. intros (a & Ha & Hb). right. destruct (means_canonical _ _ Hb) as [<- _]. apply in_map, Ha.
  - exists L. split.
    + unfold L. clear - Hc. induction (x :: l) as [|a r IH]; cbn; constructor; [apply Hc; left; reflexivity|apply IH; intros b Hb; apply Hc; right; exact Hb].
    + apply (dedup_order L [] []); [reflexivity|constructor].
Qed.
Print Assumptions C45_result.
Theorem C45_default : validate_qmc None = Some ["korobov3x3"] /\ validate_qmc (Some []) = Some ["korobov3x3"].
Proof. vm_compute. auto. Qed.
(** validating again changes nothing *)
Theorem C45_idempotent : forall arg out, validate_qmc arg = Some out -> validate_qmc (Some out) = Some out.
Proof.
  assert (K : forall out, out <> [] -> NoDup out -> (forall b, In b out -> In b qmc_options /\ canonical_qmc b = b) -> validate_qmc (Some out) = Some out).
  { intros out Hne Hn Hb. destruct out as [|x l]; [congruence|]. unfold validate_qmc.
    assert (E1 : map canonical_qmc (x :: l) = x :: l) by (rewrite <- map_id; apply map_ext_in; intros a Ha; apply Hb, Ha). rewrite E1.
    assert (E2 : dedup_str (x :: l) = x :: l).
    { assert (G : forall l acc, NoDup (acc ++ l) -> fold_left dstep l acc = (acc ++ l)%list).
      { clear. induction l as [|y l IH]; intros acc Hn; cbn [fold_left]; [rewrite app_nil_r; reflexivity|]. unfold dstep at 2. destruct (mem_str y acc) eqn:E.
        - apply mem_str_in in E. apply NoDup_remove_2 in Hn. exfalso. apply Hn. apply in_or_app. left. exact E.
        - rewrite IH; rewrite <- app_assoc; [reflexivity|exact Hn]. }
      apply (G (x :: l) []). exact Hn. }
    rewrite E2. replace (forallb (fun x0 => mem_str x0 qmc_options) (x :: l)) with true; [reflexivity|]. symmetry. apply forallb_forall. intros y Hy. apply mem_str_in, Hb, Hy. }
  intros arg out E. destruct arg as [[|x l]|]; [injection E as <-; vm_compute; reflexivity| |injection E as <-; vm_compute; reflexivity].
  destruct (C45_result x l out E) as (Hn & Hin & _). apply K; [|exact Hn|].
  - intros ->. destruct (proj1 (C45_accepted x l) (ex_intro _ _ E) x (or_introl eq_refl)) as [b Hb]. apply (proj2 (Hin b)). exists x. split; [left; reflexivity|exact Hb].
  - intros b Hb. apply Hin in Hb as (a & Ha & Hm). destruct (means_canonical _ _ Hm) as [_ Ho]. split; [exact Ho|]. apply means_canonical, option_means, Ho.
Qed.
Print Assumptions C45_idempotent.
(** every option has its own macro in each dictionary, and nothing else has one *)
Lemma lookup_in {V} (k : string) (v : V) d : lookup k d = Some v -> In (k, v) d.
Proof. induction d as [|[k' v'] d IH]; cbn; [discriminate|]. destruct (String.eqb_spec k k') as [->|]; [intros [= ->]; left; reflexivity|intros H; right; apply IH, H]. Qed.
Lemma lookup_some {V} (k : string) (d : list (string * V)) : In k (map fst d) <-> exists v, lookup k d = Some v.
Proof.
  induction d as [|[k' v'] d IH]; cbn; [split; [intros []|intros [v [=]]]|]. destruct (String.eqb_spec k k') as [->|Hne]; [split; eauto|]. rewrite <- IH. split; [intros [E|H]; [congruence|exact H]|auto].
Qed.
Lemma macro_keys m : map fst (qmc_macro_dict m) = qmc_options.
Proof. reflexivity. Qed.
Theorem C45_macros : forall macro x, (exists v, lookup x (qmc_macro_dict macro) = Some v) <-> qmc_means x x.
Proof.
  intros macro x. rewrite <- lookup_some, macro_keys. split; [apply option_means|]. intros H. apply (means_canonical x x H).
Qed.
Print Assumptions C45_macros.
Theorem C45_macros_injective : forall macro x y v, lookup x (qmc_macro_dict macro) = Some v -> lookup y (qmc_macro_dict macro) = Some v -> x = y.
Proof.
  intros macro x y v Hx Hy. apply lookup_in in Hx, Hy.
  assert (E : exists f, qmc_macro_dict macro = map (fun p => (fst p, macro ++ snd p)) f /\ NoDup (map snd f)).
  { exists (qmc_macro_dict ""). split; [reflexivity|]. assert (D : (if in_dec string_dec "" [] then false else true) = true) by reflexivity.
    assert (G : forall l, (fix nd (l : list string) := match l with [] => true | a :: r => negb (mem_str a r) && nd r end) l = true -> NoDup l).
    { induction l as [|a r IH]; intros H; constructor; apply andb_prop in H as [H1 H2]; [|apply IH, H2]. intros Hin. apply mem_str_in in Hin. rewrite Hin in H1. discriminate. }
    apply G. vm_compute. reflexivity. }
  destruct E as (f & E & Hn). rewrite E in Hx, Hy. apply in_map_iff in Hx as ([a u] & [= Ea Eu] & Ha). apply in_map_iff in Hy as ([b w] & [= Eb Ew] & Hb). cbn [fst snd] in *. subst.
  assert (u = w). { clear - Ew. induction macro as [|c m IH]; [symmetry; exact Ew|]. cbn in Ew. injection Ew as Ew. apply IH, Ew. }
  subst w. clear - Ha Hb Hn. induction f as [|[c z] f IH]; [destruct Ha|]. cbn in Hn. inversion Hn as [|? ? Hz Hn']; subst. destruct Ha as [E|Ha], Hb as [E'|Hb].
  - congruence.
  - injection E as -> ->. exfalso. apply Hz. apply (in_map snd) in Hb. exact Hb.
  - injection E' as -> ->. exfalso. apply Hz. apply (in_map snd) in Ha. exact Ha.
  - apply IH; assumption.
Qed.
Print Assumptions C45_macros_injective.
Theorem C45_macro_arguments : forall macro, lookup "none" (qmc_macro_dict macro) = Some (macro ++ "_NONE_QMC()") /\ lookup "baker" (qmc_macro_dict macro) = Some (macro ++ "_BAKER_QMC()") /\
  (forall i j, In i ["1";"2";"3";"4";"5";"6"] -> In j ["1";"2";"3";"4";"5";"6"] -> lookup ("korobov" ++ i ++ "x" ++ j) (qmc_macro_dict macro) = Some (macro ++ "_KOROBOV_QMC(" ++ i ++ "," ++ j ++ ")")) /\
  (forall i, In i ["1";"2";"3";"4";"5";"6"] -> lookup ("sidi" ++ i) (qmc_macro_dict macro) = Some (macro ++ "_SIDI_QMC(" ++ i ++ ")")).
Proof.
  intros macro. split; [reflexivity|]. split; [reflexivity|]. split.
  - intros i j Hi Hj. cbn in Hi, Hj. destruct Hi as [<-|[<-|[<-|[<-|[<-|[<-|[]]]]]]]; destruct Hj as [<-|[<-|[<-|[<-|[<-|[<-|[]]]]]]]; reflexivity.
  - intros i Hi. cbn in Hi. destruct Hi as [<-|[<-|[<-|[<-|[<-|[<-|[]]]]]]]; reflexivity.
Qed.
Print Assumptions C45_macro_arguments.
(** make_package.py:2182-2191: the instantiation files, at most five transforms each, together cover each transform once *)
Theorem C45_instantiation_files : forall transforms : list string,
  concat (MiscModel.chunks transforms 5) = transforms /\ Forall (fun c => (0 < List.length c <= 5)%nat) (MiscModel.chunks transforms 5).
Proof.
  intros l. split; [apply MiscProofs.chunks_concat|].
  assert (G : forall n l, (List.length l <= n)%nat -> Forall (fun c : list string => (0 < List.length c <= 5)%nat) (MiscModel.chunks l 5)).
  { induction n as [|n IH]; intros l' Hl; (destruct l' as [|a l']; [rewrite MiscProofs.chunks_nil; constructor|]); [cbn in Hl; lia|]. rewrite MiscProofs.chunks_unfold by (lia || discriminate). constructor; [rewrite firstn_length; cbn [List.length]; lia|]. apply IH. rewrite skipn_length. cbn [List.length] in *. lia. }
  apply (G (List.length l)). lia.
Qed.
Example C45_ex : validate_qmc (Some ["korobov2"; "sidi3"; "korobov2x2"; "none"]) = Some ["korobov2x2"; "sidi3"; "none"] /\ validate_qmc (Some ["korobov7"]) = None /\
  lookup "korobov2x5" (qmc_macro_dict "CASE") = Some "CASE_KOROBOV_QMC(2,5)".
Proof. vm_compute. auto. Qed.

(** * C46 *)
Definition upper_letter (c : ascii) : Prop := (65 <= nat_of_ascii c <= 90)%nat.
Definition lower_letter (c : ascii) : Prop := (97 <= nat_of_ascii c <= 122)%nat.
Definition letter (c : ascii) : Prop := upper_letter c \/ lower_letter c.
Definition digit (c : ascii) : Prop := (48 <= nat_of_ascii c <= 57)%nat.
(** equal up to capitalisation *)
Definition same_letter (a b : ascii) : Prop := a = b \/ upper_letter a /\ nat_of_ascii b = nat_of_ascii a + 32 \/ upper_letter b /\ nat_of_ascii a = nat_of_ascii b + 32.
Definition starts_nocase (b name : string) : Prop := exists p q, list_ascii_of_string name = (p ++ q)%list /\ Forall2 same_letter (list_ascii_of_string b) p.
(** a legal name: a letter followed by letters, digits (and underscores if allowed), no reserved word, no reserved prefix *)
Definition legal_name (underscore : bool) (name : string) : Prop :=
  (exists c r, list_ascii_of_string name = c :: r /\ letter c /\ Forall (fun a => letter a \/ digit a \/ underscore = true /\ a = "_"%char) r) /\
  ~ In name banwords /\ (forall b, In b ["SecDecInternal"; "cuba"; "atomic"; "_"] -> ~ starts_nocase b name).

Lemma in_range_spec lo hi c : in_range lo hi c = true <-> (nat_of_ascii lo <= nat_of_ascii c <= nat_of_ascii hi)%nat.
Proof. unfold in_range. rewrite andb_true_iff, !Nat.leb_le. reflexivity. Qed.
Lemma ascii_inj a b : nat_of_ascii a = nat_of_ascii b -> a = b.
Proof. intros H. rewrite <- (ascii_nat_embedding a), <- (ascii_nat_embedding b), H. reflexivity. Qed.
Lemma ascii_lt c : (nat_of_ascii c < 256)%nat. Proof. apply nat_ascii_bounded. Qed.
Lemma lower_ascii_val c : nat_of_ascii (lower_ascii c) = if (Nat.leb 65 (nat_of_ascii c) && Nat.leb (nat_of_ascii c) 90)%bool then nat_of_ascii c + 32 else nat_of_ascii c.
Proof.
  unfold lower_ascii. destruct (in_range "A" "Z" c) eqn:E.
  - apply in_range_spec in E. cbn in E. rewrite nat_ascii_embedding by lia. replace (Nat.leb 65 (nat_of_ascii c)) with true by (symmetry; apply Nat.leb_le; lia). replace (Nat.leb (nat_of_ascii c) 90) with true by (symmetry; apply Nat.leb_le; lia). reflexivity.
  - unfold in_range in E. change (nat_of_ascii "A") with 65 in E. change (nat_of_ascii "Z") with 90 in E. rewrite E. reflexivity.
Qed.
Lemma lower_same a b : lower_ascii a = lower_ascii b <-> same_letter a b.
Proof.
  assert (E : lower_ascii a = lower_ascii b <-> nat_of_ascii (lower_ascii a) = nat_of_ascii (lower_ascii b)) by (split; [congruence|apply ascii_inj]). rewrite E, !lower_ascii_val. unfold same_letter, upper_letter.
  destruct (Nat.leb_spec 65 (nat_of_ascii a)), (Nat.leb_spec (nat_of_ascii a) 90), (Nat.leb_spec 65 (nat_of_ascii b)), (Nat.leb_spec (nat_of_ascii b) 90); cbn [andb];
    (split; [intros; first [left; apply ascii_inj; lia | right; lia]|intros [->|[[? ?]|[? ?]]]; lia]).
Qed.
Lemma prefix_list s t : prefix s t = true <-> exists q, list_ascii_of_string t = (list_ascii_of_string s ++ q)%list.
Proof.
  revert t. induction s as [|a s IH]; intros t; cbn [list_ascii_of_string app]; [split; [eauto|intros _; destruct t; reflexivity]|]. destruct t as [|b t]; cbn; [split; [discriminate|intros [q [=]]]|].
  destruct (ascii_dec a b) as [->|Hne]; [rewrite IH; split; intros [q E]; exists q; [rewrite E; reflexivity|congruence]|split; [discriminate|intros [q [=]]; congruence]].
Qed.
Lemma lower_list s : list_ascii_of_string (lower s) = map lower_ascii (list_ascii_of_string s).
Proof. unfold lower. apply list_ascii_of_string_of_list_ascii. Qed.
Lemma starts_spec b name : prefix (lower b) (lower name) = true <-> starts_nocase b name.
Proof.
  rewrite prefix_list, !lower_list. unfold starts_nocase. generalize (list_ascii_of_string b) as u, (list_ascii_of_string name) as v. induction u as [|a u IH]; intros v.
  - split; [intros _; exists [], v; split; [reflexivity|constructor]|intros _; exists (map lower_ascii v); reflexivity].
  - destruct v as [|c v]; [split; [intros [q [=]]|intros (p & q & E & H); inversion H; subst; discriminate]|]. cbn [map app]. split.
    + intros [q [= E1 E2]]. destruct (proj1 (IH v) (ex_intro _ q E2)) as (p & q' & -> & Hp). exists (c :: p), q'. split; [reflexivity|]. constructor; [apply lower_same; congruence|exact Hp].
    + intros (p & q & E & H). inversion H as [|? c' ? p' Hac Hp]; subst. injection E as <- E. destruct (proj2 (IH v)) as [q' E2]; [exists p', q; auto|]. exists q'. rewrite E2. apply lower_same in Hac. congruence.
Qed.
Lemma class1_spec c : class1 c = true <-> letter c \/ c = ","%char \/ c = "_"%char.
Proof. unfold class1, letter, upper_letter, lower_letter. rewrite !orb_true_iff, !in_range_spec, !Ascii.eqb_eq. cbn. tauto. Qed.
Lemma class2_spec c : class2 c = true <-> letter c \/ digit c \/ c = ","%char \/ c = "_"%char.
Proof. unfold class2. rewrite orb_true_iff, class1_spec, in_range_spec. unfold digit. cbn. tauto. Qed.
Lemma class2_dollar_spec r : ~ In newline r -> class2_dollar r = true <-> Forall (fun c => class2 c = true) r.
Proof.
  induction r as [|c r IH]; intros H; cbn; [split; auto|]. rewrite orb_true_iff, !andb_true_iff, Forall_cons_iff. rewrite IH by (intros Hin; apply H; right; exact Hin).
  split; [intros [[H1 H2]|[H1 _]]; [auto|]; apply Ascii.eqb_eq in H1; exfalso; apply H; left; auto|tauto].
Qed.
Lemma starts_underscore name : starts_nocase "_" name <-> exists r, list_ascii_of_string name = "_"%char :: r.
Proof.
  unfold starts_nocase. split.
  - intros (p & q & E & H). cbn in H. inversion H as [|? c ? p' Hc Hp]; subst. inversion Hp; subst. exists q. rewrite E. cbn. f_equal.
    destruct Hc as [<-|[[H1 _]|[H1 H2]]]; [reflexivity|unfold upper_letter in H1; cbn in H1; lia|unfold upper_letter in H1; cbn in H2; lia].
  - intros [r E]. exists ["_"%char], r. split; [exact E|]. repeat constructor.
Qed.
(** apart from commas and line ends (below), exactly the legal names are accepted *)
Theorem C46_accepts_exactly_legal_names : forall name allow_underscore,
  ~ In ","%char (list_ascii_of_string name) -> ~ In newline (list_ascii_of_string name) ->
  (validate_name name allow_underscore = true <-> legal_name allow_underscore name).
Proof.
  intros name u Hcomma Hnl. unfold validate_name. rewrite !andb_true_iff.
  assert (Hban : negb (mem_str name banwords) = true <-> ~ In name banwords) by (rewrite negb_true_iff, <- mem_str_in; destruct (mem_str name banwords); split; congruence).
  assert (Hpre : forallb (fun b => negb (prefix (lower b) (lower name))) banstarts = true <-> forall b, In b ["SecDecInternal"; "cuba"; "atomic"; "_"] -> ~ starts_nocase b name).
  { rewrite forallb_forall. split; intros H b Hb; specialize (H b Hb); rewrite <- starts_spec in *; destruct (prefix (lower b) (lower name)); cbn in *; congruence. }
  rewrite Hban, Hpre. unfold legal_name, name_regex. destruct (list_ascii_of_string name) as [|c r] eqn:El.
  - split; [intros [[[H _] _] _]; discriminate|intros [(c & r & Ecr & _) _]; discriminate].
  - assert (Hr : ~ In newline r) by (intros H; apply Hnl; right; exact H). rewrite andb_true_iff, (class2_dollar_spec r Hr), class1_spec, orb_true_iff, negb_true_iff.
    split.
    + intros [[[[H1 H2] H3] H4] H5]. split; [|auto]. exists c, r. split; [reflexivity|]. split.
      * destruct H1 as [H1|[->| ->]]; [exact H1|exfalso; apply Hcomma; left; reflexivity|]. exfalso. apply (H5 "_"); [cbn; tauto|]. apply starts_underscore. eauto.
      * apply Forall_forall. intros a Ha. rewrite Forall_forall in H2. specialize (H2 a Ha). apply class2_spec in H2. destruct H2 as [H2|[H2|[->| ->]]]; [auto|auto|exfalso; apply Hcomma; right; exact Ha|].
        right. right. split; [|reflexivity]. destruct H3 as [H3|H3]; [exact H3|]. exfalso. cbn [existsb] in H3. apply orb_false_iff in H3 as [_ H3]. assert (existsb (Ascii.eqb "_") r = true); [|congruence]. apply existsb_exists. exists "_"%char. split; [exact Ha|reflexivity].
    + intros [(c' & r' & Ecr & H1 & H2) [H3 H4]]. injection Ecr as <- <-. split; [|exact H4]. split; [|exact H3]. split; [split; [auto|]|].
      * eapply Forall_impl; [|exact H2]. intros a Ha. apply class2_spec. destruct Ha as [Ha|[Ha|[_ ->]]]; auto.
      * destruct u; [left; reflexivity|right]. destruct (existsb (Ascii.eqb "_") (c :: r)) eqn:E; [|reflexivity]. exfalso. apply existsb_exists in E as (a & Ha & E). apply Ascii.eqb_eq in E. subst a. destruct Ha as [->|Ha].
        -- destruct H1 as [H1|H1]; unfold upper_letter, lower_letter in H1; cbn in H1; lia.
        -- rewrite Forall_forall in H2. destruct (H2 _ Ha) as [[H|H]|[H|[H _]]]; [unfold upper_letter in H; cbn in H; lia|unfold lower_letter in H; cbn in H; lia|unfold digit in H; cbn in H; lia|discriminate].
Qed.
Print Assumptions C46_accepts_exactly_legal_names.
(** for every string: only letters, digits, underscores, commas and one final line end can pass *)
Theorem C46_characters : forall name allow_underscore, validate_name name allow_underscore = true ->
  exists core tail, list_ascii_of_string name = (core ++ tail)%list /\ (tail = [] \/ tail = [newline]) /\
    Forall (fun a => letter a \/ digit a \/ a = ","%char \/ a = "_"%char) core /\ core <> [] /\ ~ digit (hd newline core) /\
    (allow_underscore = false -> ~ In "_"%char core).
Proof.
  intros name u H. unfold validate_name in H. rewrite !andb_true_iff in H. destruct H as [[[H1 H2] _] _]. unfold name_regex in H1. destruct (list_ascii_of_string name) as [|c r]; [discriminate|].
  apply andb_prop in H1 as [Hc Hr]. apply class1_spec in Hc.
  assert (G : exists core tail, r = (core ++ tail)%list /\ (tail = [] \/ tail = [newline]) /\ Forall (fun a => letter a \/ digit a \/ a = ","%char \/ a = "_"%char) core).
  { clear - Hr. induction r as [|a r IH]; [exists [], []; auto|]. cbn in Hr. apply orb_prop in Hr as [Hr|Hr]; apply andb_prop in Hr as [Ha Hr].
    - destruct (IH Hr) as (core & tail & -> & Ht & Hc). exists (a :: core), tail. split; [reflexivity|]. split; [exact Ht|]. constructor; [apply class2_spec, Ha|exact Hc].
    - destruct r; [|discriminate]. apply Ascii.eqb_eq in Ha. subst. exists [], [newline]. auto. }
  destruct G as (core & tail & -> & Ht & Hcore). exists (c :: core), tail. split; [reflexivity|]. split; [exact Ht|]. split; [constructor; [tauto|exact Hcore]|]. split; [discriminate|]. split.
  - cbn. unfold digit. destruct Hc as [[Hc|Hc]|[->| ->]]; [unfold upper_letter in Hc; lia|unfold lower_letter in Hc; lia|cbn; lia|cbn; lia].
  - intros ->. cbn [orb] in H2. intros Hin. apply negb_true_iff in H2. assert (existsb (Ascii.eqb "_") (c :: core ++ tail) = true); [|congruence]. apply existsb_exists. exists "_"%char. split; [|reflexivity]. destruct Hin as [->|Hin]; [left; reflexivity|right; apply in_or_app; left; exact Hin].
Qed.
Print Assumptions C46_characters.
(** the documented set of characters is not enforced: commas (the character class lists them) and a final line end pass *)
Theorem C46_comma_refuted : validate_name "x,y" false = true /\ validate_name "," false = true.
Proof. vm_compute. auto. Qed.
Theorem C46_newline_refuted : validate_name (String "x" (String newline EmptyString)) false = true /\ validate_name (String "i" (String "n" (String "t" (String newline EmptyString)))) false = true.
Proof. vm_compute. auto. Qed.
Example C46_ex : validate_name "box1L" false = true /\ validate_name "box_1" true = true /\ validate_name "box_1" false = false /\ validate_name "1x" true = false /\ validate_name "CUBAint" true = false /\ validate_name "double" true = false.
Proof. vm_compute. auto 6. Qed.

(** * C61 *)
(** a template: literal text, an escaped percent sign, or a reference to a replacement *)
Inductive token := Lit (s : text) | Percent | Ref (k : text).
Definition render (t : token) : text := match t with Lit s => s | Percent => ["%"; "%"]%char | Ref k => (["%"; "("] ++ k ++ [")"; "s"])%char%list end.
Definition meaning (d : dict) (t : token) : option text := match t with Lit s => Some s | Percent => Some ["%"%char] | Ref k => d k end.
Fixpoint meanings (d : dict) (ts : list token) : option text :=
  match ts with [] => Some [] | t :: r => match meaning d t, meanings d r with Some a, Some b => Some (a ++ b)%list | _, _ => None end end.
Definition token_ok (t : token) : Prop := match t with Lit s => ~ In "%"%char s | Percent => True | Ref k => ~ In ")"%char k end.
Fixpoint no_escaped_paren (ts : list token) : Prop :=
  match ts with [] => True | t :: r => (t = Percent -> hd_error (flat_map render r) <> Some "("%char) /\ no_escaped_paren r end.

Lemma skipn_add {A} a b (l : list A) : skipn (a + b) l = skipn b (skipn a l).
Proof. revert l. induction a as [|a IH]; intros l; [reflexivity|]. destruct l as [|x l]; cbn; [rewrite skipn_nil; reflexivity|apply IH]. Qed.
Lemma firstn_add {A} a b (l : list A) : firstn (a + b) l = (firstn a l ++ firstn b (skipn a l))%list.
Proof. revert l. induction a as [|a IH]; intros l; [reflexivity|]. destruct l as [|x l]; cbn; [rewrite firstn_nil; reflexivity|f_equal; apply IH]. Qed.
Lemma write_large_id n s : (0 < n)%nat -> write_large n s = s.
Proof.
  intros Hn. unfold write_large.
  assert (G : forall m a, flat_map (fun k => firstn (S k * n - k * n) (skipn (k * n) s)) (seq a m) = firstn (m * n) (skipn (a * n) s)).
  { induction m as [|m IH]; intros a; cbn [seq flat_map]; [reflexivity|]. rewrite IH. replace (S a * n - a * n)%nat with n by lia. replace (S m * n)%nat with (n + m * n)%nat by lia. replace (S a * n)%nat with (a * n + n)%nat by lia.
    rewrite skipn_add, firstn_add. reflexivity. }
  rewrite G. cbn [Nat.mul skipn]. apply firstn_all2. pose proof (Nat.div_mod_eq (List.length s) n) as E. pose proof (Nat.mod_upper_bound (List.length s) n ltac:(lia)). nia.
Qed.
Lemma upto_paren_spec k r : ~ In ")"%char k -> upto_paren (k ++ ")"%char :: r)%list = Some (k, r).
Proof. induction k as [|c k IH]; intros H; cbn; [reflexivity|]. destruct (Ascii.eqb_spec c ")") as [->|Hne]; [exfalso; apply H; left; reflexivity|]. rewrite IH; [reflexivity|]. intros Hin. apply H. right. exact Hin. Qed.
Lemma match_key_ref k r : ~ In ")"%char k -> match_key (render (Ref k) ++ r)%list = Some (k, r).
Proof. intros H. cbn [render app match_key]. rewrite <- app_assoc. cbn [app]. cbn. rewrite upto_paren_spec by exact H. reflexivity. Qed.
Lemma match_key_plain c r : c <> "%"%char -> match_key (c :: r) = None.
Proof. intros H. cbn. destruct r as [|c2 r]; [reflexivity|]. destruct (Ascii.eqb_spec c "%"); [congruence|]. reflexivity. Qed.
Lemma match_key_nopar r : hd_error r <> Some "("%char -> match_key ("%"%char :: r) = None.
Proof. intros H. cbn. destruct r as [|c2 r]; [reflexivity|]. cbn. destruct (Ascii.eqb_spec c2 "("); [subst; exfalso; apply H; reflexivity|reflexivity]. Qed.
(** the text between references, as tokens *)
Fixpoint split_tokens (ts : list token) : list token * list (text * list token) :=
  match ts with
  | [] => ([], [])
  | Ref k :: r => let q := split_tokens r in ([], (k, fst q) :: snd q)
  | t :: r => let q := split_tokens r in (t :: fst q, snd q)
  end.
Lemma re_split_skip_lit s : forall n r, ~ In "%"%char s -> (List.length s <= n)%nat -> re_split n (s ++ r)%list = ((s ++ fst (re_split (n - List.length s) r))%list, snd (re_split (n - List.length s) r)).
Proof.
  induction s as [|c s IH]; intros n r Hs Hn; [cbn; rewrite Nat.sub_0_r; destruct (re_split n r); reflexivity|]. cbn [List.length] in Hn. destruct n as [|n]; [lia|]. change ((c :: s) ++ r)%list with (c :: (s ++ r))%list. cbn [re_split].
  rewrite match_key_plain by (intros ->; apply Hs; left; reflexivity). rewrite IH; [reflexivity|intros H; apply Hs; right; exact H|lia].
Qed.
Lemma re_split_tokens ts : Forall token_ok ts -> no_escaped_paren ts -> forall n, (List.length (flat_map render ts) < n)%nat ->
  re_split n (flat_map render ts) = (flat_map render (fst (split_tokens ts)), map (fun q => (fst q, flat_map render (snd q))) (snd (split_tokens ts))).
Proof.
  induction ts as [|t ts IH]; intros Hok Hp n Hn; [destruct n; [cbn in Hn; lia|reflexivity]|]. apply Forall_cons_iff in Hok as [Ht Hok]. destruct Hp as [Hp1 Hp]. cbn [flat_map] in *. rewrite app_length in Hn. destruct t as [s| |k].
  - cbn [render token_ok] in *. rewrite re_split_skip_lit by (assumption || lia). rewrite IH by (assumption || lia). cbn [split_tokens fst snd flat_map render]. reflexivity.
  - cbn [render List.length] in Hn. destruct n as [|[|n]]; [lia|lia|]. cbn [render app]. cbn [re_split]. rewrite match_key_nopar by discriminate. rewrite match_key_nopar by (apply Hp1; reflexivity). rewrite IH by (assumption || lia). cbn [split_tokens fst snd flat_map render app]. reflexivity.
  - destruct n as [|n]; [lia|]. cbn [re_split]. rewrite match_key_ref by exact Ht. cbn [render] in Hn. cbn [app List.length] in Hn. rewrite app_length in Hn. rewrite IH by (assumption || lia). cbn [split_tokens fst snd flat_map map]. reflexivity.
Qed.
Definition no_ref (t : token) : Prop := match t with Ref _ => False | _ => True end.
Lemma py_format_lit s : forall n d r, ~ In "%"%char s -> (List.length s <= n)%nat -> py_format n d (s ++ r)%list = option_map (app s) (py_format (n - List.length s) d r).
Proof.
  induction s as [|c s IH]; intros n d r Hs Hn; [cbn; rewrite Nat.sub_0_r; destruct (py_format n d r); reflexivity|]. cbn [List.length] in Hn. destruct n as [|n]; [lia|]. change ((c :: s) ++ r)%list with (c :: (s ++ r))%list. cbn [py_format].
  destruct (Ascii.eqb_spec c "%") as [->|]; [exfalso; apply Hs; left; reflexivity|]. rewrite IH; [|intros H; apply Hs; right; exact H|lia]. cbn [Nat.sub List.length]. destruct (py_format (n - List.length s) d r); reflexivity.
Qed.
(** python's formatting gives the meaning of a template *)
Lemma py_format_tokens d ts : Forall token_ok ts -> forall n, (List.length (flat_map render ts) < n)%nat -> py_format n d (flat_map render ts) = meanings d ts.
Proof.
  induction ts as [|t ts IH]; intros Hok n Hn; [destruct n; [cbn in Hn; lia|reflexivity]|]. apply Forall_cons_iff in Hok as [Ht Hok]. cbn [flat_map meanings] in *. rewrite app_length in Hn. destruct t as [s| |k]; cbn [meaning].
  - cbn [render token_ok] in *. rewrite py_format_lit by (assumption || lia). rewrite IH by (assumption || lia). destruct (meanings d ts); reflexivity.
  - cbn [render List.length] in Hn. destruct n as [|n]; [lia|]. cbn [render app py_format]. change (Ascii.eqb "%" "%") with true. cbv iota. rewrite IH by (assumption || lia). destruct (meanings d ts); reflexivity.
  - destruct n as [|n]; [lia|]. pose proof (match_key_ref k (flat_map render ts) Ht) as E. cbn [render] in Hn. cbn [app List.length] in Hn. rewrite app_length in Hn. cbn [List.length] in Hn.
    cbn [render app] in E |- *. cbn [py_format]. change (Ascii.eqb "%" "%") with true. change (Ascii.eqb "(" "%") with false. cbv iota. rewrite E. rewrite IH by (assumption || lia). reflexivity.
Qed.
Lemma split_ok ts : Forall token_ok ts -> Forall token_ok (fst (split_tokens ts)) /\ Forall (fun q => Forall token_ok (snd q)) (snd (split_tokens ts)) /\
  Forall (fun q => (List.length (flat_map render (snd q)) <= List.length (flat_map render ts))%nat) (snd (split_tokens ts)) /\ (List.length (flat_map render (fst (split_tokens ts))) <= List.length (flat_map render ts))%nat.
Proof.
  induction ts as [|t ts IH]; intros H; [cbn; repeat split; auto|]. apply Forall_cons_iff in H as [Ht H]. destruct (IH H) as (I1 & I2 & I3 & I4).
  assert (I3' : Forall (fun q => (List.length (flat_map render (snd q)) <= List.length (flat_map render (t :: ts)))%nat) (snd (split_tokens ts))) by (eapply Forall_impl; [|exact I3]; intros q Hq; cbv beta in Hq; cbn [flat_map]; rewrite app_length; lia).
  destruct t as [s| |k]; cbn [split_tokens fst snd].
  - split; [constructor; assumption|]. split; [exact I2|]. split; [exact I3'|]. cbn [flat_map]. rewrite !app_length. lia.
  - split; [constructor; assumption|]. split; [exact I2|]. split; [exact I3'|]. cbn [flat_map]. rewrite !app_length. lia.
  - split; [constructor|]. split; [constructor; assumption|]. split; [|cbn; lia]. constructor; [cbn [snd flat_map]; rewrite app_length; lia|exact I3'].
Qed.
Fixpoint join_meanings (d : dict) (l : list (text * list token)) : option text :=
  match l with [] => Some [] | (k, ts) :: r => match d k, meanings d ts, join_meanings d r with Some v, Some u, Some w => Some (v ++ u ++ w)%list | _, _, _ => None end end.
Lemma meanings_split d ts : meanings d ts = match meanings d (fst (split_tokens ts)), join_meanings d (snd (split_tokens ts)) with Some a, Some b => Some (a ++ b)%list | _, _ => None end.
Proof.
  induction ts as [|t ts IH]; [reflexivity|]. cbn [meanings]. rewrite IH. destruct t as [s| |k]; cbn [split_tokens fst snd meaning meanings join_meanings].
  - destruct (meanings d (fst (split_tokens ts))), (join_meanings d (snd (split_tokens ts))); cbn; try reflexivity. rewrite app_assoc. reflexivity.
  - destruct (meanings d (fst (split_tokens ts))), (join_meanings d (snd (split_tokens ts))); cbn; reflexivity.
  - destruct (d k); [|reflexivity]. destruct (meanings d (fst (split_tokens ts))), (join_meanings d (snd (split_tokens ts))); reflexivity.
Qed.
(** a template file is written with all its references replaced, unless an escaped percent sign precedes a parenthesis;
    a missing replacement is an error *)
Theorem C61_template_file : forall chunksize d ts, (0 < chunksize)%nat -> Forall token_ok ts -> no_escaped_paren ts ->
  parse_template chunksize d (flat_map render ts) = meanings d ts.
Proof.
  intros cs d ts Hcs Hok Hp. unfold parse_template. rewrite re_split_tokens by (assumption || lia). cbn [fst snd]. destruct (split_ok ts Hok) as (I1 & I2 & I3 & I4).
  rewrite py_format_tokens by (assumption || lia). rewrite (meanings_split d ts). set (n := S (List.length (flat_map render ts))) in *.
  replace (write_rest cs n d (map (fun q => (fst q, flat_map render (snd q))) (snd (split_tokens ts)))) with (join_meanings d (snd (split_tokens ts))); [reflexivity|].
  assert (I3' : Forall (fun q => (List.length (flat_map render (snd q)) < n)%nat) (snd (split_tokens ts))) by (eapply Forall_impl; [|exact I3]; intros q Hq; cbv beta in Hq; unfold n; lia).
  clearbody n. clear I3. induction (snd (split_tokens ts)) as [|[k us] l IH]; [reflexivity|]. apply Forall_cons_iff in I2 as [H2 I2]. apply Forall_cons_iff in I3' as [H3 I3]. cbn [snd] in *.
  cbn [map write_rest fst snd join_meanings]. rewrite py_format_tokens by assumption. rewrite <- IH by assumption. destruct (d k); [|reflexivity]. rewrite write_large_id by exact Hcs. reflexivity.
Qed.
Print Assumptions C61_template_file.
(** and this is what python's [%] would give, as the documentation says *)
Theorem C61_python_rules : forall chunksize d ts, (0 < chunksize)%nat -> Forall token_ok ts -> no_escaped_paren ts ->
  parse_template chunksize d (flat_map render ts) = py_format (S (List.length (flat_map render ts))) d (flat_map render ts).
Proof. intros. rewrite C61_template_file by assumption. symmetry. apply py_format_tokens; [assumption|lia]. Qed.
(** "%%(x)s" is the text "%(x)s" for python, but an error here *)
Theorem C61_escaped_reference_refuted : let t := list_ascii_of_string "%%(x)s" in let d := fun _ => Some [] in
  py_format 10 d t = Some (list_ascii_of_string "%(x)s") /\ parse_template 5 d t = None.
Proof. vm_compute. auto. Qed.
Example C61_ex : parse_template 2 (fun k => if String.eqb (string_of_list_ascii k) "name" then Some (list_ascii_of_string "box1L") else None) (list_ascii_of_string "a %(name)s 5%% b") = Some (list_ascii_of_string "a box1L 5% b")
  /\ flat_map render [Lit (list_ascii_of_string "a "); Ref (list_ascii_of_string "name"); Lit (list_ascii_of_string " 5"); Percent; Lit (list_ascii_of_string " b")] = list_ascii_of_string "a %(name)s 5%% b".
Proof. vm_compute. auto. Qed.

(** * C62 *)
(** the new name of an entry, if it is not ignored *)
Definition renamed (m : renaming) (x y : string) : Prop := lookup x m = Some (Some y) \/ lookup x m = None /\ x = y.
Lemma get_renamed_spec m x y : get_renamed m x = Some y <-> renamed m x y.
Proof. unfold get_renamed, renamed. destruct (lookup x m) as [[z|]|]; split; intros H; try congruence; try (left; congruence); try (right; split; congruence); destruct H as [H|[H ->]]; congruence. Qed.
Lemma rename_rev_spec m p q : rename_rev m p = Some q <-> Forall2 (renamed m) p q.
Proof.
  revert q. induction p as [|x p IH]; intros q; cbn; [split; [intros [= <-]; constructor|intros H; inversion H; reflexivity]|].
  destruct (get_renamed m x) as [y|] eqn:E.
  - destruct (rename_rev m p) as [q'|] eqn:E2; cbn.
    + split; [intros [= <-]; constructor; [apply get_renamed_spec, E|apply IH; reflexivity]|]. intros H. inversion H as [|? y' ? q'' Hy Hq]; subst. apply get_renamed_spec in Hy. apply IH in Hq. congruence.
    + split; [discriminate|]. intros H. inversion H as [|? y' ? q'' Hy Hq]; subst. apply IH in Hq. congruence.
  - split; [discriminate|]. intros H. inversion H as [|? y' ? q'' Hy Hq]; subst. apply get_renamed_spec in Hy. congruence.
Qed.
Lemma Forall2_rev' {A B} (P : A -> B -> Prop) l l' : Forall2 P l l' -> Forall2 P (List.rev l) (List.rev l').
Proof. induction 1 as [|x y l l' Hxy H IH]; [constructor|]. cbn. apply Forall2_app; [exact IH|constructor; [exact Hxy|constructor]]. Qed.
Lemma target_dir_spec m p q : target_dir m p = Some q <-> Forall2 (renamed m) p q.
Proof.
  unfold target_dir. destruct (rename_rev m (List.rev p)) as [r|] eqn:E; cbn.
  - apply rename_rev_spec in E. apply Forall2_rev' in E. rewrite rev_involutive in E. split; [intros [= <-]; exact E|]. intros H. f_equal. apply Forall2_rev' in H. apply rename_rev_spec in H. apply Forall2_rev' in E. rewrite rev_involutive in E. apply rename_rev_spec in E. rewrite E in H. injection H as ->. apply rev_involutive.
  - split; [discriminate|]. intros H. apply Forall2_rev' in H. apply rename_rev_spec in H. congruence.
Qed.
(** a target file is written exactly for each template file none of whose path components is ignored, renamed component by
    component *)
Theorem C62_template_tree : forall m walk t s, In (WriteFile t s) (parse_tree m walk) <->
  exists dir files f, In (dir, files) walk /\ In f files /\ s = (dir ++ [f])%list /\ Forall2 (renamed m) (dir ++ [f])%list t.
Proof.
  intros m walk t s. unfold parse_tree. rewrite in_flat_map. split.
  - intros ([dir files] & Hw & H). cbn [fst snd] in H. destruct (target_dir m dir) as [td|] eqn:E; [|destruct H]. destruct H as [H|H]; [discriminate|]. apply in_flat_map in H as (f & Hf & H). destruct (get_renamed m f) as [g|] eqn:Eg; [|destruct H]. destruct H as [[= <- <-]|[]].
    exists dir, files, f. split; [exact Hw|]. split; [exact Hf|]. split; [reflexivity|]. apply Forall2_app; [apply target_dir_spec, E|constructor; [apply get_renamed_spec, Eg|constructor]].
  - intros (dir & files & f & Hw & Hf & -> & H). exists (dir, files). split; [exact Hw|]. cbn [fst snd]. apply Forall2_app_inv_l in H as (td & tf & Hd & Hff & ->). inversion Hff as [|? g ? ? Hg Hn]; subst. inversion Hn; subst.
    apply target_dir_spec in Hd. rewrite Hd. right. apply in_flat_map. exists f. split; [exact Hf|]. apply get_renamed_spec in Hg. rewrite Hg. left. reflexivity.
Qed.
Print Assumptions C62_template_tree.
(** a directory exists before anything is written into it, when the walk lists a directory before its subdirectories *)
Theorem C62_parents_first : forall m walk, 
  (forall l1 dir files l2, walk = (l1 ++ (dir, files) :: l2)%list -> forall p x, dir = (p ++ [x])%list -> exists fs, In (p, fs) l1) ->
  forall a1 a2 act, parse_tree m walk = (a1 ++ act :: a2)%list ->
  forall p x, (match act with MkDir t => t | WriteFile t _ => t end) = (p ++ [x])%list -> In (MkDir p) a1.
Proof.
  intros m walk Hw a1 a2 act E p x Ep.
  assert (Hact : exists l1 dir files l2 td b1 b2, walk = (l1 ++ (dir, files) :: l2)%list /\ target_dir m dir = Some td /\ a1 = (flat_map (fun q => match target_dir m (fst q) with None => [] | Some t => MkDir t :: flat_map (fun f => match get_renamed m f with None => [] | Some g => [WriteFile (t ++ [g]) (fst q ++ [f])] end) (snd q) end) l1 ++ b1)%list /\
     (MkDir td :: flat_map (fun f => match get_renamed m f with None => [] | Some g => [WriteFile (td ++ [g]) (dir ++ [f])] end) files = b1 ++ act :: b2)%list).
  { clear Hw Ep. revert a1 E. unfold parse_tree. induction walk as [|[dir files] walk IH]; intros a1 E; [destruct a1; discriminate|]. cbn [flat_map fst snd] in E.
    destruct (target_dir m dir) as [td|] eqn:Et.
    - set (blk := MkDir td :: _) in E.
      assert (K : (exists b2, blk = (a1 ++ act :: b2)%list) \/ exists a1', a1 = (blk ++ a1')%list /\ flat_map (fun q => match target_dir m (fst q) with None => [] | Some t => MkDir t :: flat_map (fun f => match get_renamed m f with None => [] | Some g => [WriteFile (t ++ [g]) (fst q ++ [f])] end) (snd q) end)%list walk = (a1' ++ act :: a2)%list).
      { revert E. generalize blk as u. generalize (flat_map (fun q => match target_dir m (fst q) with None => [] | Some t => MkDir t :: flat_map (fun f => match get_renamed m f with None => [] | Some g => [WriteFile (t ++ [g]) (fst q ++ [f])] end) (snd q) end)%list walk) as v. clear.
        induction a1 as [|a a1 IH]; intros v u E; destruct u as [|b u]; cbn in E; [right; exists []; auto|injection E as -> _; left; exists u; reflexivity|right; exists (a :: a1); auto|]. injection E as -> E. destruct (IH v u E) as [[b2 ->]|(a1' & -> & E2)]; [left; exists b2; reflexivity|right; exists a1'; auto]. }
      destruct K as [[b2 Eb]|(a1' & -> & E2)]; [exists [], dir, files, walk, td, a1, b2; auto|]. destruct (IH a1' E2) as (l1 & dir' & files' & l2 & td' & b1 & b2 & -> & H2 & -> & H4). exists ((dir, files) :: l1), dir', files', l2, td', b1, b2. split; [reflexivity|]. split; [exact H2|]. split; [|exact H4]. cbn [flat_map fst snd]. rewrite Et. rewrite <- app_assoc. reflexivity.
    - destruct (IH a1 E) as (l1 & dir' & files' & l2 & td' & b1 & b2 & -> & H2 & -> & H4). exists ((dir, files) :: l1), dir', files', l2, td', b1, b2. split; [reflexivity|]. split; [exact H2|]. split; [|exact H4]. cbn [flat_map fst snd]. rewrite Et. reflexivity. }
  destruct Hact as (l1 & dir & files & l2 & td & b1 & b2 & Ew & Et & Ea & Eb).
  destruct b1 as [|b0 b1]; cbn in Eb.
  - injection Eb as <- _. cbn in Ep. subst td. apply target_dir_spec in Et. apply Forall2_app_inv_r in Et as (dp & dx & Hp & Hx & ->). inversion Hx as [|y ? ? ? Hy Hn]; subst. inversion Hn; subst.
    destruct (Hw l1 (dp ++ [y])%list files l2 eq_refl dp y eq_refl) as [fs Hin]. apply target_dir_spec in Hp. rewrite app_nil_r. apply in_flat_map. exists (dp, fs). split; [exact Hin|]. cbn [fst snd]. rewrite Hp. left. reflexivity.
  - injection Eb as <- Eb. subst a1. apply in_or_app. right. left.
    assert (Hin : In act (flat_map (fun f => match get_renamed m f with None => [] | Some g => [WriteFile (td ++ [g]) (dir ++ [f])] end)%list files)) by (rewrite Eb; apply in_or_app; right; left; reflexivity).
    apply in_flat_map in Hin as (f & Hf & H). destruct (get_renamed m f) as [g|]; [|destruct H]. destruct H as [<-|[]]. apply app_inj_tail in Ep as [<- _]. reflexivity.
Qed.
Print Assumptions C62_parents_first.
Example C62_ex : parse_tree [("name", Some "box"); ("sector.h", None)] [([], ["Makefile"; "name"]); (["src"], ["sector.h"; "a.cpp"])] =
  [MkDir []; WriteFile ["Makefile"] ["Makefile"]; WriteFile ["box"] ["name"]; MkDir ["src"]; WriteFile ["src"; "a.cpp"] ["src"; "a.cpp"]].
Proof. reflexivity. Qed.
