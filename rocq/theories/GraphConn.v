(** Connectedness is decidable and the number of components of a forest is (number of vertices) - (number of lines). *)
From Coq Require Import List Lia ZArith Bool Arith Permutation.
From Verif Require Import GraphSpec.
Import ListNotations.

Lemma conn_trans : forall E u v w, conn E u v -> conn E v w -> conn E u w.
Proof. intros E u v w H1 H2. induction H2 as [|v x w H2 IH Hs]; [exact H1|]. apply (conn_step E u x w); [exact (IH H1)|exact Hs]. Qed.
Lemma conn_sym : forall E u v, conn E u v -> conn E v u.
Proof.
  intros E u v H. induction H as [u|u v w H IH Hs]; [apply conn_refl|].
  apply (conn_trans E w v u); [|exact IH]. apply (conn_step E w w v); [apply conn_refl|tauto].
Qed.
Lemma conn_edge : forall E e, In e E -> conn E (fst e) (snd e).
Proof. intros E [a b] H. apply (conn_step E a a b); [apply conn_refl|left; exact H]. Qed.
Lemma conn_mono : forall E E' u v, (forall e, In e E -> In e E') -> conn E u v -> conn E' u v.
Proof.
  intros E E' u v H C. induction C as [u|u v w C IH Hs]; [apply conn_refl|].
  apply (conn_step E' u v w); [exact IH|]. destruct Hs as [Hs|Hs]; [left|right]; apply H, Hs.
Qed.
(** any equivalence that contains the lines contains [conn] *)
Lemma conn_least : forall E (R : nat -> nat -> Prop), (forall u, R u u) -> (forall u v, R u v -> R v u) ->
  (forall u v w, R u v -> R v w -> R u w) -> (forall e, In e E -> R (fst e) (snd e)) -> forall u v, conn E u v -> R u v.
Proof.
  intros E R Rr Rs Rt Re u v H. induction H as [u|u v w H IH Hs]; [apply Rr|]. apply (Rt _ v); [exact IH|].
  destruct Hs as [Hs|Hs]; [exact (Re _ Hs)|apply Rs; exact (Re _ Hs)].
Qed.

(** union-find with labels *)
Definition merge (f : nat -> nat) (e : nat * nat) (v : nat) : nat := if Nat.eqb (f v) (f (fst e)) then f (snd e) else f v.
Fixpoint lab (E : list (nat * nat)) : nat -> nat :=
  match E with [] => fun v => v | e :: E' => merge (lab E') e end.
Lemma lab_conn : forall E u v, lab E u = lab E v <-> conn E u v.
Proof.
  induction E as [|e E IH]; intros u v.
  - cbn. split; [intros ->; apply conn_refl|]. intros H. induction H as [|u v w H IH Hs]; [reflexivity|]. destruct Hs as [[]|[]].
  - split.
    + assert (K : forall x y, conn E x y -> conn (e :: E) x y) by (intros x y; apply conn_mono; intros; right; assumption).
      assert (Ke : conn (e :: E) (fst e) (snd e)) by (apply conn_edge; left; reflexivity).
      cbn [lab]. unfold merge. destruct (Nat.eqb_spec (lab E u) (lab E (fst e))) as [H1|H1]; destruct (Nat.eqb_spec (lab E v) (lab E (fst e))) as [H2|H2]; intros H.
      * apply K, IH. congruence.
      * apply (conn_trans _ u (fst e)); [apply K, IH, H1|]. apply (conn_trans _ _ (snd e)); [exact Ke|apply K, IH, H].
      * apply (conn_trans _ u (snd e)); [apply K, IH, H|]. apply (conn_trans _ _ (fst e)); [apply conn_sym, Ke|apply K, IH; symmetry; exact H2].
      * apply K, IH, H.
    + apply (conn_least _ (fun u v => lab (e :: E) u = lab (e :: E) v)); try congruence.
      intros e' [<-|H].
      * cbn [lab]. unfold merge. rewrite Nat.eqb_refl. destruct (Nat.eqb (lab E (snd e)) (lab E (fst e))); reflexivity.
      * assert (Q : lab E (fst e') = lab E (snd e')) by (apply IH, conn_edge, H). cbn [lab]. unfold merge. rewrite Q. reflexivity.
Qed.
Lemma conn_dec : forall E u v, conn E u v \/ ~ conn E u v.
Proof. intros E u v. destruct (Nat.eq_dec (lab E u) (lab E v)) as [H|H]; [left|right]; rewrite <- lab_conn; exact H. Qed.

(** number of components *)
Definition ncomp (vs : list nat) (E : list (nat * nat)) : nat := length (nodup Nat.eq_dec (map (lab E) vs)).

Lemma nodup_map_kernel : forall (f g : nat -> nat) vs, (forall u v, In u vs -> In v vs -> (f u = f v <-> g u = g v)) ->
  length (nodup Nat.eq_dec (map f vs)) = length (nodup Nat.eq_dec (map g vs)).
Proof.
  intros f g. induction vs as [|a vs IH]; intros H; [reflexivity|]. cbn [map nodup].
  assert (Q : In (f a) (map f vs) <-> In (g a) (map g vs)).
  { rewrite !in_map_iff. split; intros (x & E & I); exists x; split; try exact I; apply (H x a); try (right; exact I); try (left; reflexivity); exact E. }
  specialize (IH (fun u v Hu Hv => H u v (or_intror Hu) (or_intror Hv))).
  destruct (in_dec Nat.eq_dec (f a) (map f vs)) as [I|I]; destruct (in_dec Nat.eq_dec (g a) (map g vs)) as [J|J]; try tauto.
  cbn [length]. rewrite IH. reflexivity.
Qed.
Lemma ncomp_same : forall vs E E', (forall u v, conn E u v <-> conn E' u v) -> ncomp vs E = ncomp vs E'.
Proof. intros vs E E' H. apply nodup_map_kernel. intros u v _ _. rewrite !lab_conn. apply H. Qed.

Lemma ncomp_nil : forall vs, NoDup vs -> ncomp vs [] = length vs.
Proof. intros vs H. unfold ncomp. cbn [lab]. rewrite map_id. rewrite nodup_fixed_point by exact H. reflexivity. Qed.

Lemma ncomp_cons_conn : forall vs e E, conn E (fst e) (snd e) -> ncomp vs (e :: E) = ncomp vs E.
Proof.
  intros vs e E H. apply ncomp_same. intros u v. split.
  - apply (conn_least _ (conn E)); [apply conn_refl|apply conn_sym|apply conn_trans|]. intros e' [<-|I]; [exact H|apply conn_edge, I].
  - apply conn_mono. intros; right; assumption.
Qed.
Lemma ncomp_cons_new : forall vs e E, In (fst e) vs -> In (snd e) vs -> ~ conn E (fst e) (snd e) ->
  S (ncomp vs (e :: E)) = ncomp vs E.
Proof.
  intros vs e E Ha Hb H. rewrite <- lab_conn in H. unfold ncomp.
  set (f := lab E) in *. set (l := nodup Nat.eq_dec (map (lab (e :: E)) vs)).
  change (length (f (fst e) :: l) = length (nodup Nat.eq_dec (map f vs))). apply Permutation_length. apply NoDup_Permutation.
  - constructor; [|apply NoDup_nodup]. unfold l. rewrite nodup_In, in_map_iff. intros (x & Q & _). cbn [lab] in Q. unfold merge in Q. fold f in Q.
    destruct (Nat.eqb_spec (f x) (f (fst e))); congruence.
  - apply NoDup_nodup.
  - intros y. cbn [In]. unfold l. rewrite !nodup_In, !in_map_iff. cbn [lab]. unfold merge. fold f. split.
    + intros [<-|(x & Q & I)]; [exists (fst e); auto|]. destruct (Nat.eqb_spec (f x) (f (fst e))); [exists (snd e)|exists x]; auto.
    + intros (x & Q & I). destruct (Nat.eq_dec y (f (fst e))) as [D|D]; [left; congruence|right].
      exists x. split; [|exact I]. destruct (Nat.eqb_spec (f x) (f (fst e))); congruence.
Qed.

Definition inside (vs : list nat) (E : list (nat * nat)) : Prop := forall e, In e E -> In (fst e) vs /\ In (snd e) vs.

Lemma ncomp_lower : forall vs E, NoDup vs -> inside vs E -> length vs <= ncomp vs E + length E.
Proof.
  intros vs. induction E as [|e E IH]; intros Hn Hi; [rewrite ncomp_nil by exact Hn; lia|].
  specialize (IH Hn (fun e' I => Hi e' (or_intror I))). destruct (Hi e (or_introl eq_refl)) as [Ha Hb]. cbn [length].
  destruct (conn_dec E (fst e) (snd e)) as [C|C]; [rewrite ncomp_cons_conn by exact C; lia|].
  pose proof (ncomp_cons_new vs e E Ha Hb C). lia.
Qed.

Lemma ncomp_forest : forall vs E, NoDup vs -> inside vs E -> acyclic E -> length vs = ncomp vs E + length E.
Proof.
  intros vs. induction E as [|e E IH]; intros Hn Hi Hc; [rewrite ncomp_nil by exact Hn; cbn [length]; lia|].
  destruct (Hi e (or_introl eq_refl)) as [Ha Hb]. cbn [length].
  assert (C : ~ conn E (fst e) (snd e)) by exact (Hc [] e E eq_refl).
  pose proof (ncomp_cons_new vs e E Ha Hb C).
  assert (Q : acyclic E).
  { intros A e' B -> K. apply (Hc (e :: A) e' B eq_refl). revert K. apply conn_mono. intros x I. right. exact I. }
  specialize (IH Hn (fun e' I => Hi e' (or_intror I)) Q). lia.
Qed.

Lemma forest_ncomp : forall vs E, NoDup vs -> inside vs E -> length vs = ncomp vs E + length E -> acyclic E.
Proof.
  intros vs E Hn Hi Hl A e B -> C.
  assert (Q : ncomp vs (A ++ e :: B) = ncomp vs (A ++ B)).
  { apply ncomp_same. intros u v. split.
    - apply (conn_least _ (conn (A ++ B))); [apply conn_refl|apply conn_sym|apply conn_trans|]. intros e' I. apply in_app_iff in I.
      destruct I as [I|[<-|I]]; [apply conn_edge, in_app_iff; left; exact I|exact C|apply conn_edge, in_app_iff; right; exact I].
    - apply conn_mono. intros x I. apply in_app_iff in I. apply in_app_iff. destruct I; [left|right; right]; assumption. }
  assert (Hi' : inside vs (A ++ B)).
  { intros x I. apply Hi. apply in_app_iff in I. apply in_app_iff. destruct I; [left|right; right]; assumption. }
  pose proof (ncomp_lower vs (A ++ B) Hn Hi'). rewrite Q in Hl. rewrite app_length in *. cbn [length] in Hl. lia.
Qed.

(** one component: all connected *)
Lemma ncomp_one : forall vs E, vs <> [] -> (ncomp vs E = 1 <-> forall u v, In u vs -> In v vs -> conn E u v).
Proof.
  intros vs E Hne. unfold ncomp. split.
  - intros H u v Hu Hv. apply lab_conn. destruct (nodup Nat.eq_dec (map (lab E) vs)) as [|a [|b l]] eqn:Q; cbn in H; try lia.
    assert (K : forall w, In w vs -> lab E w = a).
    { intros w I. apply (in_map (lab E)) in I. rewrite <- (nodup_In Nat.eq_dec), Q in I. destruct I as [I|[]]. symmetry. exact I. }
    rewrite (K u Hu), (K v Hv). reflexivity.
  - intros H. destruct vs as [|a vs]; [congruence|].
    change 1 with (length [lab E a]). apply Permutation_length, NoDup_Permutation; [apply NoDup_nodup|constructor; [intros []|constructor]|].
    intros y. rewrite nodup_In, in_map_iff. cbn [In]. split.
    + intros (x & <- & I). left. apply lab_conn, H; [left; reflexivity|exact I].
    + intros [<-|[]]. exists a. split; [reflexivity|left; reflexivity].
Qed.

(** two components *)
Lemma ncomp_two : forall vs E a b, In a vs -> In b vs -> ~ conn E a b -> (forall v, In v vs -> conn E a v \/ conn E b v) -> ncomp vs E = 2.
Proof.
  intros vs E a b Ha Hb Hab H. unfold ncomp. change 2 with (length [lab E a; lab E b]).
  apply Permutation_length, NoDup_Permutation; [apply NoDup_nodup| |].
  - constructor; [|constructor; [intros []|constructor]]. cbn [In]. intros [Q|[]]. apply Hab, lab_conn. symmetry. exact Q.
  - intros y. rewrite nodup_In, in_map_iff. cbn [In]. split.
    + intros (x & <- & I). destruct (H x I) as [Q|Q]; apply lab_conn in Q; auto.
    + intros [<-|[<-|[]]]; [exists a|exists b]; auto.
Qed.

(** spanning trees exist in a connected graph *)
Lemma not_acyclic_edge : forall vs E, NoDup vs -> inside vs E -> length vs < ncomp vs E + length E ->
  exists A e B, E = A ++ e :: B /\ conn (A ++ B) (fst e) (snd e).
Proof.
  intros vs. induction E as [|e E IH]; intros Hn Hi Hl; [rewrite ncomp_nil in Hl by exact Hn; cbn in Hl; lia|].
  destruct (Hi e (or_introl eq_refl)) as [Ha Hb]. cbn [length] in Hl.
  destruct (conn_dec E (fst e) (snd e)) as [C|C]; [exists [], e, E; split; [reflexivity|exact C]|].
  pose proof (ncomp_cons_new vs e E Ha Hb C) as Q.
  destruct (IH Hn (fun e' I => Hi e' (or_intror I)) ltac:(lia)) as (A & e' & B & -> & K).
  exists (e :: A), e', B. split; [reflexivity|]. revert K. apply conn_mono. intros x I. right. exact I.
Qed.
