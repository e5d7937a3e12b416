(** Invariants of the heap of function objects. *)
From Coq Require Import Lia.
From Verif Require Import SortProofs FunSpec FunChain ExprMixed ExprSimp ExprDerive PropExpr.
Local Open Scope R_scope.

(** ** dictionaries *)
Lemma dget_dset {A} m k (v : A) d : dget m (dset k v d) = if roweqb m k then Some v else dget m d.
Proof.
  induction d as [|[k' w] d IH]; cbn [dset dget]; [reflexivity|].
  destruct (roweqb k k') eqn:E; cbn [dget].
  - apply roweqb_spec in E. subst k'. destruct (roweqb m k); reflexivity.
  - rewrite IH. destruct (roweqb m k') eqn:E1, (roweqb m k) eqn:E2; try reflexivity. apply roweqb_spec in E1, E2. subst. rewrite roweqb_refl in E. discriminate.
Qed.
Lemma dget_in {A} m (d : list (list Z * A)) v : dget m d = Some v -> In (m, v) d.
Proof. induction d as [|[k w] d IH]; cbn; [discriminate|]. destruct (roweqb m k) eqn:E; [intros [= ->]; apply roweqb_spec in E; subst; auto|intros H; right; apply IH, H]. Qed.
Lemma dget_none {A} m (d : list (list Z * A)) : dget m d = None <-> ~ In m (map fst d).
Proof.
  induction d as [|[k w] d IH]; cbn [dget map fst]; [cbn; tauto|]. cbn [In]. destruct (roweqb m k) eqn:E.
  - apply roweqb_spec in E. subst. split; [discriminate|intros H; exfalso; apply H; auto].
  - rewrite IH. split; [intros H [->|I]; [rewrite roweqb_refl in E; discriminate|exact (H I)]|intros H I; apply H; auto].
Qed.
Lemma dget_key {A} m (d : list (list Z * A)) : In m (map fst d) <-> exists v, dget m d = Some v.
Proof.
  destruct (dget m d) as [v|] eqn:E.
  - split; [intros _; exists v; reflexivity|intros _; apply in_map_iff; exists (m, v); split; [reflexivity|apply dget_in, E]].
  - apply dget_none in E. split; [contradiction|intros (v & H); discriminate].
Qed.
Lemma dset_keys {A} m k (v : A) d : In m (map fst (dset k v d)) <-> m = k \/ In m (map fst d).
Proof.
  rewrite !dget_key. setoid_rewrite dget_dset. destruct (roweqb m k) eqn:E; [apply roweqb_spec in E; subst; split; [auto|intros _; exists v; reflexivity]|].
  split; [auto|intros [->|H]; [rewrite roweqb_refl in E; discriminate|exact H]].
Qed.
Lemma dset_nodup {A} k (v : A) d : NoDup (map fst d) -> NoDup (map fst (dset k v d)).
Proof.
  induction d as [|[k' w] d IH]; cbn [dset map fst]; [intros _; constructor; [auto|constructor]|]. intros H. inversion H; subst. destruct (roweqb k k') eqn:E; cbn [map fst].
  - apply roweqb_spec in E. subst. exact H.
  - constructor; [|apply IH; assumption]. rewrite dset_keys. intros [->|I]; [rewrite roweqb_refl in E; discriminate|contradiction].
Qed.
(** ** multi-indices *)
Definition sumz (m : list Z) : Z := fold_right Z.add 0%Z m.
Lemma bump_spec j m m' : bump j m = Some m' -> (j < length m)%nat /\ length m' = length m /\ m' = setk j (getk j m + 1) m /\ sumz m' = (sumz m + 1)%Z.
Proof.
  revert j m'. induction m as [|z m IH]; intros [|j] m' H; cbn in H; try discriminate.
  - injection H as <-. cbn. repeat split; [lia|unfold sumz; cbn; lia].
  - destruct (bump j m) as [r|] eqn:E; [|discriminate]. injection H as <-. destruct (IH j r E) as (A & B & C & D). cbn [length]. split; [lia|]. split; [lia|]. split; [unfold getk in *; cbn [setk nth]; rewrite C at 1; reflexivity|]. unfold sumz in *. cbn [fold_right]. lia.
Qed.
Lemma bump_some j m : (j < length m)%nat -> exists m', bump j m = Some m'.
Proof. revert j. induction m as [|z m IH]; intros [|j] H; cbn in *; try lia; [eauto|]. destruct (IH j ltac:(lia)) as (r & ->). eauto. Qed.
Lemma bump_none j m : (length m <= j)%nat -> bump j m = None.
Proof. revert j. induction m as [|z m IH]; intros [|j] H; cbn in *; try lia; try reflexivity. rewrite IH by lia. reflexivity. Qed.
Lemma bump_nth j m m' k : bump j m = Some m' -> nth k m' 0%Z = if Nat.eqb k j then (nth k m 0 + 1)%Z else nth k m 0%Z.
Proof. intros H. destruct (bump_spec _ _ _ H) as (A & _ & C & _). subst m'. change (nth k ?a 0%Z) with (getk k a). rewrite getk_setk by exact A. destruct (Nat.eqb_spec k j) as [->|]; reflexivity. Qed.
Definition nonneg (m : list Z) : Prop := Forall (fun z => (0 <= z)%Z) m.
Lemma bump_nonneg j m m' : nonneg m -> bump j m = Some m' -> nonneg m'.
Proof. revert j m'. induction m as [|z m IH]; intros [|j] m' N H; cbn in H; try discriminate; inversion N; subst; [injection H as <-; constructor; [lia|assumption]|]. destruct (bump j m) as [r|] eqn:E; [|discriminate]. injection H as <-. constructor; [assumption|]. eapply IH; eassumption. Qed.
Lemma sum_zero m : nonneg m -> (0 <= sumz m)%Z /\ (sumz m = 0%Z <-> m = zeros (length m)).
Proof.
  induction m as [|z m IH]; intros N; [split; [cbn; lia|split; reflexivity]|]. inversion N; subst. destruct (IH H2) as [A B]. unfold sumz in *. cbn [fold_right length]. split; [lia|]. unfold zeros in *. cbn [repeat]. split; [intros E; f_equal; [lia|apply B; lia]|intros [= -> E]; apply B in E; lia].
Qed.
Lemma zeros_nonneg nv : nonneg (zeros nv). Proof. apply Forall_forall. intros z I. apply repeat_spec in I. lia. Qed.
Lemma zeros_len nv : length (zeros nv) = nv. Proof. apply repeat_length. Qed.

Section Nv.
Variables (nv : nat) (zero_test : expr -> bool) (args0 : list expr) (max0 : list (option Z)).
Notation na := (length args0).
Notation keys h := (map fst (h_tracks h)).
(** ** the recorded derivatives *)
Definition multi_ok (h : heap) (m : list Z) : Prop := length m = nv /\ nonneg m /\ (m = zeros nv \/ In m (keys h)).
Definition track_ok (h : heap) (k : list Z) (j : nat) (l : list Z) : Prop := bump j l = Some k /\ (j < na)%nat /\ multi_ok h l.
Definition frame (f f' : func) : Prop := f_args f' = f_args f /\ f_multi f' = f_multi f /\ f_max f' = f_max f.
Record inv (h : heap) : Prop := {
  i_nodup : NoDup (keys h);
  i_track : forall k j l, In (k, (j, l)) (h_tracks h) -> track_ok h k j l;
  i_obj : forall o f, nth_error (h_objs h) o = Some f -> multi_ok h (f_multi f) /\ length (f_args f) = na;
  i_key : forall k, In k (keys h) -> exists o f, nth_error (h_objs h) o = Some f /\ f_multi f = k;
}.
Definition grows (h h' : heap) : Prop := (forall k, In k (keys h) -> In k (keys h')) /\ forall o f, nth_error (h_objs h) o = Some f -> exists f', nth_error (h_objs h') o = Some f' /\ frame f f'.
Lemma grows_refl h : grows h h. Proof. split; [auto|]. intros o f H. exists f. split; [exact H|repeat split]. Qed.
Lemma grows_trans a b c : grows a b -> grows b c -> grows a c.
Proof. intros [A1 A2] [B1 B2]. split; [auto|]. intros o f H. destruct (A2 o f H) as (f' & H' & X1 & X2 & X3). destruct (B2 o f' H') as (f'' & H'' & Y1 & Y2 & Y3). exists f''. split; [exact H''|]. repeat split; congruence. Qed.
Lemma multi_grows h h' m : grows h h' -> multi_ok h m -> multi_ok h' m.
Proof. intros [G _] (A & B & [C|C]); repeat split; auto. Qed.
Lemma inv_fresh : inv (fresh nv args0 max0).
Proof.
  split; cbn [fresh h_tracks h_objs map].
  - constructor.
  - intros k j l [].
  - intros o f H. destruct o as [|o]; cbn in H; [|destruct o; discriminate]. injection H as <-. split; [|reflexivity]. split; [apply zeros_len|]. split; [apply zeros_nonneg|]. auto.
  - intros k [].
Qed.
(** one new derivative *)
Lemma inv_add h f j m c : inv h -> multi_ok h (f_multi f) -> (j < na)%nat -> length (f_args f) = na -> bump j (f_multi f) = Some m ->
  let h' := mkHeap (h_objs h ++ [mkFunc (f_args f) m c []]) (dset m (j, f_multi f) (h_tracks h)) in inv h' /\ grows h h'.
Proof.
  intros I M Hj La B h'. destruct I as [I1 I2 I3 I4].
  assert (G : grows h h').
  { split; [intros k K; cbn [h' h_tracks]; apply dset_keys; auto|]. intros o g H. exists g. split; [|repeat split]. cbn [h' h_objs]. rewrite nth_error_app1; [exact H|]. apply nth_error_Some. congruence. }
  split; [|exact G]. split.
  - cbn [h' h_tracks]. apply dset_nodup, I1.
  - intros k j' l I0. cbn [h' h_tracks] in I0.
    assert (K : dget k (dset m (j, f_multi f) (h_tracks h)) = Some (j', l)).
    { destruct (dget k (dset m (j, f_multi f) (h_tracks h))) as [v|] eqn:E; [|apply dget_none in E; exfalso; apply E, in_map_iff; exists (k, (j', l)); auto].
      f_equal. pose proof (dset_nodup m (j, f_multi f) (h_tracks h) I1) as ND. apply dget_in in E. clear -ND E I0.
      induction (dset m (j, f_multi f) (h_tracks h)) as [|[k' w] d IH]; [destruct E|]. cbn [map fst] in ND. inversion ND; subst.
      destruct E as [E|E], I0 as [I0|I0]; try congruence; [| |apply IH; assumption]; exfalso; [injection E as -> ->|injection I0 as -> ->]; apply H1, in_map_iff; eexists; split; [|eassumption| |eassumption]; reflexivity. }
    rewrite dget_dset in K. destruct (roweqb k m) eqn:E.
    + apply roweqb_spec in E. subst k. injection K as <- <-. split; [exact B|]. split; [exact Hj|]. apply (multi_grows h); assumption.
    + apply dget_in in K. destruct (I2 k j' l K) as (X & Y & Z). split; [exact X|]. split; [exact Y|]. apply (multi_grows h); assumption.
  - intros o g H. cbn [h' h_objs] in H. destruct (Nat.lt_ge_cases o (length (h_objs h))) as [L|L].
    + rewrite nth_error_app1 in H by exact L. destruct (I3 o g H) as [X Y]. split; [apply (multi_grows h); assumption|exact Y].
    + rewrite nth_error_app2 in H by exact L. destruct (o - length (h_objs h))%nat as [|z]; cbn in H; [|destruct z; discriminate]. injection H as <-. cbn [f_multi f_args]. split; [|exact La].
      destruct (bump_spec _ _ _ B) as (_ & X & _ & _). destruct M as (M1 & M2 & _). split; [congruence|]. split; [eapply bump_nonneg; eassumption|]. right. cbn [h' h_tracks]. apply dset_keys. auto.
  - intros k K. cbn [h' h_tracks] in K. apply dset_keys in K as [->|K].
    + exists (length (h_objs h)), (mkFunc (f_args f) m c []). cbn [h' h_objs]. rewrite nth_error_app2, Nat.sub_diag by lia. split; reflexivity.
    + destruct (I4 k K) as (o & g & H & E). exists o, g. split; [|exact E]. cbn [h' h_objs]. rewrite nth_error_app1; [exact H|]. apply nth_error_Some. congruence.
Qed.
(** what a derivative looks like *)
Inductive result (h : heap) (f : func) (i : nat) : nat -> list expr -> list (expr * nat) -> Prop :=
| res_nil j : result h f i j [] []
| res_deg j a r s : exhausted f j = true -> result h f i (S j) r s -> result h f i j (a :: r) s
| res_zero j a r s n d : derive nv zero_test i n a = Some d -> zero_poly d = true -> result h f i (S j) r s -> result h f i j (a :: r) s
| res_term j a r s n d o f' : exhausted f j = false -> derive nv zero_test i n a = Some d -> nth_error (h_objs h) o = Some f' -> f_args f' = f_args f -> bump j (f_multi f) = Some (f_multi f') ->
    result h f i (S j) r s -> result h f i j (a :: r) ((d, o) :: s).
Lemma result_grows h h' f f' i j r s : grows h h' -> frame f f' -> result h f i j r s -> result h' f' i j r s.
Proof.
  intros G (F1 & F2 & F3) H. assert (EX : forall j, exhausted f' j = exhausted f j) by (intros k; unfold exhausted; rewrite F3; reflexivity).
  induction H as [j|j a r s E _ IH|j a r s n d E V _ IH|j a r s n d o g X E O A B _ IH].
  - constructor.
  - apply res_deg; [rewrite EX; exact E|exact IH].
  - eapply res_zero; eassumption.
  - destruct (proj2 G o g O) as (g' & O' & K1 & K2 & K3). eapply res_term; [rewrite EX; exact X|exact E|exact O'|congruence|rewrite F2, K2; exact B|exact IH].
Qed.
Lemma derive_args_inv n i f : length (f_args f) = na -> forall r j h s h', inv h -> multi_ok h (f_multi f) -> (j + length r = na)%nat -> derive_args nv zero_test n i f j r h = Some (s, h') ->
  inv h' /\ grows h h' /\ result h' f i j r s.
Proof.
  intros La. induction r as [|a r IH]; intros j h s h' I M Hj H; cbn [derive_args] in H.
  - injection H as <- <-. split; [exact I|]. split; [apply grows_refl|constructor].
  - cbn [length] in Hj. destruct (exhausted f j) eqn:X.
    + destruct (IH (S j) h s h' I M ltac:(lia) H) as (A & B & C). split; [exact A|]. split; [exact B|apply res_deg; assumption].
    + destruct (derive nv zero_test i n a) as [d|] eqn:E; [|discriminate]. destruct (zero_poly d) eqn:V.
      * destruct (IH (S j) h s h' I M ltac:(lia) H) as (A & B & C). split; [exact A|]. split; [exact B|eapply res_zero; eassumption].
      * destruct (bump j (f_multi f)) as [m|] eqn:B; [|discriminate].
        destruct (inv_add h f j m (lower j (f_max f)) I M ltac:(lia) La B) as [I1 G1].
        set (h1 := mkHeap (h_objs h ++ [mkFunc (f_args f) m (lower j (f_max f)) []]) (dset m (j, f_multi f) (h_tracks h))) in *.
        destruct (derive_args nv zero_test n i f (S j) r h1) as [[s2 h2]|] eqn:E2; [|discriminate]. injection H as <- <-.
        destruct (IH (S j) h1 s2 h2 I1 (multi_grows _ _ _ G1 M) ltac:(lia) E2) as (A & G2 & C). split; [exact A|]. split; [eapply grows_trans; eassumption|].
        destruct (proj2 G2 (length (h_objs h)) (mkFunc (f_args f) m (lower j (f_max f)) [])) as (f' & O' & F1 & F2 & F3). { cbn [h1 h_objs]. rewrite nth_error_app2, Nat.sub_diag by lia. reflexivity. }
        eapply res_term; [exact X|exact E|exact O'|exact F1|rewrite F2; exact B|exact C].
Qed.
Lemma set_obj_nth o f l k : nth_error (set_obj o f l) k = if Nat.eqb k o then (match nth_error l o with Some _ => Some f | None => None end) else nth_error l k.
Proof. revert o k. induction l as [|g l IH]; intros [|o] [|k]; cbn [set_obj nth_error Nat.eqb]; try reflexivity; [destruct (Nat.eqb k o); reflexivity|apply IH]. Qed.
(** the caches hold derivatives *)
Definition cache_ok (h : heap) : Prop := forall o f i s, nth_error (h_objs h) o = Some f -> In (i, s) (f_cache f) -> result h f i 0 (f_args f) s.
Lemma cached_in i c s : cached i c = Some s -> In (i, s) c.
Proof. induction c as [|[k t] c IH]; cbn; [discriminate|]. destruct (Nat.eqb_spec i k) as [->|]; [intros [= ->]; auto|auto]. Qed.
Lemma grows_set h o f f' : nth_error (h_objs h) o = Some f -> frame f f' -> grows h (mkHeap (set_obj o f' (h_objs h)) (h_tracks h)).
Proof.
  intros H F. split; [auto|]. intros k g K. cbn [h_objs]. rewrite set_obj_nth. destruct (Nat.eqb_spec k o) as [->|]; [|exists g; split; [exact K|repeat split]]. rewrite H. exists f'. rewrite H in K. injection K as ->. auto.
Qed.
Lemma inv_set h o f f' : inv h -> nth_error (h_objs h) o = Some f -> frame f f' -> inv (mkHeap (set_obj o f' (h_objs h)) (h_tracks h)).
Proof.
  intros [I1 I2 I3 I4] H F. pose proof (grows_set h o f f' H F) as G. split; [exact I1| | |].
  - intros k j l I0. destruct (I2 k j l I0) as (X & Y & Z). repeat split; try assumption; apply (multi_grows h _ l G Z).
  - intros k g K. cbn [h_objs] in K. rewrite set_obj_nth in K. destruct (Nat.eqb_spec k o) as [->|].
    + rewrite H in K. injection K as <-. destruct (I3 o f H) as [X Y]. destruct F as (F1 & F2 & F3). rewrite F1, F2. split; [apply (multi_grows h _ _ G X)|exact Y].
    + destruct (I3 k g K) as [X Y]. split; [apply (multi_grows h _ _ G X)|exact Y].
  - intros k K. destruct (I4 k K) as (p & g & P & E). destruct (proj2 G p g P) as (g' & P' & F1 & F2 & F3). exists p, g'. split; [exact P'|congruence].
Qed.
Definition new_objs (h h' : heap) : Prop := forall o f', nth_error (h_objs h') o = Some f' -> (exists f, nth_error (h_objs h) o = Some f /\ frame f f' /\ f_cache f' = f_cache f) \/ f_cache f' = [].
Lemma derive_args_new n i f : forall r j h s h', derive_args nv zero_test n i f j r h = Some (s, h') -> new_objs h h'.
Proof.
  induction r as [|a r IH]; intros j h s h' H; cbn [derive_args] in H.
  - injection H as _ <-. intros o f' H. left. exists f'. repeat split; auto.
  - destruct (exhausted f j); [eapply IH; exact H|]. destruct (derive nv zero_test i n a) as [d|]; [|discriminate]. destruct (zero_poly d); [eapply IH; exact H|]. destruct (bump j (f_multi f)) as [m|]; [|discriminate].
    destruct (derive_args nv zero_test n i f (S j) r _) as [[s2 h2]|] eqn:E2; [|discriminate]. injection H as _ <-. intros o f' H. destruct (IH _ _ _ _ E2 o f' H) as [(g & G & K1 & K2)|K]; [|auto].
    cbn [h_objs] in G. destruct (Nat.lt_ge_cases o (length (h_objs h))) as [L|L]; [rewrite nth_error_app1 in G by exact L; left; exists g; auto|].
    rewrite nth_error_app2 in G by exact L. destruct (o - length (h_objs h))%nat as [|z]; cbn in G; [|destruct z; discriminate]. injection G as <-. right. exact K2.
Qed.
Lemma cache_grows h h' : grows h h' -> new_objs h h' -> cache_ok h -> cache_ok h'.
Proof.
  intros G N C o f' i s H I0. destruct (N o f' H) as [(f & F1 & F2 & F3)|E]; [|rewrite E in I0; destruct I0]. rewrite F3 in I0. rewrite (proj1 F2). eapply result_grows; [exact G|exact F2|]. eapply C; eassumption.
Qed.
Lemma derive_inv n o i h s h' : inv h -> cache_ok h -> f_derive nv zero_test n o i h = Some (s, h') ->
  inv h' /\ cache_ok h' /\ grows h h' /\ exists f, nth_error (h_objs h) o = Some f /\ result h' f i 0 (f_args f) s.
Proof.
  intros I C H. unfold f_derive in H. destruct (nth_error (h_objs h) o) as [f|] eqn:O; [|discriminate].
  destruct (cached i (f_cache f)) as [s0|] eqn:E.
  - injection H as <- <-. split; [exact I|]. split; [exact C|]. split; [apply grows_refl|]. exists f. split; [reflexivity|]. eapply C; [exact O|]. apply cached_in, E.
  - destruct (derive_args nv zero_test n i f 0 (f_args f) h) as [[s1 h1]|] eqn:E1; [|discriminate]. injection H as <- <-.
    destruct (i_obj h I o f O) as [M La]. destruct (derive_args_inv n i f La (f_args f) 0 h s1 h1 I M La E1) as (I1 & G1 & R1).
    pose proof (cache_grows h h1 G1 (derive_args_new n i f _ _ _ _ _ E1) C) as C1.
    destruct (proj2 G1 o f O) as (f1 & O1 & F1).
    set (f2 := mkFunc (f_args f) (f_multi f) (f_max f) ((i, s1) :: f_cache f)).
    assert (F2 : frame f1 f2) by (destruct F1 as (X & Y & Z); repeat split; cbn; congruence).
    pose proof (grows_set h1 o f1 f2 O1 F2) as G2. assert (F3 : frame f f2) by (repeat split).
    split; [eapply inv_set; eassumption|]. split.
    { intros k g i' s' K I0. cbn [h_objs] in K. rewrite set_obj_nth in K. destruct (Nat.eqb_spec k o) as [->|N].
      - rewrite O1 in K. injection K as <-. cbn [f2 f_cache f_args] in *. destruct I0 as [[= <- <-]|I0].
        + eapply result_grows; [exact G2|exact F3|exact R1].
        + eapply result_grows; [eapply grows_trans; [exact G1|exact G2]|exact F3|]. eapply C; eassumption.
      - eapply result_grows; [exact G2|apply (conj eq_refl (conj eq_refl eq_refl))|]. eapply C1; eassumption. }
    split; [eapply grows_trans; eassumption|]. exists f. split; [reflexivity|]. eapply result_grows; [exact G2|apply (conj eq_refl (conj eq_refl eq_refl))|exact R1].
Qed.
Lemma option_all_len {A B} (g : A -> option B) l m : option_all (map g l) = Some m -> length m = length l.
Proof. revert m. induction l as [|a l IH]; intros m H; cbn in H; [injection H as <-; reflexivity|]. destruct (g a); [|discriminate]. destruct (option_all (map g l)) as [r|]; [|discriminate]. injection H as <-. cbn. f_equal. apply IH. reflexivity. Qed.
Lemma replace_inv o i v h h' : inv h -> cache_ok h -> f_replace nv o i v h = Some h' -> inv h' /\ cache_ok h' /\ grows h h' /\ h_tracks h' = h_tracks h.
Proof.
  intros I C H. unfold f_replace in H. destruct (nth_error (h_objs h) o) as [f|] eqn:O; [|discriminate]. destruct (option_all _) as [args|] eqn:E; [|discriminate]. injection H as <-.
  set (f' := mkFunc args (f_multi f) (f_max f) []).
  assert (G : grows h (mkHeap (h_objs h ++ [f']) (h_tracks h))).
  { split; [auto|]. intros k g K. exists g. split; [|repeat split]. cbn [h_objs]. rewrite nth_error_app1; [exact K|]. apply nth_error_Some. congruence. }
  assert (N : new_objs h (mkHeap (h_objs h ++ [f']) (h_tracks h))).
  { intros k g K. cbn [h_objs] in K. destruct (Nat.lt_ge_cases k (length (h_objs h))) as [L|L]; [rewrite nth_error_app1 in K by exact L; left; exists g; repeat split; auto|].
    rewrite nth_error_app2 in K by exact L. destruct (k - length (h_objs h))%nat as [|z]; cbn in K; [|destruct z; discriminate]. injection K as <-. auto. }
  split; [|split; [apply (cache_grows h _ G N C)|split; [exact G|reflexivity]]].
  destruct I as [I1 I2 I3 I4]. split; [exact I1| | |].
  - intros k j l I0. destruct (I2 k j l I0) as (X & Y & Z). repeat split; try assumption; apply (multi_grows h _ l G Z).
  - intros k g K. cbn [h_objs] in K. destruct (Nat.lt_ge_cases k (length (h_objs h))) as [L|L].
    + rewrite nth_error_app1 in K by exact L. destruct (I3 k g K) as [X Y]. split; [apply (multi_grows h _ _ G X)|exact Y].
    + rewrite nth_error_app2 in K by exact L. destruct (k - length (h_objs h))%nat as [|z]; cbn in K; [|destruct z; discriminate]. injection K as <-. destruct (I3 o f O) as [X Y]. cbn [f' f_multi f_args]. split; [apply (multi_grows h _ _ G X)|]. rewrite (option_all_len _ _ _ E). exact Y.
  - intros k K. destruct (I4 k K) as (p & g & P & E1). exists p, g. split; [|exact E1]. cbn [h_objs]. rewrite nth_error_app1; [exact P|]. apply nth_error_Some. congruence.
Qed.
Theorem reachable_inv h : reachable nv zero_test args0 max0 h -> inv h /\ cache_ok h.
Proof.
  intros R. induction R as [|n o i s h h' _ [I C] _ H|o i v h h' _ [I C] _ H].
  - split; [apply inv_fresh|]. intros o f i s H I0. destruct o as [|o]; cbn in H; [|destruct o; discriminate]. injection H as <-. destruct I0.
  - destruct (derive_inv n o i h s h' I C H) as (A & B & _). auto.
  - destruct (replace_inv o i v h h' I C H) as (A & B & _). auto.
Qed.
End Nv.
