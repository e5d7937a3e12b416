(** Proofs about the pass of disteval (NanModel): what cancelling and scheduling do, the invariant of a pass. *)
From Coq Require Import Permutation.
From Verif Require Import NanModel.
Section P.
Context {L G R V : Type}.
Variable nshifts : nat.
Variable lattices : nat -> L.
Variable genvecs : nat -> G.
Variable result : job L G R -> option V -> Prop.
Notation state := (state L G R V).
Notation request := (request L G R).
Notation sched_shifts := (schedule_shifts L G R V lattices genvecs).
Definition live (r : request) : bool := match r_cb _ _ _ r with Some _ => true | None => false end.
Definition nlive (l : list request) : nat := length (filter live l).
Notation tok := (r_token L G R).
Notation cb := (r_cb L G R).
Notation out := (out L G R V).
Notation next := (next L G R V).
Notation pend := (pend L G R V).
Notation tag := (tag L G R V).
Notation rnd := (rnd L G R V).
Notation defp := (defp L G R V).
Notation val := (val L G R V).
Notation todo := (todo L G R V).
Notation dead := (dead L G R V).
Notation kern := (j_kernel L G R).
Lemma nlive_app a b : nlive (a ++ b) = nlive a + nlive b.
Proof. unfold nlive. rewrite filter_app, app_length. reflexivity. Qed.
Lemma in_split_nth {A} (l : list A) k x : nth_error l k = Some x -> exists a b, l = a ++ x :: b /\ length a = k /\ remove_nth k l = a ++ b.
Proof.
  revert l; induction k as [|k IH]; intros [|y l] H; cbn in H; try discriminate.
  - injection H as ->. exists [], l. repeat split.
  - destruct (IH l H) as (a & b & -> & E & F). exists (y :: a), b. cbn [length app]. repeat split; [lia|].
    change (remove_nth (S k) (y :: a ++ x :: b)) with (y :: remove_nth k (a ++ x :: b)). rewrite F. reflexivity.
Qed.
Definition upto (a m i : nat) {A} (f : nat -> A) (g : nat -> nat -> A) : nat -> nat -> A := fun i' s' => if (Nat.eqb i i' && (Nat.leb a s' && Nat.ltb s' (a + m)))%bool then f s' else g i' s'.
Definition newreqs (st : state) (i : nat) (r : nat -> R) (w : nat -> nat) (a m : nat) : list request :=
  map (fun s => mkReq L G R (next st + (s - a)) (w s) (Some (mkJob L G R i (lattices i) (genvecs i) (r s) (defp st i), s))) (seq a m).
Lemma sched_shifts_spec i r w m : forall a (st : state), let st' := sched_shifts st i r w (seq a m) in
  out st' = out st ++ newreqs st i r w a m /\ next st' = next st + m /\ pend st' = (pend st + Z.of_nat m)%Z /\
  (forall i' s', tag st' i' s' = upto a m i (fun s => Some (next st + (s - a))) (tag st) i' s') /\
  (forall i' s', rnd st' i' s' = upto a m i (fun s => Some (r s)) (rnd st) i' s') /\
  defp st' = defp st /\ val st' = val st /\ todo st' = todo st /\ dead st' = dead st.
Proof.
  induction m as [|m IH]; intros a st; cbn zeta.
  - cbn [seq]. unfold sched_shifts, newreqs, upto. cbn [fold_left seq map]. rewrite app_nil_r, Nat.add_0_r, Z.add_0_r. repeat split; intros i' s'.
    + destruct (Nat.eqb i i'), (Nat.leb_spec a s'), (Nat.ltb_spec s' (a + 0)); cbn; try reflexivity; lia.
    + destruct (Nat.eqb i i'), (Nat.leb_spec a s'), (Nat.ltb_spec s' (a + 0)); cbn; try reflexivity; lia.
  - cbn [seq]. unfold sched_shifts. cbn [fold_left]. fold (sched_shifts (schedule_shift L G R V lattices genvecs st i a (r a) (w a)) i r w (seq (S a) m)).
    destruct (IH (S a) (schedule_shift L G R V lattices genvecs st i a (r a) (w a))) as (A & B & C & D & E & F & H & I & J). cbn zeta in *.
    rewrite A, B, C, F, H, I, J. unfold schedule_shift at 1 2 3 4. cbn [NanModel.out NanModel.next NanModel.pend NanModel.defp NanModel.val NanModel.todo NanModel.dead].
    split; [|split; [|split; [|split; [|split]]]].
    + unfold newreqs. cbn [seq map]. rewrite <- app_assoc. cbn [app]. f_equal. rewrite Nat.sub_diag, Nat.add_0_r. f_equal.
      apply map_ext_in. intros s Hs. apply in_seq in Hs. unfold schedule_shift; cbn [NanModel.next NanModel.defp]. f_equal. lia.
    + lia.
    + lia.
    + intros i' s'. rewrite D. unfold upto, schedule_shift; cbn [NanModel.next NanModel.tag]. unfold upd2.
      destruct (Nat.eqb_spec i i'); [|reflexivity]. cbn [andb].
      destruct (Nat.leb_spec (S a) s'), (Nat.ltb_spec s' (S a + m)), (Nat.leb_spec a s'), (Nat.ltb_spec s' (a + S m)), (Nat.eqb_spec a s'); cbn [andb]; try lia; try reflexivity; f_equal; lia.
    + intros i' s'. rewrite E. unfold upto, schedule_shift; cbn [NanModel.rnd]. unfold upd2.
      destruct (Nat.eqb_spec i i'); [|reflexivity]. cbn [andb].
      destruct (Nat.leb_spec (S a) s'), (Nat.ltb_spec s' (S a + m)), (Nat.leb_spec a s'), (Nat.ltb_spec s' (a + S m)), (Nat.eqb_spec a s'); cbn [andb]; try lia; try reflexivity; f_equal; congruence.
    + repeat split.
Qed.
Lemma nlive_newreqs st i r w a m : nlive (newreqs st i r w a m) = m.
Proof. unfold nlive, newreqs. rewrite <- (seq_length m a) at 2. generalize (seq a m). intros l. induction l as [|x l IH]; [reflexivity|]. cbn. f_equal. exact IH. Qed.
(** cancelling *)
Lemma silence_tok t r : tok (silence L G R t r) = tok r.
Proof. unfold silence. destruct (Nat.eqb _ _); reflexivity. Qed.
Lemma silence_other t r : tok r <> t -> silence L G R t r = r.
Proof. unfold silence. intros H. destruct (Nat.eqb_spec (tok r) t); [contradiction|reflexivity]. Qed.
Lemma map_silence_none t l : ~ In t (map tok l) -> map (silence L G R t) l = l.
Proof. intros H. rewrite <- (map_id l) at 2. apply map_ext_in. intros r Hr. apply silence_other. intros <-. apply H, in_map, Hr. Qed.
Lemma nlive_silence t l r : NoDup (map tok l) -> In r l -> tok r = t -> live r = true -> S (nlive (map (silence L G R t) l)) = nlive l.
Proof.
  intros N H E Lv. destruct (in_split _ _ H) as (a & b & ->). rewrite !map_app in *. cbn [map] in *. apply NoDup_remove_2 in N. rewrite in_app_iff in N.
  rewrite E in N. rewrite map_silence_none, map_silence_none by tauto. rewrite !nlive_app. unfold nlive at 2 4. cbn [filter]. rewrite Lv.
  unfold silence. rewrite E, Nat.eqb_refl. unfold live at 1. cbn [r_cb]. cbn [length]. unfold nlive. lia.
Qed.
(** the state apart from callbacks and counter *)
Definition same_data (a b : state) : Prop := next a = next b /\ tag a = tag b /\ rnd a = rnd b /\ defp a = defp b /\ val a = val b /\ todo a = todo b /\ dead a = dead b.
Lemma same_data_trans a b c : same_data a b -> same_data b c -> same_data a c.
Proof. unfold same_data. intros (A1&A2&A3&A4&A5&A6&A7) (B1&B2&B3&B4&B5&B6&B7). repeat split; etransitivity; eassumption. Qed.
Definition mine (i : nat) (r : request) (s : nat) : Prop := exists j, cb r = Some (j, s) /\ kern j = i.
Lemma cancel_shifts_spec i : forall ls (st : state), NoDup ls -> NoDup (map tok (out st)) -> pend st = Z.of_nat (nlive (out st)) ->
  (forall s, In s ls -> exists t, tag st i s = Some t) ->
  (forall s r, In s ls -> In r (out st) -> tag st i s = Some (tok r) -> mine i r s) ->
  (forall r s, In r (out st) -> mine i r s -> In s ls /\ tag st i s = Some (tok r)) ->
  let st' := cancel_shifts L G R V st i ls in
  same_data st' st /\ map tok (out st') = map tok (out st) /\ pend st' = Z.of_nat (nlive (out st')) /\
  (forall r s, In r (out st') -> ~ mine i r s) /\ (forall r, In r (out st') -> live r = true -> In r (out st)) /\
  (forall r, In r (out st) -> (forall s, ~ mine i r s) -> In r (out st')).
Proof.
  induction ls as [|s ls IH]; intros st ND N P T M1 M2; cbn zeta; unfold cancel_shifts; cbn [fold_left].
  - repeat split; auto. intros r s Hr Hm. destruct (M2 r s Hr Hm) as [[] _].
  - fold (cancel_shifts L G R V (match tag st i s with Some t => cancel L G R V st t | None => st end) i ls). destruct (T s (or_introl eq_refl)) as (t & Ht). rewrite Ht.
    inversion ND as [|s0 ls0 Ns ND']; subst. unfold cancel. destruct (existsb (fun r => Nat.eqb (tok r) t) (out st)) eqn:E.
    + apply existsb_exists in E. destruct E as (r0 & Hr0 & E). apply Nat.eqb_eq in E.
      assert (M0 : mine i r0 s) by (apply M1; [left; reflexivity|exact Hr0|rewrite Ht, E; reflexivity]). destruct M0 as (j0 & C0 & K0).
      assert (Lv : live r0 = true) by (unfold live; rewrite C0; reflexivity).
      pose proof (nlive_silence t (out st) r0 N Hr0 E Lv) as NL.
      assert (Tok : map tok (map (silence L G R t) (out st)) = map tok (out st)) by (rewrite map_map; apply map_ext; intros; apply silence_tok).
      assert (Sil : forall r, In r (map (silence L G R t) (out st)) -> live r = true -> In r (out st) /\ tok r <> t).
      { intros r Hr Hl. apply in_map_iff in Hr. destruct Hr as (r1 & <- & Hr1). destruct (Nat.eq_dec (tok r1) t) as [Et|Et].
        - exfalso. unfold silence, live in Hl. rewrite Et, Nat.eqb_refl in Hl. discriminate.
        - rewrite silence_other by exact Et. split; [exact Hr1|exact Et]. }
      assert (Keep : forall r, In r (out st) -> tok r <> t -> In r (map (silence L G R t) (out st))).
      { intros r Hr Et. apply in_map_iff. exists r. split; [apply silence_other, Et|exact Hr]. }
      assert (Uniq : forall r, In r (out st) -> tok r = t -> r = r0).
      { intros r Hr Et. destruct (in_split _ _ Hr0) as (a & b & Eo). rewrite Eo in N, Hr. rewrite map_app in N. cbn [map] in N. apply NoDup_remove_2 in N. rewrite in_app_iff in N.
        apply in_app_iff in Hr. destruct Hr as [Hr|[Hr|Hr]]; [|congruence|]; exfalso; apply N; [left|right]; rewrite E, <- Et; apply in_map, Hr. }
      set (st1 := mkSt L G R V (map (silence L G R t) (out st)) (next st) (pend st - 1)%Z (tag st) (rnd st) (defp st) (val st) (todo st) (dead st)).
      destruct (IH st1 ND') as (SD & TK & PN & NM & BK & FW).
      * cbn [st1 NanModel.out]. rewrite Tok. exact N.
      * cbn [st1 NanModel.out NanModel.pend]. rewrite P. lia.
      * intros s' Hs'. apply T. right; exact Hs'.
      * cbn [st1 NanModel.out NanModel.tag]. intros s' r Hs' Hr Hg. apply in_map_iff in Hr. destruct Hr as (r1 & <- & Hr1). rewrite silence_tok in Hg.
        pose proof (M1 s' r1 (or_intror Hs') Hr1 Hg) as Hm. destruct (Nat.eq_dec (tok r1) t) as [Et|Et]; [|rewrite silence_other by exact Et; exact Hm].
        exfalso. rewrite (Uniq r1 Hr1 Et) in Hm. destruct Hm as (j1 & C1 & _). rewrite C0 in C1. injection C1 as _ <-. contradiction.
      * cbn [st1 NanModel.out NanModel.tag]. intros r s' Hr Hm. assert (Hl : live r = true) by (destruct Hm as (j & Hc & _); unfold live; rewrite Hc; reflexivity).
        destruct (Sil r Hr Hl) as (Hr' & Et). destruct (M2 r s' Hr' Hm) as ([<-|Hs'] & Hg); [congruence|split; assumption].
      * split; [exact SD|]. split; [rewrite TK; exact Tok|]. split; [exact PN|]. split; [exact NM|]. split.
        -- intros r Hr Hl. apply (Sil r (BK r Hr Hl) Hl).
        -- intros r Hr Hn. apply FW; [|exact Hn]. apply Keep; [exact Hr|]. intros Et. rewrite (Uniq r Hr Et) in Hn. apply (Hn s). exists j0. split; assumption.
    + assert (NI : forall r, In r (out st) -> tok r <> t).
      { intros r Hr Et. assert (existsb (fun r => Nat.eqb (tok r) t) (out st) = true) by (apply existsb_exists; exists r; split; [exact Hr|apply Nat.eqb_eq, Et]). congruence. }
      apply IH; try assumption.
      * intros s' Hs'. apply T. right; exact Hs'.
      * intros s' r Hs'. apply M1. right; exact Hs'.
      * intros r s' Hr Hm. destruct (M2 r s' Hr Hm) as ([<-|Hs'] & Hg); [|split; assumption]. exfalso. apply (NI r Hr). congruence.
Qed.
(** ** the invariant *)
Variable st0 : state.
Definition sched (st : state) (i : nat) : Prop := In i (todo st0) /\ ~ In i (todo st).
Definition current (st : state) (i s : nat) (j : job L G R) : Prop := exists rho, rnd st i s = Some rho /\ j = mkJob L G R i (lattices i) (genvecs i) rho (defp st i).
Record inv (st : state) : Prop := {
  i_nodup : NoDup (map tok (out st));
  i_fresh : forall r, In r (out st) -> tok r < next st;
  i_pend : pend st = Z.of_nat (nlive (out st));
  i_todo : exists done, todo st0 = done ++ todo st;
  i_live : forall r j s, In r (out st) -> cb r = Some (j, s) -> s < nshifts /\ sched st (kern j) /\ tag st (kern j) s = Some (tok r) /\ current st (kern j) s j;
  i_tag : forall i s, sched st i -> s < nshifts -> exists t, tag st i s = Some t /\ t < next st;
  i_out : forall i s r, sched st i -> s < nshifts -> In r (out st) -> tag st i s = Some (tok r) -> mine i r s;
  i_val : forall i s, sched st i -> s < nshifts -> (exists r, In r (out st) /\ mine i r s) \/ (exists v j, val st i s = Some v /\ current st i s j /\ result j (Some v)) \/ (exists w, dead st w = true) }.
Hypothesis start : pass_start L G R V st0.
Lemma inv_start : inv st0.
Proof.
  destruct start as (A & B & C & D & E & F). constructor; auto.
  - intros r Hr. apply A, Hr.
  - rewrite C. assert (H : nlive (out st0) = 0); [|rewrite H; reflexivity]. clear B. induction (out st0) as [|r l IH]; [reflexivity|]. unfold nlive. cbn [filter].
    assert (Hl : live r = false) by (unfold live; rewrite (proj1 (A r (or_introl eq_refl))); reflexivity). rewrite Hl. apply IH. intros r' Hr'. apply A. right; exact Hr'.
  - exists []. reflexivity.
  - intros r j s Hr Hc. rewrite (proj1 (A r Hr)) in Hc. discriminate.
  - intros i s (H1 & H2). contradiction.
  - intros i s r (H1 & H2). contradiction.
  - intros i s (H1 & H2). contradiction.
Qed.
Lemma upto_in {A} m i (f : nat -> A) g s : s < m -> upto 0 m i f g i s = f s.
Proof. intros H. unfold upto. rewrite Nat.eqb_refl. destruct (Nat.leb_spec 0 s), (Nat.ltb_spec s (0 + m)); cbn [andb]; [reflexivity|lia|lia|lia]. Qed.
Lemma upto_other {A} a m i i' (f : nat -> A) g s : i' <> i -> upto a m i f g i' s = g i' s.
Proof. intros H. unfold upto. destruct (Nat.eqb_spec i i'); [congruence|reflexivity]. Qed.
(** scheduling a kernel none of whose requests is live *)
Lemma inv_schedule (st : state) i r w : 
  NoDup (map tok (out st)) -> (forall r, In r (out st) -> tok r < next st) -> pend st = Z.of_nat (nlive (out st)) -> (exists done, todo st0 = done ++ todo st) ->
  In i (todo st0) -> ~ In i (todo st) ->
  (forall r j s, In r (out st) -> cb r = Some (j, s) -> s < nshifts /\ sched st (kern j) /\ kern j <> i /\ tag st (kern j) s = Some (tok r) /\ current st (kern j) s j) ->
  (forall i' s, sched st i' -> i' <> i -> s < nshifts -> exists t, tag st i' s = Some t /\ t < next st) ->
  (forall i' s r, sched st i' -> i' <> i -> s < nshifts -> In r (out st) -> tag st i' s = Some (tok r) -> mine i' r s) ->
  (forall i' s, sched st i' -> i' <> i -> s < nshifts -> (exists r, In r (out st) /\ mine i' r s) \/ (exists v j, val st i' s = Some v /\ current st i' s j /\ result j (Some v)) \/ (exists w, dead st w = true)) ->
  inv (schedule_kernel L G R V nshifts lattices genvecs st i r w).
Proof.
  intros N F P T I1 I2 HL HT HO HV. unfold schedule_kernel.
  destruct (sched_shifts_spec i r w nshifts 0 st) as (A & B & C & D & E & FF & H & I & J). cbn zeta in *.
  set (st' := sched_shifts st i r w (seq 0 nshifts)) in *.
  assert (Sc : forall i', sched st' i' <-> sched st i') by (intros i'; unfold sched; rewrite I; tauto).
  assert (New : forall r', In r' (newreqs st i r w 0 nshifts) <-> exists s, s < nshifts /\ r' = mkReq L G R (next st + s) (w s) (Some (mkJob L G R i (lattices i) (genvecs i) (r s) (defp st i), s))).
  { intros r'. unfold newreqs. rewrite in_map_iff. split.
    - intros (s & <- & Hs). apply in_seq in Hs. exists s. split; [lia|]. f_equal. lia.
    - intros (s & Hs & ->). exists s. rewrite in_seq. split; [f_equal; lia|lia]. }
  assert (Cu : forall i' s j, i' <> i -> current st i' s j -> current st' i' s j).
  { intros i' s j Hi (rho & R1 & R2). exists rho. rewrite E, FF, upto_other by exact Hi. split; assumption. }
  constructor.
  - rewrite A, map_app. assert (EN : map tok (newreqs st i r w 0 nshifts) = seq (next st) nshifts).
    { unfold newreqs. rewrite map_map. cbn [r_token]. generalize (next st). intros b. assert (X : forall m a b, map (fun s => b + (s - a)) (seq a m) = seq b m).
      { clear. induction m as [|m IH]; intros a b; cbn [seq map]; [reflexivity|]. f_equal; [lia|]. rewrite <- (IH (S a) (S b)). apply map_ext_in. intros s Hs. apply in_seq in Hs. lia. }
      apply X. }
    rewrite EN. clear - N F. remember (map tok (out st)) as l eqn:El. assert (Hl : forall x, In x l -> x < next st) by (intros x Hx; subst l; apply in_map_iff in Hx; destruct Hx as (r & <- & Hr); auto). clear El F.
    induction l as [|x l IH]; [apply seq_NoDup|]. inversion N; subst. cbn [app]. constructor.
    + rewrite in_app_iff, in_seq. intros [K|K]; [contradiction|]. specialize (Hl x (or_introl eq_refl)). lia.
    + apply IH; [assumption|]. intros y Hy. apply Hl. right; exact Hy.
  - rewrite A, B. intros r' Hr. apply in_app_iff in Hr. destruct Hr as [Hr|Hr]; [specialize (F r' Hr); lia|]. apply New in Hr. destruct Hr as (s & Hs & ->). cbn [r_token]. lia.
  - rewrite A, C, P, nlive_app, nlive_newreqs. lia.
  - rewrite I. exact T.
  - intros r' j s. rewrite A. intros Hr Hc. apply in_app_iff in Hr. destruct Hr as [Hr|Hr].
    + destruct (HL r' j s Hr Hc) as (L1 & L2 & L3 & L4 & L5). split; [exact L1|]. split; [apply Sc, L2|]. split; [rewrite D, upto_other by exact L3; exact L4|apply Cu; assumption].
    + apply New in Hr. destruct Hr as (s' & Hs & ->). cbn [r_cb r_token] in *. injection Hc as <- <-. cbn [j_kernel]. split; [exact Hs|]. split; [apply Sc; split; assumption|].
      split; [rewrite D, upto_in by exact Hs; f_equal; lia|]. exists (r s'). rewrite E, FF, upto_in by exact Hs. split; reflexivity.
  - intros i' s Hs Hn. apply Sc in Hs. destruct (Nat.eq_dec i' i) as [->|Hi].
    + exists (next st + (s - 0)). rewrite D, upto_in by exact Hn. split; [reflexivity|lia].
    + destruct (HT i' s Hs Hi Hn) as (t & T1 & T2). exists t. rewrite D, upto_other by exact Hi. split; [exact T1|lia].
  - intros i' s r' Hs Hn Hr Hg. apply Sc in Hs. rewrite A in Hr. apply in_app_iff in Hr. destruct (Nat.eq_dec i' i) as [->|Hi].
    + rewrite D, upto_in in Hg by exact Hn. injection Hg as Hg. destruct Hr as [Hr|Hr]; [specialize (F r' Hr); lia|]. apply New in Hr. destruct Hr as (s' & Hs' & ->). cbn [r_token] in Hg.
      assert (s' = s) as -> by lia. eexists. split; [reflexivity|reflexivity].
    + rewrite D, upto_other in Hg by exact Hi. destruct Hr as [Hr|Hr]; [apply HO; assumption|]. exfalso. apply New in Hr. destruct Hr as (s' & Hs' & ->). cbn [r_token] in Hg.
      destruct (HT i' s Hs Hi Hn) as (t & T1 & T2). rewrite Hg in T1. injection T1 as <-. lia.
  - intros i' s Hs Hn. apply Sc in Hs. destruct (Nat.eq_dec i' i) as [->|Hi].
    + left. eexists. split; [rewrite A; apply in_app_iff; right; apply New; exists s; split; [exact Hn|reflexivity]|]. eexists. split; reflexivity.
    + destruct (HV i' s Hs Hi Hn) as [(r' & Hr & Hm)|[(v & j & V1 & V2 & V3)|Hd]].
      * left. exists r'. split; [rewrite A; apply in_app_iff; left; exact Hr|exact Hm].
      * right; left. exists v, j. rewrite H. split; [exact V1|]. split; [apply Cu; assumption|exact V3].
      * right; right. rewrite J. exact Hd.
Qed.
(** answers *)
Lemma take_parts (st : state) k x b : nth_error (out st) k = Some x -> exists a c, out st = a ++ x :: c /\ out (take L G R V st k b) = a ++ c.
Proof. intros H. destruct (in_split_nth _ _ _ H) as (a & c & E & _ & F). exists a, c. split; [exact E|exact F]. Qed.
Lemma in_take (a c : list request) x r : In r (a ++ c) -> In r (a ++ x :: c).
Proof. rewrite !in_app_iff. cbn. tauto. Qed.
Lemma in_take_back (a c : list request) x r : In r (a ++ x :: c) -> r <> x -> In r (a ++ c).
Proof. rewrite !in_app_iff. cbn. intros [H|[H|H]]; [tauto|congruence|tauto]. Qed.
Lemma nodup_tok_ne (a c : list request) x r : NoDup (map tok (a ++ x :: c)) -> In r (a ++ c) -> tok r <> tok x.
Proof. rewrite map_app. cbn [map]. intros N H E. apply NoDup_remove_2 in N. apply N. rewrite <- map_app, <- E. apply in_map, H. Qed.
Lemma nodup_take (a c : list request) x : NoDup (map tok (a ++ x :: c)) -> NoDup (map tok (a ++ c)).
Proof. rewrite !map_app. cbn [map]. apply NoDup_remove_1. Qed.
Lemma cb_dec_ne (r x : request) : cb x = None -> (exists j s, cb r = Some (j, s)) -> r <> x.
Proof. intros H (j & s & E) ->. congruence. Qed.
Theorem inv_step a b : inv a -> step L G R V nshifts lattices genvecs result a b -> inv b.
Proof.
  intros I S. destruct S as [st i rest r w E|st k t w E D|st k t w j s v E D Rs|st k t w j s r w' E D Rs|st k t w j s E D].
  - destruct (i_todo st I) as (done & Ed). assert (Nd : NoDup (todo st0)) by (destruct start as (_ & _ & _ & X & _); exact X).
    assert (Hi : In i (todo st0)) by (rewrite Ed, E; apply in_app_iff; right; left; reflexivity).
    assert (Hr : ~ In i rest). { rewrite Ed, E in Nd. apply NoDup_remove_2 in Nd. rewrite in_app_iff in Nd. tauto. }
    set (st' := mkSt L G R V (out st) (next st) (pend st) (tag st) (rnd st) (defp st) (val st) rest (dead st)).
    assert (Sc : forall i', sched st' i' -> i' <> i -> sched st i'). { intros i' (S1 & S2) Ni. split; [exact S1|]. rewrite E. intros [->|K]; [congruence|exact (S2 K)]. }
    assert (Sc' : forall i', sched st i' -> sched st' i' /\ i' <> i). { intros i' (S1 & S2). rewrite E in S2. split; [split; [exact S1|intros K; apply S2; right; exact K]|intros ->; apply S2; left; reflexivity]. }
    apply inv_schedule; unfold st'; cbn [NanModel.out NanModel.next NanModel.pend NanModel.todo]; fold st'.
    + apply I. + apply I. + apply I. + exists (done ++ [i]). rewrite Ed, E, <- app_assoc. reflexivity. + exact Hi. + exact Hr.
    + intros r' j s Hr' Hc. destruct (i_live st I r' j s Hr' Hc) as (L1 & L2 & L3 & L4). destruct (Sc' _ L2) as (L2' & L5). repeat split; try assumption; try apply L2'.
    + intros i' s Hs Ni Hn. apply (i_tag st I); [apply Sc; assumption|exact Hn].
    + intros i' s r' Hs Ni Hn. apply (i_out st I); [apply Sc; assumption|exact Hn].
    + intros i' s Hs Ni Hn. apply (i_val st I); [apply Sc; assumption|exact Hn].
  - destruct (take_parts st k _ false E) as (a & c & Eo & Et). pose proof (i_nodup st I) as N. rewrite Eo in N.
    constructor; rewrite ?Et; cbn [take NanModel.next NanModel.pend NanModel.tag NanModel.todo NanModel.val NanModel.dead].
    + apply nodup_take in N; exact N.
    + intros r Hr. apply (i_fresh st I). rewrite Eo. apply in_take, Hr.
    + rewrite (i_pend st I), Eo, !nlive_app. reflexivity.
    + apply I.
    + intros r j s Hr Hc. apply (i_live st I r j s); [rewrite Eo; apply in_take, Hr|exact Hc].
    + intros i s Hs Hn. apply (i_tag st I i s Hs Hn).
    + intros i s r Hs Hn Hr. apply (i_out st I i s r Hs Hn). rewrite Eo. apply in_take, Hr.
    + intros i s Hs Hn. destruct (i_val st I i s Hs Hn) as [(r & Hr & (j & M1 & M2))|[X|X]]; [left|right; left; exact X|right; right; exact X].
      exists r. split; [|exists j; split; assumption]. rewrite Eo in Hr. apply in_take_back in Hr; [exact Hr|]. intros ->. discriminate.
  - destruct (take_parts st k _ true E) as (a & c & Eo & Et). pose proof (i_nodup st I) as N. rewrite Eo in N.
    assert (Hx : In (mkReq L G R t w (Some (j, s))) (out st)) by (rewrite Eo; apply in_app_iff; right; left; reflexivity).
    destruct (i_live st I _ j s Hx eq_refl) as (L1 & L2 & L3 & L4).
    constructor; cbn [store NanModel.out NanModel.next NanModel.pend NanModel.tag NanModel.todo NanModel.val NanModel.dead]; rewrite ?Et; cbn [take NanModel.next NanModel.pend NanModel.tag NanModel.todo NanModel.val NanModel.dead].
    + apply nodup_take in N; exact N.
    + intros r Hr. apply (i_fresh st I). rewrite Eo. apply in_take, Hr.
    + rewrite (i_pend st I), Eo, !nlive_app. unfold nlive at 2. cbn [filter live r_cb length]. unfold nlive. lia.
    + apply I.
    + intros r j' s' Hr Hc. apply (i_live st I r j' s'); [rewrite Eo; apply in_take, Hr|exact Hc].
    + intros i' s' Hs Hn. apply (i_tag st I i' s' Hs Hn).
    + intros i' s' r Hs Hn Hr. apply (i_out st I i' s' r Hs Hn). rewrite Eo. apply in_take, Hr.
    + intros i' s' Hs Hn. destruct (Nat.eq_dec (kern j) i') as [<-|Ni]; [destruct (Nat.eq_dec s s') as [<-|Ns]|].
      * right; left. exists v, j. unfold upd2. rewrite !Nat.eqb_refl. cbn [andb]. split; [reflexivity|]. split; [exact L4|exact Rs].
      * destruct (i_val st I _ s' Hs Hn) as [(r & Hr & (j' & M1 & M2))|[X|X]]; [left| |right; right; exact X].
        -- exists r. split; [|exists j'; split; assumption]. rewrite Eo in Hr. apply in_take_back in Hr; [exact Hr|]. intros ->. cbn [r_cb] in M1. congruence.
        -- right; left. destruct X as (v' & j' & V1 & V2 & V3). exists v', j'. split; [|split; [exact V2|exact V3]]. unfold upd2. rewrite Nat.eqb_refl. apply Nat.eqb_neq in Ns. rewrite Ns. exact V1.
      * destruct (i_val st I i' s' Hs Hn) as [(r & Hr & (j' & M1 & M2))|[X|X]]; [left| |right; right; exact X].
        -- exists r. split; [|exists j'; split; assumption]. rewrite Eo in Hr. apply in_take_back in Hr; [exact Hr|]. intros ->. cbn [r_cb] in M1. congruence.
        -- right; left. destruct X as (v' & j' & V1 & V2 & V3). exists v', j'. split; [|split; [exact V2|exact V3]]. unfold upd2. apply Nat.eqb_neq in Ni. rewrite Ni. exact V1.
  - destruct (take_parts st k _ true E) as (a & c & Eo & Et). pose proof (i_nodup st I) as N. rewrite Eo in N.
    assert (Hx : In (mkReq L G R t w (Some (j, s))) (out st)) by (rewrite Eo; apply in_app_iff; right; left; reflexivity).
    destruct (i_live st I _ j s Hx eq_refl) as (L1 & L2 & L3 & L4). set (i := kern j) in *. unfold retry.
    destruct (cancel_shifts_spec i (seq 0 nshifts) (take L G R V st k true)) as (SD & TK & PN & NM & BK & FW).
    + apply seq_NoDup.
    + rewrite Et. apply nodup_take in N; exact N.
    + rewrite Et. cbn [take NanModel.pend]. rewrite (i_pend st I), Eo, !nlive_app. unfold nlive at 2. cbn [filter live r_cb length]. unfold nlive. lia.
    + intros s' Hs'. apply in_seq in Hs'. destruct (i_tag st I i s' L2) as (t' & T1 & _); [lia|]. exists t'. exact T1.
    + intros s' r' Hs' Hr' Hg. apply in_seq in Hs'. rewrite Et in Hr'. apply (i_out st I i s' r' L2); [lia|rewrite Eo; apply in_take, Hr'|exact Hg].
    + intros r' s' Hr' (j' & M1 & M2). rewrite Et in Hr'. destruct (i_live st I r' j' s') as (X1 & X2 & X3 & X4); [rewrite Eo; apply in_take, Hr'|exact M1|]. rewrite M2 in X3.
      split; [apply in_seq; lia|exact X3].
    + set (st1 := cancel_shifts L G R V (take L G R V st k true) i (seq 0 nshifts)) in *. destruct SD as (D1 & D2 & D3 & D4 & D5 & D6 & D7).
      cbn [take NanModel.next NanModel.tag NanModel.rnd NanModel.defp NanModel.val NanModel.todo NanModel.dead] in D1, D2, D3, D4, D5, D6, D7.
      set (st2 := mkSt L G R V (out st1) (next st1) (pend st1) (tag st1) (rnd st1) (upd1 (defp st1) i (reduce (defp st1 i))) (val st1) (todo st1) (dead st1)).
      assert (Sc : forall i', sched st2 i' <-> sched st i') by (intros i'; unfold sched, st2; cbn [NanModel.todo]; rewrite D6; tauto).
      assert (Cu : forall i' s' j', i' <> i -> current st i' s' j' -> current st2 i' s' j').
      { intros i' s' j' Ni (rho & R1 & R2). exists rho. unfold st2; cbn [NanModel.rnd NanModel.defp]. rewrite D3, D4. unfold upd1. destruct (Nat.eqb_spec i i'); [congruence|]. split; assumption. }
      assert (Old : forall r', In r' (out st1) -> live r' = true -> In r' (out st)) by (intros r' Hr' Hl; rewrite Eo; apply in_take; rewrite <- Et; apply BK; assumption).
      apply inv_schedule.
      * unfold st2; cbn [NanModel.out]. rewrite TK, Et. apply nodup_take in N; exact N.
      * unfold st2; cbn [NanModel.out NanModel.next]. intros r' Hr'. rewrite D1. assert (X : In (tok r') (map tok (out st1))) by (apply in_map, Hr'). rewrite TK, Et in X. apply in_map_iff in X. destruct X as (r1 & <- & Hr1).
        apply (i_fresh st I). rewrite Eo. apply in_take, Hr1.
      * exact PN.
      * unfold st2; cbn [NanModel.todo]. rewrite D6. apply I.
      * apply L2.
      * unfold st2; cbn [NanModel.todo]. rewrite D6. apply L2.
      * unfold st2 at 1; cbn [NanModel.out]. intros r' j' s' Hr' Hc. assert (Hl : live r' = true) by (unfold live; rewrite Hc; reflexivity).
        destruct (i_live st I r' j' s' (Old r' Hr' Hl) Hc) as (X1 & X2 & X3 & X4). assert (Ni : kern j' <> i) by (intros Ei; apply (NM r' s' Hr'); exists j'; split; assumption).
        split; [exact X1|]. split; [apply Sc, X2|]. split; [exact Ni|]. split; [unfold st2; cbn [NanModel.tag]; rewrite D2; exact X3|apply Cu; assumption].
      * intros i' s' Hs Ni Hn. apply Sc in Hs. unfold st2; cbn [NanModel.tag NanModel.next]. rewrite D1, D2. apply (i_tag st I i' s' Hs Hn).
      * intros i' s' r' Hs Ni Hn Hr Hg. apply Sc in Hs. unfold st2 in Hr, Hg; cbn [NanModel.tag NanModel.out] in Hr, Hg. rewrite D2 in Hg.
        (* the request with this token in st *)
        assert (X : In (tok r') (map tok (out st1))) by (apply in_map, Hr). rewrite TK, Et in X. apply in_map_iff in X. destruct X as (r1 & E1 & Hr1).
        assert (M : mine i' r1 s') by (apply (i_out st I i' s' r1 Hs Hn); [rewrite Eo; apply in_take, Hr1|rewrite E1; exact Hg]).
        assert (K : In r1 (out st1)). { apply FW; [rewrite Et; exact Hr1|]. intros s'' (j2 & Q1 & Q2). destruct M as (j1 & P1 & P2). rewrite P1 in Q1. injection Q1 as <- <-. congruence. }
        assert (Er : r1 = r'); [|rewrite <- Er; exact M].
        assert (ND1 : NoDup (map tok (out st1))) by (rewrite TK, Et; apply nodup_take in N; exact N).
        clear - ND1 K Hr E1. induction (out st1) as [|x l IH]; [contradiction|]. cbn [map] in ND1. inversion ND1 as [|x0 l0 NI ND2]; subst. destruct K as [->|K], Hr as [->|Hr]; try reflexivity.
        -- exfalso. apply NI. rewrite E1. apply in_map, Hr.
        -- exfalso. apply NI. rewrite <- E1. apply in_map, K.
        -- apply IH; assumption.
      * intros i' s' Hs Ni Hn. apply Sc in Hs. destruct (i_val st I i' s' Hs Hn) as [(r' & Hr & (j' & M1 & M2))|[X|X]].
        -- left. exists r'. split; [|exists j'; split; assumption]. unfold st2; cbn [NanModel.out]. apply FW.
           ++ rewrite Et. rewrite Eo in Hr. apply in_take_back in Hr; [exact Hr|]. intros ->. cbn [r_cb] in M1. injection M1 as <- <-. apply Ni. rewrite <- M2. reflexivity.
           ++ intros s'' (j2 & Q1 & Q2). rewrite M1 in Q1. injection Q1 as <- <-. congruence.
        -- right; left. destruct X as (v' & j' & V1 & V2 & V3). exists v', j'. unfold st2 at 1; cbn [NanModel.val]. rewrite D5. split; [exact V1|]. split; [apply Cu; assumption|exact V3].
        -- right; right. unfold st2; cbn [NanModel.dead]. rewrite D7. exact X.
  - destruct (take_parts st k _ true E) as (a & c & Eo & Et). pose proof (i_nodup st I) as N. rewrite Eo in N.
    constructor; cbn [kill_reader NanModel.out NanModel.next NanModel.pend NanModel.tag NanModel.todo NanModel.val NanModel.dead]; rewrite ?Et; cbn [take NanModel.next NanModel.pend NanModel.tag NanModel.todo NanModel.val NanModel.dead].
    + apply nodup_take in N; exact N.
    + intros r Hr. apply (i_fresh st I). rewrite Eo. apply in_take, Hr.
    + rewrite (i_pend st I), Eo, !nlive_app. unfold nlive at 2. cbn [filter live r_cb length]. unfold nlive. lia.
    + apply I.
    + intros r j' s' Hr Hc. apply (i_live st I r j' s'); [rewrite Eo; apply in_take, Hr|exact Hc].
    + intros i' s' Hs Hn. apply (i_tag st I i' s' Hs Hn).
    + intros i' s' r Hs Hn Hr. apply (i_out st I i' s' r Hs Hn). rewrite Eo. apply in_take, Hr.
    + intros i' s' Hs Hn. right; right. exists w. unfold upd1. rewrite Nat.eqb_refl. reflexivity.
Qed.
Theorem inv_steps n b : steps L G R V nshifts lattices genvecs result n st0 b -> inv b.
Proof. intros H. pose proof inv_start as I0. remember st0 as a eqn:Ea in H. induction H as [s|n s t u H IH S]; subst; [exact I0|]. exact (inv_step t u (IH eq_refl) S). Qed.
End P.
