(** C90: the prefactor in the generated C++ code. *)
From Coq Require Import QArith Qcanon Lia.
From Verif Require Import PolyProofs.
From Verif Require Export PrefModel.
Local Open Scope Z_scope.
(** * Specification *)
Section Spec.
Variable F : Fld.
(** the coefficient of the monomial with the exponents [ks] *)
Definition coefficient (ts : list (list Z * F)) (ks : list Z) : F := sumF (map snd (filter (fun t => if list_eq_dec Z.eq_dec (fst t) ks then true else false) ts)).
(** the coefficient of a nested series at the orders [ks]: content[k - order_min] at each level, zero outside of its range *)
Fixpoint order_of (ks : list Z) (v : cval F) : F :=
  match ks, v with
  | [], CNum c => c
  | k :: ks', CSeries a b l _ _ => if (a <=? k) && (k <=? b) then match nth_error l (Z.to_nat (k - a)) with Some u => order_of ks' u | None => f0 end else f0
  | _, _ => f0
  end.
(** the series in the given regulators, truncated above the given orders, at every level *)
Fixpoint series_in (regs : list string) (os : list Z) (v : cval F) : Prop :=
  match regs, os, v with
  | [], [], CNum _ => True
  | r :: regs', o :: os', CSeries a b l t n => b = o /\ t = true /\ n = r /\ Forall (series_in regs' os') l
  | _, _, _ => False
  end.
(** * Proofs *)
Fixpoint print (d : nat) (v : cval F) : list (token F) :=
  match d, v with
  | O, CNum c => [LB; TCode c; RB]
  | S d', CSeries a b l t n => [LB; TInt a; Comma; TInt b; Comma; LB] ++ join [Comma] (map (print d') l) ++ [RB; Comma; TBool t; Comma; TStr n; RB]
  | _, _ => []
  end.
Fixpoint dok (d : nat) (v : cval F) : Prop :=
  match d, v with O, CNum _ => True | S d', CSeries _ _ l _ _ => l <> [] /\ Forall (dok d') l | _, _ => False end.
Lemma print_ne d v : dok d v -> (1 <= length (print d v))%nat.
Proof. destruct d, v; cbn; intros H; try contradiction; lia. Qed.
Lemma join_length (l : list (list (token F))) : Forall (fun x => (1 <= length x)%nat) l -> (length l <= length (join [Comma] l))%nat.
Proof.
  induction 1 as [|x l Hx H IH]; [cbn; lia|]. destruct l as [|y l]; [cbn [join length]; lia|]. change (join [Comma] (x :: y :: l)) with (x ++ [Comma] ++ join [Comma] (y :: l)). rewrite !app_length. cbn [length] in *. lia.
Qed.
Lemma read_elements_ok rd pr (l : list (cval F)) : (forall v r, In v l -> rd (pr v ++ r) = Some (v, r)) -> l <> [] -> forall fuel r, (length l <= fuel)%nat ->
  read_elements rd fuel (join [Comma] (map pr l) ++ RB :: r) = Some (l, r).
Proof.
  induction l as [|v l IH]; intros Hrd Ne fuel r Hf; [congruence|]. destruct fuel as [|fuel]; [cbn in Hf; lia|]. cbn [read_elements]. destruct l as [|w l].
  - cbn [map join]. rewrite Hrd by (left; reflexivity). reflexivity.
  - change (join [Comma] (map pr (v :: w :: l))) with (pr v ++ [Comma] ++ join [Comma] (map pr (w :: l))). rewrite <- !app_assoc. rewrite Hrd by (left; reflexivity). cbn [app].
    rewrite IH; [reflexivity|intros; apply Hrd; right; assumption|discriminate|cbn in *; lia].
Qed.
Lemma read_print d : forall v r, dok d v -> read d (print d v ++ r) = Some (v, r).
Proof.
  induction d as [|d IH]; intros [c|a b l t n] r H; try contradiction; [reflexivity|]. destruct H as (Ne & H). cbn [print read]. cbn [app]. rewrite <- app_assoc. cbn [app].
  rewrite (read_elements_ok (read d) (print d) l); [reflexivity| |exact Ne|].
  - intros v r' Hv. apply IH. rewrite Forall_forall in H. apply H, Hv.
  - rewrite app_length. pose proof (join_length (map (print d) l)) as J. rewrite map_length in J. assert (K : (length l <= length (join [Comma] (map (print d) l)))%nat); [apply J|lia].
    apply Forall_map. eapply Forall_impl; [|exact H]. intros v. apply print_ne.
Qed.
Lemma range_length a b : length (range a b) = Z.to_nat (b - a).
Proof. unfold range. rewrite map_length, seq_length. reflexivity. Qed.
Lemma nth_range a b j : (j < Z.to_nat (b - a))%nat -> nth_error (range a b) j = Some (a + Z.of_nat j).
Proof. intros H. unfold range. rewrite nth_error_map. rewrite (nth_error_nth' _ 0%nat) by (rewrite seq_length; exact H). rewrite seq_nth by exact H. reflexivity. Qed.
Lemma range_cons a b : a < b -> range a b = a :: range (a + 1) b.
Proof.
  intros H. unfold range. replace (Z.to_nat (b - a)) with (S (Z.to_nat (b - (a + 1)))) by lia. cbn [seq map]. f_equal; [lia|]. rewrite <- seq_shift, map_map. apply map_ext. intros j. lia.
Qed.
Lemma range_nil a b : b <= a -> range a b = [].
Proof. intros H. unfold range. replace (Z.to_nat (b - a)) with 0%nat by lia. reflexivity. Qed.
Lemma fold_min_range : forall n a b m, Z.to_nat (b - a) = n -> m <= a -> fold_left Z.min (range a b) m = m.
Proof. induction n as [|n IH]; intros a b m E H; [rewrite range_nil by lia; reflexivity|]. rewrite range_cons by lia. cbn [fold_left]. rewrite Z.min_l by lia. apply (IH (a + 1) b); lia. Qed.
Lemma fold_max_range : forall n a b m, Z.to_nat (b - a) = n -> m < a -> fold_left Z.max (range a b) m = if a <? b then b - 1 else m.
Proof.
  induction n as [|n IH]; intros a b m E H; destruct (Z.ltb_spec a b); try lia; [rewrite range_nil by lia; reflexivity|]. rewrite range_cons by lia. cbn [fold_left]. rewrite Z.max_r by lia. rewrite (IH (a + 1) b) by lia.
  destruct (Z.ltb_spec (a + 1) b); lia.
Qed.
Lemma lowest_range a b : a < b -> lowest (range a b) = a.
Proof. intros H. rewrite range_cons by exact H. cbn [lowest]. apply (fold_min_range (Z.to_nat (b - (a + 1)))); lia. Qed.
Lemma highest_range a b : a < b -> highest (range a b) = b - 1.
Proof. intros H. rewrite range_cons by exact H. cbn [highest]. rewrite (fold_max_range (Z.to_nat (b - (a + 1)))) by lia. destruct (Z.ltb_spec (a + 1) b); lia. Qed.
Lemma fold_min_le ks : forall m, fold_left Z.min ks m <= m /\ forall k, In k ks -> fold_left Z.min ks m <= k.
Proof.
  induction ks as [|a ks IH]; intros m; cbn [fold_left]; [split; [lia|intros k []]|]. destruct (IH (Z.min m a)) as (H1 & H2). split; [lia|]. intros k [<-|H]; [lia|apply H2, H].
Qed.
Lemma lowest_le ks k : In k ks -> lowest ks <= k.
Proof. destruct ks as [|a ks]; [intros []|]. cbn [lowest]. destruct (fold_min_le ks a) as (H1 & H2). intros [<-|H]; [exact H1|apply H2, H]. Qed.
Lemma sequence_spec {A} (l : list (option A)) r : sequence l = Some r -> l = map Some r.
Proof. revert r. induction l as [|[a|] l IH]; intros r H; cbn in H; [injection H as <-; reflexivity| |discriminate]. destruct (sequence l) as [b|]; [|discriminate]. injection H as <-. cbn. f_equal. apply IH. reflexivity. Qed.
Lemma sequence_map {A} (r : list A) : sequence (map Some r) = Some r.
Proof. induction r as [|a r IH]; [reflexivity|]. cbn. rewrite IH. reflexivity. Qed.
Lemma coefficient_collected ts k ks : Forall (fun t : list Z * F => fst t <> []) ts -> coefficient (collected k ts) ks = coefficient ts (k :: ks).
Proof.
  intros H. unfold coefficient, collected. induction H as [|[e c] ts He H IH]; [reflexivity|]. cbn [fst] in He. destruct e as [|x e]; [congruence|]. cbn [filter fst hd].
  destruct (Z.eqb_spec x k) as [->|Hx].
  - cbn [map filter fst tl snd]. destruct (list_eq_dec Z.eq_dec e ks) as [->|Hn]; destruct (list_eq_dec Z.eq_dec (k :: _) (k :: ks)) as [E|E]; try congruence. cbn [map sumF snd]. rewrite IH. reflexivity.
  - destruct (list_eq_dec Z.eq_dec (x :: e) (k :: ks)) as [E|E]; [congruence|exact IH].
Qed.
Lemma coefficient_low ts k ks : (forall t, In t ts -> hd 0 (fst t) <> k) -> coefficient ts (k :: ks) = f0.
Proof.
  intros H. unfold coefficient. induction ts as [|[e c] ts IH]; [reflexivity|]. cbn [filter fst]. destruct (list_eq_dec Z.eq_dec e (k :: ks)) as [->|Hn]; [|apply IH; intros t Ht; apply H; right; exact Ht].
  exfalso. apply (H _ (or_introl eq_refl)). reflexivity.
Qed.
Lemma collected_length k ts n : Forall (fun t : list Z * F => length (fst t) = S n) ts -> Forall (fun t : list Z * F => length (fst t) = n) (collected k ts).
Proof. intros H. unfold collected. apply Forall_map, Forall_forall. intros t Ht. apply filter_In in Ht as (Ht & _). rewrite Forall_forall in H. specialize (H t Ht). cbn [fst]. destruct (fst t); cbn in *; lia. Qed.
(** the value written for a nested polynomial *)
Fixpoint value_of (regs : list string) (e : npoly F) : cval F :=
  match regs, e with
  | r :: rest, NPoly terms tr => CSeries (lowest (map fst terms)) (highest (map fst terms)) (map (fun t => value_of rest (snd t)) terms) (is_truncated tr) r
  | _, Coef c => CNum c
  | [], NPoly _ _ => CNum f0
  end.
(** nested polynomials with the right depth and at least one term at each level *)
Fixpoint shaped (d : nat) (e : npoly F) : Prop :=
  match d, e with O, Coef _ => True | S d', NPoly terms _ => terms <> [] /\ Forall (fun t => shaped d' (snd t)) terms | _, _ => False end.
Lemma join_codes (cs : list F) : cs <> [] -> [LB] ++ join [RB; Comma; LB] (map (fun c => [TCode c]) cs) ++ [RB] = join [Comma] (map (fun c => [LB; TCode c; RB]) cs).
Proof.
  induction cs as [|c cs IH]; intros Ne; [congruence|]. destruct cs as [|c' cs]; [reflexivity|].
  change (join [RB; Comma; LB] (map (fun c => [TCode c]) (c :: c' :: cs))) with ([TCode c] ++ [RB; Comma; LB] ++ join [RB; Comma; LB] (map (fun c => [TCode c]) (c' :: cs))).
  change (join [Comma] (map (fun c => [LB; TCode c; RB]) (c :: c' :: cs))) with ([LB; TCode c; RB] ++ [Comma] ++ join [Comma] (map (fun c => [LB; TCode c; RB]) (c' :: cs))). rewrite <- IH by discriminate. cbn [app]. reflexivity.
Qed.
Lemma write_print regs : forall e, regs <> [] -> shaped (length regs) e -> write regs e = Some (print (length regs) (value_of regs e)) /\ dok (length regs) (value_of regs e).
Proof.
  induction regs as [|r rest IH]; intros e Ne Hs; [congruence|]. cbn [length shaped] in Hs. destruct e as [c|terms tr]; [contradiction|]. destruct Hs as (Nt & Hs). destruct rest as [|r' rest].
  - assert (C : exists cs, map (fun t => value_of [] (snd t)) terms = map CNum cs /\ map (fun t => coefficient_code (snd t)) terms = map Some (map (fun c => [TCode c]) cs) /\ cs <> []).
    { clear IH. induction terms as [|[k e] terms IHt]; [congruence|]. apply Forall_cons_iff in Hs as (H1 & Hs). destruct e as [c|]; [|contradiction]. destruct terms as [|t terms]; [exists [c]; repeat split; discriminate|].
      destruct IHt as (cs & E1 & E2 & _); [discriminate|exact Hs|]. exists (c :: cs). split; [exact (f_equal (cons (CNum c)) E1)|]. split; [exact (f_equal (cons (Some [TCode c])) E2)|discriminate]. }
    destruct C as (cs & E1 & E2 & Nc). change (value_of [r] (NPoly terms tr)) with (CSeries (lowest (map fst terms)) (highest (map fst terms)) (map (fun t => value_of [] (snd t)) terms) (is_truncated tr) r). rewrite E1. cbn [write length print]. rewrite E2, sequence_map. split.
    + f_equal. rewrite !map_map. cbn [print]. rewrite <- (join_codes cs Nc). rewrite <- !app_assoc. cbn [app]. reflexivity.
    + cbn [dok]. split; [destruct cs; [congruence|discriminate]|]. apply Forall_map, Forall_forall. intros c _. exact I.
  - assert (Q : map (fun t => write (r' :: rest) (snd t)) terms = map Some (map (fun t => print (length (r' :: rest)) (value_of (r' :: rest) (snd t))) terms) /\ Forall (fun t => dok (length (r' :: rest)) (value_of (r' :: rest) (snd t))) terms).
    { clear Nt. induction Hs as [|t terms Ht Hs IHt]; [split; constructor|]. destruct (IH (snd t)) as (E & D); [discriminate|exact Ht|]. destruct IHt as (A & B). split; [|constructor; assumption]. cbn [map] in *. rewrite E, A. reflexivity. }
    destruct Q as (Q1 & Q2). change (write (r :: r' :: rest) (NPoly terms tr)) with
      (match sequence (map (fun t => write (r' :: rest) (snd t)) terms) with Some body => Some ([LB; TInt (lowest (map fst terms)); Comma; TInt (highest (map fst terms)); Comma; LB] ++ join [Comma] body ++ [RB; Comma; TBool (is_truncated tr); Comma; TStr r; RB]) | None => None end).
    rewrite Q1, sequence_map. split.
    + f_equal. change (value_of (r :: r' :: rest) (NPoly terms tr)) with (CSeries (lowest (map fst terms)) (highest (map fst terms)) (map (fun t => value_of (r' :: rest) (snd t)) terms) (is_truncated tr) r). cbn [print length]. rewrite map_map. reflexivity.
    + split; [destruct terms; [congruence|discriminate]|]. apply Forall_map. exact Q2.
Qed.
Lemma map_fst_combine {A B} (a : list A) (b : list B) : length a = length b -> map fst (combine a b) = a.
Proof. revert b. induction a as [|x a IH]; intros [|y b] H; try discriminate; [reflexivity|]. cbn. f_equal. apply IH. cbn in H. lia. Qed.
Lemma map_snd_combine {A B C} (f : B -> C) (a : list A) (b : list B) : length a = length b -> map (fun t => f (snd t)) (combine a b) = map f b.
Proof. revert b. induction a as [|x a IH]; intros [|y b] H; try discriminate; [reflexivity|]. cbn. f_equal. apply IH. cbn in H. lia. Qed.
Lemma nested_ok os : forall regs ts N, length regs = length os -> Forall (fun t : list Z * F => length (fst t) = length os) ts -> to_nested os ts = Some N ->
  shaped (length regs) N /\ constructed (value_of regs N) = true /\ series_in regs os (value_of regs N) /\
  forall ks, length ks = length os -> order_of ks (value_of regs N) = if forallb (fun p => fst p <=? snd p) (combine ks os) then coefficient ts ks else f0.
Proof.
  induction os as [|o os IH]; intros regs ts N Lr W H.
  - destruct regs; [|discriminate]. cbn [to_nested] in H. injection H as <-. split; [exact I|]. split; [reflexivity|]. split; [exact I|]. intros [|k ks] Lk; [|discriminate]. cbn [value_of order_of combine forallb]. unfold coefficient.
    f_equal. f_equal. clear -W. induction W as [|[e c] ts We W IHt]; [reflexivity|]. cbn [fst] in We. destruct e; [|discriminate]. cbn [filter fst]. destruct (list_eq_dec Z.eq_dec [] []); [|congruence]. cbn [map]. f_equal. exact IHt.
  - destruct regs as [|r regs]; [discriminate|]. cbn [to_nested] in H. set (lo := lowest (map (fun t => hd 0 (fst t)) ts)) in *. destruct (range lo (o + 1)) as [|p0 ps] eqn:Er; [discriminate|]. rewrite <- Er in H.
    assert (Lt : lo < o + 1). { destruct (Z_lt_le_dec lo (o + 1)); [assumption|]. rewrite range_nil in Er by assumption. discriminate. } clear p0 ps Er.
    destruct (sequence _) as [cs|] eqn:Es; [|discriminate]. injection H as <-. apply sequence_spec in Es.
    assert (Lc : length (range lo (o + 1)) = length cs) by (apply (f_equal (@length _)) in Es; rewrite !map_length in Es; exact Es).
    assert (Hc : forall j c, nth_error cs j = Some c -> to_nested os (collected (lo + Z.of_nat j) ts) = Some c).
    { intros j c Hj. assert (Hl : (j < length cs)%nat) by (apply nth_error_Some; congruence). pose proof (f_equal (fun l => nth_error l j) Es) as E. cbn beta in E. rewrite !nth_error_map in E. rewrite range_length in Lc. rewrite nth_range in E by lia. rewrite Hj in E. cbn in E. congruence. }
    assert (Hall : forall c, In c cs -> exists j, nth_error cs j = Some c) by (intros c; apply In_nth_error).
    assert (IHc : forall j c, nth_error cs j = Some c -> shaped (length regs) c /\ constructed (value_of regs c) = true /\ series_in regs os (value_of regs c) /\
      forall ks, length ks = length os -> order_of ks (value_of regs c) = if forallb (fun p => fst p <=? snd p) (combine ks os) then coefficient (collected (lo + Z.of_nat j) ts) ks else f0).
    { intros j c Hj. apply IH; [cbn in Lr; lia|apply collected_length, W|apply Hc, Hj]. }
    assert (EV : value_of (r :: regs) (NPoly (combine (range lo (o + 1)) cs) None) = CSeries lo o (map (value_of regs) cs) true r).
    { match goal with |- value_of _ (NPoly ?tt _) = _ => change (value_of (r :: regs) (NPoly tt None)) with (CSeries (lowest (map fst tt)) (highest (map fst tt)) (map (fun t => value_of regs (snd t)) tt) true r) end. rewrite map_fst_combine by exact Lc. rewrite lowest_range, highest_range by exact Lt. rewrite (map_snd_combine (value_of regs)) by exact Lc. f_equal. lia. }
    rewrite EV. rewrite range_length in Lc. split; [|split; [|split]].
    + cbn [length shaped]. split; [destruct cs; [cbn in Lc; lia|]; rewrite range_cons by exact Lt; discriminate|]. apply Forall_forall. intros [p c] Hin. apply in_combine_r in Hin. cbn [snd]. apply Hall in Hin as (j & Hj). apply (IHc j c Hj).
    + cbn [constructed]. rewrite map_length. apply andb_true_iff. split; [apply andb_true_iff; split; [apply Z.leb_le; lia|apply Z.eqb_eq; lia]|]. apply forallb_forall. intros v Hv. apply in_map_iff in Hv as (c & <- & Hin). apply Hall in Hin as (j & Hj). apply (IHc j c Hj).
    + cbn [series_in]. repeat split. apply Forall_map, Forall_forall. intros c Hin. apply Hall in Hin as (j & Hj). apply (IHc j c Hj).
    + intros [|k ks] Lk; [discriminate|]. cbn [order_of combine forallb fst snd]. destruct (Z.leb_spec k o) as [Hk|Hk]; [|rewrite andb_false_r; reflexivity]. rewrite andb_true_r. cbn [andb].
      destruct (Z.leb_spec lo k) as [Hl|Hl].
      * rewrite nth_error_map. destruct (nth_error cs (Z.to_nat (k - lo))) as [c|] eqn:Ec; [|apply nth_error_None in Ec; lia]. cbn [option_map]. destruct (IHc _ c Ec) as (_ & _ & _ & Hv). rewrite Hv by (cbn in Lk; lia).
        replace (lo + Z.of_nat (Z.to_nat (k - lo))) with k by lia. rewrite coefficient_collected; [reflexivity|]. eapply Forall_impl; [|exact W]. cbn. intros t Ht E. rewrite E in Ht. discriminate.
      * rewrite coefficient_low; [destruct (forallb _ _); reflexivity|]. intros t Ht E. assert (lo <= k); [|lia]. apply lowest_le. apply in_map_iff. exists t. auto.
Qed.
End Spec.
Arguments coefficient {F}. Arguments order_of {F}. Arguments series_in {F}.
(** the generated function returns the nested series whose coefficient at every combination of orders up to the required ones is that of the
    expansion; all series are in the right regulator, end at the required order and are marked as truncated; no constructor throws *)
Theorem C90_prefactor : forall (F : Fld) (regs : list string) (os : list Z) (ts : list (list Z * F)) N,
  regs <> [] -> length regs = length os -> Forall (fun t => length (fst t) = length os) ts -> to_nested os ts = Some N ->
  exists code v, write regs N = Some code /\ read (length regs) code = Some (v, []) /\ constructed v = true /\ series_in regs os v /\
    (forall ks, length ks = length os -> Forall2 Z.le ks os -> order_of ks v = coefficient ts ks) /\
    (forall ks, length ks = length os -> ~ Forall2 Z.le ks os -> order_of ks v = f0).
Proof.
  intros F regs os ts N Ne Lr W H. destruct (nested_ok F os regs ts N Lr W H) as (S & C & Sh & V). destruct (write_print F regs N Ne S) as (E & D). exists (print F (length regs) (value_of F regs N)), (value_of F regs N).
  assert (B : forall ks, length ks = length os -> forallb (fun p => fst p <=? snd p) (combine ks os) = true <-> Forall2 Z.le ks os).
  { clear. induction ks as [|k ks IH] in os |- *; destruct os as [|o os]; intros L; try discriminate; cbn [combine forallb fst snd]; [split; [constructor|reflexivity]|].
    rewrite andb_true_iff, Z.leb_le, IH by (cbn in L; lia). split; [intros (A & B); constructor; assumption|intros Q; inversion Q; auto]. }
  split; [exact E|]. split; [rewrite <- (app_nil_r (print F _ _)); apply read_print, D|]. split; [exact C|]. split; [exact Sh|]. split; intros ks L Hk; rewrite V by exact L; specialize (B ks L).
  - rewrite (proj2 B Hk). reflexivity.
  - destruct (forallb _ _); [|reflexivity]. exfalso. apply Hk, B. reflexivity.
Qed.
Print Assumptions C90_prefactor.
(** the conversion succeeds if no required order is negative and the expansion contains no higher orders *)
Theorem C90_succeeds : forall (F : Fld) (os : list Z) (ts : list (list Z * F)), Forall (fun o => 0 <= o) os -> Forall (fun t => Forall2 Z.le (fst t) os) ts -> exists N, to_nested os ts = Some N.
Proof.
  intros F os. induction os as [|o os IH]; intros ts Ho Ht; [eexists; reflexivity|]. apply Forall_cons_iff in Ho as (Ho1 & Ho). cbn [to_nested]. set (lo := lowest _).
  assert (L : lo <= o). { unfold lo. destruct ts as [|t ts]; [exact Ho1|]. apply Forall_cons_iff in Ht as (Ht & _). apply Z.le_trans with (hd 0 (fst t)); [apply lowest_le; left; reflexivity|]. inversion Ht; subst. assumption. }
  assert (Q : forall ps, exists cs, sequence (map (fun p => to_nested os (collected p ts)) ps) = Some cs).
  { induction ps as [|p ps (cs & E)]; [eexists; reflexivity|]. destruct (IH (collected p ts) Ho) as (N & EN).
    - unfold collected. apply Forall_map, Forall_forall. intros t Hin. apply filter_In in Hin as (Hin & _). rewrite Forall_forall in Ht. specialize (Ht t Hin). cbn [fst]. inversion Ht; subst. assumption.
    - exists (N :: cs). cbn [map sequence]. rewrite EN, E. reflexivity. }
  rewrite range_cons by lia. destruct (Q (lo :: range (lo + 1) (o + 1))) as (cs & E). rewrite E. eexists. reflexivity.
Qed.
Print Assumptions C90_succeeds.
(** for a negative required order it can fail although the expansion is not empty: 1/b with the orders 1 in a and -1 in b needs the
    coefficient of a, which is zero, up to order -1 in b *)
Theorem C90_negative_order_refuted : exists (os : list Z) (ts : list (list Z * Qc_Fld)), Forall (fun t => Forall2 Z.le (fst t) os) ts /\ coefficient ts [0; -1] <> f0 /\ to_nested os ts = None.
Proof. exists [1; -1], [([0; -1], @f1 Qc_Fld)]. split; [repeat constructor; lia|]. split; [vm_compute; discriminate|reflexivity]. Qed.
Print Assumptions C90_negative_order_refuted.
(** whatever nested polynomial with terms at each level is written, the function returns its coefficients one after the other from the lowest to
    the highest order: if orders are missing a constructor throws *)
Theorem C90_missing_order : forall (F : Fld) (r : string) (terms : list (Z * F)) tr, terms <> [] ->
  exists code v, write [r] (NPoly (map (fun t => (fst t, Coef (snd t))) terms) tr) = Some code /\ read 1 code = Some (v, []) /\
    v = CSeries (lowest (map fst terms)) (highest (map fst terms)) (map (fun t => CNum (snd t)) terms) (is_truncated tr) r /\
    (Z.of_nat (length terms) <> highest (map fst terms) - lowest (map fst terms) + 1 -> constructed v = false).
Proof.
  intros F r terms tr Ne. set (N := NPoly _ tr). destruct (write_print F [r] N) as (E & D); [discriminate| |].
  - cbn [length shaped]. unfold N. split; [destruct terms; [congruence|discriminate]|]. apply Forall_map, Forall_forall. intros t _. exact I.
  - exists (print F 1 (value_of F [r] N)), (value_of F [r] N). split; [exact E|]. split; [rewrite <- (app_nil_r (print F _ _)); apply (read_print F 1), D|].
    assert (EV : value_of F [r] N = CSeries (lowest (map fst terms)) (highest (map fst terms)) (map (fun t => CNum (snd t)) terms) (is_truncated tr) r).
    { unfold N. cbn [value_of]. rewrite !map_map. cbn [fst snd]. reflexivity. }
    split; [exact EV|]. rewrite EV. intros Hn. cbn [constructed]. rewrite map_length. destruct (Z.eqb_spec (Z.of_nat (length terms)) (highest (map fst terms) - lowest (map fst terms) + 1)); [contradiction|]. rewrite andb_false_r. reflexivity.
Qed.
Print Assumptions C90_missing_order.
(** every parameter is replaced by the entry of its vector at its position, and every macro is removed again *)
Lemma expansion_app p a b acc : fold_left (fun acc (d : string * (bool * nat)) => if String.eqb (fst d) p then Some (snd d) else acc) (a ++ b) acc = fold_left (fun acc d => if String.eqb (fst d) p then Some (snd d) else acc) b (fold_left (fun acc d => if String.eqb (fst d) p then Some (snd d) else acc) a acc).
Proof. apply fold_left_app. Qed.
Lemma expansion_other p fl (l : list string) : forall n acc, ~ In p l -> fold_left (fun acc (d : string * (bool * nat)) => if String.eqb (fst d) p then Some (snd d) else acc) (map (fun ip => (snd ip, (fl, fst ip))) (combine (seq n (length l)) l)) acc = acc.
Proof.
  induction l as [|q l IH]; intros n acc H; [reflexivity|]. cbn [length seq combine map fold_left fst snd]. destruct (String.eqb_spec q p) as [->|]; [exfalso; apply H; left; reflexivity|]. apply IH. intros K. apply H. right. exact K.
Qed.
Lemma expansion_here p fl (l : list string) : forall n i acc, NoDup l -> nth_error l i = Some p -> fold_left (fun acc (d : string * (bool * nat)) => if String.eqb (fst d) p then Some (snd d) else acc) (map (fun ip => (snd ip, (fl, fst ip))) (combine (seq n (length l)) l)) acc = Some (fl, (n + i)%nat).
Proof.
  induction l as [|q l IH]; intros n i acc Nd H; [destruct i; discriminate|]. inversion Nd as [|? ? N1 N2]; subst. cbn [length seq combine map fold_left fst snd]. destruct i as [|i].
  - cbn in H. injection H as ->. rewrite String.eqb_refl, expansion_other by exact N1. f_equal. f_equal. lia.
  - rewrite (IH (S n) i) by assumption. f_equal. f_equal. lia.
Qed.
Lemma NoDup_parts {A} (a b : list A) : NoDup (a ++ b) -> NoDup a /\ NoDup b.
Proof. induction a as [|x a IH]; cbn [app]; intros H; [split; [constructor|exact H]|]. inversion H as [|? ? H1 H2]; subst. destruct (IH H2) as (A1 & A2). split; [constructor; [intros K; apply H1, in_or_app; left; exact K|exact A1]|exact A2]. Qed.
Theorem C90_parameters : forall reals complexes, NoDup (reals ++ complexes) ->
  (forall i p, nth_error reals i = Some p -> expansion_of p (definitions reals complexes) = Some (true, i)) /\
  (forall i p, nth_error complexes i = Some p -> expansion_of p (definitions reals complexes) = Some (false, i)) /\
  (forall p, ~ In p (reals ++ complexes) -> expansion_of p (definitions reals complexes) = None) /\
  map fst (definitions reals complexes) = undefs reals complexes.
Proof.
  intros reals complexes Nd. unfold expansion_of, definitions. assert (N1 : NoDup reals) by (apply (NoDup_parts _ _ Nd)). assert (N2 : NoDup complexes) by (apply (NoDup_parts _ _ Nd)).
  assert (Dj : forall p, In p reals -> ~ In p complexes). { intros p Hp Hq. clear -Nd Hp Hq. induction reals as [|r l IH]; [destruct Hp|]. cbn [app] in Nd. inversion Nd as [|? ? A B]; subst. destruct Hp as [->|Hp]; [apply A, in_or_app; right; exact Hq|apply IH; assumption]. }
  split; [|split; [|split]].
  - intros i p Hp. rewrite expansion_app, expansion_other by (apply Dj; eapply nth_error_In; exact Hp). exact (expansion_here p true reals 0 i None N1 Hp).
  - intros i p Hp. rewrite expansion_app. exact (expansion_here p false complexes 0 i _ N2 Hp).
  - intros p Hp. rewrite expansion_app, !expansion_other; [reflexivity| |]; intros K; apply Hp, in_or_app; auto.
  - unfold undefs. rewrite map_app, !map_map. cbn [fst]. f_equal; [generalize reals|generalize complexes]; intros l; change snd with (fun ip : nat * string => snd ip); generalize 0%nat; induction l as [|q l IH]; intros n; [reflexivity|cbn [length seq combine map snd]; f_equal; apply IH|reflexivity|cbn [length seq combine map snd]; f_equal; apply IH].
Qed.
Print Assumptions C90_parameters.
(** -3/a + 5 b/a + 7 a in the regulators a, b to the orders 1 and 1 *)
Definition ex_terms : list (list Z * Qc_Fld) := [([-1; 0], @zF Qc_Fld (-3)); ([-1; 1], @zF Qc_Fld 5); ([1; 0], @zF Qc_Fld 7)].
Open Scope string_scope.
Example C90_ex : match to_nested [1; 1] ex_terms with
  | Some N => match write ["a"; "b"] N with
              | Some code => match read 2 code with Some (v, []) => (length code, feqb (order_of [-1; 1] v) (zF 5), feqb (order_of [0; 1] v) f0) | _ => (0%nat, false, false) end
              | None => (0%nat, false, false) end
  | None => (0%nat, false, false) end = (71%nat, true, true) /\ Forall (fun t => length (fst t) = 2%nat) ex_terms.
Proof. split; [vm_compute; reflexivity|repeat constructor]. Qed.
Example C90_ex_parameters : NoDup (["s"; "t"] ++ ["m"]) /\ definitions ["s"; "t"] ["m"] = [("s", (true, 0%nat)); ("t", (true, 1%nat)); ("m", (false, 0%nat))].
Proof. split; [repeat constructor; cbn; intuition discriminate|reflexivity]. Qed.
