(** The sectors of an integral and the terms of a sum. *)
From Coq Require Import ZArith Lia Sorting.
From Verif Require Import FieldBase MiscModel MiscSpec MiscProofs OrdModel OrdSpec OrdProofs OrdSector.
Local Open Scope Z_scope.
Lemma vmax_above_l a b : length a = length b -> below a (vmax a b).
Proof. intros L. apply below_nth. split; [vlen|]. intros i Hi. vnth. lia. Qed.
Lemma vmax_above_r a b : length a = length b -> below b (vmax a b).
Proof. intros L. apply below_nth. split; [vlen|]. intros i Hi. vnth. lia. Qed.
Lemma neg_below a b : below a b <-> below (vneg b) (vneg a).
Proof.
  rewrite !below_nth, !neg_length. split; intros [L H].
  - split; [lia|]. intros i Hi. rewrite !neg_nth. specialize (H i). lia.
  - split; [lia|]. intros i Hi. specialize (H i). rewrite !neg_nth in H. lia.
Qed.
Lemma neg_neg a : vneg (vneg a) = a.
Proof. unfold vneg. rewrite map_map. rewrite <- (map_id a) at 2. apply map_ext. intros; lia. Qed.
Section P.
Variable F : Fld.
Add Field Ft : (f_th F).
Notation sumF := (@sumF F).
Variable n : nat.
Variable required : list Z.
Hypothesis Lr : length required = n.
(** a summand with the two series whose product it stands for *)
Definition item := (summand F * (series F * series F))%type.
Definition good (i : item) : Prop := expands F n required (fst i) (fst (snd i)) (snd (snd i)).
Lemma fold_vmax (l : list item) : Forall good l -> forall m, length m = n ->
  let r := fold_left (fun m t => vmax m (poles F required t)) (map fst l) m in
  length r = n /\ below m r /\ Forall (fun i => below (poles F required (fst i)) r) l.
Proof.
  induction 1 as [|i l Hi _ IH]; intros m Lm; cbn [map fold_left]; cbv zeta.
  - split; [exact Lm|]. split; [apply below_refl|constructor].
  - destruct (poles_ok F n required Lr _ _ _ Hi) as (Lp & _ & _).
    destruct (IH (vmax m (poles F required (fst i)))) as (L & B & FA); [vlen|].
    split; [exact L|]. split; [eapply below_trans; [|exact B]; apply vmax_above_l; congruence|].
    constructor; [eapply below_trans; [|exact B]; apply vmax_above_r; congruence|exact FA].
Qed.
Lemma sector_poles_ok (l : list item) : l <> [] -> Forall good l ->
  length (sector_poles F required (map fst l)) = n /\ Forall (fun i => below (poles F required (fst i)) (sector_poles F required (map fst l))) l.
Proof.
  destruct l as [|i l]; [congruence|]. intros _ H. inversion H as [|? ? Hi Hl]. cbn [map sector_poles].
  destruct (poles_ok F n required Lr _ _ _ Hi) as (Lp & _ & _). destruct (fold_vmax l Hl _ Lp) as (L & B & FA). split; [exact L|]. constructor; assumption.
Qed.
Lemma sector_orders_in (l : list item) : l <> [] -> Forall good l -> exists L, sector_orders F required (map fst l) = Some L /\
  forall e, In e L <-> length e = n /\ below (vneg (sector_poles F required (map fst l))) e /\ below e required.
Proof.
  intros N H. destruct (sector_poles_ok l N H) as [LP _]. set (P := sector_poles F required (map fst l)) in *.
  unfold sector_orders. fold P. destruct (rangecomb (map (fun _ => 0) required) (vadd required P)) as [L|] eqn:E.
  2:{ exfalso. unfold rangecomb in E. replace (Nat.eqb _ _) with true in E; [discriminate|]. symmetry. apply Nat.eqb_eq. vlen. }
  cbn [option_map]. eexists. split; [reflexivity|]. intros e. rewrite in_map_iff. pose proof (rangecomb_in _ _ _ E) as RI. rewrite map_length in RI.
  assert (Z0 : forall i, nth i (map (fun _ : Z => 0) required) 0 = 0) by (intros; apply map_const_nth).
  split.
  - intros (x & <- & Hx). apply RI in Hx. destruct Hx as [Lx Hx]. split; [vlen|]. split; apply below_nth.
    + split; [vlen|]. rewrite neg_length. intros i Hi. vnth. specialize (Hx i). rewrite Z0 in Hx. lia.
    + assert (Ls : length (vsub x P) = n) by vlen. split; [vlen|]. rewrite Ls. intros i Hi. vnth. specialize (Hx i). rewrite Z0 in Hx. revert Hx. vnth. lia.
  - intros (Le & B1 & B2). exists (vadd e P). split.
    + apply vec_eq; [vlen|]. assert (Ls : length (vsub (vadd e P) P) = n) by vlen. rewrite Ls. intros i Hi. vnth. lia.
    + apply RI. split; [vlen|]. intros i Hi. rewrite Z0. apply below_nth in B1, B2. destruct B1 as [_ B1], B2 as [_ B2]. specialize (B1 i). rewrite neg_length, neg_nth in B1. specialize (B2 i). vnth. lia.
Qed.
Definition item_coefficient (e : list Z) (i : item) (v : F) : Prop := product_coefficient F n (fst (snd i)) (snd (snd i)) e v.
(** all contributions vanish below the poles *)
Lemma low_zero (i : item) e v : good i -> length e = n -> below e required -> ~ below (vneg (poles F required (fst i))) e -> item_coefficient e i v -> v = 0%fld.
Proof.
  intros Hg Le Be Hn (A & NA & LA & CA & ->). apply sum_zero. intros a Ha. rewrite Forall_forall in LA. specialize (LA a Ha).
  destruct (poles_ok F n required Lr _ _ _ Hg) as (Lp & Bp & Zp). pose proof Hg as (Gs & _ & _). destruct Gs as [Lz Gz].
  destruct (below_dec (zeros n) (minus e a)) as [Bb|Bb]; [|rewrite Gz by (assumption || vlen); ring].
  assert (K : below a e).
  { apply below_nth. split; [lia|]. intros k Hk. apply below_nth in Bb. destruct Bb as [_ Bb]. specialize (Bb k). rewrite zeros_length, zeros_nth in Bb. revert Bb. vnth. lia. }
  rewrite (Zp a LA); [ring|eapply below_trans; eassumption|]. intros Hc. apply Hn. eapply below_trans; eassumption.
Qed.
Lemma sum_map2 (f : summand F -> F) (l : list item) (vs : list F) : Forall2 (fun i v => v = f (fst i)) l vs -> sumF (map f (map fst l)) = sumF vs.
Proof. induction 1 as [|i v l vs E _ IH]; [reflexivity|]. cbn [map FieldBase.sumF]. rewrite IH, E. reflexivity. Qed.
Lemma sum_all_zero (vs : list F) : Forall (fun v => v = 0%fld) vs -> sumF vs = 0%fld.
Proof. induction 1 as [|v vs -> _ IH]; [reflexivity|]. cbn [FieldBase.sumF]. rewrite IH. ring. Qed.
Lemma kernel_value (l : list item) e vs : Forall good l -> length e = n -> below e required -> Forall2 (item_coefficient e) l vs -> kernel F required (map fst l) e = sumF vs.
Proof.
  intros HG Le Be H2. unfold kernel. apply (sum_map2 (fun s => pair_sum F (singular_expanded F required s) (regular_expanded F required s) e)).
  induction H2 as [|i v l vs Hv _ IH]; [constructor|]. inversion HG as [|? ? Hi Hl]. constructor; [|apply IH, Hl].
  eapply summand_value; eassumption.
Qed.
Lemma sector_value (l : list item) e vs : l <> [] -> Forall good l -> length e = n -> below e required -> Forall2 (item_coefficient e) l vs ->
  (match sector_orders F required (map fst l) with
   | Some L => if existsb (fun x => if list_eq_dec Z.eq_dec x e then true else false) L then kernel F required (map fst l) e else 0%fld
   | None => 0%fld end) = sumF vs.
Proof.
  intros N HG Le Be H2. destruct (sector_orders_in l N HG) as (L & -> & HL).
  destruct (existsb _ L) eqn:Ex; [apply kernel_value; assumption|]. symmetry. apply sum_all_zero.
  assert (Nb : ~ below (vneg (sector_poles F required (map fst l))) e).
  { intros Hb. assert (In e L) as Hi by (apply HL; auto). assert (existsb (fun x => if list_eq_dec Z.eq_dec x e then true else false) L = true) as X; [|congruence].
    apply existsb_exists. exists e. split; [exact Hi|]. destruct (list_eq_dec Z.eq_dec e e); [reflexivity|congruence]. }
  destruct (sector_poles_ok l N HG) as [LP FP]. clear N Ex HL LP. revert Nb FP. generalize (sector_poles F required (map fst l)). intros P Nb FP.
  induction H2 as [|i v l vs Hv _ IH]; [constructor|]. inversion HG as [|? ? HGi HGl]. inversion FP as [|? ? FPi FPl]. constructor; [|apply IH; assumption].
  apply (low_zero i e); try assumption. intros Hb. apply Nb. refine (below_trans _ _ _ _ Hb); apply (proj1 (neg_below _ _)); exact FPi.
Qed.
Theorem order_value_exact (sectors : list (list item)) e (vss : list (list F)) :
  Forall (fun l => l <> [] /\ Forall good l) sectors -> length e = n -> below e required -> Forall2 (Forall2 (item_coefficient e)) sectors vss ->
  order_value F required (map (map fst) sectors) e = sumF (map sumF vss).
Proof.
  intros HG Le Be H2. unfold order_value. induction H2 as [|l vs sectors vss Hl _ IH]; [reflexivity|].
  inversion HG as [|? ? [N G] HG']. cbn [map FieldBase.sumF]. rewrite (IH HG'). f_equal. apply sector_value; assumption.
Qed.
Lemma lowest_ok requested (sectors : list (list item)) : length requested = n -> Forall (fun l => l <> [] /\ Forall good l) sectors ->
  let lo := lowest_orders F requested required (map (map fst) sectors) in
  length lo = n /\ below lo requested /\ Forall (fun l => below lo (vneg (sector_poles F required (map fst l)))) sectors.
Proof.
  intros Lq HG. unfold lowest_orders. revert requested Lq. induction HG as [|l sectors [N G] _ IH]; intros m Lm; cbn [map fold_left]; cbv zeta.
  - split; [exact Lm|]. split; [apply below_refl|constructor].
  - destruct (sector_poles_ok l N G) as [LP _]. assert (Lv : length m = length (vneg (sector_poles F required (map fst l)))) by vlen.
    destruct (IH (vmin m (vneg (sector_poles F required (map fst l))))) as (L & B & FA); [vlen|]. split; [exact L|].
    split; [eapply below_trans; [exact B|apply vmin_below_l; exact Lv]|]. constructor; [eapply below_trans; [exact B|apply vmin_below_r; exact Lv]|exact FA].
Qed.
(** an integral has no terms below the orders reported as lowest *)
Theorem lowest_orders_exact requested (sectors : list (list item)) e vss : length requested = n -> 
  Forall (fun l => l <> [] /\ Forall good l) sectors -> length e = n -> below e required ->
  ~ below (lowest_orders F requested required (map (map fst) sectors)) e -> Forall2 (Forall2 (item_coefficient e)) sectors vss -> sumF (map sumF vss) = 0%fld.
Proof.
  intros Lq HG Le Be Hn H2. destruct (lowest_ok requested sectors Lq HG) as (_ & _ & FA). revert Hn FA. generalize (lowest_orders F requested required (map (map fst) sectors)). intros lo Hn FA.
  induction H2 as [|l vs sectors vss Hl _ IH]; [reflexivity|]. inversion HG as [|? ? [N G] HG']. inversion FA as [|? ? B FA']. cbn [map FieldBase.sumF]. rewrite (IH HG' FA').
  assert (E : sumF vs = 0%fld); [|rewrite E; ring]. apply sum_all_zero. destruct (sector_poles_ok l N G) as [LP FP]. clear N LP HG FA HG' FA' IH H H0 H1 H2. revert B FP. generalize (sector_poles F required (map fst l)). intros P B FP.
  induction Hl as [|i v l vs Hv _ IHl]; [constructor|]. inversion G as [|? ? HGi HGl]. inversion FP as [|? ? FPi FPl]. constructor; [|apply IHl; assumption].
  apply (low_zero i e); try assumption. intros Hb. apply Hn. refine (below_trans _ _ _ B _). refine (below_trans _ _ _ _ Hb); apply (proj1 (neg_below _ _)); exact FPi.
Qed.
End P.
