(** C77: the orders requested for a sum of integrals reach the kernels. *)
From Coq Require Import ZArith Lia QArith Qcanon.
From Verif Require Import FieldBase MiscModel OrdModel OrdSpec OrdProofs OrdSector OrdTop OrdSum.
Local Open Scope Z_scope.
(** The integrand of a sector is a sum of products of a pole part and a regular part; for every order up to the required ones the value
    listed for an integral at that order is the coefficient of its integrand, orders without code included. *)
Theorem C77_order_values : forall (F : Fld) n required (sectors : list (list (summand F * (series F * series F)))) e vss, length required = n ->
  Forall (fun l => l <> [] /\ Forall (fun i => expands F n required (fst i) (fst (snd i)) (snd (snd i))) l) sectors -> length e = n -> below e required ->
  Forall2 (Forall2 (fun i v => product_coefficient F n (fst (snd i)) (snd (snd i)) e v)) sectors vss ->
  order_value F required (map (map fst) sectors) e = sumF (map sumF vss).
Proof. intros F n required sectors e vss Lr. apply (order_value_exact F n required Lr). Qed.
Print Assumptions C77_order_values.
(** No integral has a term below the orders reported as lowest, and these are never above the requested ones. *)
Theorem C77_lowest_orders : forall (F : Fld) n requested required (sectors : list (list (summand F * (series F * series F)))) e vss,
  length required = n -> length requested = n ->
  Forall (fun l => l <> [] /\ Forall (fun i => expands F n required (fst i) (fst (snd i)) (snd (snd i))) l) sectors ->
  let lo := lowest_orders F requested required (map (map fst) sectors) in
  below lo requested /\
  (length e = n -> below e required -> ~ below lo e ->
   Forall2 (Forall2 (fun i v => product_coefficient F n (fst (snd i)) (snd (snd i)) e v)) sectors vss -> sumF (map sumF vss) = 0%fld).
Proof.
  intros F n requested required sectors e vss Lr Lq HG. split; [apply (lowest_ok F n required Lr requested sectors Lq HG)|].
  apply (lowest_orders_exact F n required Lr requested sectors e vss Lq HG).
Qed.
Print Assumptions C77_lowest_orders.
(** Every coefficient of the sum up to the requested orders comes out right from the truncated factors, if there is one regulator or if
    the integral contributes to one sum only. *)
Theorem C77_sum_exact : forall (F : Fld) n R x lows lc lp (sectors : list (list (summand F * (series F * series F)))) (c p i c' p' i' : series F) e v,
  let requested := requested_of_integral R (x :: lows) in
  let required := required_orders requested lp in
  let lo := lowest_orders F requested required (map (map fst) sectors) in
  length R = n -> Forall (fun a => length a = n) (x :: lows) -> In lc (x :: lows) -> n = 1%nat \/ lows = [] ->
  Forall (fun l => l <> [] /\ Forall (fun i => expands F n required (fst i) (fst (snd i)) (snd (snd i))) l) sectors ->
  (forall a, length a = n -> below a required -> exists vss,
     Forall2 (Forall2 (fun i v => product_coefficient F n (fst (snd i)) (snd (snd i)) a v)) sectors vss /\ i a = sumF (map sumF vss)) ->
  starts_at F n lc c -> starts_at F n lp p -> starts_at F n lc c' -> starts_at F n lp p' ->
  same_upto F n (highest_coefficient_orders R lp lo) c c' -> same_upto F n (prefactor_orders requested lo) p p' ->
  (forall a, length a = n -> below a required -> i' a = order_value F required (map (map fst) sectors) a) ->
  length e = n -> below e R -> product3_coefficient F n c p i e v ->
  product3_coefficient F n c' p' i' e v /\ forall v', product3_coefficient F n c' p' i' e v' -> v' = v.
Proof.
  intros F n R x lows lc lp sectors c p i c' p' i' e v requested required lo LR LL Hin Hcase HG Hi Sc Sp Sc' Sp' Ec Ep Ei Le Be HP.
  assert (HM : length (py_min x lows) = n /\ below (py_min x lows) lc).
  { inversion LL as [|? ? Lx Llows]. destruct Hcase as [->| ->].
    - destruct (py_min_one lows x Lx Llows) as [L FA]. split; [exact L|]. rewrite Forall_forall in FA. apply FA, Hin.
    - destruct Hin as [<-|[]]. split; [exact Lx|apply below_refl]. }
  destruct HM as [Lm Bm]. assert (Lq : length requested = n) by (unfold requested, requested_of_integral; vlen).
  assert (Lp : length lp = n) by apply Sp. assert (Lr : length required = n) by (unfold required, required_orders; vlen).
  destruct (lowest_ok F n required Lr requested sectors Lq HG) as (Llo & _ & _). fold lo in Llo.
  assert (Si : starts_below F n required lo i).
  { split; [exact Llo|]. intros a La Ba Hn. destruct (Hi a La Ba) as (vss & H2 & ->). eapply (lowest_orders_exact F n required Lr requested sectors a vss); eassumption. }
  assert (Se : same_upto F n required i i').
  { intros a La Ba. rewrite Ei by assumption. destruct (Hi a La Ba) as (vss & H2 & ->). symmetry. apply (order_value_exact F n required Lr); assumption. }
  assert (K : product3_coefficient F n c' p' i' e v).
  { apply (sum_term_exact F n R lc (py_min x lows) lp lo c p i c' p' i' e v); try assumption.
    destruct Si as [_ Si]. split; [exact Llo|]. intros a La Ba Hn. rewrite <- (Se a La Ba). apply Si; assumption. }
  split; [exact K|]. intros v' H'. eapply product3_unique; eassumption.
Qed.
Print Assumptions C77_sum_exact.
(** The distributed evaluation expands the coefficients to the orders needed. *)
Theorem C77_disteval_orders : forall R lo lp n, length R = n -> length lo = n -> length lp = n -> disteval_highest_orders R lo lp = highest_coefficient_orders R lp lo.
Proof.
  intros R lo lp n LR Ll Lp. unfold disteval_highest_orders, highest_coefficient_orders.
  apply vec_eq; [vlen|]. assert (L : length (vadd (vsub (vneg lo) lp) R) = n) by vlen. rewrite L. intros k Hk. vnth. lia.
Qed.
Print Assumptions C77_disteval_orders.
(** The compiled interface does so for every coefficient whose leading orders are at most 1 ... *)
Theorem C77_pylink_orders : forall R lc lo lp n, length R = n -> length lc = n -> length lo = n -> length lp = n -> below lc (map (fun _ => 1) lc) ->
  below (highest_coefficient_orders R lp lo) (parser_highest_orders R lc lo lp).
Proof.
  intros R lc lo lp n LR Lc Ll Lp [_ B]%below_nth. unfold parser_highest_orders, compute_required_orders, highest_coefficient_orders.
  set (u := vsub (vsub (vsub (map (fun r => r + 1) R) lc) lo) lp). assert (Lu : length u = n) by (unfold u; vlen).
  assert (Lh : length (vsub (vsub R lp) lo) = n) by vlen.
  apply below_nth. split; [rewrite map_length; lia|]. rewrite Lh. intros k Hk.
  rewrite (nth_indep (map _ u) 0 ((fun order => if 0 <? order then order else 1) 0)) by (rewrite map_length; lia). rewrite (map_nth (fun order => if 0 <? order then order else 1)).
  assert (E : nth k u 0 = nth k R 0 + 1 - nth k lc 0 - nth k lo 0 - nth k lp 0).
  { unfold u. vnth. rewrite (nth_indep (map _ R) 0 ((fun r => r + 1) 0)) by (rewrite map_length; lia). rewrite (map_nth (fun r => r + 1)). reflexivity. }
  specialize (B k). rewrite (nth_indep (map _ lc) 0 ((fun _ : Z => 1) 0)) in B by (rewrite map_length; lia). rewrite (map_nth (fun _ : Z => 1) lc 0) in B.
  rewrite E. vnth. destruct (0 <? _) eqn:E0; lia.
Qed.
Print Assumptions C77_pylink_orders.
Add Field Fqc : (f_th Qc_Fld).
Definition mono (o : list Z) : series Qc_Fld := series_of Qc_Fld [(o, (1%fld : Qc_Fld))].
Lemma mono_other o a : a <> o -> mono o a = 0%fld.
Proof. intros H. unfold mono, series_of. cbn [map fst snd sumF]. destruct (list_eq_dec Z.eq_dec o a); [congruence|reflexivity]. Qed.
Lemma mono_one o : mono o o = 1%fld.
Proof. unfold mono, series_of. cbn [map fst snd sumF]. destruct (list_eq_dec Z.eq_dec o o); [ring|congruence]. Qed.
Lemma mono_product n c p (i : series Qc_Fld) e : length c = n -> length p = n -> length e = n ->
  product3_coefficient Qc_Fld n (mono c) (mono p) i e (i (minus (minus e c) p)).
Proof.
  intros Lc Lp Le. exists [(c, p)]. split; [constructor; [intros []|constructor]|]. split; [constructor; [split; assumption|constructor]|]. split.
  - intros a b La Lb Hn. destruct (list_eq_dec Z.eq_dec a c) as [->|Ha].
    + destruct (list_eq_dec Z.eq_dec b p) as [->|Hb]; [exfalso; apply Hn; left; reflexivity|]. rewrite (mono_other p b) by exact Hb.
      ring.
    + rewrite (mono_other c a) by exact Ha. ring.
  - cbn [map fst snd sumF]. rewrite !mono_one. ring.
Qed.
(** ... but not beyond: for a coefficient eps^2 and the order eps^2 of the sum it drops the whole coefficient *)
Theorem C77_pylink_leading_order_two_refuted : exists (R lc lo lp : list Z) (c c' p i : series Qc_Fld),
  R = [2] /\ lc = [2] /\ lo = [0] /\ lp = [0] /\ starts_at Qc_Fld 1 lc c /\ starts_at Qc_Fld 1 lp p /\ starts_at Qc_Fld 1 lo i /\
  (forall a, c' a = if below_dec a (parser_highest_orders R lc lo lp) then c a else 0%fld) /\
  product3_coefficient Qc_Fld 1 c p i R 1%fld /\ product3_coefficient Qc_Fld 1 c' p i R 0%fld.
Proof.
  assert (S : forall o : list Z, length o = 1%nat -> starts_at Qc_Fld 1 o (mono o)).
  { intros o L. split; [exact L|]. intros a La Hn. apply mono_other. intros ->. apply Hn, below_refl. }
  exists [2], [2], [0], [0], (mono [2]), (fun a => if below_dec a (parser_highest_orders [2] [2] [0] [0]) then mono [2] a else 0%fld), (mono [0]), (mono [0]).
  repeat (split; [reflexivity|]). split; [apply S; reflexivity|]. split; [apply S; reflexivity|]. split; [apply S; reflexivity|]. split; [reflexivity|]. split.
  - rewrite <- (mono_one [0]). apply (mono_product 1 [2] [0] (mono [0]) [2]); reflexivity.
  - exists []. split; [constructor|]. split; [constructor|]. split; [|reflexivity]. intros a b La Lb _.
    destruct (below_dec a _) as [B|]; [|ring]. rewrite (mono_other [2] a); [ring|]. intros ->. inversion B as [|? ? ? ? B1]; subst. vm_compute in B1. congruence.
Qed.
Print Assumptions C77_pylink_leading_order_two_refuted.
(** With two regulators and two sums the orders asked from the integral follow the lexicographically smallest list: the term eps2^3 of the
    integral, needed by the second sum, is not computed. *)
Theorem C77_two_regulators_two_sums_refuted : exists (R : list Z) lows lc (i i' : series Qc_Fld) (c p : series Qc_Fld),
  R = [0; 0] /\ In lc lows /\ starts_at Qc_Fld 2 lc c /\ starts_at Qc_Fld 2 [0; 0] p /\ starts_at Qc_Fld 2 [0; 0] i /\
  same_upto Qc_Fld 2 (required_orders (requested_of_integral R lows) [0; 0]) i i' /\ 
  product3_coefficient Qc_Fld 2 c p i R 1%fld /\ product3_coefficient Qc_Fld 2 c p i' R 0%fld.
Proof.
  assert (S : forall o l : list Z, length l = 2%nat -> below l o -> starts_at Qc_Fld 2 l (mono o)).
  { intros o l L B. split; [exact L|]. intros a La Hn. apply mono_other. intros ->. apply Hn, B. }
  exists [0; 0], [[-1; 0]; [0; -3]], [0; -3], (mono [0; 3]), (fun _ => 0%fld), (mono [0; -3]), (mono [0; 0]).
  split; [reflexivity|]. split; [right; left; reflexivity|]. split; [apply S; [reflexivity|apply below_refl]|]. split; [apply S; [reflexivity|apply below_refl]|].
  split; [apply S; [reflexivity|repeat constructor; lia]|]. split.
  - intros a La B. apply mono_other. intros ->. change (required_orders (requested_of_integral [0; 0] [[-1; 0]; [0; -3]]) [0; 0]) with [1; 0] in B.
    inversion B as [|? ? ? ? _ B']; subst. inversion B' as [|? ? ? ? B'' _]; subst. lia.
  - split.
    + rewrite <- (mono_one [0; 3]). apply (mono_product 2 [0; -3] [0; 0] (mono [0; 3]) [0; 0]); reflexivity.
    + apply (mono_product 2 [0; -3] [0; 0] (fun _ => 0%fld) [0; 0]); reflexivity.
Qed.
Print Assumptions C77_two_regulators_two_sums_refuted.
(** The search for the leading orders ends for every coefficient and finds them if they are at most maxorder + 1; a regulator in which the
    leading order is higher gets 0, although the documentation promises maxorder. *)
Theorem C77_leading_orders : forall maxorder (series : list (option Z)), 0 <= maxorder ->
  exists fuel0, forall fuel, (fuel0 <= fuel)%nat ->
    leading_orders fuel maxorder false series = Some (map (fun l => match l with Some l => if l <=? maxorder + 1 then l else 0 | None => 0 end) series) /\
    leading_orders fuel maxorder true series = Some (map (fun _ => maxorder) series).
Proof.
  intros m series Hm. destruct (leading_orders_terminate m Hm series) as [f0 H]. exists f0. intros fuel Hf. split; [exact (H fuel Hf)|reflexivity].
Qed.
Print Assumptions C77_leading_orders.
Theorem C77_leading_order_above_maxorder_refuted : exists maxorder l, maxorder < l /\ leading_orders 10 maxorder false [Some l] = Some [0] /\ 0 <> maxorder.
Proof. exists 3, 5. split; [lia|]. split; [reflexivity|lia]. Qed.
Print Assumptions C77_leading_order_above_maxorder_refuted.
(** ** a concrete case: (1/eps) (1 + eps) with coefficient 1/eps, requested up to eps^0 *)
Definition example_pole : list (list Z * Qc_Fld) := [([-1], (1%fld : Qc_Fld))].
Definition example_regular : list (list Z * Qc_Fld) := [([0], (1%fld : Qc_Fld)); ([1], (1%fld : Qc_Fld))].
Definition example_summand : summand Qc_Fld := {| expand_singular := fun _ => Some example_pole; expand_Taylor := fun _ => Some example_regular |}.
Example C77_example : 
  let requested := requested_of_integral [0] [[-1]] in let required := required_orders requested [0] in
  let sectors := [[(example_summand, (series_of Qc_Fld example_pole, series_of Qc_Fld example_regular))]] in
  requested = [1] /\ required = [1] /\ lowest_orders Qc_Fld requested required (map (map fst) sectors) = [-1] /\
  sector_orders Qc_Fld required [example_summand] = Some [[-1]; [0]; [1]] /\
  highest_coefficient_orders [0] [0] [-1] = [1] /\ prefactor_orders requested [-1] = [2] /\
  Forall (fun l => l <> [] /\ Forall (fun i => expands Qc_Fld 1 required (fst i) (fst (snd i)) (snd (snd i))) l) sectors /\
  (forall a, length a = 1%nat -> exists vss, Forall2 (Forall2 (fun i v => product_coefficient Qc_Fld 1 (fst (snd i)) (snd (snd i)) a v)) sectors vss) /\
  order_value Qc_Fld required (map (map fst) sectors) [-1] = 1%fld /\ order_value Qc_Fld required (map (map fst) sectors) [0] = 1%fld.
Proof.
  cbv zeta. split; [reflexivity|]. split; [reflexivity|]. split; [reflexivity|]. split; [reflexivity|]. split; [reflexivity|]. split; [reflexivity|].
  assert (R1 : rows Qc_Fld 1 example_pole) by (constructor; [reflexivity|constructor]).
  assert (R2 : rows Qc_Fld 1 example_regular) by (constructor; [reflexivity|constructor; [reflexivity|constructor]]).
  split; [|split; [|split; apply Qc_is_canon; reflexivity]].
  - constructor; [|constructor]. split; [discriminate|]. constructor; [|constructor]. cbn [fst snd]. split.
    + split; [reflexivity|]. intros a La Hn. apply series_of_out. intros [<-|[<-|[]]]; apply Hn; constructor; try constructor; lia.
    + split.
      * cbn [expand_singular example_summand]. split; [discriminate|]. split; [exact R1|]. split; [repeat constructor; cbv; discriminate|]. intros a _ _. reflexivity.
      * intros o _ _. exists example_regular. split; [reflexivity|]. split; [exact R2|]. split; [|intros a _ _; reflexivity].
        repeat constructor; cbv; discriminate.
  - intros a La. exists [[pair_sum Qc_Fld example_pole example_regular a]]. constructor; [|constructor]. constructor; [|constructor]. apply poly_product; assumption.
Qed.
Print Assumptions C77_example.
