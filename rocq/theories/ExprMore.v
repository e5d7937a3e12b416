(** More fuel does not change derivatives; sequences of calls on a ProductRule; to_sum; replace; enough fuel in sums and products. *)
From Coq Require Import FunctionalExtensionality.
From Verif Require Import SortProofs ExprSpec ExprSmooth ExprMixed ExprArith ExprOrd ExprSimp ExprDerive.
Local Open Scope R_scope.

Section Mono.
Variable nv : nat.
Variable sympy_zero : expr -> bool.
Variable i : nat.
Section Step.
Variables s s' d d' : expr -> option expr.
Hypothesis Hs : ext_of s s'.
Hypothesis Hd : ext_of d d'.
Lemma pol_derive_ext p q : pol_derive nv i d p = Some q -> pol_derive nv i d' p = Some q.
Proof.
  unfold pol_derive. cbv zeta. destruct (existsb _ p); [|auto]. match goal with |- context [option_all (map ?F p)] => destruct (option_all (map F p)) as [m|] eqn:E end; [|discriminate]. intros Hq.
  erewrite option_all_ext; [exact Hq| |exact E]. intros [c k] r. cbn [fst snd]. destruct (is_num c); [auto|]. destruct (d c) as [c'|] eqn:Ec; [|discriminate]. rewrite (Hd c c' Ec). auto.
Qed.
Definition dd (s d : expr -> option expr) (e : expr) : option expr := match d e with Some x => s x | None => None end.
Lemma dd_ext : ext_of (dd s d) (dd s' d').
Proof. intros e r. unfold dd. destruct (d e) as [x|] eqn:E; [|discriminate]. rewrite (Hd e x E). apply Hs. Qed.
Lemma rule_fill_ext f g : ext_of f g -> forall ns C r, rule_fill sympy_zero i f ns C = Some r -> rule_fill sympy_zero i g ns C = Some r.
Proof.
  intros H. induction ns as [|n ns IH]; intros [|col C] r; try (cbn; auto; fail). rewrite !rule_fill_step. unfold step1. destruct (lookup n col) as [e|].
  - destruct (rule_fill sympy_zero i f ns C) as [v|] eqn:E; [|discriminate]. rewrite (IH C v E). auto.
  - destruct (lookup (setk i (getk i n - 1) n) col) as [lo|]; [|discriminate]. destruct (f lo) as [e|] eqn:Ef; [|discriminate]. rewrite (H lo e Ef). destruct (rule_fill sympy_zero i f ns C) as [v|] eqn:E; [|discriminate]. rewrite (IH C v E). auto.
Qed.
Lemma rule_fill_all_ext f g : ext_of f g -> forall terms C r, rule_fill_all sympy_zero i f terms C = Some r -> rule_fill_all sympy_zero i g terms C = Some r.
Proof.
  intros H. induction terms as [|[c ns] terms IH]; intros C r; [auto|]. cbn [rule_fill_all]. destruct (rule_fill sympy_zero i f ns C) as [[v C1]|] eqn:E; [|discriminate]. rewrite (rule_fill_ext f g H ns C _ E). destruct (rule_fill_all sympy_zero i f terms C1) as [[t C2]|] eqn:E2; [|discriminate]. rewrite (IH C1 _ E2). auto.
Qed.
Lemma rule_derive_ext f g terms C r : ext_of f g -> rule_derive sympy_zero i f terms C = Some r -> rule_derive sympy_zero i g terms C = Some r.
Proof. intros H. unfold rule_derive. match goal with |- context [rule_fill_all _ _ f ?T C] => destruct (rule_fill_all sympy_zero i f T C) as [[t C2]|] eqn:E; [|discriminate]; rewrite (rule_fill_all_ext f g H T C _ E) end. auto. Qed.
Lemma der_step_ext : ext_of (der_step nv sympy_zero i s d) (der_step nv sympy_zero i s' d').
Proof.
  intros e r. destruct e as [x|p|p a|p|l|l|terms cache|b a|a|a]; cbn [der_step].
  - auto.
  - apply pol_derive_ext.
  - destruct (pol_derive nv i d p) as [q|] eqn:E; [|discriminate]. rewrite (pol_derive_ext p q E). destruct (is_num a); [auto|]. destruct (d a) as [a'|] eqn:Ea; [|discriminate]. rewrite (Hd a a' Ea). auto.
  - destruct (pol_derive nv i d p) as [q|] eqn:E; [|discriminate]. rewrite (pol_derive_ext p q E). auto.
  - destruct (option_all (map d l)) as [m|] eqn:E; [|discriminate]. rewrite (option_all_ext d d' l Hd m E). auto.
  - unfold rule_of. destruct (option_all (map s l)) as [m|] eqn:E; [|discriminate]. rewrite (option_all_ext s s' l Hs m E). apply (rule_derive_ext (dd s d) (dd s' d') _ _ _ dd_ext).
  - apply (rule_derive_ext (dd s d) (dd s' d') _ _ _ dd_ext).
  - destruct (d b) as [b'|] eqn:E; [|discriminate]. rewrite (Hd b b' E). destruct (d a) as [a'|] eqn:Ea; [|discriminate]. rewrite (Hd a a' Ea). auto.
  - destruct (d a) as [a'|] eqn:E; [|discriminate]. rewrite (Hd a a' E). auto.
  - destruct (d a) as [a'|] eqn:E; [|discriminate]. rewrite (Hd a a' E). auto.
Qed.
End Step.
Lemma derive_S n : ext_of (derive nv sympy_zero i n) (derive nv sympy_zero i (S n)).
Proof. induction n as [|n IH]; [intros e r; discriminate|]. exact (der_step_ext _ _ _ _ (simplify_S nv n) IH). Qed.
Lemma derive_mono n m e r : (n <= m)%nat -> derive nv sympy_zero i n e = Some r -> derive nv sympy_zero i m e = Some r.
Proof. intros L E. induction L as [|m L IH]; [exact E|]. apply derive_S, IH. Qed.
End Mono.

(** ** the fuel of additions and products is enough *)
Lemma merge_from_eq f g (P : expr -> Prop) : (forall a b, P a -> P b -> f a b = g a b) -> (forall a b, P a -> P b -> P (f a b)) -> forall rest prev, Forall (fun t => P (fst t)) (prev :: rest) -> merge_from f prev rest = merge_from g prev rest.
Proof.
  intros E HP. induction rest as [|t r IH]; intros prev H; [reflexivity|]. cbn [merge_from]. apply Forall_cons_iff in H as [H1 H]. pose proof H as H'. apply Forall_cons_iff in H as [H2 H]. destruct (is_const 0 (fst t)); [apply IH; constructor; assumption|].
  destruct (roweqb (snd prev) (snd t)); [rewrite (E _ _ H2 H1); rewrite <- (E _ _ H2 H1); rewrite IH; [reflexivity|constructor; [apply HP; assumption|exact H]]|]. f_equal. apply IH, H'.
Qed.
Lemma tidy_eq nv f g (P : expr -> Prop) p : (forall a b, P a -> P b -> f a b = g a b) -> (forall a b, P a -> P b -> P (f a b)) -> Forall (fun t => P (fst t)) p -> tidy nv f p = tidy nv g p.
Proof.
  intros E HP H. unfold tidy, merged. assert (HS : Forall (fun t => P (fst t)) (sort_by snd p)) by (eapply Permutation_Forall; [apply Permutation_sym, sort_by_perm|exact H]). destruct (sort_by snd p) as [|t r]; [reflexivity|]. rewrite (merge_from_eq f g P E HP r t HS). reflexivity.
Qed.
Section Fuel.
Variable nv : nat.
Lemma addc_fuel_S n : forall a b, good_at nv n a -> good_at nv n b -> addc nv n a b = addc nv (S n) a b.
Proof.
  induction n as [|m IH]; intros a b [Ga Da] [Gb Db].
  { destruct Ga as [Ga|Ga]; [|apply wf_depth in Ga; lia]. destruct Gb as [Gb|Gb]; [|apply wf_depth in Gb; lia]. destruct a; try discriminate. destruct b; try discriminate. reflexivity. }
  assert (T : forall p, tok nv p -> (S (tdepth p) <= S m)%nat -> tidy nv (addc nv m) p = tidy nv (addc nv (S m)) p).
  { intros p Tp Dp. apply (tidy_eq nv _ _ (good_at nv m)); [exact IH| |apply tok_at; [exact Tp|lia]]. intros u v U V. apply (addc_ok nv m u v U V). }
  assert (TP : forall e p, e = Pol p -> good nv e -> tok nv p) by (intros e p -> [H|H]; [discriminate|apply wf_pol in H; apply H]).
  destruct a as [r|p| | | | | | | | ]; destruct b as [r'|q| | | | | | | | ]; try reflexivity.
  - change (Pol (tidy nv (addc nv m) ((Num r, zeros nv) :: q)) = Pol (tidy nv (addc nv (S m)) ((Num r, zeros nv) :: q))). rewrite depth_pol in Db. f_equal. apply T; [|unfold tdepth in *; cbn [map fst depth max_list fold_right]; exact Db]. constructor; [split; [apply repeat_length|apply good_num]|apply (TP _ _ eq_refl Gb)].
  - change (Pol (tidy nv (addc nv m) ((Num r', zeros nv) :: p)) = Pol (tidy nv (addc nv (S m)) ((Num r', zeros nv) :: p))). rewrite depth_pol in Da. f_equal. apply T; [|unfold tdepth in *; cbn [map fst depth max_list fold_right]; exact Da]. constructor; [split; [apply repeat_length|apply good_num]|apply (TP _ _ eq_refl Ga)].
  - change (Pol (tidy nv (addc nv m) (p ++ q)) = Pol (tidy nv (addc nv (S m)) (p ++ q))). rewrite depth_pol in Da, Db. f_equal. apply T; [apply Forall_app; split; [apply (TP _ _ eq_refl Ga)|apply (TP _ _ eq_refl Gb)]|]. unfold tdepth in *. rewrite map_app, max_list_app. lia.
Qed.
Lemma addc_fuel a b : good nv a -> good nv b -> forall n, (Nat.max (depth a) (depth b) <= n)%nat -> addc nv n a b = add nv a b.
Proof.
  intros Ga Gb n Hn. unfold add. induction Hn as [|n Hn IH]; [reflexivity|]. rewrite <- IH. symmetry. apply addc_fuel_S; split; try assumption; lia.
Qed.
Lemma mulc_fuel_S n : forall a b, good_at nv n a -> good_at nv n b -> mulc nv n a b = mulc nv (S n) a b.
Proof.
  induction n as [|m IH]; intros a b [Ga Da] [Gb Db].
  { destruct Ga as [Ga|Ga]; [|apply wf_depth in Ga; lia]. destruct Gb as [Gb|Gb]; [|apply wf_depth in Gb; lia]. destruct a; try discriminate. destruct b; try discriminate. reflexivity. }
  assert (TP : forall p, good nv (Pol p) -> (depth (Pol p) <= S m)%nat -> Forall (fun t => good_at nv m (fst t)) p) by (intros p [H|H] D; [discriminate|]; rewrite depth_pol in D; apply wf_pol in H as [_ H]; apply tok_at; [exact H|lia]).
  assert (SC : forall p r, good nv (Pol p) -> (depth (Pol p) <= S m)%nat -> scale nv (mulc nv m) p r = scale nv (mulc nv (S m)) p r).
  { intros p r G D. unfold scale. destruct (Req_EM_T r 1); [reflexivity|]. destruct (Req_EM_T r 0); [reflexivity|]. f_equal. apply map_ext_in. intros t Ht. f_equal. specialize (TP p G D). rewrite Forall_forall in TP. apply IH; [apply TP, Ht|]. split; [apply good_num|cbn; lia]. }
  destruct a as [r|p| | | | | | | | ]; destruct b as [r'|q| | | | | | | | ]; try reflexivity; try (apply SC; assumption).
  pose proof (TP p Ga Da) as A. pose proof (TP q Gb Db) as B. rewrite Forall_forall in A, B.
  change (mulc nv (S m) (Pol p) (Pol q)) with (Pol (tidy nv (add nv) (flat_map (fun t => map (fun u => (mulc nv m (fst u) (fst t), addk (snd u) (snd t))) q) p))).
  change (mulc nv (S (S m)) (Pol p) (Pol q)) with (Pol (tidy nv (add nv) (flat_map (fun t => map (fun u => (mulc nv (S m) (fst u) (fst t), addk (snd u) (snd t))) q) p))). do 2 f_equal.
  rewrite !flat_map_concat_map. f_equal. apply map_ext_in. intros t Ht. apply map_ext_in. intros u Hu. f_equal. apply IH; auto.
Qed.
Lemma mulc_fuel a b : good nv a -> good nv b -> forall n, (Nat.max (depth a) (depth b) <= n)%nat -> mulc nv n a b = mul nv a b.
Proof.
  intros Ga Gb n Hn. unfold mul. induction Hn as [|n Hn IH]; [reflexivity|]. rewrite <- IH. symmetry. apply mulc_fuel_S; split; try assumption; lia.
Qed.
End Fuel.

(** ** to_sum *)
Lemma to_sum_ok nv terms cache : wf nv (Rule terms cache) -> exists s, to_sum nv terms cache = Some s /\ wf nv s /\ forall x, dom x (Rule terms cache) -> dom x s /\ eval x s = eval x (Rule terms cache).
Proof.
  intros W. apply wf_rule in W as (Nc & Nt & Pt & Cc). unfold to_sum.
  assert (K : forall ns, proper cache ns -> exists fs, option_all (map (fun q => lookup (fst q) (snd q)) (combine ns cache)) = Some fs /\ Forall (wf nv) fs /\ forall x, cdom x cache -> Forall (dom x) fs /\ prodR (map (eval x) fs) = rval x cache ns).
  { intros ns P. clear Nc Nt Pt. induction P as [|n col ns cache Hn P IH]; [exists []; split; [reflexivity|]; split; [constructor|]; intros x _; split; [constructor|reflexivity]|]. apply Forall_cons_iff in Cc as [[_ C1] Cc]. destruct (IH Cc) as (fs & E & Wf & V). destruct (lookup n col) as [e|] eqn:El; [|congruence]. pose proof (lookup_In _ _ _ El) as Hin. exists (e :: fs). split; [cbn [combine map fst snd]; apply option_all_cons; assumption|].
    split; [constructor; [rewrite Forall_forall in C1; apply (C1 _ Hin)|exact Wf]|]. intros x D. apply Forall_cons_iff in D as [D1 D]. destruct (V x D) as [V1 V2]. split; [constructor; [rewrite Forall_forall in D1; apply (D1 _ Hin)|exact V1]|]. unfold rval in *. cbn [combine map fst snd]. rewrite !prodR_cons, El, V2. reflexivity. }
  assert (T : exists l, option_all (map (fun t => match option_all (map (fun q => lookup (fst q) (snd q)) (combine (snd t) cache)) with Some fs => Some (Prod (cst nv (IZR (fst t)) :: fs)) | None => None end) terms) = Some l /\
     Forall (wf nv) l /\ (length l = length terms) /\ forall x, cdom x cache -> Forall (dom x) l /\ sumR (map (eval x) l) = rsum x cache terms).
  { clear Nt. induction Pt as [|[c ns] terms P1 Pt IH]; [exists []; split; [reflexivity|]; split; [constructor|]; split; [reflexivity|]; intros x _; split; [constructor|reflexivity]|]. destruct IH as (l & E & Wl & Ll & V). cbn [snd] in P1. destruct (K ns P1) as (fs & Ef & Wf & Vf).
    exists (Prod (cst nv (IZR c) :: fs) :: l). split; [cbn [map fst snd]; apply option_all_cons; [rewrite Ef; reflexivity|exact E]|]. split; [constructor; [split; [discriminate|apply allP_Forall; constructor; [apply wf_cst|exact Wf]]|exact Wl]|]. split; [cbn; congruence|].
    intros x D. destruct (V x D) as [V1 V2]. destruct (Vf x D) as [F1 F2]. split; [constructor; [cbn [dom]; apply allP_Forall; constructor; [apply dom_cst|exact F1]|exact V1]|]. cbn [map]. rewrite sumR_cons, V2, rsum_cons. cbn [fst snd]. f_equal.
    change (eval x (Prod (cst nv (IZR c) :: fs))) with (eval x (cst nv (IZR c)) * prodR (map (eval x) fs)). rewrite eval_cst, F2. reflexivity. }
  destruct T as (l & E & Wl & Ll & V). exists (Sum l). split; [rewrite E; reflexivity|]. split; [split; [destruct l; [destruct terms; [congruence|discriminate]|discriminate]|apply allP_Forall, Wl]|]. intros x D. apply dom_rule in D. destruct (V x D) as [V1 V2]. split; [cbn [dom]; apply allP_Forall, V1|]. rewrite eval_rule. exact V2.
Qed.

(** ** replace *)
Lemma mul_num_any nv n : forall c r x, eval x (mulc nv n c (Num r)) = eval x c * r /\ (dom x c -> dom x (mulc nv n c (Num r))).
Proof.
  assert (PR : forall e r x, eval x (Prod [e; cst nv r]) = eval x e * r /\ (dom x e -> dom x (Prod [e; cst nv r]))).
  { intros e r x. split; [change (eval x e * (eval x (cst nv r) * 1) = eval x e * r); rewrite eval_cst; ring|]. intros D. pose proof (dom_cst nv x r). cbn [dom allP fold_right]. auto. }
  induction n as [|m IH]; intros c r x.
  - destruct c; try apply PR. cbn [mulc eval]. split; [reflexivity|auto].
  - destruct c as [s|p|p a|p|l|l|terms cache|b a|a|a]; try apply PR; [cbn [mulc eval]; split; [reflexivity|auto]|]. cbn [mulc]. unfold scale. destruct (Req_EM_T r 1) as [->|_]; [split; [ring|auto]|]. destruct (Req_EM_T r 0) as [->|_]; [split; [rewrite eval_cst; ring|intros _; apply dom_cst]|].
    rewrite !eval_pol, !dom_pol. induction p as [|t p [I1 I2]]; [split; [unfold tval; cbn; ring|auto]|]. cbn [map]. rewrite !tval_cons. cbn [fst snd]. destruct (IH (fst t) r x) as [J1 J2]. split; [rewrite J1, I1; ring|]. intros D. apply Forall_cons_iff in D as [[D1 D2] D]. constructor; [cbn [fst snd]; auto|apply I2, D].
Qed.
(** all polynomials have numbers as coefficients *)
Fixpoint flat (e : expr) : Prop :=
  match e with
  | Num _ => True
  | Pol p | LPol p => allP (fun t => is_num (fst t) = true) p
  | EPol p a => allP (fun t => is_num (fst t) = true) p /\ flat a
  | Sum l | Prod l => allP flat l
  | Rule _ cache => allP (allP (fun t => match t with (_, c) => flat c end)) cache
  | Pow b a => flat b /\ flat a
  | Log a | Exp a => flat a
  end.
Section Replace.
Variables (nv i : nat) (v : R).
Hypothesis Hi : (i < nv)%nat.
Definition repres (e e' : expr) : Prop := forall x, dom (upd x i v) e -> dom x e' /\ eval x e' = eval (upd x i v) e.
Lemma mono_set k : forall x o j, (j < length k)%nat -> mono (upd x (o + j) v) o k = powerRZ v (getk j k) * mono x o (setk j 0 k) /\ (row_ok (upd x (o + j) v) o k -> row_ok x o (setk j 0 k)).
Proof.
  induction k as [|z k IH]; intros x o j Hj; [cbn in Hj; lia|]. destruct j as [|j]; cbn [mono setk row_ok].
  - rewrite Nat.add_0_r, upd_at, mono_upd by lia. split; [cbn [powerRZ]; unfold getk; cbn [nth]; ring|]. intros [_ H]. split; [left; lia|]. assert (G : forall k o', (o < o')%nat -> row_ok (upd x o v) o' k -> row_ok x o' k) by (clear; induction k as [|z k IH]; intros o' L; [auto|]; cbn [row_ok]; rewrite upd_other by lia; intros [H1 H2]; split; [exact H1|apply IH; [lia|exact H2]]). apply (G k (S o)); [lia|exact H].
  - cbn [length] in Hj. replace (o + S j)%nat with (S o + j)%nat by lia. destruct (IH x (S o) j ltac:(lia)) as [I1 I2]. rewrite I1, upd_other by lia. change (getk (S j) (z :: k)) with (getk j k). split; [ring|]. intros [H1 H2]. split; [exact H1|apply I2, H2].
Qed.
Lemma upd_good x : upd (upd x i v) i v = upd x i v. Proof. apply upd_upd. Qed.
Lemma pol_replace_ok p : tok nv p -> Forall (fun t => is_num (fst t) = false -> exists c', replace nv i v (fst t) = Some c' /\ repres (fst t) c') p ->
  (v <> 0 \/ Forall (fun t => is_num (fst t) = true) p) ->
  exists q, pol_replace nv i v (replace nv i v) p = Some q /\ forall x, tdom (upd x i v) p -> tdom x q /\ tval x q = tval (upd x i v) p.
Proof.
  intros T H HV. unfold pol_replace. induction p as [|[c k] p IH]; [exists []; split; [reflexivity|]; intros x _; split; [constructor|reflexivity]|].
  apply Forall_cons_iff in T as [[L G] T], H as [H1 H]. cbn [fst snd] in *. destruct (IH T H) as (q & E & V); [destruct HV as [HV|HV]; [left; exact HV|right; apply Forall_cons_iff in HV; apply HV]|].
  assert (NC : is_num c = true -> forall x y, eval x c = eval y c /\ dom x c) by (intros Hn x y; destruct c; try discriminate; split; [reflexivity|exact I]).
  set (k' := setk i 0 k). assert (MS : forall x, mono (upd x i v) 0 k = powerRZ v (getk i k) * mono x 0 k' /\ (row_ok (upd x i v) 0 k -> row_ok x 0 k')) by (intros x; apply (mono_set k x 0 i); lia).
  assert (K : forall c', (forall x, dom (upd x i v) c -> row_ok (upd x i v) 0 k -> dom x c' /\ eval x c' = eval (upd x i v) c * powerRZ v (getk i k)) -> forall r, r = Some (c', k') ->
     exists q0, option_all (r :: map (fun t => let k := setk i 0 (snd t) in if Req_EM_T v 0 then Some (if Z.eqb (getk i (snd t)) 0 then fst t else Num 0, k) else if is_num (fst t) then Some (if Req_EM_T v 1 then fst t else mul nv (fst t) (Num (vpow v (getk i (snd t)))), k) else match replace nv i v (fst t) with | None => None | Some c => Some (if Req_EM_T v 1 then c else mul nv c (Num (vpow v (getk i (snd t)))), k) end) p) = Some q0 /\ forall x, tdom (upd x i v) ((c, k) :: p) -> tdom x q0 /\ tval x q0 = tval (upd x i v) ((c, k) :: p)).
  { intros c' Hc r Hr. exists ((c', k') :: q). split; [apply option_all_cons; assumption|]. intros x D. apply Forall_cons_iff in D as [[D1 D2] D]. cbn [fst snd] in *. destruct (V x D) as [V1 V2]. destruct (Hc x D1 D2) as [C1 C2]. destruct (MS x) as [M1 M2]. split; [constructor; [exact (conj C1 (M2 D2))|exact V1]|]. rewrite !tval_cons, V2. cbn [fst snd]. rewrite C2, M1. ring. }
  cbn [map fst snd]. cbv zeta. fold k'. destruct (Req_EM_T v 0) as [E0|N0].
  - destruct HV as [HV|HV]; [congruence|]. apply Forall_cons_iff in HV as [HV _]. cbn [fst] in HV. eapply K; [|reflexivity]. intros x D1 D2. destruct (Z.eqb_spec (getk i k) 0) as [Ez|Nz]; [destruct (NC HV x (upd x i v)) as [N1 N2]; split; [exact N2|]; rewrite N1, Ez; cbn [powerRZ]; ring|].
    split; [exact I|]. cbn [eval]. assert (Gz : (0 <= getk i k)%Z).
    { assert (RG : forall k o j, (j < length k)%nat -> row_ok (upd x (o + j) v) o k -> (0 <= getk j k)%Z). { clear - E0. induction k as [|z k IH]; intros o j Hj; [cbn in Hj; lia|]. intros [R1 R2]. destruct j as [|j]; [rewrite Nat.add_0_r, upd_at in R1; destruct R1 as [R1|R1]; [exact R1|congruence]|]. cbn [length] in Hj. apply (IH (S o) j); [lia|]. replace (S o + j)%nat with (o + S j)%nat by lia. exact R2. } apply (RG k 0%nat i); [lia|exact D2]. }
    rewrite E0. destruct (getk i k) as [|z|z]; [congruence| |lia]. cbn [powerRZ]. rewrite pow_i by lia. ring.
  - destruct (is_num c) eqn:Hn.
    + eapply K; [|reflexivity]. intros x D1 D2. destruct (NC eq_refl x (upd x i v)) as [N1 N2]. destruct (Req_EM_T v 1) as [E1|N1'].
      * split; [exact N2|]. rewrite N1, E1, powerRZ_R1. ring.
      * destruct (mul_num_any nv (Nat.max (depth c) (depth (Num (vpow v (getk i k))))) c (vpow v (getk i k)) x) as [M1 M2]. split; [apply M2, N2|]. unfold mul. rewrite M1, N1. reflexivity.
    + destruct (H1 eq_refl) as (c' & Ec & Rc). rewrite Ec. eapply K; [|reflexivity]. intros x D1 D2. destruct (Rc x D1) as [R1 R2]. destruct (Req_EM_T v 1) as [E1|N1'].
      * split; [exact R1|]. rewrite R2, E1, powerRZ_R1. ring.
      * destruct (mul_num_any nv (Nat.max (depth c') (depth (Num (vpow v (getk i k))))) c' (vpow v (getk i k)) x) as [M1 M2]. split; [apply M2, R1|]. unfold mul. rewrite M1, R2. reflexivity.
Qed.
Lemma replace_terms p : tok nv p -> Forall (fun t => wf nv (fst t) -> v <> 0 \/ flat (fst t) -> exists e', replace nv i v (fst t) = Some e' /\ repres (fst t) e') p -> (v <> 0 \/ allP (fun t => is_num (fst t) = true) p) ->
  exists q, pol_replace nv i v (replace nv i v) p = Some q /\ forall x, tdom (upd x i v) p -> tdom x q /\ tval x q = tval (upd x i v) p.
Proof.
  intros T H HV. destruct HV as [HV|HV].
  - apply pol_replace_ok; [exact T| |left; exact HV]. eapply Forall_impl; [|apply (Forall_and' _ _ _ T H)]. cbv beta. intros t [[_ G] Ht] Hn. apply Ht; [apply good_not_num; assumption|left; exact HV].
  - rewrite allP_Forall in HV. apply pol_replace_ok; [exact T| |right; exact HV]. eapply Forall_impl; [|exact HV]. cbv beta. congruence.
Qed.
Lemma list_replace l : Forall (fun e => exists e', replace nv i v e = Some e' /\ repres e e') l -> exists l', option_all (map (replace nv i v) l) = Some l' /\ Forall2 repres l l'.
Proof. induction 1 as [|e l (e' & E & Re) H (l' & El & F)]; [exists []; split; [reflexivity|constructor]|]. exists (e' :: l'). split; [apply option_all_cons; assumption|constructor; assumption]. Qed.
Lemma find_lookup n col (g : expr -> option expr) : match find (fun r => roweqb n (fst r)) (map (fun q => match q with (m, e) => (m, g e) end) col) with Some r => snd r | None => None end = match lookup n col with Some e => g e | None => None end.
Proof. induction col as [|[m e] col IH]; [reflexivity|]. cbn [map find fst lookup]. destruct (roweqb n m); [reflexivity|exact IH]. Qed.
Lemma Forall2_repres_dom l l' x : Forall2 repres l l' -> Forall (dom (upd x i v)) l -> Forall (dom x) l' /\ sumR (map (eval x) l') = sumR (map (eval (upd x i v)) l) /\ prodR (map (eval x) l') = prodR (map (eval (upd x i v)) l).
Proof. induction 1 as [|e e' l l' H F IH]; intros D; [auto|]. apply Forall_cons_iff in D as [D1 D]. destruct (IH D) as (I1 & I2 & I3). destruct (H x D1) as [H1 H2]. cbn [map]. rewrite !sumR_cons, !prodR_cons, I2, I3, H2. split; [constructor; assumption|split; reflexivity]. Qed.
Theorem replace_ok e : wf nv e -> (v <> 0 \/ flat e) -> exists e', replace nv i v e = Some e' /\ repres e e'.
Proof.
  induction e as [r|p Hp|p a Hp Ha|p Hp|l Hl|l Hl|terms cache Hc|b a Hb Ha|a Ha|a Ha] using expr_rect'; intros W HV.
  - destruct W.
  - apply wf_pol in W as [N T]. destruct (replace_terms p T Hp HV) as (q & E & V). exists (Pol q). split; [cbn [replace]; rewrite E; reflexivity|]. intros x D. rewrite dom_pol in *. rewrite !eval_pol. apply V, D.
  - apply wf_epol in W as ([N T] & _ & G). destruct (replace_terms p T Hp) as (q & E & V); [destruct HV as [HV|[HV _]]; auto|].
    assert (A : exists a', (if is_num a then Some a else replace nv i v a) = Some a' /\ repres a a' /\ (is_num a = true -> a' = a)). { destruct (is_num a) eqn:Hn; [exists a; split; [reflexivity|]; split; [|reflexivity]; intros x _; destruct a; try discriminate; split; [exact I|reflexivity]|]. destruct Ha as (a' & A1 & A2); [apply good_not_num; assumption|destruct HV as [HV|[_ HV]]; auto|]. exists a'. split; [exact A1|]. split; [exact A2|discriminate]. }
    destruct A as (a' & Ea & Ra & Na). exists (EPol q a'). split; [cbn [replace]; rewrite E, Ea; reflexivity|]. intros x D. apply dom_epol in D as (D1 & D2 & D3). destruct (V x D1) as [V1 V2]. destruct (Ra x D3) as [A1 A2]. rewrite dom_epol, !eval_epol, V2, A2. split; [|reflexivity]. split; [exact V1|]. split; [|exact A1]. destruct D2 as [D2|[D2 [z ->]]]; [left; exact D2|right; split; [exact D2|exists z; apply Na; reflexivity]].
  - apply wf_lpol in W as [N T]. destruct (replace_terms p T Hp HV) as (q & E & V). exists (LPol q). split; [cbn [replace]; rewrite E; reflexivity|]. intros x D. apply dom_lpol in D as [D1 D2]. destruct (V x D1) as [V1 V2]. rewrite dom_lpol, !eval_lpol, V2. auto.
  - destruct W as [N W]. rewrite allP_Forall in W. destruct (list_replace l) as (l' & E & F). { rewrite Forall_forall in *. intros e He. apply Hl; auto. destruct HV as [HV|HV]; [auto|]. cbn [flat] in HV. rewrite allP_Forall, Forall_forall in HV. auto. }
    exists (Sum l'). split; [cbn [replace]; rewrite E; reflexivity|]. intros x D. cbn [dom eval] in *. rewrite allP_Forall in *. destruct (Forall2_repres_dom l l' x F D) as (K1 & K2 & _). auto.
  - destruct W as [N W]. rewrite allP_Forall in W. destruct (list_replace l) as (l' & E & F). { rewrite Forall_forall in *. intros e He. apply Hl; auto. destruct HV as [HV|HV]; [auto|]. cbn [flat] in HV. rewrite allP_Forall, Forall_forall in HV. auto. }
    exists (Prod l'). split; [cbn [replace]; rewrite E; reflexivity|]. intros x D. cbn [dom eval] in *. rewrite allP_Forall in *. destruct (Forall2_repres_dom l l' x F D) as (K1 & _ & K2). auto.
  - apply wf_rule in W as (Nc & Nt & Pt & Cc).
    assert (HE : Forall (Forall (fun t => exists e', replace nv i v (snd t) = Some e' /\ repres (snd t) e')) cache).
    { apply Forall_forall. intros col Hcol. apply Forall_forall. intros [n e] Hin. cbn [snd]. rewrite Forall_forall in Hc. specialize (Hc col Hcol). rewrite Forall_forall in Hc. apply (Hc _ Hin).
      - unfold cols_ok in Cc. rewrite Forall_forall in Cc. destruct (Cc col Hcol) as [_ C]. rewrite Forall_forall in C. apply (C _ Hin).
      - destruct HV as [HV|HV]; [auto|]. right. cbn [flat] in HV. rewrite allP_Forall, Forall_forall in HV. specialize (HV col Hcol). rewrite allP_Forall, Forall_forall in HV. apply (HV _ Hin). }
    cbn [replace]. cbv zeta. set (C' := map (map (fun q : list Z * expr => match q with (n, e) => (n, replace nv i v e) end)) cache).
    assert (K : forall ns, proper cache ns -> exists fs, option_all (map (fun q => match find (fun r => roweqb (fst q) (fst r)) (snd q) with Some r => snd r | None => None end) (combine ns C')) = Some fs /\ forall x, cdom (upd x i v) cache -> Forall (dom x) fs /\ prodR (map (eval x) fs) = rval (upd x i v) cache ns).
    { intros ns P. unfold C'. clear - P HE. induction P as [|n col ns cache Hn P IH]; [exists []; split; [reflexivity|]; intros x _; split; [constructor|reflexivity]|]. apply Forall_cons_iff in HE as [HE1 HE]. destruct (IH HE) as (fs & E & V). destruct (lookup n col) as [e|] eqn:El; [|congruence]. pose proof (lookup_In _ _ _ El) as Hin. rewrite Forall_forall in HE1. destruct (HE1 _ Hin) as (e' & Ee & Re). cbn [snd] in *.
      exists (e' :: fs). split; [cbn [combine map fst snd]; apply option_all_cons; [rewrite find_lookup, El; exact Ee|exact E]|]. intros x D. apply Forall_cons_iff in D as [D1 D]. destruct (V x D) as [V1 V2]. rewrite Forall_forall in D1. destruct (Re x (D1 _ Hin)) as [R1 R2]. split; [constructor; assumption|]. unfold rval in *. cbn [combine map fst snd]. rewrite !prodR_cons, El, V2, R2. reflexivity. }
    assert (T : exists l, option_all (map (fun t => match option_all (map (fun q => match find (fun r => roweqb (fst q) (fst r)) (snd q) with Some r => snd r | None => None end) (combine (snd t) C')) with Some fs => Some (mul nv (Prod fs) (Num (IZR (fst t)))) | None => None end) terms) = Some l /\
       forall x, cdom (upd x i v) cache -> Forall (dom x) l /\ sumR (map (eval x) l) = rsum (upd x i v) cache terms).
    { clear Nt HV. induction Pt as [|[c ns] terms P1 Pt IH]; [exists []; split; [reflexivity|]; intros x _; split; [constructor|reflexivity]|]. destruct IH as (l & E & V). cbn [snd] in P1. destruct (K ns P1) as (fs & Ef & Vf).
      exists (mul nv (Prod fs) (Num (IZR c)) :: l). split; [cbn [map fst snd]; apply option_all_cons; [rewrite Ef; reflexivity|exact E]|]. intros x D. destruct (V x D) as [V1 V2]. destruct (Vf x D) as [F1 F2]. destruct (mul_num_any nv (Nat.max (depth (Prod fs)) (depth (Num (IZR c)))) (Prod fs) (IZR c) x) as [M1 M2].
      split; [constructor; [apply M2; cbn [dom]; apply allP_Forall, F1|exact V1]|]. cbn [map]. rewrite sumR_cons, V2, rsum_cons. unfold mul. rewrite M1. cbn [fst snd eval]. rewrite F2. ring. }
    destruct T as (l & E & V). exists (Sum l). split; [rewrite E; reflexivity|]. intros x D. apply dom_rule in D. destruct (V x D) as [V1 V2]. split; [cbn [dom]; apply allP_Forall, V1|]. rewrite eval_rule. exact V2.
  - destruct W as [Wb Wa]. destruct Hb as (b' & Eb & Rb); [exact Wb|destruct HV as [HV|[HV _]]; auto|]. destruct Ha as (a' & Ea & Ra); [exact Wa|destruct HV as [HV|[_ HV]]; auto|]. exists (Pow b' a'). split; [cbn [replace]; rewrite Eb, Ea; reflexivity|]. intros x (D1 & D2 & D3). destruct (Rb x D1) as [B1 B2]. destruct (Ra x D3) as [A1 A2]. cbn [dom eval]. rewrite B2, A2. auto.
  - destruct (Ha W HV) as (a' & Ea & Ra). exists (Log a'). split; [cbn [replace]; rewrite Ea; reflexivity|]. intros x [D1 D2]. destruct (Ra x D1) as [A1 A2]. cbn [dom eval]. rewrite A2. auto.
  - destruct (Ha W HV) as (a' & Ea & Ra). exists (Exp a'). split; [cbn [replace]; rewrite Ea; reflexivity|]. intros x D. destruct (Ra x D) as [A1 A2]. cbn [dom eval]. rewrite A2. auto.
Qed.
End Replace.
