(** C39: [expand_singular] (expansion.py:70-186, 231-267).  The specification is in SingSpec. *)
From Coq Require Import FunctionalExtensionality.
From Verif Require Import SortProofs ExprSpec ExprMixed ExprArith ExprSimp ExprDerive ExprMore PropExpr CalmSpec CalmProofs SubSpec SubReg ExpModel ExpSpec PropFlat ExpTaylor SingSpec ExpSing.
Local Open Scope R_scope.

(** ** one variable: the lowest order is a - b; OrderError exactly below it; otherwise the expansion, with a remainder o(t^order) *)
Theorem C39_one_variable : forall nv zero_test fs j, (j < nv)%nat -> Forall (factor_ok nv) fs ->
  exists a A b B, leads nv j fs (upper fs) a A /\ leads nv j fs (lower fs) b B /\
    (forall n order, (order < a - b)%Z -> expand_singular nv zero_test n (Prod fs) [j] [order] = OrderError) /\
    (forall order, (a - b <= order)%Z -> exists p, (forall n, expand_singular nv zero_test (S n) (Prod fs) [j] [order] = Done (Pol p)) /\ laurent nv j fs B (a - b) order p).
Proof.
  intros nv z fs j Hj HF. destruct (sing_ok nv z j Hj fs HF) as (a & A & b & B & L1 & L2 & O & D). exists a, A, b, B. split; [exact L1|]. split; [exact L2|]. split.
  - intros n order Ho. unfold expand_singular, expand_and_flatten. cbn [length Nat.eqb combine recursive_expansion]. rewrite (O n order Ho). reflexivity.
  - intros order Ho. destruct (D order Ho) as (p & E & L). exists p. split; [|exact L]. intros n. unfold expand_singular, expand_and_flatten. cbn [length Nat.eqb combine recursive_expansion]. rewrite (E n). reflexivity.
Qed.
(** ** several variables *)
Lemma step_expansion nv z n j o e p : (j < nv)%nat -> quotient nv e -> singular_step nv z n e j o = Done p -> expansion nv j o e p.
Proof.
  intros Hj (fs & -> & HF) H. destruct (sing_ok nv z j Hj fs HF) as (a & A & b & B & L1 & L2 & O & D). destruct (Z.lt_ge_cases o (a - b)) as [C|C]; [rewrite (O n o C) in H; discriminate|]. destruct (D o C) as (p' & E & L). destruct n as [|n].
  - exfalso. unfold singular_step in H. destruct (rational nv (Prod fs)) as [| | | | |[num den]]; cbn [bind] in H; try discriminate. cbv zeta in H. destruct (_ <? _)%Z; [discriminate|]. unfold low in H at 1. destruct (replace nv j 0 (Pol (pull j (min_exp j num) num))) as [q|]; cbn [simplify] in H; discriminate.
  - rewrite (E n) in H. injection H as <-. exists fs, a, A, b, B. auto.
Qed.
Lemma step_total nv z n j o e : (j < nv)%nat -> quotient nv e -> singular_step nv z (S n) e j o = OrderError \/ exists p, singular_step nv z (S n) e j o = Done p /\ Forall (fun t => quotient nv (fst t)) p.
Proof.
  intros Hj (fs & -> & HF). destruct (sing_ok nv z j Hj fs HF) as (a & A & b & B & L1 & L2 & O & D). destruct (Z.lt_ge_cases o (a - b)) as [C|C]; [left; apply O, C|right]. destruct (D o C) as (p' & E & L). exists p'. split; [apply E|apply L].
Qed.
Lemma recursive_ok nv z n js : forall os e r, (forall j, In j js -> (j < nv)%nat) -> length js = length os -> quotient nv e -> recursive_expansion (singular_step nv z n) (combine js os) e = Done r ->
  exists p, r = Pol p /\ expansions nv js os e (flat_terms (length js) p).
Proof.
  induction js as [|j js IH]; intros os e r Hj L Q H; [cbn in H; discriminate|]. destruct os as [|o os]; [discriminate|]. cbn [combine recursive_expansion] in H. destruct (singular_step nv z n e j o) as [| | | | |p] eqn:Es; cbn [bind] in H; try discriminate.
  pose proof (step_expansion nv z n j o e p (Hj j (or_introl eq_refl)) Q Es) as X. destruct js as [|j2 js].
  - destruct os; [|discriminate]. cbn [combine] in H. injection H as <-. exists p. split; [reflexivity|]. constructor. exact X.
  - destruct os as [|o2 os]; [discriminate|]. remember (j2 :: js) as js' eqn:Ejs. remember (o2 :: os) as os' eqn:Eos. assert (EC : exists c r', combine js' os' = c :: r') by (subst; do 2 eexists; reflexivity). destruct EC as (c & r' & EC). rewrite EC in H. rewrite <- EC in H.
    destruct (for_coeffs _ p) as [| | | | |p2] eqn:Ef; cbn [bind] in H; try discriminate. injection H as <-. exists p2. split; [reflexivity|].
    assert (XQ : Forall (fun t => quotient nv (fst t)) p) by (destruct X as (fs & a & A & b & B & _ & _ & _ & _ & XQ & _); exact XQ).
    assert (K : exists ps, Forall2 (fun t q => expansions nv js' os' (fst t) q) p ps /\ flat_map (flat_term (Some (length js'))) p2 = concat (map (fun tq => map (fun u => (fst u, addk (snd (fst tq)) (snd u))) (snd tq)) (combine p ps))).
    { clear X Es. revert p2 Ef. induction XQ as [|[c0 k] p Qc XQ IHp]; intros p2 Ef; cbn [for_coeffs] in Ef; [injection Ef as <-; exists []; split; [constructor|reflexivity]|].
      destruct (recursive_expansion _ _ c0) as [| | | | |c'] eqn:Ec; cbn [bind] in Ef; try discriminate. destruct (for_coeffs _ p) as [| | | | |p3] eqn:Ep; cbn [bind] in Ef; try discriminate. injection Ef as <-. cbn [fst] in Qc.
      destruct (IH os' c0 c' ltac:(intros i Hi; apply Hj; right; exact Hi) ltac:(cbn in L; lia) Qc Ec) as (q & -> & Xq). destruct (IHp p3 eq_refl) as (ps & F & E). exists (flat_terms (length js') q :: ps). split; [constructor; assumption|]. cbn [flat_map combine map concat fst snd]. rewrite E. f_equal. apply flat_step; [reflexivity|]. rewrite Ejs. cbn. lia. }
    destruct K as (ps & F & E). assert (FT : flat_terms (length (j :: js')) p2 = flat_map (flat_term (Some (length js'))) p2) by (rewrite Ejs; reflexivity). rewrite FT, E. apply more_variables; assumption.
Qed.
Theorem C39_several_variables : forall nv zero_test n e indices orders r, quotient nv e -> (forall j, In j indices -> (j < nv)%nat) ->
  expand_singular nv zero_test n e indices orders = Done r -> exists p, r = Pol p /\ expansions nv indices orders e p.
Proof.
  intros nv z n e js os r Q Hj H. unfold expand_singular, expand_and_flatten in H. destruct (Nat.eqb_spec (length js) (length os)) as [L|]; [|discriminate]. destruct (recursive_expansion _ _ e) as [| | | | |r1] eqn:E; cbn [bind] in H; try discriminate.
  destruct (recursive_ok nv z n js os e r1 Hj L Q E) as (p & -> & X). exists (flat_terms (length js) p). split; [|exact X]. destruct js as [|j [|j2 js]]; cbn [length Nat.eqb Nat.sub flat_terms] in *; [cbn in E; discriminate|injection H as <-; reflexivity|]. match type of H with Done ?a = Done ?b => assert (H2 : b = a) by congruence end. rewrite H2, flatten_pol. reflexivity.
Qed.
(** ** no other failure than OrderError for such input *)
Lemma recursive_total nv z n js : js <> [] -> forall os e, (forall j, In j js -> (j < nv)%nat) -> length js = length os -> quotient nv e ->
  recursive_expansion (singular_step nv z (S n)) (combine js os) e = OrderError \/ exists r, recursive_expansion (singular_step nv z (S n)) (combine js os) e = Done r.
Proof.
  induction js as [|j js IH]; intros N os e Hj L Q; [congruence|]. destruct os as [|o os]; [discriminate|]. cbn [combine recursive_expansion]. destruct (step_total nv z n j o e (Hj j (or_introl eq_refl)) Q) as [->|(p & -> & QP)]; [left; reflexivity|]. cbn [bind]. destruct (combine js os) as [|c r'] eqn:EC; [right; eexists; reflexivity|]. rewrite <- EC.
  assert (N' : js <> []) by (intros ->; discriminate). assert (K : for_coeffs (recursive_expansion (singular_step nv z (S n)) (combine js os)) p = OrderError \/ exists p', for_coeffs (recursive_expansion (singular_step nv z (S n)) (combine js os)) p = Done p').
  { clear EC. induction QP as [|[c0 k] p Qc QP IHp]; [right; eexists; reflexivity|]. cbn [for_coeffs]. cbn [fst] in Qc. destruct (IH N' os c0 ltac:(intros i Hi; apply Hj; right; exact Hi) ltac:(cbn in L; lia) Qc) as [->|[c' ->]]; [left; reflexivity|]. cbn [bind]. destruct IHp as [->|[p' ->]]; [left; reflexivity|right; eexists; reflexivity]. }
  destruct K as [->|[p' ->]]; [left; reflexivity|right; eexists; reflexivity].
Qed.
Theorem C39_only_OrderError : forall nv zero_test n e indices orders, quotient nv e -> indices <> [] -> (forall j, In j indices -> (j < nv)%nat) -> length indices = length orders ->
  expand_singular nv zero_test (S n) e indices orders = OrderError \/ exists r, expand_singular nv zero_test (S n) e indices orders = Done r.
Proof.
  intros nv z n e js os Q N Hj L. unfold expand_singular, expand_and_flatten. rewrite L, Nat.eqb_refl. destruct (recursive_total nv z n js N os e Hj L Q) as [->|[r ->]]; [left; reflexivity|right]. cbn [bind]. destruct (Nat.eqb (length os) 1); eexists; reflexivity.
Qed.
(** ** everything else is refused *)
Theorem C39_errors : forall nv zero_test n e j js o os, (forall fs, e = Prod fs -> ~ Forall (fun f => match f with Pol _ => True | EPol _ a => a = Num (-1) | _ => False end) fs) -> length js = length os ->
  expand_singular nv zero_test n e (j :: js) (o :: os) = TypeError.
Proof.
  intros nv z n e j js o os H L. unfold expand_singular, expand_and_flatten. cbn [length]. rewrite L, Nat.eqb_refl. cbn [combine recursive_expansion]. assert (E : singular_step nv z n e j o = TypeError); [|rewrite E; reflexivity]. unfold singular_step, rational. destruct e as [r|p|p a|p|l|l|terms cache|b a|a|a]; try reflexivity. specialize (H l eq_refl).
  assert (G : forall fs num den, ~ Forall (fun f => match f with Pol _ => True | EPol _ a => a = Num (-1) | _ => False end) fs -> gather nv fs num den = TypeError).
  { clear. induction fs as [|f fs IH]; intros num den H; [exfalso; apply H; constructor|]. cbn [gather]. destruct f; try reflexivity.
    - apply IH. intros H'. apply H. constructor; [exact I|exact H'].
    - destruct (is_const (-1) f) eqn:E; [|reflexivity]. apply is_const_spec in E. apply IH. intros H'. apply H. constructor; assumption. }
  rewrite (G l _ _ H). reflexivity.
Qed.
(** ** deviation: the zero function has the "lowest order" 0, so that zero to order -1 is refused *)
Theorem C39_zero_refuted : forall nv zero_test n j, expand_singular nv zero_test n (Prod [Pol [(Num 0, zeros nv)]]) [j] [(-1)%Z] = OrderError.
Proof.
  intros nv z n j. unfold expand_singular, expand_and_flatten. cbn [length Nat.eqb combine recursive_expansion]. assert (E : singular_step nv z n (Prod [Pol [(Num 0, zeros nv)]]) j (-1) = OrderError); [|rewrite E; reflexivity]. unfold singular_step, rational. cbn [gather].
  assert (M : mul nv (Pol [(Num 1, zeros nv)]) (Pol [(Num 0, zeros nv)]) = Pol [(Num 0, zeros nv)]).
  { unfold mul. rewrite !depth_pol. unfold tdepth. cbn [map fst depth max_list fold_right Nat.max mulc flat_map app snd]. unfold tidy. cbn [sort_by fold_right]. unfold merged. cbn.
    match goal with |- context [Req_EM_T ?a 0] => destruct (Req_EM_T a 0) as [_|N0]; [reflexivity|exfalso; apply N0; ring] end. }
  rewrite M. cbn [coeffs_of bind]. cbv zeta. cbn [min_exp fold_left snd]. unfold zeros. rewrite !getk_zeros. reflexivity.
Qed.
(** ** concrete case: 1/(y (1 + x^2)) = y^(-1) (1 - x^2 + ...) in x and y to the orders 2 and -1.  The zero coefficient of x^1 is
    expanded in y as well, so that OrderError is raised although the expansion exists *)
Definition ex_sing : expr := Prod [EPol [(Num 1, [0; 1]%Z); (Num 1, [2; 1]%Z)] (Num (-1))].
Ltac req := repeat match goal with |- context [Req_EM_T ?a ?b] => first [destruct (Req_EM_T a b) as [_|?H]; [|exfalso; apply H; clear; (ring || lra)] | destruct (Req_EM_T a b) as [?H|_]; [exfalso; clear - H; lra|]] end.
Ltac comp := unfold tidy, merged; cbn; repeat (progress (req; cbn)).
Definition den1 : terms_t := [(Num 1, [0; 1]%Z); (Num 1, [2; 1]%Z)].
Definition den2 : terms_t := [(Num (1 * 1), [0; 1]%Z); (Num (1 * 1), [2; 1]%Z)].
Lemma st1 : mul_pol 2 [(Num 1, zeros 2)] den1 = den2.
Proof. unfold mul_pol. cbn. comp. reflexivity. Qed.
Definition num2 : terms_t := [(Num (1 * (1 * 1 * 2) * -1), [1; 1]%Z)].
Lemma st2 z n : derive_num 2 z n 0 [(Num 1, zeros 2)] den2 = num2.
Proof. unfold derive_num, sub_pol, mul_pol, poly_derive, pol_derive. cbn. comp. reflexivity. Qed.
Definition den3 : terms_t := [(Num (1 * 1 * (1 * 1)), [0; 2]%Z); (Num (1 * 1 * (1 * 1) + 1 * 1 * (1 * 1)), [2; 2]%Z); (Num (1 * 1 * (1 * 1)), [4; 2]%Z)].
Lemma st3 : mul_pol 2 den2 den2 = den3.
Proof. unfold mul_pol, den2. cbn. comp. reflexivity. Qed.
Lemma st4 n : low 2 (S n) 0 num2 = Some [(Num 0, zeros 2)].
Proof.
  assert (P : poly 2 num2) by (split; [discriminate|]; split; [constructor; [reflexivity|constructor]|constructor; [reflexivity|constructor]]).
  destruct (low_full 2 0 ltac:(lia) num2 P) as (E & _). rewrite E. f_equal. unfold num2. cbn. comp. reflexivity.
Qed.
Definition num3 : terms_t :=
  [(Num (1 * 1 * (1 * 1) * (1 * (1 * 1 * 2) * -1 * 1)), [0; 3]%Z);
   (Num (1 * (1 * 1 * 2) * -1 * ((1 * 1 * (1 * 1) + 1 * 1 * (1 * 1)) * 2) * -1 + (1 * 1 * (1 * 1) + 1 * 1 * (1 * 1)) * (1 * (1 * 1 * 2) * -1 * 1)), [2; 3]%Z);
   (Num (1 * (1 * 1 * 2) * -1 * (1 * 1 * (1 * 1) * 4) * -1 + 1 * 1 * (1 * 1) * (1 * (1 * 1 * 2) * -1 * 1)), [4; 3]%Z)].
Lemma st5 z n : derive_num 2 z n 0 num2 den3 = num3.
Proof. unfold derive_num, sub_pol, mul_pol, poly_derive, pol_derive. cbn. comp. reflexivity. Qed.
Lemma st6 n : exists l, low 2 (S n) 0 num3 = Some l /\ all_coeffs 0 l = false.
Proof.
  assert (P : poly 2 num3) by (split; [discriminate|]; split; [repeat (constructor; [reflexivity|])|repeat (constructor; [reflexivity|])]; constructor).
  destruct (low_full 2 0 ltac:(lia) num3 P) as (E & _). rewrite E. eexists. split; [reflexivity|]. unfold num3. cbn. comp. reflexivity.
Qed.
Theorem C39_zero_coefficient_refuted : forall z n, expand_singular 2 z (S n) ex_sing [0; 1]%nat [2; -1]%Z = OrderError.
Proof.
  intros z n. unfold expand_singular, expand_and_flatten. cbn [length Nat.eqb combine recursive_expansion].
  assert (S1 : exists c0 c2, singular_step 2 z (S n) ex_sing 0 2 = Done [(c0, row 2 0 0); (Prod [Pol [(Num 0, zeros 2)]], row 2 0 1); (c2, row 2 0 2)] /\ quotient 2 c0).
  { assert (Q : quotient 2 ex_sing) by (eexists; split; [reflexivity|]; constructor; [|constructor]; split; [|reflexivity]; split; [discriminate|]; split; repeat (constructor; [reflexivity|]); constructor).
    destruct (step_total 2 z n 0 2 ex_sing ltac:(lia) Q) as [E|(p & E & QP)]; revert E; unfold singular_step, rational, ex_sing; cbn [gather]; unfold is_const; req; fold den1; change (coeffs_of (mul 2 (Pol [(Num 1, zeros 2)]) (Pol den1))) with (mul_pol 2 [(Num 1, zeros 2)] den1); rewrite st1; cbn [bind]; cbv zeta.
    - change (min_exp 0 [(Num 1, zeros 2)]) with 0%Z. change (min_exp 0 den2) with 0%Z. change (2 <? - (- 0 + 0))%Z with false. cbv iota. repeat match goal with |- match ?a with _ => _ end = _ -> _ => destruct a end; discriminate.
    - change (min_exp 0 [(Num 1, zeros 2)]) with 0%Z. change (min_exp 0 den2) with 0%Z. change (pull 0 0 [(Num 1, zeros 2)]) with [(Num 1, zeros 2)]. change (pull 0 0 den2) with den2. change (2 <? - (- 0 + 0))%Z with false. cbv iota. change (Z.to_nat (2 + (- 0 + 0))) with 2%nat.
      destruct (low 2 (S n) 0 [(Num 1, zeros 2)]) as [ln|]; [|discriminate]. destruct (low 2 (S n) 0 den2) as [ld|]; [|discriminate]. cbn [singular_loop]. rewrite st2, st3, st4. assert (A0 : all_coeffs 0 [(Num 0, zeros 2)] = true) by (cbn; req; reflexivity). rewrite A0, st5. destruct (st6 n) as (l & -> & ->). destruct (low 2 (S n) 0 (mul_pol 2 den3 den3)) as [ld'|]; [|discriminate]. cbn [app combine map seq Z.of_nat]. intros H. injection H as <-. do 2 eexists. split; [reflexivity|]. apply Forall_cons_iff in QP. apply QP. }
  destruct S1 as (c0 & c2 & -> & Q0). cbn [bind for_coeffs]. destruct (step_total 2 z n 1 (-1) c0 ltac:(lia) Q0) as [->|(p & -> & _)]; [reflexivity|]. cbn [bind]. pose proof (C39_zero_refuted 2 z (S n) 1) as H. unfold expand_singular, expand_and_flatten in H. cbn [length Nat.eqb combine recursive_expansion] in H. destruct (singular_step 2 z (S n) (Prod [Pol [(Num 0, zeros 2)]]) 1 (-1)); cbn [bind] in *; try discriminate. reflexivity.
Qed.
(** the hypotheses of the theorems above are met by this expression; its lowest order in y is -1 *)
Example C39_ex : quotient 2 ex_sing /\ forall x, defined_at 1 [EPol den1 (Num (-1))] x.
Proof.
  split; [eexists; split; [reflexivity|]; constructor; [|constructor]; split; [|reflexivity]; split; [discriminate|]; split; repeat (constructor; [reflexivity|]); constructor|].
  intros x. constructor; [|constructor]. apply dom_pol. constructor; [|constructor; [|constructor]]; cbn; repeat split; left; lia.
Qed.
