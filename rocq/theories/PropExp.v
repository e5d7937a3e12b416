(** Property C38: expand_Taylor. *)
From Coq Require Import FunctionalExtensionality.
From Coquelicot Require Import Coquelicot.
From Verif Require Import SortProofs ExprSpec ExprSmooth ExprMixed ExprArith ExprOrd ExprSimp ExprDerive ExprMore PropExpr CalmSpec CalmProofs ContSpec ContProofs ContJ SubModel SubSpec SubInt SubReg ExpModel ExpSpec PropFlat ExpTaylor.
Local Open Scope R_scope.

Lemma flat_calm e : flat e -> calm (fun _ => False) e.
Proof.
  induction e as [r|p Hp|p a Hp Ha|p Hp|l Hl|l Hl|terms cache Hc|b a Hb Ha|a Ha|a Ha] using expr_rect'; cbn [CalmSpec.calm flat]; unfold numeric; rewrite ?allP_Forall; auto.
  - intros [H1 H2]. split; [exact H1|]. split; [intros x []|auto].
  - intros H. rewrite Forall_forall in *. auto.
  - intros H. rewrite Forall_forall in *. auto.
  - intros H. rewrite Forall_forall in *. intros col Hcol. specialize (H col Hcol). specialize (Hc col Hcol). rewrite allP_Forall in *. rewrite Forall_forall in *. intros [n c] Hin. apply (Hc _ Hin), (H _ Hin).
  - intros (H1 & H2). split; [auto|]. split; [intros x []|auto].
Qed.
Lemma zeroed_upd js x i t : In i js -> zeroed js (upd x i t) = zeroed js x.
Proof. intros Hi. apply functional_extensionality. intros k. unfold zeroed, upd. destruct (in_dec Nat.eq_dec k js) as [_|H]; [reflexivity|]. destruct (Nat.eqb_spec k i) as [->|_]; [contradiction|reflexivity]. Qed.
Lemma upd_zeroed js x i : In i js -> upd (zeroed js x) i 0 = zeroed js x.
Proof. intros Hi. apply functional_extensionality. intros k. unfold zeroed, upd. destruct (Nat.eqb_spec k i) as [->|_]; [|reflexivity]. destruct (in_dec Nat.eq_dec i js) as [_|H]; [reflexivity|contradiction]. Qed.
(** [flat]: no polynomial has an expression as coefficient (see below); with several variables also: no power is a positive integer at
    the point of expansion [zeroed indices rho] (after a substitution [simplify] may change the value of such a power, C07_duplicate_terms_refuted) *)
Definition expandable (indices : list nat) (e : expr) : Prop :=
  (length indices = 1%nat /\ flat e) \/ exists rho, calm (fun x => x = zeroed indices rho) e.
(** the terms of the result are, in order, the Taylor coefficients of all orders up to the requested ones *)
Theorem C38_Taylor : forall nv zero_test e indices orders, sound zero_test -> wf nv e -> expandable indices e ->
  indices <> [] -> NoDup indices -> (forall j, In j indices -> (j < nv)%nat) -> length indices = length orders -> Forall (fun o => (0 <= o)%Z) orders ->
  exists p, (exists n0, forall n, (n0 <= n)%nat -> expand_Taylor nv zero_test n e indices orders = Done (Pol p)) /\
    Forall2 (fun ks t => exponents nv indices (map Z.of_nat ks) (snd t) /\ taylor_coefficient e indices ks (fst t)) (multi orders) p.
Proof.
  intros nv z e js os Hz W X N ND Hj L HO.
  assert (G : exists p, ev (fun n => recursive_expansion (taylor_step nv z n) (combine js os) e = Done (Pol p)) /\ Forall2 (term_ok nv e js) (multi os) (flat_terms (length js) p)).
  { destruct X as [[X1 X2]|[rho C]].
    - apply (expand_ok nv z (fun _ => False) Hz js os e L N ND Hj HO (or_introl X1)). split; [exact W|apply flat_calm, X2].
    - apply (expand_ok nv z (fun x => x = zeroed js rho) Hz js os e L N ND Hj HO); [|split; assumption]. right. intros i Hi. split; [intros x ->; apply upd_zeroed, Hi|exists (zeroed js rho); reflexivity]. }
  destruct G as (p & (n0 & E) & F). exists (flat_terms (length js) p). split; [|exact F]. exists n0. intros n Hn. unfold expand_Taylor, expand_and_flatten. rewrite L, Nat.eqb_refl, <- L, (E n Hn). cbn [bind].
  destruct js as [|j [|j2 js]]; [congruence|reflexivity|]. cbn [length Nat.eqb Nat.sub flat_terms]. rewrite flatten_pol. reflexivity.
Qed.
(** the coefficients do not depend on the expansion variables *)
Theorem C38_free : forall e indices ks c i x t, taylor_coefficient e indices ks c -> In i indices -> dom (zeroed indices x) e -> eval (upd x i t) c = eval x c.
Proof.
  intros e js ks c i x t H Hi D. destruct (H x D) as [_ E]. destruct (H (upd x i t)) as [_ E']; [rewrite zeroed_upd by exact Hi; exact D|]. rewrite E, E', zeroed_upd by exact Hi. reflexivity.
Qed.
(** in one variable the result approximates the expression up to terms smaller than t^order *)
Lemma mono_row nv j k x : (j < nv)%nat -> mono x 0 (row nv j (Z.of_nat k)) = x j ^ k.
Proof.
  intros Hj. unfold row, zeros. enough (G : forall n i o, (i < n)%nat -> mono x o (setk i (Z.of_nat k) (repeat 0%Z n)) = x (o + i)%nat ^ k) by (apply (G nv j 0%nat Hj)).
  induction n as [|n IH]; intros [|i] o Hi; try lia; cbn [repeat setk mono].
  - rewrite mono_zeros, Nat.add_0_r, <- pow_powerRZ. ring.
  - rewrite IH by lia. rewrite powerRZ_O. replace (S o + i)%nat with (o + S i)%nat by lia. ring.
Qed.
Theorem C38_approximates : forall nv zero_test e j order n p, sound zero_test -> wf nv e -> flat e -> (j < nv)%nat -> (0 <= order)%Z ->
  expand_Taylor nv zero_test n e [j] [order] = Done (Pol p) ->
  forall x, dom (upd x j 0) e -> small_o (fun t => eval (upd x j t) e - eval (upd x j t) (Pol p)) order.
Proof.
  intros nv z e j o n p Hz W Fl Hj Ho H x D.
  assert (B : both nv (fun _ => False) e) by (split; [exact W|apply flat_calm, Fl]).
  destruct (all_good e) as [OE SE]. destruct (step_ok nv z (fun _ => False) Hz j Hj (fun y => dom y e) (fun y => eval y e) OE e o Ho B) as (p' & (n0 & E) & F); [auto|].
  assert (EP : p = p').
  { unfold expand_Taylor, expand_and_flatten in H. cbn [length Nat.eqb combine recursive_expansion] in H. destruct (taylor_step nv z n e j o) as [| | | | |p1] eqn:E1; cbn [bind] in H; try discriminate. injection H as ->. specialize (E (Nat.max n n0) ltac:(lia)).
    assert (M : taylor_step nv z (Nat.max n n0) e j o = Done p).
    { revert E1. unfold taylor_step. destruct (o <? 0)%Z; [discriminate|]. destruct (replace nv j 0 e) as [c|]; [|discriminate].
      assert (ML : forall cnt i inv f r m m', (m <= m')%nat -> taylor_loop nv z m j cnt i inv f = Some r -> taylor_loop nv z m' j cnt i inv f = Some r).
      { induction cnt as [|cnt IH]; intros i inv f r m m' L; cbn [taylor_loop]; [auto|]. cbv zeta. destruct (simplify nv m f) as [s|] eqn:Es; [|discriminate]. rewrite (simplify_mono nv m m' f s L Es). destruct (derive nv z j m s) as [d0|] eqn:Ed; [|discriminate]. rewrite (derive_mono nv z j m m' s d0 L Ed). destruct (replace nv j 0 d0) as [c'|]; [|discriminate]. destruct (taylor_loop nv z m j cnt (S i) (inv / (INR i + 1)) d0) as [r'|] eqn:Er; [|discriminate]. rewrite (IH _ _ _ _ m m' L Er). auto. }
      destruct (taylor_loop nv z n j (Z.to_nat o) 0 1 e) as [r|] eqn:Er; [|discriminate]. rewrite (ML _ _ _ _ _ n (Nat.max n n0) ltac:(lia) Er). auto. }
    congruence. }
  subst p'. clear E H. intros eps He. destruct (taylor_sum (fun y => dom y e) j (fun y => eval y e) x (Z.to_nat o) OE SE D eps He) as (del & Hd & HT). exists del. split; [exact Hd|]. intros t _ Ht. destruct (HT t Ht) as [_ H].
  replace (Rabs (powerRZ t o)) with (Rabs t ^ Z.to_nat o); [|rewrite <- (Z2Nat.id o Ho) at 2; rewrite <- pow_powerRZ; symmetry; apply RPow_abs || apply eq_sym, RPow_abs].
  replace (eval (upd x j t) (Pol p)) with (sumR (map (fun q => / INR (fact q) * dN q j (fun y => eval y e) (upd x j 0) * t ^ q) (seq 0 (S (Z.to_nat o))))); [exact H|].
  rewrite eval_pol. unfold tval. clear - F D Hj. induction F as [|q u l p (Hu & _ & Hc) _ IH]; [reflexivity|]. cbn [map]. rewrite !sumR_cons, IH. f_equal. destruct (Hc (upd x j t)) as [_ E]; [rewrite upd_upd; exact D|]. rewrite E, Hu, (mono_row nv j q _ Hj), upd_at, upd_upd. reflexivity.
Qed.
(** refused calls *)
Theorem C38_errors : forall nv zero_test n e indices orders,
  (length indices <> length orders -> expand_Taylor nv zero_test n e indices orders = AssertionError) /\
  (forall j o, (o < 0)%Z -> expand_Taylor nv zero_test n e (j :: indices) (o :: orders) = AssertionError).
Proof.
  intros nv z n e js os. split.
  - intros H. unfold expand_Taylor, expand_and_flatten. destruct (Nat.eqb_spec (length js) (length os)); [contradiction|reflexivity].
  - intros j o Ho. unfold expand_Taylor, expand_and_flatten. destruct (Nat.eqb (length (j :: js)) (length (o :: os))); [|reflexivity]. cbn [combine recursive_expansion]. unfold taylor_step. destruct (Z.ltb_spec o 0); [reflexivity|lia].
Qed.
(** ** the coefficient of a nested polynomial keeps the expansion variable (cf. C04_nested_zero_refuted) *)
Theorem C38_nested_refuted : forall n, expand_Taylor 1 (fun _ => false) n nested_x [0%nat] [0%Z] = Done (Pol [(nested_x, [0%Z])]) /\ ~ taylor_coefficient nested_x [0%nat] [0%nat] nested_x.
Proof.
  intros n. destruct C04_nested_zero_refuted as (_ & E & V). split.
  - unfold expand_Taylor, expand_and_flatten. cbn [length Nat.eqb combine recursive_expansion]. unfold taylor_step. rewrite E. reflexivity.
  - intros H. destruct (H (fun _ => 1)) as [_ H1]; [apply (V (zeroed [0%nat] (fun _ => 1)))|]. destruct (V (fun _ => 1)) as (_ & V1 & _). rewrite V1 in H1. cbn [facts dmulti dN] in H1. destruct (V (zeroed [0%nat] (fun _ => 1))) as (_ & V2 & _). rewrite V2 in H1. unfold zeroed in H1. cbn in H1. lra.
Qed.
(** ** concrete cases: exp(x y)^(2 + x) in x to order 3, and 1/(1 + x + 2 y) in x and y to orders 2 and 1 *)
Definition ex3 : expr := EPol [(Num 1, [0; 0]%Z); (Num 1, [1; 0]%Z); (Num 2, [0; 1]%Z)] (Num (-1)).
Example C38_ex1 : exists p, (exists n0, forall n, (n0 <= n)%nat -> expand_Taylor 2 (fun _ => false) n ex2 [0%nat] [3%Z] = Done (Pol p)) /\ length p = 4%nat.
Proof.
  destruct (C38_Taylor 2 (fun _ => false) ex2 [0%nat] [3%Z] sound_no (proj2 ex_wf)) as (p & E & F); [left; split; [reflexivity|cbn; tauto]|discriminate|repeat constructor; cbn; tauto|intros j [<-|[]]; lia|reflexivity|repeat constructor; lia|].
  exists p. split; [exact E|]. apply Forall2_len in F. rewrite <- F. reflexivity.
Qed.
Lemma ex3_ok : wf 2 ex3 /\ expandable [0%nat; 1%nat] ex3 /\ dom (zeroed [0%nat; 1%nat] (fun _ => 1)) ex3.
Proof.
  split; [|split].
  - apply wf_epol. split; [split; [discriminate|repeat constructor]|]. split; [left; repeat constructor; cbn; intuition discriminate|left; reflexivity].
  - right. exists (fun _ => 1). cbn. split; [repeat constructor|]. split; [|exact I]. intros x _. split; [exact I|]. intros n. cbn [eval]. rewrite S_INR. pose proof (pos_INR n). lra.
  - apply dom_epol. assert (T : tdom (zeroed [0%nat; 1%nat] (fun _ => 1)) [(Num 1, [0; 0]%Z); (Num 1, [1; 0]%Z); (Num 2, [0; 1]%Z)]) by (do 3 (constructor; [cbn; repeat split; left; lia|]); constructor). split; [exact T|]. split; [|exact I]. left. unfold tval, zeroed. cbn [map fst snd eval sumR fold_right mono in_dec]. repeat match goal with |- context [in_dec ?a ?b ?c] => destruct (in_dec a b c) as [?|NN]; [|exfalso; apply NN; cbn; tauto] end. rewrite !powerRZ_O, !powerRZ_1. lra.
Qed.
Example C38_ex2 : exists p, (exists n0, forall n, (n0 <= n)%nat -> expand_Taylor 2 (fun _ => false) n ex3 [0%nat; 1%nat] [2%Z; 1%Z] = Done (Pol p)) /\ length p = 6%nat.
Proof.
  destruct ex3_ok as (W & X & _). destruct (C38_Taylor 2 (fun _ => false) ex3 [0%nat; 1%nat] [2%Z; 1%Z] sound_no W X) as (p & E & F); [discriminate|repeat constructor; cbn; intuition discriminate|intros j [<-|[<-|[]]]; lia|reflexivity|repeat constructor; lia|].
  exists p. split; [exact E|]. apply Forall2_len in F. rewrite <- F. reflexivity.
Qed.
Print Assumptions C38_Taylor.
