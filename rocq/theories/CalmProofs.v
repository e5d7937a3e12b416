(** The operations keep the class of integrands of CalmSpec. *)
From Verif Require Import SortProofs ExprSpec ExprSmooth ExprArith ExprOrd ExprSimp ExprDerive ExprMore PropExpr CalmSpec ExprMixed.
Local Open Scope R_scope.

Lemma agree_upd rho S i x t : In i S -> agree rho S x -> agree rho S (upd x i t).
Proof. intros Is H j Hj. unfold upd. destruct (Nat.eqb_spec j i) as [->|_]; [contradiction|apply H, Hj]. Qed.
Lemma agree_ne rho S : exists x, agree rho S x. Proof. exists rho. intros j _. reflexivity. Qed.

Lemma option_all_Forall2 {A B} (f : A -> option B) l m : option_all (map f l) = Some m -> Forall2 (fun a b => f a = Some b) l m.
Proof. revert m. induction l as [|a l IH]; intros m H; [injection H as <-; constructor|]. cbn [map option_all] in H. destruct (f a) eqn:E; [|discriminate]. destruct (option_all (map f l)) eqn:E'; [|discriminate]. injection H as <-. constructor; [exact E|]. apply IH. reflexivity. Qed.
Section Calm.
Variables (nv : nat) (at_pt : point -> Prop).
Notation wf := (wf nv).
Notation good := (good nv).
Notation frac_at := (frac_at at_pt).
Notation calm := (calm at_pt).
Notation simplify := (simplify nv).

Lemma calm_list l : allP calm l <-> Forall calm l. Proof. apply allP_Forall. Qed.
Definition ccalm (cache : cache_t) : Prop := Forall (Forall (fun t => calm (snd t))) cache.
Lemma calm_rule terms cache : calm (Rule terms cache) <-> ccalm cache.
Proof.
  cbn [CalmSpec.calm]. rewrite allP_Forall. unfold ccalm. split; intros H; (eapply Forall_impl; [|exact H]); intros col; rewrite allP_Forall; intros H'; (eapply Forall_impl; [|exact H']); intros [n c]; auto.
Qed.
Lemma calm_flat e : calm e -> flat e.
Proof.
  induction e as [r|p Hp|p a Hp Ha|p Hp|l Hl|l Hl|terms cache Hc|b a Hb Ha|a Ha|a Ha] using expr_rect'; cbn [CalmSpec.calm flat]; unfold numeric; rewrite ?allP_Forall; auto.
  - intros (H1 & _ & H3). auto.
  - intros H. rewrite Forall_forall in *. auto.
  - intros H. rewrite Forall_forall in *. auto.
  - intros H. rewrite Forall_forall in *. intros col Hcol. specialize (H col Hcol). specialize (Hc col Hcol). rewrite allP_Forall in *. rewrite Forall_forall in *. intros [n c] Hin. apply (Hc _ Hin), (H _ Hin).
  - intros (H1 & _ & H3). auto.
Qed.
Lemma calm_cst r : calm (cst nv r). Proof. constructor; [reflexivity|constructor]. Qed.
Lemma calm_num e : is_num e = true -> calm e. Proof. destruct e; try discriminate. intros _. exact I. Qed.
(** ** addition and multiplication *)
Lemma merge_numeric add rest : (forall a b, is_num a = true -> is_num b = true -> is_num (add a b) = true) -> forall prev, numeric (prev :: rest) -> numeric (merge_from add prev rest).
Proof.
  intros HA. induction rest as [|t r IH]; intros prev H; cbn [merge_from]; [exact H|]. apply Forall_cons_iff in H as [H1 H]. apply Forall_cons_iff in H as [H2 H]. destruct (is_const 0 (fst t)); [apply IH; constructor; assumption|]. destruct (roweqb (snd prev) (snd t)); [apply IH; constructor; [apply HA; assumption|exact H]|]. constructor; [exact H1|]. apply IH. constructor; assumption.
Qed.
Lemma merged_numeric add p : (forall a b, is_num a = true -> is_num b = true -> is_num (add a b) = true) -> numeric p -> numeric (merged nv add p).
Proof.
  intros HA H. unfold merged. assert (K : numeric (filter (fun t : expr * list Z => negb (is_const 0 (fst t))) match p with [] => [] | t :: r => merge_from add t r end)) by (apply filter_sub; destruct p as [|t r]; [constructor|apply merge_numeric; assumption]).
  destruct (filter _ _) as [|t l]; [constructor; [reflexivity|constructor]|exact K].
Qed.
Lemma tidy_numeric add p : (forall a b, is_num a = true -> is_num b = true -> is_num (add a b) = true) -> numeric p -> numeric (tidy nv add p).
Proof. intros HA H. apply merged_numeric; [exact HA|]. eapply Permutation_Forall; [apply Permutation_sym, sort_by_perm|exact H]. Qed.
Lemma addc_is_num n a b : is_num a = true -> is_num b = true -> is_num (addc nv n a b) = true.
Proof. destruct a; try discriminate. destruct b; try discriminate. destruct n; reflexivity. Qed.
Lemma add_is_num a b : is_num a = true -> is_num b = true -> is_num (add nv a b) = true. Proof. apply addc_is_num. Qed.
Lemma mulc_is_num n a b : is_num a = true -> is_num b = true -> is_num (mulc nv n a b) = true.
Proof. destruct a; try discriminate. destruct b; try discriminate. destruct n; reflexivity. Qed.
Lemma calm2 a b : calm a -> calm b -> calm (Sum [a; b]). Proof. intros A B. cbn. auto. Qed.
Lemma calm2p a b : calm a -> calm b -> calm (Prod [a; b]). Proof. intros A B. cbn. auto. Qed.
Lemma addc_calm n a b : calm a -> calm b -> calm (addc nv n a b).
Proof.
  intros A B. pose proof calm_cst as C.
  assert (N : forall r p, numeric p -> numeric ((Num r, zeros nv) :: p)) by (intros r p Hp; constructor; [reflexivity|exact Hp]).
  destruct n as [|m]; destruct a; destruct b; cbn [addc]; try exact I; try (apply calm2; auto; fail); cbn [CalmSpec.calm] in *; apply tidy_numeric; auto using addc_is_num. apply Forall_app; split; assumption.
Qed.
Lemma mulc_calm n a b : calm a -> calm b -> calm (mulc nv n a b).
Proof.
  intros A B. pose proof calm_cst as C.
  assert (SC : forall m p r, numeric p -> calm (scale nv (mulc nv m) p r)).
  { intros m p r Hp. unfold scale. destruct (Req_EM_T r 1); [exact Hp|]. destruct (Req_EM_T r 0); [apply C|]. cbn [CalmSpec.calm]. unfold numeric. rewrite Forall_map. eapply Forall_impl; [|exact Hp]. cbv beta. intros t Ht. cbn [fst]. apply mulc_is_num; [exact Ht|reflexivity]. }
  destruct n as [|m]; destruct a; destruct b; cbn [mulc]; try exact I; try (apply calm2p; auto; fail); try (apply SC; assumption); cbn [CalmSpec.calm] in *.
  apply tidy_numeric; [exact add_is_num|]. unfold numeric in *. rewrite Forall_forall in *. intros t Ht. apply in_flat_map in Ht as (u & Hu & Ht). apply in_map_iff in Ht as (w & <- & Hw). cbn [fst]. apply mulc_is_num; auto.
Qed.
Lemma add_calm a b : calm a -> calm b -> calm (add nv a b). Proof. apply addc_calm. Qed.
Lemma mul_calm a b : calm a -> calm b -> calm (mul nv a b). Proof. apply mulc_calm. Qed.
Lemma minus_calm a : calm a -> calm (minus_one nv a).
Proof. intros A. pose proof (calm_cst (-1)) as C. destruct a; cbn [minus_one]; try exact I; try (apply calm2; assumption). cbn [CalmSpec.calm] in *. apply tidy_numeric; [exact add_is_num|]. constructor; [reflexivity|exact A]. Qed.
Lemma minus_frac a : good a -> frac_at a -> frac_at (minus_one nv a).
Proof.
  intros G F x Hx. destruct (minus_one_ok nv a G) as (_ & V & D & _). destruct (F x Hx) as [F1 F2]. split; [apply D, F1|]. intros n E. rewrite V in E. apply (F2 (Datatypes.S n)). rewrite S_INR. lra.
Qed.
Lemma same_frac a b : same a b -> frac_at a -> frac_at b.
Proof. intros H F x Hx. destruct (F x Hx) as [F1 F2]. destruct (H x F1) as [H1 H2]. split; [exact H1|]. rewrite H2. exact F2. Qed.
(** ** simplify *)
Lemma deep_numeric (simp : expr -> option expr) p : numeric p -> deep simp p = Some p.
Proof. unfold deep. induction 1 as [|t p H F IH]; [reflexivity|]. cbn [map]. rewrite H. apply option_all_cons; [reflexivity|exact IH]. Qed.
Lemma pol_simplify_numeric (simp : expr -> option expr) p q : numeric p -> pol_simplify nv simp p = Some q -> numeric q.
Proof.
  intros H E. unfold pol_simplify in E. assert (HS : numeric (sort_by snd p)) by (eapply Permutation_Forall; [apply Permutation_sym, sort_by_perm|exact H]). rewrite (deep_numeric simp _ HS) in E. injection E as <-. apply merged_numeric; [exact add_is_num|exact HS].
Qed.
Definition scalm (n : nat) : Prop := forall e e', wf e -> calm e -> simplify n e = Some e' -> calm e'.
Lemma exponent_calm a : calm a -> calm (exponent_const a).
Proof. destruct a as [r|[|[c k] p]|p a|p|l|l|terms cache|b a|a|a]; cbn [exponent_const]; auto. intros H. destruct (all_rows_zero _); [|exact H]. cbn [CalmSpec.calm] in H. apply Forall_cons_iff in H as [H _]. apply calm_num, H. Qed.
Lemma exponentiated_calm n p a e' : scalm n -> numeric p -> good a -> frac_at a -> calm a -> exponentiated nv (simplify n) p a = Some e' -> calm e'.
Proof.
  intros IH Hp G F C E. unfold exponentiated in E.
  set (ra := if is_num a then Some a else match simplify n a with Some a => Some (exponent_const a) | None => None end) in E.
  assert (K : forall a', ra = Some a' -> calm a' /\ frac_at a').
  { unfold ra. intros a' Ha. destruct (is_num a) eqn:N; [injection Ha as <-; auto|]. destruct (simplify n a) as [a1|] eqn:Ea; [|discriminate]. injection Ha as <-. pose proof (good_not_num nv a G N) as W. destruct (C07_simplify_any nv a n a1 W Ea) as [W1 S1]. pose proof (IH a a1 W C Ea) as C1.
    split; [apply exponent_calm, C1|]. destruct (exponent_const_ok nv a1 W1) as (_ & _ & S2). { intros q ->. apply (C07_no_duplicates nv a n q W Ea). } apply (same_frac a1); [exact S2|]. apply (same_frac a); [exact S1|exact F]. }
  destruct ra as [a'|]; [|discriminate]. destruct (K a' eq_refl) as [C' F']. destruct (is_const 0 a'); [injection E as <-; apply calm_cst|]. destruct (is_const 1 a'); [injection E as <-; exact Hp|]. destruct (pol_simplify nv (simplify n) p) as [q|] eqn:Eq; [|discriminate]. pose proof (pol_simplify_numeric _ p q Hp Eq) as Hq.
  assert (T : calm (EPol q a')) by (cbn; auto).
  destruct q as [|[c k] [|t q]]; [injection E as <-; exact T| |injection E as <-; exact T]. destruct (is_const 1 c && zero_row k); injection E as <-; [exact Hq|exact T].
Qed.
Lemma list_calm n l l' : scalm n -> Forall wf l -> Forall calm l -> option_all (map (simplify n) l) = Some l' -> Forall calm l' /\ Forall (fun e => wf e /\ forall p, e = Pol p -> NoDup (map snd p)) l' /\ length l' = length l.
Proof.
  intros IH W C E. apply option_all_Forall2 in E. induction E as [|e e' l l' H E IHl]; [auto|]. apply Forall_cons_iff in W as [W1 W], C as [C1 C]. destruct (IHl W C) as (I1 & I2 & I3). split; [constructor; [apply (IH e); assumption|exact I1]|]. split; [|cbn; congruence]. constructor; [|exact I2]. split; [apply (C07_simplify_any nv e n e' W1 H)|]. intros p ->. apply (C07_no_duplicates nv e n p W1 H).
Qed.
Lemma sum_pass_calm l : Forall calm l -> forall c s z, sum_pass l = (c, s, z) -> Forall calm s /\ forall u, z = Some u -> calm u.
Proof.
  induction 1 as [|e l C H IH]; cbn [sum_pass]; intros c s z E; [injection E as <- <- <-; split; [constructor|discriminate]|]. destruct (sum_item e) as [[c1 s1] z1] eqn:E1. destruct (sum_pass l) as [[c2 s2] z2] eqn:E2. injection E as <- <- <-. destruct (IH c2 s2 z2 eq_refl) as [B1 B2].
  assert (K : Forall calm s1 /\ forall u, z1 = Some u -> calm u).
  { assert (T : Forall calm [e]) by (constructor; [exact C|constructor]). assert (T' : (c1, s1, z1) = (false, [e], None) -> Forall calm s1 /\ forall u, z1 = Some u -> calm u) by (intros [= -> -> ->]; split; [exact T|discriminate]). assert (T'' : (c1, s1, z1) = (true, [], Some e) -> Forall calm s1 /\ forall u, z1 = Some u -> calm u) by (intros [= -> -> ->]; split; [constructor|intros u [= <-]; exact C]).
    destruct e; cbn [sum_item] in E1; try (apply T'; symmetry; exact E1); try (destruct (all_coeffs 0 p); [apply T''|apply T']; symmetry; exact E1). injection E1 as <- <- <-. split; [apply calm_list, C|discriminate]. }
  destruct K as [K1 K2]. split; [apply Forall_app; split; assumption|]. intros u Hu. destruct z2; auto.
Qed.
Lemma prod_pass_calm l : Forall calm l -> match prod_pass nv l with inr z => calm z | inl (c, s, o) => Forall calm s /\ forall u, o = Some u -> calm u end.
Proof.
  induction 1 as [|e l C H IH]; cbn [prod_pass]; [split; [constructor|discriminate]|].
  assert (K : match prod_item nv e with Splice s => Forall calm s | One o => calm o | Zero z => calm z | Keep k => calm k end).
  { destruct e; cbn [prod_item]; try exact C; [|apply calm_list, C]. destruct (all_rows_zero p && all_coeffs 1 p); [exact C|]. destruct (all_coeffs 0 p); [|exact C]. apply tidy_numeric; [exact add_is_num|exact C]. }
  destruct (prod_item nv e); destruct (prod_pass nv l) as [[[c2 s2] o2]|z2]; try exact IH; try exact K; destruct IH as [B1 B2].
  - split; [apply Forall_app; split; assumption|exact B2].
  - split; [exact B1|]. intros u Hu. destruct o2; [auto|injection Hu as <-; exact K].
  - split; [constructor; assumption|exact B2].
Qed.
Theorem simplify_calm n : scalm n.
Proof.
  induction n as [|n IH]; intros e e' W C E; [discriminate|]. change (simp_step nv (simplify n) e = Some e') in E. destruct e as [r|p|p a|p|l|l|terms cache|b a|a|a]; cbn [simp_step] in E.
  - discriminate.
  - destruct (pol_simplify nv (simplify n) p) as [q|] eqn:Eq; [|discriminate]. injection E as <-. apply (pol_simplify_numeric _ p q C Eq).
  - apply wf_epol in W as (_ & _ & G). destruct C as (C1 & C2 & C3). apply (exponentiated_calm n p a); assumption.
  - destruct (pol_simplify nv (simplify n) p) as [q|] eqn:Eq; [|discriminate]. pose proof (pol_simplify_numeric _ p q C Eq) as Hq. destruct q as [|[c k] [|t q]]; [injection E as <-; exact Hq| |injection E as <-; exact Hq]. destruct (is_const 1 c && zero_row k); injection E as <-; [apply calm_cst|exact Hq].
  - destruct W as [N W]. rewrite allP_Forall in W. apply calm_list in C. destruct (option_all (map (simplify n) l)) as [l'|] eqn:El; [|discriminate]. destruct (list_calm n l l' IH W C El) as (I1 & I2 & I3).
    assert (W' : Forall wf l') by (eapply Forall_impl; [|exact I2]; cbv beta; intros u [Hu _]; exact Hu). assert (N' : l' <> []) by (destruct l'; [destruct l; [congruence|discriminate]|discriminate]).
    destruct (sum_pass l') as [[c s] z] eqn:Es. destruct (sum_pass_ok nv l' W' c s z Es) as (A1 & A2 & _ & _ & _ & A6 & A7). destruct (sum_pass_calm l' I1 c s z Es) as [B1 B2].
    assert (R : s <> [] -> simplify n (Sum s) = Some e' -> calm e') by (intros Ns Hs; apply (IH (Sum s)); [split; [exact Ns|apply allP_Forall, A1]|apply calm_list, B1|exact Hs]).
    destruct c.
    + destruct s as [|u s]; [destruct z as [z|]; [injection E as <-; apply B2; reflexivity|exfalso; apply (A7 eq_refl N'); reflexivity]|]. apply R; [discriminate|exact E].
    + assert (T : calm (Sum s)) by apply calm_list, B1. destruct s as [|u [|u' s]]; injection E as <-; try exact T. apply Forall_cons_iff in B1. apply B1.
  - destruct W as [N W]. rewrite allP_Forall in W. apply calm_list in C. destruct (option_all (map (simplify n) l)) as [l'|] eqn:El; [|discriminate]. destruct (list_calm n l l' IH W C El) as (I1 & I2 & I3).
    assert (N' : l' <> []) by (destruct l'; [destruct l; [congruence|discriminate]|discriminate]).
    pose proof (prod_pass_ok nv l' I2) as A. pose proof (prod_pass_calm l' I1) as B. destruct (prod_pass nv l') as [[[c s] o]|z]; [|injection E as <-; exact B]. destruct A as (A1 & A2 & _ & _ & _ & A6 & A7). destruct B as [B1 B2].
    assert (R : s <> [] -> simplify n (Prod s) = Some e' -> calm e') by (intros Ns Hs; apply (IH (Prod s)); [split; [exact Ns|apply allP_Forall, A1]|apply calm_list, B1|exact Hs]).
    destruct c.
    + destruct s as [|u s]; [destruct o as [o|]; [injection E as <-; apply B2; reflexivity|exfalso; apply (A7 eq_refl N'); reflexivity]|]. apply R; [discriminate|exact E].
    + assert (T : calm (Prod s)) by apply calm_list, B1. destruct s as [|u [|u' s]]; injection E as <-; try exact T. apply Forall_cons_iff in B1. apply B1.
  - injection E as <-. unfold rule_simplify. destruct (filter _ _); [apply calm_cst|]. apply calm_rule. apply calm_rule in C. exact C.
  - destruct W as [Wb Wa]. destruct C as (C1 & C2 & C3). destruct (simplify n b) as [b'|] eqn:Eb; [|discriminate]. pose proof (IH b b' Wb C1 Eb) as Cb.
    assert (K : (match simplify n a with None => None | Some (Pol q) => if all_coeffs 0 q then Some (cst nv 1) else match q with [(c, k)] => if is_const 1 c && zero_row k then Some b' else Some (Pow b' (Pol q)) | _ => Some (Pow b' (Pol q)) end | Some a => Some (Pow b' a) end) = Some e' -> calm e').
    { intros E'. destruct (simplify n a) as [a'|] eqn:Ea; [|discriminate]. pose proof (IH a a' Wa C3 Ea) as Ca. destruct (C07_simplify_any nv a n a' Wa Ea) as [_ Sa]. pose proof (same_frac a a' Sa C2) as Fa. assert (T : calm (Pow b' a')) by (cbn; auto).
      destruct a' as [r|q|q a'|q|m|m|te ca|b2 a2|a2|a2]; try (injection E' as <-; exact T). destruct (all_coeffs 0 q); [injection E' as <-; apply calm_cst|]. destruct q as [|[c k] [|t q]]; try (injection E' as <-; exact T). destruct (is_const 1 c && zero_row k); injection E' as <-; [exact Cb|exact T]. }
    destruct b' as [r|q|q a'|q|m|m|te ca|b2 a2|a2|a2]; try (exact (K E)). apply (exponentiated_calm n q a); try assumption. right. exact Wa.
  - destruct (simplify n a) as [a'|] eqn:Ea; [|discriminate]. pose proof (IH a a' W C Ea) as Ca. destruct a' as [r|[|[c k] [|t q]]|q a'|q|m|m|te ca|b2 a2|a2|a2]; try (injection E as <-; exact Ca). destruct (is_const 1 c && zero_row k); injection E as <-; [apply calm_cst|exact Ca].
  - destruct (simplify n a) as [a'|] eqn:Ea; [|discriminate]. pose proof (IH a a' W C Ea) as Ca. destruct a' as [r|[|[c k] [|t q]]|q a'|q|m|m|te ca|b2 a2|a2|a2]; try (injection E as <-; exact Ca). destruct (is_const 0 c && zero_row k); injection E as <-; [apply calm_cst|exact Ca].
Qed.
(** ** derive *)
Section Derive.
Variable zero_test : expr -> bool.
Hypothesis Hz : sound zero_test.
Variable i : nat.
Hypothesis Hi : (i < nv)%nat.
Notation derive := (derive nv zero_test i).
Lemma pol_derive_calm (der : expr -> option expr) p q : numeric p -> pol_derive nv i der p = Some q -> calm q.
Proof.
  intros H E. unfold pol_derive in E. replace (existsb (fun t => negb (is_num (fst t))) p) with false in E.
  2:{ symmetry. clear E. induction H as [|t p H F IH]; [reflexivity|]. cbn [existsb]. rewrite H, IH. reflexivity. }
  set (s1 := map _ (filter _ p)) in E. assert (K : numeric s1).
  { unfold s1, numeric. rewrite Forall_map. apply filter_sub. eapply Forall_impl; [|exact H]. cbv beta. intros t Ht. cbn [fst]. apply mulc_is_num; [exact Ht|reflexivity]. }
  destruct s1; injection E as <-; [apply calm_cst|exact K].
Qed.
Definition both (e : expr) : Prop := wf e /\ calm e.
Definition call (cache : cache_t) : Prop := Forall (Forall (fun t => both (snd t))) cache.
Lemma fill_calm der ns : (forall e e', both e -> der e = Some e' -> both e') -> forall C v C', call C -> rule_fill zero_test i der ns C = Some (v, C') -> call C'.
Proof.
  intros HD. induction ns as [|n ns IH]; intros C v C' HC E; [cbn in E; injection E as <- <-; exact HC|]. destruct C as [|col C]; [cbn in E; injection E as <- <-; exact HC|]. apply Forall_cons_iff in HC as [HC1 HC]. rewrite rule_fill_step in E.
  destruct (step1 i der n col) as [[e col']|] eqn:E1; [|discriminate]. destruct (rule_fill zero_test i der ns C) as [[v1 C1]|] eqn:E2; [|discriminate]. injection E as <- <-. constructor; [|apply (IH C v1 C1 HC E2)].
  unfold step1 in E1. destruct (lookup n col); [injection E1 as <- <-; exact HC1|]. destruct (lookup (setk i (getk i n - 1) n) col) as [lower|] eqn:El; [|discriminate]. destruct (der lower) as [e1|] eqn:Ed; [|discriminate]. injection E1 as <- <-. apply Forall_app. split; [exact HC1|]. constructor; [|constructor]. cbn [snd]. apply (HD lower); [|exact Ed]. rewrite Forall_forall in HC1. apply (HC1 _ (lookup_In _ _ _ El)).
Qed.
Lemma fill_all_calm der terms : (forall e e', both e -> der e = Some e' -> both e') -> forall C r C', call C -> rule_fill_all zero_test i der terms C = Some (r, C') -> call C'.
Proof.
  intros HD. induction terms as [|[c ns] terms IH]; intros C r C' HC E; [cbn in E; injection E as <- <-; exact HC|]. cbn [rule_fill_all] in E. destruct (rule_fill zero_test i der ns C) as [[v1 C1]|] eqn:E1; [|discriminate]. destruct (rule_fill_all zero_test i der terms C1) as [[r2 C2]|] eqn:E2; [|discriminate]. injection E as <- <-. apply (IH C1 r2 C2); [|exact E2]. apply (fill_calm der ns HD C v1 C1 HC E1).
Qed.
Lemma call_rule cache : cols_ok nv cache -> ccalm cache -> call cache.
Proof. intros W C. unfold call, cols_ok, ccalm in *. rewrite Forall_forall in *. intros col Hc. specialize (C col Hc). destruct (W col Hc) as [_ W']. rewrite Forall_forall in *. intros t Ht. split; auto. Qed.
Lemma call_ccalm cache : call cache -> ccalm cache.
Proof. intros C. eapply Forall_impl; [|exact C]. cbv beta. intros col H. eapply Forall_impl; [|exact H]. cbv beta. intros t [_ Ht]. exact Ht. Qed.
Lemma m1_frac : frac_at (Num (-1)).
Proof. intros x _. split; [exact I|]. intros n E. cbn [eval] in E. pose proof (pos_INR (Datatypes.S n)). lra. Qed.
Theorem derive_calm n : forall e e', wf e -> calm e -> derive n e = Some e' -> calm e'.
Proof.
  induction n as [|n IH]; intros e e' W C E; [discriminate|]. change (der_step nv zero_test i (simplify n) (derive n) e = Some e') in E.
  assert (DD : forall u u', both u -> match derive n u with Some d => simplify n d | None => None end = Some u' -> both u').
  { intros u u' [Wu Cu] Hu. destruct (derive n u) as [d|] eqn:Ed; [|discriminate]. destruct (C06_derive_any nv zero_test i u n d Hz Hi Wu Ed) as [Wd _]. pose proof (IH u d Wu Cu Ed) as Cd. split; [apply (C07_simplify_any nv d n u' Wd Hu)|apply (simplify_calm n d); assumption]. }
  destruct e as [r|p|p a|p|l|l|terms cache|b a|a|a]; cbn [der_step] in E.
  - discriminate.
  - apply (pol_derive_calm _ p e' C E).
  - apply wf_epol in W as (_ & _ & G). destruct C as (C1 & C2 & C3). destruct (pol_derive nv i (derive n) p) as [dp|] eqn:Ep; [|discriminate]. pose proof (pol_derive_calm _ p dp C1 Ep) as Cdp.
    assert (KA : calm (EPol p a)) by (cbn; auto). assert (KM : calm (EPol p (minus_one nv a))) by (cbn; split; [exact C1|split; [apply minus_frac; assumption|apply minus_calm, C3]]). pose proof (mul_calm a dp C3 Cdp) as KF. assert (KL : calm (LPol p)) by exact C1.
    set (s1 := if all_coeffs 0 (coeffs_of dp) then None else _) in E. assert (K1 : forall u, s1 = Some u -> calm u).
    { unfold s1. intros u Hu. destruct (all_coeffs 0 (coeffs_of dp)); [discriminate|]. destruct (is_const 0 (minus_one nv a)); injection Hu as <-; [exact KF|apply calm2p; assumption]. }
    assert (KD : forall da, (if is_num a then Some None else match derive n a with Some a' => Some (Some a') | None => None end) = Some (Some da) -> calm da).
    { intros da Hd. destruct (is_num a) eqn:N; [discriminate|]. destruct (derive n a) as [a'|] eqn:Ea; [|discriminate]. injection Hd as <-. apply (IH a a'); [apply good_not_num; assumption|exact C3|exact Ea]. }
    destruct (if is_num a then Some None else match derive n a with Some a' => Some (Some a') | None => None end) as [[da|]|]; [| |discriminate].
    + pose proof (KD da eq_refl) as Kd. destruct s1 as [u|]; injection E as <-; [apply calm2; [|apply K1; reflexivity]|]; cbn; auto.
    + destruct s1 as [u|]; injection E as <-; [apply K1; reflexivity|apply calm_cst].
  - destruct (pol_derive nv i (derive n) p) as [dp|] eqn:Ep; [|discriminate]. pose proof (pol_derive_calm _ p dp C Ep) as Cdp. destruct (all_coeffs 0 (coeffs_of dp)); injection E as <-; [apply calm_cst|]. apply calm2p; [|exact Cdp]. cbn. split; [exact C|]. split; [exact m1_frac|exact I].
  - destruct W as [_ W]. rewrite allP_Forall in W. apply calm_list in C. destruct (option_all (map (derive n) l)) as [l'|] eqn:El; [|discriminate]. injection E as <-. apply calm_list. apply option_all_Forall2 in El. induction El as [|u u' l l' H El IHl]; constructor; apply Forall_cons_iff in W as [W1 W], C as [C1 C]; [apply (IH u); assumption|apply IHl; assumption].
  - pose proof (rule_of_ok nv l W) as (er & Er & Wr & _). destruct Er as [n0 Er]. destruct (rule_of nv (simplify n) l) as [u|] eqn:Eu; [|discriminate]. unfold rule_of in Eu. destruct W as [Nl W]. rewrite allP_Forall in W. apply calm_list in C. destruct (option_all (map (simplify n) l)) as [l'|] eqn:El; [|discriminate]. injection Eu as <-. destruct (list_calm n l l' (simplify_calm n) W C El) as (I1 & I2 & _).
    unfold rule_derive in E. destruct (rule_fill_all _ _ _ _ _) as [[t' C']|] eqn:Ef; [|discriminate]. injection E as <-. apply calm_rule, call_ccalm. eapply fill_all_calm; [exact DD| |exact Ef]. unfold call. rewrite Forall_map. rewrite Forall_forall in *. intros u Hu. constructor; [|constructor]. cbn [snd]. split; [apply (I2 u Hu)|apply (I1 u Hu)].
  - apply wf_rule in W as (_ & _ & _ & Cc). apply calm_rule in C. unfold rule_derive in E. destruct (rule_fill_all _ _ _ _ _) as [[t' C']|] eqn:Ef; [|discriminate]. injection E as <-. apply calm_rule, call_ccalm. eapply fill_all_calm; [exact DD| |exact Ef]. apply call_rule; assumption.
  - destruct W as [Wb Wa]. destruct C as (C1 & C2 & C3). destruct (derive n b) as [db|] eqn:Eb; [|discriminate]. destruct (derive n a) as [da|] eqn:Ea; [|discriminate]. injection E as <-. pose proof (IH b db Wb C1 Eb) as Cb. pose proof (IH a da Wa C3 Ea) as Ca. pose proof (mul_calm a db C3 Cb) as KF.
    apply calm2; [cbn; auto 8|]. destruct (is_const 0 (minus_one nv a)); [exact KF|]. apply calm2p; [|exact KF]. cbn. split; [exact C1|]. split; [apply minus_frac; [right; exact Wa|exact C2]|apply minus_calm, C3].
  - destruct (derive n a) as [da|] eqn:Ea; [|discriminate]. injection E as <-. apply calm2p; [|apply (IH a da W C Ea)]. split; [exact C|]. split; [|apply calm_cst]. intros x Hx. split; [apply dom_cst|]. intros k. rewrite eval_cst. apply (m1_frac x Hx).
  - destruct (derive n a) as [da|] eqn:Ea; [|discriminate]. injection E as <-. apply calm2p; [exact C|apply (IH a da W C Ea)].
Qed.
End Derive.
(** ** replace *)
Section Replace.
Variables (i : nat) (v : R).
Hypothesis Hi : (i < nv)%nat.
Hypothesis Cl : forall x, at_pt x -> at_pt (upd x i v).
Hypothesis Ne : exists x, at_pt x.
Lemma pol_replace_numeric rep p q : numeric p -> p <> [] /\ tok nv p -> pol_replace nv i v rep p = Some q -> numeric q /\ q <> [] /\ tok nv q.
Proof.
  intros H [N T] E. unfold pol_replace in E. apply option_all_Forall2 in E. assert (K : numeric q /\ tok nv q).
  { clear N. induction E as [|t u p q Ht E IH]; [split; constructor|]. apply Forall_cons_iff in H as [H1 H], T as [[T1 T2] T]. destruct (IH H T) as [I1 I2]. cbv zeta in Ht. rewrite H1 in Ht.
    assert (U : is_num (fst u) = true /\ snd u = setk i 0 (snd t)).
    { destruct (Req_EM_T v 0); [injection Ht as <-; cbn [fst snd]; destruct (Z.eqb (getk i (snd t)) 0); auto|]. injection Ht as <-. cbn [fst snd]. split; [|reflexivity]. destruct (Req_EM_T v 1); [exact H1|]. apply mulc_is_num; [exact H1|reflexivity]. }
    destruct U as [U1 U2]. split; [constructor; assumption|]. constructor; [|exact I2]. split; [rewrite U2, setk_len; exact T1|left; exact U1]. }
  destruct K as [K1 K2]. split; [exact K1|]. split; [|exact K2]. destruct E; [congruence|discriminate].
Qed.
Lemma repres_frac a a' : repres i v a a' -> frac_at a -> frac_at a'.
Proof. intros H F x Hx. destruct (F (upd x i v) (Cl x Hx)) as [F1 F2]. destruct (H x F1) as [H1 H2]. split; [exact H1|]. rewrite H2. exact F2. Qed.
Lemma frac_fractional a : frac_at a -> fractional a.
Proof. intros F. destruct Ne as [x Hx]. exists x. apply (F x), Hx. Qed.
Theorem replace_both e : forall e', wf e -> calm e -> replace nv i v e = Some e' -> both e'.
Proof.
  assert (RR : forall a a', wf a -> calm a -> replace nv i v a = Some a' -> repres i v a a').
  { intros a a' W C E. destruct (replace_ok nv i v Hi a W (or_intror (calm_flat a C))) as (b & Eb & Rb). rewrite Eb in E. injection E as <-. exact Rb. }
  induction e as [r|p Hp|p a Hp Ha|p Hp|l Hl|l Hl|terms cache Hc|b a Hb Ha|a Ha|a Ha] using expr_rect'; intros e' W C E; cbn [replace] in E.
  - discriminate.
  - apply wf_pol in W. destruct (pol_replace nv i v (replace nv i v) p) as [q|] eqn:Eq; [|discriminate]. injection E as <-. destruct (pol_replace_numeric _ p q C W Eq) as (I1 & I2). split; [apply wf_pol, I2|exact I1].
  - apply wf_epol in W as (W & _ & G). destruct C as (C1 & C2 & C3). destruct (pol_replace nv i v (replace nv i v) p) as [q|] eqn:Eq; [|discriminate]. destruct (pol_replace_numeric _ p q C1 W Eq) as (I1 & I2).
    assert (K : forall a', (if is_num a then Some a else replace nv i v a) = Some a' -> good a' /\ calm a' /\ frac_at a').
    { intros a' Ea. destruct (is_num a) eqn:N; [injection Ea as <-; split; [left; exact N|auto]|]. pose proof (good_not_num nv a G N) as Wa. destruct (Ha a' Wa C3 Ea) as [Wa' Ca']. split; [right; exact Wa'|]. split; [exact Ca'|]. apply (repres_frac a); [apply RR; assumption|exact C2]. }
    destruct (if is_num a then Some a else replace nv i v a) as [a'|]; [|discriminate]. injection E as <-. destruct (K a' eq_refl) as (K1 & K2 & K3). split; [apply wf_epol; split; [exact I2|]; split; [right; apply frac_fractional, K3|exact K1]|]. cbn. auto.
  - apply wf_lpol in W. destruct (pol_replace nv i v (replace nv i v) p) as [q|] eqn:Eq; [|discriminate]. injection E as <-. destruct (pol_replace_numeric _ p q C W Eq) as (I1 & I2). split; [apply wf_lpol, I2|exact I1].
  - destruct W as [N W]. rewrite allP_Forall in W. apply calm_list in C. destruct (option_all (map (replace nv i v) l)) as [l'|] eqn:El; [|discriminate]. injection E as <-. apply option_all_Forall2 in El.
    assert (K : Forall both l') by (clear N; induction El as [|u u' l l' H El IH]; constructor; apply Forall_cons_iff in W as [W1 W], C as [C1 C], Hl as [H1 Hl]; [apply H1; assumption|apply IH; assumption]).
    assert (N' : l' <> []) by (destruct El; [congruence|discriminate]). split; [split; [exact N'|]; apply allP_Forall|apply calm_list]; (eapply Forall_impl; [|exact K]); intros u [U1 U2]; assumption.
  - destruct W as [N W]. rewrite allP_Forall in W. apply calm_list in C. destruct (option_all (map (replace nv i v) l)) as [l'|] eqn:El; [|discriminate]. injection E as <-. apply option_all_Forall2 in El.
    assert (K : Forall both l') by (clear N; induction El as [|u u' l l' H El IH]; constructor; apply Forall_cons_iff in W as [W1 W], C as [C1 C], Hl as [H1 Hl]; [apply H1; assumption|apply IH; assumption]).
    assert (N' : l' <> []) by (destruct El; [congruence|discriminate]). split; [split; [exact N'|]; apply allP_Forall|apply calm_list]; (eapply Forall_impl; [|exact K]); intros u [U1 U2]; assumption.
  - apply wf_rule in W as (Nc & Nt & Pt & Cc). apply calm_rule in C. cbv zeta in E. set (C' := map (map (fun q : list Z * expr => match q with (n, e) => (n, replace nv i v e) end)) cache) in E.
    assert (HE : Forall (Forall (fun t => forall u, replace nv i v (snd t) = Some u -> both u)) cache).
    { unfold cols_ok, ccalm in *. rewrite Forall_forall in *. intros col Hcol. specialize (Hc col Hcol). specialize (C col Hcol). destruct (Cc col Hcol) as [_ W]. rewrite Forall_forall in *. intros t Ht u Hu. apply (Hc t Ht); auto. }
    assert (KF : forall ns fs, proper cache ns -> option_all (map (fun q => match find (fun r => roweqb (fst q) (fst r)) (snd q) with Some r => snd r | None => None end) (combine ns C')) = Some fs -> Forall both fs /\ length fs = length cache).
    { intros ns fs P. unfold C'. revert fs. clear - P HE. induction P as [|n col ns cache Hn P IH]; intros fs Ef; [injection Ef as <-; auto|]. apply Forall_cons_iff in HE as [HE1 HE]. apply option_all_Forall2 in Ef. cbn [combine map] in Ef. inversion Ef as [|q0 f l0 fs' Hf Ef' E1 E2]; subst. cbn [fst snd] in Hf. rewrite find_lookup in Hf. destruct (lookup n col) as [e0|] eqn:El; [|discriminate].
      destruct (IH HE fs') as [I1 I2]. { clear - Ef'. induction Ef' as [|a b l m H F IHf]; [reflexivity|]. cbn [map]. apply option_all_cons; assumption. }
      split; [constructor; [|exact I1]|cbn; congruence]. rewrite Forall_forall in HE1. apply (HE1 _ (lookup_In _ _ _ El)), Hf. }
    match type of E with match ?o with _ => _ end = _ => destruct o as [l|] eqn:El; [|discriminate] end. injection E as <-. apply option_all_Forall2 in El.
    assert (K : Forall both l).
    { clear Nt. induction El as [|[c ns] u terms l Hu El IH]; [constructor|]. apply Forall_cons_iff in Pt as [P1 Pt]. constructor; [|apply IH; exact Pt]. cbn [fst snd] in *. destruct (option_all _) as [fs|] eqn:Ef in Hu; [|discriminate]. injection Hu as <-. destruct (KF ns fs P1 Ef) as [F1 F2].
      assert (Wp : wf (Prod fs)) by (split; [destruct fs; [destruct cache; [congruence|discriminate]|discriminate]|apply allP_Forall; eapply Forall_impl; [|exact F1]; intros u [Hu _]; exact Hu]). assert (Cp : calm (Prod fs)) by (apply calm_list; eapply Forall_impl; [|exact F1]; intros u [_ Hu]; exact Hu).
      split; [|apply mul_calm; [exact Cp|exact I]]. assert (M : mul nv (Prod fs) (Num (IZR c)) = Prod [Prod fs; cst nv (IZR c)]) by (unfold mul; destruct (Nat.max (depth (Prod fs)) (depth (Num (IZR c)))); reflexivity). rewrite M. split; [discriminate|]. split; [exact Wp|]. split; [apply wf_cst|exact I]. }
    assert (N' : l <> []) by (destruct El; [congruence|discriminate]). split; [split; [exact N'|]; apply allP_Forall|apply calm_list]; (eapply Forall_impl; [|exact K]); intros u [U1 U2]; assumption.
  - destruct W as [Wb Wa]. destruct C as (C1 & C2 & C3). destruct (replace nv i v b) as [b'|] eqn:Eb; [|discriminate]. destruct (replace nv i v a) as [a'|] eqn:Ea; [|discriminate]. injection E as <-. destruct (Hb b' Wb C1 eq_refl) as [B1 B2]. destruct (Ha a' Wa C3 eq_refl) as [A1 A2]. split; [split; assumption|]. split; [exact B2|]. split; [|exact A2]. apply (repres_frac a); [apply RR; assumption|exact C2].
  - destruct (replace nv i v a) as [a'|] eqn:Ea; [|discriminate]. injection E as <-. destruct (Ha a' W C eq_refl) as [A1 A2]. split; assumption.
  - destruct (replace nv i v a) as [a'|] eqn:Ea; [|discriminate]. injection E as <-. destruct (Ha a' W C eq_refl) as [A1 A2]. split; assumption.
Qed.
End Replace.
End Calm.
