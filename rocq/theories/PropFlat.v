(** Property C08: flatten and denest of nested polynomials. *)
From Verif Require Import SortProofs ExprSpec ExprSmooth ExprMixed ExprArith ExprOrd ExprSimp PropExpr ExpModel.
Local Open Scope R_scope.

(** number of polynomials directly inside each other *)
Fixpoint nest (e : expr) : nat := match e with Pol p => S (max_list (map (fun t => match t with (c, _) => nest c end) p)) | _ => 0 end.
Definition is_pol (e : expr) : bool := match e with Pol _ => true | _ => false end.
(** no polynomial of the nest has an ExponentiatedPolynomial or LogOfPolynomial as coefficient *)
Fixpoint plain (e : expr) : Prop :=
  match e with
  | Pol p => allP (fun t => match t with (c, _) => match c with EPol _ _ | LPol _ => False | _ => plain c end end) p
  | _ => True
  end.

Lemma nest_pol p : nest (Pol p) = S (max_list (map (fun t => nest (fst t)) p)).
Proof. cbn [nest]. do 2 f_equal. apply map_ext. intros [c k]. reflexivity. Qed.
Section Nv.
Variable nv : nat.
Notation wf := (wf nv).
Notation tok := (tok nv).
(** terms with the value of c * x^k *)
Definition stands (c : expr) (k : list Z) (l : terms_t) : Prop :=
  l <> [] /\ tok l /\ forall x, dom x c -> row_ok x 0 k -> tdom x l /\ tval x l = eval x c * mono x 0 k.
Lemma stands_self c k : length k = nv -> good nv c -> stands c k [(c, k)].
Proof. intros L G. split; [discriminate|]. split; [constructor; [split; assumption|constructor]|]. intros x D R. split; [constructor; [split; assumption|constructor]|]. unfold tval. cbn. ring. Qed.
Lemma stands_shift c k q : length k = nv -> q <> [] -> tok q -> (forall x, dom x c -> tdom x q /\ tval x q = eval x c) -> stands c k (map (fun u => (fst u, addk k (snd u))) q).
Proof.
  intros L N T H. split; [destruct q; [congruence|discriminate]|]. split.
  - apply Forall_map. eapply Forall_impl; [|exact T]. intros [c' k'] [L' G']. cbn [fst snd] in *. split; [rewrite addk_len; lia|exact G'].
  - intros x D R. destruct (H x D) as [HD HV]. rewrite <- HV. clear H HV N. induction q as [|[c' k'] q IH]; [split; [constructor|unfold tval; cbn; ring]|].
    apply Forall_cons_iff in T as [[L' _] T], HD as [[D' R'] HD]. cbn [fst snd map] in *. destruct (IH T HD) as [I1 I2]. destruct (mono_addk x k k' 0%nat ltac:(lia) R R') as [M1 M2]. split; [constructor; [split; assumption|exact I1]|]. rewrite !tval_cons. cbn [fst snd]. rewrite M1, I2. ring.
Qed.
Lemma stands_all (f : expr * list Z -> terms_t) p : p <> [] -> Forall (fun t => stands (fst t) (snd t) (f t)) p ->
  flat_map f p <> [] /\ tok (flat_map f p) /\ forall x, tdom x p -> tdom x (flat_map f p) /\ tval x (flat_map f p) = tval x p.
Proof.
  intros N H. split; [|split].
  - destruct p as [|t p]; [congruence|]. apply Forall_cons_iff in H as [(H1 & _) _]. cbn. destruct (f t); [congruence|discriminate].
  - clear N. induction H as [|t p (_ & H & _) _ IH]; [constructor|]. cbn. apply Forall_app. auto.
  - clear N. intros x D. induction H as [|t p (_ & _ & H) _ IH]; [split; [constructor|reflexivity]|]. apply Forall_cons_iff in D as [[D1 D2] D]. destruct (H x D1 D2) as [H1 H2]. destruct (IH D) as [I1 I2]. cbn [flat_map]. split; [apply Forall_app; auto|]. rewrite tval_app, tval_cons, H2, I2. reflexivity.
Qed.
(** what [flatten] makes of one term *)
Definition flat_term (depth : option nat) (t : expr * list Z) : terms_t :=
  match t with (c, k) =>
    match c with
    | Pol q => map (fun u => (fst u, addk k (snd u))) (match depth with None => coeffs_of (flatten None c) | Some (S (S d)) => coeffs_of (flatten (Some (S d)) c) | Some _ => q end)
    | _ => [(c, k)]
    end end.
Lemma flatten_pol d p : flatten d (Pol p) = Pol (flat_map (flat_term d) p). Proof. reflexivity. Qed.
Lemma flatten_ok e : forall d p, e = Pol p -> wf e -> exists q, flatten d e = Pol q /\ q <> [] /\ tok q /\ forall x, tdom x p -> tdom x q /\ tval x q = tval x p.
Proof.
  induction e as [r|p Hp|p a Hp Ha|p Hp|l Hl|l Hl|terms cache Hc|b a Hb Ha|a Ha|a Ha] using expr_rect'; intros d p' E W; try discriminate. injection E as <-.
  rewrite flatten_pol. eexists. split; [reflexivity|]. apply wf_pol in W as [N T]. apply stands_all; [exact N|]. clear N. unfold ExprArith.tok in T. rewrite Forall_forall in *. intros [c k] Ht. destruct (T _ Ht) as [L G]. specialize (Hp _ Ht). cbn [fst snd] in *.
  unfold flat_term. destruct c as [r|q|q a|q|l|l|terms cache|b a|a|a]; try (apply stands_self; assumption). assert (Wq : wf (Pol q)) by (apply good_not_num; [exact G|reflexivity]).
  assert (K : forall m, stands (Pol q) k (map (fun u => (fst u, addk k (snd u))) (coeffs_of (flatten m (Pol q))))). { intros m. destruct (Hp m q eq_refl Wq) as (q' & E & N' & T' & V). rewrite E. apply stands_shift; [exact L|exact N'|exact T'|]. intros x D. rewrite eval_pol. apply V, dom_pol, D. }
  assert (K0 : stands (Pol q) k (map (fun u => (fst u, addk k (snd u))) q)). { apply wf_pol in Wq as [Nq Tq]. apply stands_shift; [exact L|exact Nq|exact Tq|]. intros x D. rewrite eval_pol. split; [apply dom_pol, D|reflexivity]. }
  destruct d as [[|[|d]]|]; [exact K0|exact K0|apply K|apply K].
Qed.
Lemma flat_done e : forall d p, e = Pol p -> (match d with None => True | Some d => nest e <= S (Nat.max 1 d) end)%nat -> Forall (fun t => is_pol (fst t) = false) (coeffs_of (flatten d e)).
Proof.
  induction e as [r|p Hp|p a Hp Ha|p Hp|l Hl|l Hl|terms cache Hc|b a Hb Ha|a Ha|a Ha] using expr_rect'; intros d p' E W; try discriminate. injection E as <-. rewrite flatten_pol. cbn [coeffs_of].
  assert (NE : forall c k, In (c, k) p -> match d with None => True | Some d => nest c <= Nat.max 1 d end%nat). { intros c k Hin. destruct d as [d|]; [|exact I]. rewrite nest_pol in W. pose proof (max_list_in (nest c) (map (fun t => nest (fst t)) p) ltac:(change (nest c) with ((fun t : expr * list Z => nest (fst t)) (c, k)); apply in_map; exact Hin)). lia. }
  clear W. induction p as [|[c k] p IH]; [constructor|]. apply Forall_cons_iff in Hp as [H1 Hp]. cbn [flat_map]. apply Forall_app. split; [|apply IH; [exact Hp|intros c' k' Hin; apply (NE c' k'); right; exact Hin]]. cbn [fst] in H1. specialize (NE c k (or_introl eq_refl)). clear IH Hp.
  unfold flat_term. destruct c as [r|q|q a|q|l|l|terms cache|b a|a|a]; try (constructor; [reflexivity|constructor]). apply Forall_map. cbn [fst].
  assert (K0 : (nest (Pol q) <= 1)%nat -> Forall (fun t => is_pol (fst t) = false) q). { intros L. rewrite nest_pol in L. apply Forall_forall. intros [c' k'] Hin. cbn [fst]. pose proof (max_list_in (nest c') (map (fun t => nest (fst t)) q) ltac:(change (nest c') with ((fun t : expr * list Z => nest (fst t)) (c', k')); apply in_map; exact Hin)). destruct c'; try reflexivity. rewrite nest_pol in H. lia. }
  destruct d as [[|[|d]]|]; [apply K0; lia|apply K0; lia| |].
  - apply (H1 (Some (S d)) q eq_refl). lia.
  - apply (H1 None q eq_refl). exact I.
Qed.
(** ** denest *)
Lemma denest_pol n p : denest nv n (Pol p) =
  match option_all (map (fun t => match t with (c, k) => match c with Pol _ | EPol _ _ | LPol _ => match denest nv n c with Some d => Some (map (fun u => (fst u, addk k (snd u))) (coeffs_of d)) | None => None end | _ => Some [(c, k)] end end) p) with
  | None => None | Some l => simplify nv n (Pol (concat l)) end.
Proof. reflexivity. Qed.
(** simplify makes a Polynomial of a Polynomial *)
Lemma simplify_pol n p e : simplify nv n (Pol p) = Some e -> exists q, e = Pol q.
Proof. destruct n as [|n]; [discriminate|]. change (simplify nv (S n) (Pol p)) with (match pol_simplify nv (simplify nv n) p with Some q => Some (Pol q) | None => None end). destruct (pol_simplify nv (simplify nv n) p) as [q|]; [|discriminate]. intros [= <-]. exists q. reflexivity. Qed.
Lemma denest_ok e : forall p, e = Pol p -> wf e -> plain e -> exists q, ev (fun n => denest nv n e = Some (Pol q)) /\ wf (Pol q) /\ NoDup (map snd q) /\ forall x, dom x e -> dom x (Pol q) /\ eval x (Pol q) = eval x e.
Proof.
  induction e as [r|p Hp|p a Hp Ha|p Hp|l Hl|l Hl|terms cache Hc|b a Hb Ha|a Ha|a Ha] using expr_rect'; intros p' E W P; try discriminate. injection E as <-.
  apply wf_pol in W as [N T]. cbn [plain] in P. rewrite allP_Forall in P.
  destruct (ev_all (fun n (t : expr * list Z) => match t with (c, k) => match c with Pol _ | EPol _ _ | LPol _ => match denest nv n c with Some d => Some (map (fun u => (fst u, addk k (snd u))) (coeffs_of d)) | None => None end | _ => Some [(c, k)] end end) (fun t l => stands (fst t) (snd t) l) p) as (l & El & Fl).
  { unfold ExprArith.tok in T. rewrite Forall_forall in *. intros [c k] Ht. destruct (T _ Ht) as [L G]. specialize (Hp _ Ht). specialize (P _ Ht). cbn [fst snd] in *.
    destruct c as [r|q|q a|q|l|l|terms cache|b a|a|a]; try contradiction P; try (eexists; split; [apply ev_now; intros n; reflexivity|apply stands_self; assumption]).
    destruct (Hp q eq_refl) as (q' & E & W' & _ & V); [apply good_not_num; [exact G|reflexivity]|exact P|]. eexists. split; [eapply ev_imp; [|exact E]; cbv beta; intros n Hn; rewrite Hn; reflexivity|]. apply wf_pol in W' as [N' T']. apply stands_shift; [exact L|exact N'|exact T'|]. intros x D. destruct (V x D) as [V1 V2]. rewrite dom_pol in V1. rewrite eval_pol in V2. auto. }
  assert (K : concat l <> [] /\ tok (concat l) /\ forall x, tdom x p -> tdom x (concat l) /\ tval x (concat l) = tval x p).
  { clear - N Fl. split; [|split].
    - destruct Fl as [|t u p l (H & _) _]; [congruence|]. cbn. destruct u; [congruence|discriminate].
    - clear N. induction Fl as [|t u p l (_ & H & _) _ IH]; [constructor|]. cbn. apply Forall_app. auto.
    - clear N. intros x D. induction Fl as [|t u p l (_ & _ & H) _ IH]; [split; [constructor|reflexivity]|]. apply Forall_cons_iff in D as [[D1 D2] D]. destruct (H x D1 D2) as [H1 H2]. destruct (IH D) as [I1 I2]. cbn [concat]. split; [apply Forall_app; auto|]. rewrite tval_app, tval_cons, H2, I2. reflexivity. }
  destruct K as (K1 & K2 & K3). assert (WC : wf (Pol (concat l))) by (apply wf_pol; auto). destruct (C07_simplify nv _ WC) as (e' & (n0 & E') & W' & V').
  destruct (simplify_pol n0 (concat l) e' (E' n0 (le_n n0))) as [q ->]. exists q. split; [eapply ev_imp; [|apply (ev_and _ _ El (ex_intro _ n0 E'))]; cbv beta; intros n [H1 H2]; rewrite denest_pol, H1; exact H2|]. split; [exact W'|]. split; [apply (C07_no_duplicates nv _ n0 q WC), E', le_n|].
  intros x D. apply dom_pol in D. destruct (K3 x D) as [D1 V1]. destruct (V' x (proj2 (dom_pol x _) D1)) as [D2 V2]. split; [exact D2|]. rewrite V2, !eval_pol. exact V1.
Qed.
End Nv.

(** * C08 *)
Theorem C08_flatten : forall nv depth p, wf nv (Pol p) ->
  exists q, flatten depth (Pol p) = Pol q /\ wf nv (Pol q) /\ (forall x, dom x (Pol p) -> dom x (Pol q) /\ eval x (Pol q) = eval x (Pol p)) /\
    ((match depth with None => True | Some d => nest (Pol p) <= S (Nat.max 1 d) end)%nat -> Forall (fun t => is_pol (fst t) = false) q).
Proof.
  intros nv d p W. destruct (flatten_ok nv (Pol p) d p eq_refl W) as (q & E & N & T & V). exists q. split; [exact E|]. split; [apply wf_pol; auto|]. split.
  - intros x D. rewrite !eval_pol, dom_pol. apply V, dom_pol, D.
  - intros H. pose proof (flat_done (Pol p) d p eq_refl H) as F. rewrite E in F. exact F.
Qed.
Theorem C08_denest : forall nv p, wf nv (Pol p) -> plain (Pol p) ->
  exists q, (exists n0, forall n, (n0 <= n)%nat -> denest nv n (Pol p) = Some (Pol q)) /\ wf nv (Pol q) /\ NoDup (map snd q) /\
    forall x, dom x (Pol p) -> dom x (Pol q) /\ eval x (Pol q) = eval x (Pol p).
Proof. intros nv p W P. exact (denest_ok nv (Pol p) p eq_refl W P). Qed.
(** ** a power or a logarithm of a polynomial loses its exponent or its logarithm: (1 + x)^3 as a coefficient becomes 1 + x in [denest], and [flatten] of (1 + x)^3 is 1 + x *)
Definition one_x : terms_t := [(Num 1, [0%Z]); (Num 1, [1%Z])].
Definition cube_coeff : terms_t := [(EPol one_x (Num 3), [0%Z])].
Lemma one_x_sorted n : simplify 1 (S n) (Pol one_x) = Some (Pol one_x).
Proof. cbn. unfold merged. cbn. rewrite !req_10. cbn. rewrite !req_10. reflexivity. Qed.
Lemma shift0 : map (fun u : expr * list Z => (fst u, addk [0%Z] (snd u))) one_x = one_x. Proof. reflexivity. Qed.
Lemma one_x_val x : tval x one_x = 1 + x 0%nat. Proof. unfold tval, one_x. cbn [map fst snd eval sumR fold_right mono]. rewrite powerRZ_O, powerRZ_1. ring. Qed.
Lemma sorted_app n : simplify 1 (S n) (Pol (one_x ++ [])) = Some (Pol one_x). Proof. apply one_x_sorted. Qed.
Lemma cube_denest n : denest 1 (S n) (Pol cube_coeff) = Some (Pol one_x).
Proof.
  rewrite denest_pol. unfold cube_coeff. cbn [map].
  assert (E : denest 1 (S n) (EPol one_x (Num 3)) = Some (Pol one_x)) by (change (denest 1 (S n) (EPol one_x (Num 3))) with (simplify 1 (S n) (Pol one_x)); apply one_x_sorted).
  rewrite E. cbn [coeffs_of option_all]. rewrite shift0. cbn [concat]. apply sorted_app.
Qed.
Theorem C08_exponent_lost_refuted :
  wf 1 (Pol cube_coeff) /\ (forall n, (1 <= n)%nat -> denest 1 n (Pol cube_coeff) = Some (Pol one_x)) /\
  (forall depth, flatten depth (EPol one_x (Num 3)) = Pol one_x) /\
  forall x, 0 < x 0%nat -> dom x (Pol cube_coeff) /\ eval x (Pol cube_coeff) = (1 + x 0%nat) ^ 3 /\ eval x (EPol one_x (Num 3)) = (1 + x 0%nat) ^ 3 /\ eval x (Pol one_x) = 1 + x 0%nat.
Proof.
  split; [|split; [|split]].
  - apply wf_pol. split; [discriminate|]. constructor; [|constructor]. split; [reflexivity|]. right. apply wf_epol. split; [split; [discriminate|repeat constructor]|]. split; [left; repeat constructor; cbn; intuition discriminate|left; reflexivity].
  - intros [|n] H; [lia|]. apply cube_denest.
  - intros d. reflexivity.
  - intros x Hx. assert (G : eval x (EPol one_x (Num 3)) = (1 + x 0%nat) ^ 3) by (rewrite eval_epol, one_x_val; cbn [eval]; rewrite (gpow_int _ 3); reflexivity). split; [|split; [|split]].
    + apply dom_pol. constructor; [|constructor]. cbn [fst snd]. split; [|cbn; split; [left; lia|exact I]]. apply dom_epol. split; [constructor; [cbn; repeat split; left; lia|constructor; [cbn; repeat split; left; lia|constructor]]|]. split; [left; rewrite one_x_val; lra|exact I].
    + rewrite eval_pol. unfold cube_coeff, tval. cbn [map fst snd sumR fold_right mono]. rewrite G, powerRZ_O. ring.
    + exact G.
    + rewrite eval_pol. apply one_x_val.
Qed.
(** ** concrete case: (y + (1 + x) y) + (x) x^1, two levels *)
Definition nested : terms_t := [(Pol [(Num 1, [0; 1]%Z); (Pol [(Num 1, [0; 0]%Z); (Num 1, [1; 0]%Z)], [0; 1]%Z)], [0; 0]%Z); (Pol [(Num 1, [1; 0]%Z)], [1; 0]%Z)].
Lemma nested_wf : wf 2 (Pol nested) /\ plain (Pol nested) /\ nest (Pol nested) = 3%nat.
Proof. split; [|split; [cbn; tauto|reflexivity]]. unfold nested; cbn [wf allP fold_right terms_ok fst snd is_num]; repeat split; try discriminate; auto. right. repeat split; try discriminate; auto. right. repeat split; try discriminate; auto. right. repeat split; try discriminate; auto. Qed.
Example C08_ex : exists q, flatten None (Pol nested) = Pol q /\ Forall (fun t => is_pol (fst t) = false) q /\ length q = 4%nat /\ forall x, dom x (Pol nested) -> eval x (Pol q) = eval x (Pol nested).
Proof.
  destruct (C08_flatten 2 None nested (proj1 nested_wf)) as (q & E & _ & V & D). exists q. split; [exact E|]. split; [apply D; exact I|]. split; [cbn in E; injection E as <-; reflexivity|]. intros x Hx. apply V, Hx.
Qed.
Print Assumptions C08_flatten.
Print Assumptions C08_denest.
