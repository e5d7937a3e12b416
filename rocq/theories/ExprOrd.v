(** A well-founded measure of expressions: how many nodes outside of coefficients, per nesting depth. *)
From Coq Require Import Wellfounded.Inverse_Image.
From Verif Require Import ExprSpec ExprArith.
Local Open Scope nat_scope.

Definition flt (f g : nat -> nat) : Prop := exists j, f j < g j /\ forall k, j < k -> f k = g k.
Definition fle (f g : nat -> nat) : Prop := (forall k, f k = g k) \/ flt f g.
Lemma fle_refl f : fle f f. Proof. left. reflexivity. Qed.
Lemma flt_trans f g h : flt f g -> flt g h -> flt f h.
Proof.
  intros (j & A & B) (j' & A' & B'). destruct (Nat.lt_trichotomy j j') as [L|[->|L]].
  - exists j'. split; [rewrite B by exact L; exact A'|]. intros k Hk. rewrite B, B' by lia. reflexivity.
  - exists j'. split; [lia|]. intros k Hk. rewrite B, B' by lia. reflexivity.
  - exists j. split; [rewrite <- B' by exact L; exact A|]. intros k Hk. rewrite B, B' by lia. reflexivity.
Qed.
Lemma flt_ext f f' g g' : (forall k, f k = f' k) -> (forall k, g k = g' k) -> flt f g -> flt f' g'.
Proof. intros E E' (j & A & B). exists j. rewrite <- E, <- E'. split; [exact A|]. intros k Hk. rewrite <- E, <- E'. apply B, Hk. Qed.
Lemma fle_flt_trans f g h : fle f g -> flt g h -> flt f h.
Proof. intros [E|L] H; [|apply (flt_trans _ g); assumption]. apply (flt_ext g _ h _); [intros k; symmetry; apply E|reflexivity|exact H]. Qed.
Lemma flt_fle_trans f g h : flt f g -> fle g h -> flt f h.
Proof. intros H [E|L]; [|apply (flt_trans _ g); assumption]. apply (flt_ext f _ g _); [reflexivity|exact E|exact H]. Qed.
Lemma fle_trans f g h : fle f g -> fle g h -> fle f h.
Proof. intros [E|L] H; [|right; apply (flt_fle_trans _ g); assumption]. destruct H as [E'|L]; [left; intros k; rewrite E; apply E'|]. right. apply (fle_flt_trans _ g); [left; exact E|exact L]. Qed.
Lemma flt_fle f g : flt f g -> fle f g. Proof. right. assumption. Qed.
Lemma flt_plus_l f g f' g' : flt f g -> fle f' g' -> flt (fun k => f k + f' k) (fun k => g k + g' k).
Proof.
  intros (j & A & B) [E|(j' & A' & B')]; [exists j; split; [rewrite E; lia|]; intros k Hk; rewrite B, E by exact Hk; reflexivity|]. exists (Nat.max j j'). destruct (Nat.lt_trichotomy j j') as [L|[->|L]].
  - rewrite Nat.max_r by lia. split; [rewrite B by exact L; lia|]. intros k Hk. rewrite B, B' by lia. reflexivity.
  - rewrite Nat.max_id. split; [lia|]. intros k Hk. rewrite B, B' by lia. reflexivity.
  - rewrite Nat.max_l by lia. split; [rewrite B' by exact L; lia|]. intros k Hk. rewrite B, B' by lia. reflexivity.
Qed.
Lemma flt_plus_r f g f' g' : fle f g -> flt f' g' -> flt (fun k => f k + f' k) (fun k => g k + g' k).
Proof. intros H1 H2. apply (flt_ext (fun k => f' k + f k) _ (fun k => g' k + g k) _); [intros; lia|intros; lia|]. apply flt_plus_l; assumption. Qed.
Lemma fle_plus f g f' g' : fle f g -> fle f' g' -> fle (fun k => f k + f' k) (fun k => g k + g' k).
Proof. intros [E|L] H; [|right; apply flt_plus_l; assumption]. destruct H as [E'|L]; [left; intros k; rewrite E, E'; reflexivity|]. right. apply flt_plus_r; [left; exact E|exact L]. Qed.
Lemma fle_0 f d : (forall k, d <= k -> f k = 0) -> fle (fun _ => 0) f.
Proof.
  revert f. induction d as [|d IH]; intros f H; [left; intros k; symmetry; apply H; lia|]. destruct (Nat.eq_dec (f d) 0) as [E|N]; [|right; exists d; split; [lia|intros k Hk; symmetry; apply H; lia]].
  apply IH. intros k Hk. destruct (Nat.eq_dec k d) as [->|]; [exact E|apply H; lia].
Qed.
Lemma flt_acc d : forall f, (forall k, d <= k -> f k = 0) -> Acc flt f.
Proof.
  induction d as [|d IH]; intros f H; [constructor; intros g (j & A & _); rewrite H in A; lia|].
  remember (f d) as v eqn:Ev. revert f Ev H. induction v as [v IHv] using lt_wf_ind. intros f Ev H.
  set (tr := fun (f : nat -> nat) k => if k <? d then f k else 0).
  assert (A : Acc flt (tr f)) by (apply IH; intros k Hk; unfold tr; destruct (Nat.ltb_spec k d); [lia|reflexivity]).
  remember (tr f) as t eqn:Et. revert f Ev H Et. induction A as [t _ IHt]. intros f Ev H Et. constructor. intros g (j & A & B).
  assert (Hg : forall k, d < k -> g k = 0). { intros k Hk. destruct (Nat.lt_ge_cases j k) as [L|L]; [rewrite B by exact L; apply H; lia|]. rewrite (H j) in A; lia. }
  destruct (Nat.lt_trichotomy j d) as [L|[->|L]]; [| |rewrite (H j) in A by lia; lia].
  - apply (IHt (tr g)); [|rewrite B by lia; exact Ev|intros k Hk; apply Hg; lia|reflexivity]. subst t. exists j. unfold tr. split; [destruct (Nat.ltb_spec j d); lia|]. intros k Hk. rewrite B by exact Hk. reflexivity.
  - subst v. apply (IHv (g d) A g eq_refl). intros k Hk. apply Hg. lia.
Qed.

(** ** the measure *)
Definition one (j k : nat) : nat := if j =? k then 1 else 0.
Fixpoint cnt (k : nat) (e : expr) {struct e} : nat :=
  match e with
  | Num _ => one 0 k
  | Pol p | LPol p => one (S (max_list (map (fun t => match t with (c, _) => depth c end) p))) k
  | EPol p a => one (S (max_list (map (fun t => match t with (c, _) => depth c end) p))) k + cnt k a
  | Sum l | Prod l => one 0 k + sum_list (map (cnt k) l)
  | Rule _ cache => one 0 k + sum_list (map (fun col => sum_list (map (fun t => match t with (_, c) => cnt k c end) col)) cache)
  | Pow b a => one 0 k + (cnt k b + cnt k a)
  | Log a | Exp a => one 0 k + cnt k a
  end.
Definition ms (e : expr) (k : nat) : nat := cnt k e.
Definition msl (l : list expr) (k : nat) : nat := sum_list (map (cnt k) l).
Lemma ms_pol p k : ms (Pol p) k = one (S (tdepth p)) k.
Proof. unfold ms. cbn [cnt]. unfold tdepth. do 3 f_equal. apply map_ext. intros [c r]. reflexivity. Qed.
Lemma ms_lpol p k : ms (LPol p) k = one (S (tdepth p)) k. Proof. exact (ms_pol p k). Qed.
Lemma ms_epol p a k : ms (EPol p a) k = one (S (tdepth p)) k + ms a k. Proof. rewrite <- ms_pol. reflexivity. Qed.
Lemma msl_cons e l k : msl (e :: l) k = ms e k + msl l k. Proof. reflexivity. Qed.
Lemma msl_app l m k : msl (l ++ m) k = msl l k + msl m k.
Proof. induction l as [|a l IH]; [reflexivity|]. cbn [app]. rewrite !msl_cons, IH. lia. Qed.
Lemma one_same j : one j j = 1. Proof. unfold one. rewrite Nat.eqb_refl. reflexivity. Qed.
Lemma one_other j k : j <> k -> one j k = 0. Proof. unfold one. intros H. apply Nat.eqb_neq in H. rewrite H. reflexivity. Qed.
Lemma sum_list_0 l : Forall (fun n => n = 0) l -> sum_list l = 0. Proof. induction 1 as [|n l Hn H IH]; [reflexivity|]. cbn. fold (sum_list l). lia. Qed.
Lemma ms_above e : forall k, depth e < k -> ms e k = 0.
Proof.
  induction e as [r|p Hp|p a Hp Ha|p Hp|l Hl|l Hl|terms cache Hc|b a Hb Ha|a Ha|a Ha] using expr_rect'; intros k H.
  - apply one_other. cbn in H. lia.
  - rewrite ms_pol. rewrite depth_pol in H. apply one_other. lia.
  - rewrite ms_epol. rewrite depth_epol in H. rewrite Ha by lia. rewrite one_other by lia. reflexivity.
  - rewrite ms_lpol. rewrite depth_lpol in H. apply one_other. lia.
  - unfold ms. cbn [cnt depth] in *. rewrite one_other by lia. apply sum_list_0, Forall_map. rewrite Forall_forall in *. intros e He. apply (Hl e He). pose proof (max_list_in _ _ (in_map depth _ _ He)). lia.
  - unfold ms. cbn [cnt depth] in *. rewrite one_other by lia. apply sum_list_0, Forall_map. rewrite Forall_forall in *. intros e He. apply (Hl e He). pose proof (max_list_in _ _ (in_map depth _ _ He)). lia.
  - unfold ms. cbn [cnt depth] in *. rewrite one_other by lia. apply sum_list_0, Forall_map. rewrite Forall_forall in *. intros col Hcol. apply sum_list_0, Forall_map. specialize (Hc col Hcol). rewrite Forall_forall in Hc |- *. intros [m c] Hin. apply (Hc _ Hin). cbn [snd].
    pose proof (max_list_in _ _ (in_map (fun col => max_list (map (fun t => match t with (_, c) => depth c end) col)) _ _ Hcol)) as D1. cbv beta in D1.
    pose proof (max_list_in _ _ (in_map (fun t : list Z * expr => match t with (_, c) => depth c end) _ _ Hin)) as D2. cbv beta iota in D2. lia.
  - unfold ms in *. cbn [cnt depth] in *. rewrite one_other, Ha, Hb by lia. reflexivity.
  - unfold ms in *. cbn [cnt depth] in *. rewrite one_other, Ha by lia. reflexivity.
  - unfold ms in *. cbn [cnt depth] in *. rewrite one_other, Ha by lia. reflexivity.
Qed.
Lemma ms_acc e : Acc (fun a b => flt (ms a) (ms b)) e.
Proof. apply (Acc_inverse_image _ _ flt ms). apply (flt_acc (S (depth e))). intros k Hk. apply ms_above. lia. Qed.
Lemma ms_ge0 e : fle (fun _ => 0) (ms e). Proof. apply (fle_0 _ (S (depth e))). intros k Hk. apply ms_above. lia. Qed.
Lemma msl_ge0 l : fle (fun _ => 0) (msl l).
Proof. induction l as [|e l IH]; [left; reflexivity|]. apply (fle_trans _ (fun k => 0 + 0)); [left; reflexivity|]. exact (fle_plus _ _ _ _ (ms_ge0 e) IH). Qed.
(** below depth j *)
Lemma ms_below e j : depth e < j -> flt (ms e) (one j).
Proof. intros H. exists j. rewrite one_same, ms_above by exact H. split; [lia|]. intros k Hk. rewrite one_other by lia. apply ms_above. lia. Qed.
Lemma one_le i j : i <= j -> fle (one i) (one j).
Proof. intros H. destruct (Nat.eq_dec i j) as [->|N]; [apply fle_refl|]. right. exists j. rewrite one_same, one_other by exact N. split; [lia|]. intros k Hk. rewrite !one_other by lia. reflexivity. Qed.
Lemma sum_list_in n l : In n l -> n <= sum_list l.
Proof. induction l as [|m l IH]; intros []; cbn; fold (sum_list l); [subst; lia|]. specialize (IH H). lia. Qed.
Lemma max_list_mem (l : list nat) : l <> [] -> In (max_list l) l.
Proof.
  induction l as [|n l IH]; intros H; [congruence|]. cbn. fold (max_list l). destruct l as [|m l]; [cbn; left; lia|]. specialize (IH ltac:(discriminate)). destruct (Nat.max_spec n (max_list (m :: l))) as [[_ ->]|[_ ->]]; [right; exact IH|left; reflexivity].
Qed.
Lemma ms_depth nv e : wf nv e -> 1 <= ms e (depth e).
Proof.
  induction e as [r|p Hp|p a Hp Ha|p Hp|l Hl|l Hl|terms cache Hc|b a Hb Ha|a Ha|a Ha] using expr_rect'; intros H.
  - destruct H.
  - rewrite ms_pol, depth_pol, one_same. lia.
  - rewrite ms_epol, depth_epol. apply wf_epol in H as (_ & _ & G). destruct (Nat.max_spec (S (tdepth p)) (depth a)) as [[L ->]|[L ->]]; [|rewrite one_same; lia]. destruct G as [G|G]; [destruct a; try discriminate; cbn in L; lia|]. specialize (Ha G). lia.
  - rewrite ms_lpol, depth_lpol, one_same. lia.
  - destruct H as [N H]. rewrite allP_Forall in H. unfold ms. cbn [cnt depth]. pose proof (max_list_mem (map depth l) ltac:(destruct l; [congruence|discriminate])) as M. apply in_map_iff in M as (e & E & He). rewrite <- E. rewrite Forall_forall in *.
    specialize (Hl e He (H e He)). pose proof (sum_list_in _ _ (in_map (cnt (depth e)) _ _ He)). unfold ms in Hl. lia.
  - destruct H as [N H]. rewrite allP_Forall in H. unfold ms. cbn [cnt depth]. pose proof (max_list_mem (map depth l) ltac:(destruct l; [congruence|discriminate])) as M. apply in_map_iff in M as (e & E & He). rewrite <- E. rewrite Forall_forall in *.
    specialize (Hl e He (H e He)). pose proof (sum_list_in _ _ (in_map (cnt (depth e)) _ _ He)). unfold ms in Hl. lia.
  - destruct H as (N & _ & _ & H). rewrite allP_Forall in H. unfold ms. cbn [cnt depth]. match goal with |- context [max_list ?l] => pose proof (max_list_mem l ltac:(destruct cache; [congruence|discriminate])) as M end.
    apply in_map_iff in M as (col & E & Hcol). rewrite <- E. rewrite Forall_forall in Hc, H. specialize (Hc col Hcol). destruct (H col Hcol) as [(f & Hf & _) Hw]. rewrite allP_Forall in Hw.
    pose proof (max_list_mem (map (fun t : list Z * expr => match t with (_, c) => depth c end) col) ltac:(destruct col; [discriminate|discriminate])) as M. apply in_map_iff in M as ([m c] & E' & Hin). rewrite <- E'. rewrite Forall_forall in Hc, Hw.
    specialize (Hc _ Hin (Hw _ Hin)). cbn [snd] in Hc. unfold ms in Hc.
    pose proof (sum_list_in _ _ (in_map (fun col => sum_list (map (fun t : list Z * expr => match t with (_, c0) => cnt (depth c) c0 end) col)) _ _ Hcol)) as S1. cbv beta in S1.
    pose proof (sum_list_in _ _ (in_map (fun t : list Z * expr => match t with (_, c0) => cnt (depth c) c0 end) _ _ Hin)) as S2. cbv beta iota in S2. lia.
  - destruct H as [H1 H2]. specialize (Ha H2). specialize (Hb H1). unfold ms in *. cbn [cnt depth]. destruct (Nat.max_spec (depth b) (depth a)) as [[L ->]|[L ->]]; lia.
  - specialize (Ha H). unfold ms in *. cbn [cnt depth]. lia.
  - specialize (Ha H). unfold ms in *. cbn [cnt depth]. lia.
Qed.
Lemma wf_pos nv e : wf nv e -> flt (fun _ => 0) (ms e).
Proof. intros H. exists (depth e). split; [apply (ms_depth nv e H)|]. intros k Hk. symmetry. apply ms_above, Hk. Qed.
Lemma one1_le nv e : wf nv e -> fle (one 1) (ms e).
Proof.
  intros H. pose proof (wf_depth nv e H) as D. pose proof (ms_depth nv e H) as M. destruct (Nat.eq_dec (depth e) 1) as [E|N].
  - rewrite E in M. destruct (Nat.eq_dec (ms e 1) 1) as [E1|N1]; [|right; exists 1; rewrite one_same; split; [lia|]; intros k Hk; rewrite one_other, ms_above by lia; reflexivity].
    destruct (Nat.eq_dec (ms e 0) 0) as [E0|N0]; [left; intros [|[|k]]; [rewrite E0; reflexivity|rewrite E1; reflexivity|rewrite one_other, ms_above by lia; reflexivity]|].
    right. exists 0. rewrite one_other by lia. split; [lia|]. intros [|[|k]] Hk; [lia|rewrite E1; reflexivity|rewrite one_other, ms_above by lia; reflexivity].
  - right. exists (depth e). rewrite one_other by lia. split; [lia|]. intros k Hk. rewrite one_other, ms_above by lia. reflexivity.
Qed.
Lemma fle_depth nv e e' : wf nv e' -> fle (ms e') (ms e) -> depth e' <= depth e.
Proof.
  intros W H. pose proof (ms_depth nv e' W) as M. destruct (Nat.le_gt_cases (depth e') (depth e)) as [L|L]; [exact L|exfalso]. pose proof (ms_above e (depth e') L) as Z. destruct H as [E|(j & A & B)]; [rewrite E in M; lia|].
  destruct (Nat.lt_ge_cases j (depth e')) as [J|J]; [rewrite B in M by exact J; lia|]. rewrite (ms_above e j) in A; lia.
Qed.
(** parts are smaller *)
Lemma plus_gt_r f g : flt (fun _ => 0) f -> flt g (fun k => f k + g k).
Proof. intros H. apply (flt_ext (fun k => 0 + g k) _ (fun k => f k + g k) _); [reflexivity|reflexivity|]. apply (flt_plus_l (fun _ => 0)); [exact H|apply fle_refl]. Qed.
Lemma plus_ge_r f g : fle (fun _ => 0) f -> fle g (fun k => f k + g k).
Proof. intros H. apply (fle_trans _ (fun k => 0 + g k)); [left; reflexivity|]. apply (fle_plus (fun _ => 0)); [exact H|apply fle_refl]. Qed.
Lemma plus_ge_l f g : fle (fun _ => 0) g -> fle f (fun k => f k + g k).
Proof. intros H. apply (fle_trans _ (fun k => f k + 0)); [left; intros k; lia|]. apply (fle_plus _ _ (fun _ => 0)); [apply fle_refl|exact H]. Qed.
Lemma one_pos j : flt (fun _ => 0) (one j).
Proof. exists j. rewrite one_same. split; [lia|]. intros k Hk. rewrite one_other by lia. reflexivity. Qed.
Lemma msl_in e l : In e l -> fle (ms e) (msl l).
Proof.
  induction l as [|a l IH]; intros []; [subst a; apply (plus_ge_l (ms e) (msl l)), msl_ge0|]. apply (fle_trans _ (msl l)); [apply IH, H|]. apply (plus_ge_r (ms a) (msl l)), ms_ge0.
Qed.
Lemma ms_sum_in e l : In e l -> flt (ms e) (ms (Sum l)).
Proof. intros H. apply (fle_flt_trans _ (msl l)); [apply msl_in, H|]. apply (plus_gt_r (one 0) (msl l)), one_pos. Qed.
Lemma ms_prod_in e l : In e l -> flt (ms e) (ms (Prod l)). Proof. exact (ms_sum_in e l). Qed.
Lemma msl_le l l' : Forall2 (fun e e' => fle (ms e') (ms e)) l l' -> fle (msl l') (msl l).
Proof. induction 1 as [|e e' l l' H H' IH]; [apply fle_refl|]. exact (fle_plus _ _ _ _ H IH). Qed.
Lemma ms_rule_in terms cache col n e : In col cache -> In (n, e) col -> flt (ms e) (ms (Rule terms cache)).
Proof.
  intros H1 H2.
  assert (E1 : fle (ms e) (msl (map snd col))) by (apply msl_in, (in_map snd _ _ H2)).
  assert (E2 : forall k, sum_list (map (fun t : list Z * expr => match t with (_, c) => cnt k c end) col) = msl (map snd col) k). { intros k. unfold msl. rewrite map_map. f_equal. apply map_ext. intros [m c]. reflexivity. }
  assert (E3 : fle (msl (map snd col)) (fun k => sum_list (map (fun col => sum_list (map (fun t : list Z * expr => match t with (_, c) => cnt k c end) col)) cache))).
  { clear E1 H2. induction cache as [|c cache IH]; [destruct H1|]. destruct H1 as [<-|H1].
    - cbn [map sum_list fold_right]. eapply fle_trans; [|apply (fle_plus (msl (map snd c)) _ (fun _ => 0) (fun k => sum_list (map (fun col => sum_list (map (fun t : list Z * expr => match t with (_, c) => cnt k c end) col)) cache)))]; [left; intros k; lia|left; intros k; symmetry; apply E2|].
      clear. induction cache as [|d cache IH]; [left; reflexivity|]. cbn [map sum_list fold_right]. apply (fle_trans _ (fun k => 0 + 0)); [left; reflexivity|]. apply (fle_plus (fun _ => 0) _ (fun _ => 0)); [|exact IH].
      eapply fle_trans; [apply (msl_ge0 (map snd d))|]. left. intros k. unfold msl. rewrite map_map. f_equal. apply map_ext. intros [m c]. reflexivity.
    - cbn [map sum_list fold_right]. eapply fle_trans; [apply IH, H1|]. apply (plus_ge_r (fun k => sum_list (map (fun t : list Z * expr => match t with (_, c0) => cnt k c0 end) c)) (fun k => sum_list (map (fun col => sum_list (map (fun t : list Z * expr => match t with (_, c) => cnt k c end) col)) cache))).
      eapply fle_trans; [apply (msl_ge0 (map snd c))|]. left. intros k. unfold msl. rewrite map_map. f_equal. apply map_ext. intros [m c']. reflexivity. }
  apply (fle_flt_trans _ (msl (map snd col)) _ E1). eapply fle_flt_trans; [exact E3|].
  apply (plus_gt_r (one 0) (fun k => sum_list (map (fun col => sum_list (map (fun t : list Z * expr => match t with (_, c) => cnt k c end) col)) cache))), one_pos.
Qed.
