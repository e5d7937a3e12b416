(** Integrals over the unit cube do not change when the variables are renamed. *)
From Verif Require Import PolyProofs MatSortProofs SectorInt CubeInt RealField PropSector.
From Verif Require Export SymProofs2.
Local Open Scope nat_scope.

Lemma inverse_rename pi (e : list Z) : Permutation pi (seq 0 (length e)) -> exists e', length e' = length e /\ rename_row pi e' = e.
Proof.
  intros Hp. exists (map (fun k => match index_of Nat.eq_dec k pi with Some j => nth j e 0%Z | None => 0%Z end) (seq 0 (length e))).
  split; [rewrite map_length, seq_length; reflexivity|]. assert (Hl : length pi = length e) by (rewrite (Permutation_length Hp), seq_length; reflexivity).
  unfold rename_row. apply (nth_ext _ _ 0%Z 0%Z); [rewrite map_length; exact Hl|]. rewrite map_length. intros j Hj.
  rewrite (nth_indep _ 0%Z (nth 0 (map (fun k => match index_of Nat.eq_dec k pi with Some j => nth j e 0%Z | None => 0%Z end) (seq 0 (length e))) 0%Z)) by (rewrite map_length; exact Hj).
  rewrite (map_nth (fun k => nth k _ 0%Z) pi 0).
  assert (Hb : nth j pi 0 < length e). { assert (H : In (nth j pi 0) (seq 0 (length e))) by (eapply Permutation_in; [exact Hp|apply nth_In, Hj]). apply in_seq in H. lia. }
  rewrite nth_mapseq by exact Hb.
  assert (Hnd : NoDup pi) by (eapply Permutation_NoDup; [symmetry; exact Hp|apply seq_NoDup]).
  destruct (index_of_in Nat.eq_dec (nth j pi 0) pi (nth_In _ _ Hj)) as [k Hk]. rewrite Hk. apply index_of_spec in Hk.
  assert (k < length pi) by (apply nth_error_Some; congruence).
  f_equal. rewrite NoDup_nth in Hnd. symmetry. apply (Hnd j k); [exact Hj|assumption|]. symmetry. apply nth_error_nth, Hk.
Qed.
Lemma rename_row_perm pi e : Permutation pi (seq 0 (length e)) -> Permutation (rename_row pi e) e.
Proof. intros Hp. unfold rename_row. rewrite Hp. rewrite (list_mapseq 0%Z e) at 2; [reflexivity|reflexivity]. Qed.

Lemma cube_moment_perm (F : Fld) e e' : Permutation e e' -> cube_moment F e = cube_moment F e'.
Proof. intros H. unfold cube_moment. apply prodF_perm, Permutation_map, H. Qed.

Lemma teval_permute (F : Fld) n pi : Permutation pi (seq 0 n) -> forall ts : list (term F), twf F n ts -> exists ts', twf F n ts' /\ tint F ts' = tint F ts /\
  forall y, length y = n -> teval F ts (permute_point pi y) = teval F ts' y.
Proof.
  intros Hp ts. induction 1 as [|t ts [Hl Hn] Hts [ts' [H1 [H2 H3]]]].
  - exists []. split; [constructor|]. split; reflexivity.
  - destruct t as [e c]. cbn [fst snd] in *. rewrite <- Hl in Hp. destruct (inverse_rename pi e Hp) as [e' [Hl' He]]. exists ((e', c) :: ts'). 
    assert (Hpe : Permutation e e') by (rewrite <- He at 1; apply rename_row_perm; rewrite Hl'; exact Hp).
    split; [|split].
    + constructor; [|exact H1]. cbn [fst]. split; [congruence|]. unfold nonneg_row in *. rewrite <- Hpe. exact Hn.
    + unfold tint in *. cbn [map sumF fst snd]. rewrite H2, (cube_moment_perm F _ _ Hpe). reflexivity.
    + intros y Hy. unfold teval in *. cbn [map sumF fst snd]. rewrite <- (H3 y Hy). f_equal. f_equal. rewrite <- He. unfold rename_row, permute_point. apply meval_rearrange; [rewrite Hl'; exact Hp|congruence].
Qed.
Lemma cube_RInt_permute n pi (ts : list (term R_Fld)) : Permutation pi (seq 0 n) -> twf R_Fld n ts ->
  cube_RInt n (fun y => teval R_Fld ts (@permute_point R_Fld pi y)) = cube_RInt n (fun y => teval R_Fld ts y).
Proof.
  intros Hp Hts. destruct (teval_permute R_Fld n pi Hp ts Hts) as [ts' [H1 [H2 H3]]].
  rewrite (cube_RInt_ext n _ (fun y => teval R_Fld ts' y)) by (intros y Hy; apply H3, Hy). rewrite !tint_R by assumption. exact H2.
Qed.

(** the integrand; a plain [Polynomial] has exponent one *)
Definition power_of (o : option nat) : nat := match o with None => 1 | Some k => k end.
Definition xvalue {F : Fld} (s : xsector F nat) (y : list F) : F := sector_value (map power_of (xcast s)) (map power_of (xother s)) (xs s) y.
Definition xintegral (n : nat) (s : xsector R_Fld nat) : R := cube_RInt n (xvalue s).

Lemma prod_Forall2 (F : Fld) {A B K} (f : A -> F) (g : B -> F) l l' : Forall2 (fun a b => g b = f a) l l' -> forall (ks : list K) (h : F -> K -> F),
  prodF (map (fun q => h (g (fst q)) (snd q)) (combine l' ks)) = prodF (map (fun q => h (f (fst q)) (snd q)) (combine l ks)).
Proof. induction 1 as [|a b l l' Hab Hl IH]; intros [|k ks] h; cbn [combine map prodF]; try reflexivity. cbn [fst snd]. rewrite Hab, IH. reflexivity. Qed.

Lemma symmetric_integral n fixed (a b : xsector R_Fld nat) : xwf n a -> xwf n b -> snonneg (xs a) -> snonneg (xs b) -> symmetric n fixed a b -> xintegral n a = xintegral n b.
Proof.
  intros [Wa _] [Wb _] Na Nb [pi [Hp [_ [Hc [Ho Hs]]]]]. unfold xintegral, xvalue.
  set (ka := map power_of (xcast a)). set (la := map power_of (xother a)). rewrite <- Hc, <- Ho. fold ka la.
  transitivity (cube_RInt n (fun y => teval R_Fld (svalue R_Fld n ka la (xs b)) y)); [|apply cube_RInt_ext; intros y Hy; apply (svalue_eval R_Fld n); assumption].
  rewrite <- (cube_RInt_permute n pi) by (try assumption; apply svalue_wf; assumption). apply cube_RInt_ext. intros y Hy.
  assert (Hpy : length (@permute_point R_Fld pi y) = n) by (unfold permute_point; rewrite map_length, (Permutation_length Hp), seq_length; reflexivity).
  etransitivity; [|symmetry; apply (svalue_eval R_Fld n); assumption]. destruct (Hs y Hy (or_intror (conj Na Nb))) as [H1 [H2 H3]]. unfold sector_value. rewrite H3. f_equal. f_equal; symmetry.
  - apply (prod_Forall2 R_Fld (fun c : poly R_Fld * poly R_Fld => (peval (fst c) y * peval (snd c) y)%R)
       (fun c : poly R_Fld * poly R_Fld => (peval (fst c) (@permute_point R_Fld pi y) * peval (snd c) (@permute_point R_Fld pi y))%R) _ _ H1 ka (@npow R_Fld)).
  - apply (prod_Forall2 R_Fld (fun c : poly R_Fld => peval c y)
       (fun c : poly R_Fld => peval c (@permute_point R_Fld pi y)) _ _ H2 la (@npow R_Fld)).
Qed.

(** the same as a sum of moments *)
Definition xmoment (F : Fld) (n : nat) (s : xsector F nat) : F := tint F (svalue F n (map power_of (xcast s)) (map power_of (xother s)) (xs s)).
Lemma xmoment_integral n (s : xsector R_Fld nat) : xwf n s -> snonneg (xs s) -> xmoment R_Fld n s = xintegral n s.
Proof. intros [H1 _] H2. unfold xintegral, xmoment, xvalue. symmetry. apply sector_integral_R; assumption. Qed.
Section Add.
Variable F : Fld.
Local Open Scope fld_scope.
Add Field Fld_fieldSI : (f_th F).
Lemma tint_jac ts e (c : F) : tint F (tmul F ts [(e, c)]) = c * sumF (map (fun t => snd t * cube_moment F (row_add (fst t) e)) ts).
Proof.
  unfold tint, tmul. induction ts as [|t ts IH]; [cbn [flat_map map sumF]; ring|]. cbn [flat_map]. rewrite map_app, sumF_app, IH. cbn [map sumF fst snd]. ring.
Qed.
Lemma xmoment_additive n : jac_additive n (xmoment F n).
Proof.
  intros s c d H. destruct (xwf_jac F nat n s H) as [e [c0 [Hj _]]]. unfold xmoment, svalue, set_jac. rewrite Hj. cbn [xs scast sother sjac xcast xother ptm fst].
  rewrite !tint_jac. ring.
Qed.
End Add.
Lemma snonneg_set_jac (F : Fld) (s : xsector F nat) c : snonneg (xs s) -> snonneg (xs (set_jac s c)).
Proof.
  unfold snonneg, set_jac. cbn [xs scast sother sjac]. rewrite !Forall_app. intros [H1 [H2 [H3 H4]]]. repeat split; try assumption.
  constructor; [|constructor]. apply Forall_inv in H4. destruct (ptm (sjac (xs s))) as [|t r] eqn:Ej; [exact H4|]. unfold pnonneg in *. rewrite Ej in H4. cbn [ptm].
  inversion H4; subst. constructor; assumption.
Qed.
