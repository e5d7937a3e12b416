(** C85: the text that disteval writes is read back and converted faithfully. *)
From Verif Require Import TextDistConv.
Section C.
Variables (P : Type) (float_of : text -> option P) (is0 : P -> bool).
Lemma slots_exist regs ts : Forall (good_term regs) ts -> Forall (readable_term float_of) ts -> exists cs, Forall2 (fun t c => slots_of float_of is0 t = Some c) ts cs.
Proof.
  intros _. induction 1 as [|t ts (R1 & R2 & R3 & R4) _ [cs IH]]; [exists []; constructor|]. destruct (val_exists float_of is0 _ _ R1 R2) as [v Ev]. destruct (val_exists float_of is0 _ _ R3 R4) as [e Ee]. exists ((t_pow t, (Some v, Some e)) :: cs). constructor; [|exact IH]. unfold slots_of. rewrite Ev, Ee. reflexivity.
Qed.
Lemma slots_in ts cs t : Forall2 (fun t c => slots_of float_of is0 t = Some c) ts cs -> In t ts -> exists c, In c cs /\ slots_of float_of is0 t = Some c.
Proof. induction 1 as [|a c ts cs H F IH]; [intros []|]. intros [<-|Hi]; [exists c; split; [left; reflexivity|exact H]|]. destruct (IH Hi) as (c' & Hc & E). exists c'. split; [right; exact Hc|exact E]. Qed.
Lemma slots_back ts cs c : Forall2 (fun t c => slots_of float_of is0 t = Some c) ts cs -> In c cs -> exists t, In t ts /\ slots_of float_of is0 t = Some c.
Proof. induction 1 as [|a b ts cs H F IH]; [intros []|]. intros [<-|Hi]; [exists a; split; [left; reflexivity|exact H]|]. destruct (IH Hi) as (c' & Hc & E). exists c'. split; [right; exact Hc|exact E]. Qed.
Lemma slots_shape t c : slots_of float_of is0 t = Some c -> exists v e, c = (t_pow t, (Some v, Some e)) /\ seen_num float_of is0 (t_re t) (t_im t) v /\ seen_num float_of is0 (t_ere t) (t_eim t) e.
Proof.
  unfold slots_of. destruct (val_of float_of is0 (t_re t) (t_im t)) as [v|] eqn:Ev; [|discriminate]. destruct (val_of float_of is0 (t_ere t) (t_eim t)) as [e|] eqn:Ee; [|discriminate]. intros H. injection H as <-. exists v, e. split; [reflexivity|]. split; apply val_seen; assumption.
Qed.
Lemma keys_ok ts cs : Forall2 (fun t c => slots_of float_of is0 t = Some c) ts cs -> map fst cs = map t_pow ts.
Proof. induction 1 as [|a c ts cs H F IH]; [reflexivity|]. cbn [map]. rewrite IH. destruct (slots_shape _ _ H) as (v & e & -> & _). reflexivity. Qed.
Section K.
Variables (K : Fld) (I : K) (env : text -> K) (num : P -> K).
Add Field KF5 : (f_th K).
Lemma one_sum regs ts cs : regs <> [] -> ts <> [] -> Forall (good_term regs) ts -> NoDup (map t_pow ts) -> Forall2 (fun t c => slots_of float_of is0 t = Some c) ts cs ->
  exists v, rec P regs 0 cs = Some v /\ same_terms float_of is0 regs ts v /\ (forall mean, pv K I env num f0 mean v = sumF (map (fun kc => fmul (slot_value K I num mean (snd kc)) (monomial_value K env regs (fst kc))) cs)).
Proof.
  intros Nr N G ND F.
  destruct (tree_all K I env num regs 0 cs) as (v & E & L & A & B & V).
  - intros ->. inversion F; subst. contradiction.
  - apply Forall_forall. intros c Hc. destruct (slots_back _ _ _ F Hc) as (t & _ & Et). destruct (slots_shape _ _ Et) as (a & b & -> & _). eexists. exists a, b. split; reflexivity.
  - apply Forall_forall. intros c Hc. destruct (slots_back _ _ _ F Hc) as (t & Ht & Et). destruct (slots_shape _ _ Et) as (a & b & -> & _). rewrite Forall_forall in G. destruct (G t Ht) as (Lt & _). exact Lt.
  - change (NoDup (map fst cs)). rewrite (keys_ok _ _ F). exact ND.
  - exists v. split; [exact E|]. split; [|exact V]. split; [exact L|]. split.
    + intros t Ht. destruct (slots_in _ _ _ F Ht) as (c & Hc & Et). destruct (slots_shape _ _ Et) as (a & b & -> & Sa & Sb). destruct (A _ _ Hc) as (d & Hd & (a' & b' & Es & Ed)). injection Es as <- <-. exists d. split; [exact Hd|]. exists a, b. auto.
    + intros ks d Hd. destruct (B _ _ Hd) as (k & s & Hc & Ek & (a' & b' & Es & Ed)). destruct (slots_back _ _ _ F Hc) as (t & Ht & Et). destruct (slots_shape _ _ Et) as (a & b & E2 & Sa & Sb). injection E2 as -> ->. injection Es as <- <-. exists t. split; [exact Ht|]. split; [exact Ek|]. exists a, b. auto.
Qed.
(** all sums *)
Lemma all_sums regs sums : good_dist regs sums -> Forall (Forall (readable_term float_of)) sums ->
  exists vs css, parse_disteval P float_of is0 (result_to_sympy regs sums) = Some vs /\ Forall2 (Forall2 (fun t c => slots_of float_of is0 t = Some c)) sums css /\ Forall2 (same_terms float_of is0 regs) sums vs /\
    Forall2 (fun cs v => forall mean, pv K I env num f0 mean v = sumF (map (fun kc => fmul (slot_value K I num mean (snd kc)) (monomial_value K env regs (fst kc))) cs)) css vs.
Proof.
  intros (Nr & Hr & Ns & G) R.
  assert (CS : exists css, Forall2 (Forall2 (fun t c => slots_of float_of is0 t = Some c)) sums css). { clear Ns. revert R. induction G as [|ts r (_ & Gt & _) _ IH]; intros R; [exists []; constructor|]. inversion R as [|? ? R1 R2]; subst. destruct (IH R2) as [css Hc]. destruct (slots_exist regs ts Gt R1) as [cs Hcs]. exists (cs :: css). constructor; assumption. }
  destruct CS as [css F].
  assert (VS : exists vs, Forall2 (fun cs v => rec P regs 0 cs = Some v) css vs /\ Forall2 (same_terms float_of is0 regs) sums vs /\
    Forall2 (fun cs v => forall mean, pv K I env num f0 mean v = sumF (map (fun kc => fmul (slot_value K I num mean (snd kc)) (monomial_value K env regs (fst kc))) cs)) css vs).
  { clear R Ns. induction F as [|ts cs sums css Hc F IH]; [exists []; repeat split; constructor|]. inversion G as [|? ? (Nt & Gt & ND) Gr]; subst. destruct (IH Gr) as (vs & A & B & D). destruct (one_sum regs ts cs Nr Nt Gt ND Hc) as (v & E & S & V). exists (v :: vs). repeat split; constructor; assumption. }
  destruct VS as (vs & A & B & D). exists vs, css. split; [|auto]. rewrite (text_read float_of is0 regs Nr Hr sums css Ns G F). apply all_some_fwd, A.
Qed.
Lemma sum_is (mean : bool) regs ts cs : (forall b, is0 b = true -> num b = f0) -> Forall2 (fun t c => slots_of float_of is0 t = Some c) ts cs ->
  sumF (map (fun kc => fmul (slot_value K I num mean (snd kc)) (monomial_value K env regs (fst kc))) cs) = sum_value float_of K I env num mean regs ts.
Proof.
  intros Z0 F. unfold sum_value. induction F as [|t c ts cs H F IH]; [reflexivity|]. cbn [map sumF]. rewrite IH. f_equal. clear IH.
  assert (NV : forall re im p, val_of float_of is0 re im = Some p -> pnum K I num p = fadd (num_of float_of K num re) (fmul (num_of float_of K num im) I)).
  { intros re im p. unfold val_of, num_of. destruct (float_of re) as [a|]; [|discriminate]. destruct (float_of im) as [b|]; [|discriminate]. intros E. injection E as <-. destruct (is0 b) eqn:E0; [|reflexivity]. cbn [pnum]. rewrite (Z0 b E0). ring. }
  unfold slots_of in H. destruct (val_of float_of is0 (t_re t) (t_im t)) as [v|] eqn:Ev; [|discriminate]. destruct (val_of float_of is0 (t_ere t) (t_eim t)) as [e|] eqn:Ee; [|discriminate]. injection H as <-. cbn [fst snd]. f_equal. unfold slot_value. cbn [fst snd]. destruct mean; apply NV; assumption.
Qed.
(** a sum and a pair of texts: the texts have the sum of the values and of the errors as their values (the order terms, [omega], left aside) *)
Definition faithful_sum (value : text -> K -> Prop) (regs : list text) (ts : list dterm_out) (ab : text * text) : Prop :=
  value (fst ab) (sum_value float_of K I env num true regs ts) /\ value (snd ab) (sum_value float_of K I env num false regs ts).
Lemma layered_all regs sums vs : Forall2 (same_terms float_of is0 regs) sums vs -> Forall (layered regs) vs.
Proof. induction 1 as [|ts v sums vs (L & _) _ IH]; constructor; assumption. Qed.
Lemma values_all (value : text -> K -> Prop) regs sums css vs (rs : list (text * text)) : (forall b, is0 b = true -> num b = f0) -> Forall2 (Forall2 (fun t c => slots_of float_of is0 t = Some c)) sums css ->
  Forall2 (fun cs v => forall mean, pv K I env num f0 mean v = sumF (map (fun kc => fmul (slot_value K I num mean (snd kc)) (monomial_value K env regs (fst kc))) cs)) css vs ->
  Forall2 (fun v ab => value (fst ab) (pv K I env num f0 true v) /\ value (snd ab) (pv K I env num f0 false v)) vs rs -> Forall2 (faithful_sum value regs) sums rs.
Proof.
  intros Z0 F. revert vs rs. induction F as [|ts cs sums css Hc F IH]; intros vs rs V R; inversion V as [|? v ? vs' Hv V']; subst; inversion R as [|? ab ? rs' [Ha Hb] R']; subst; constructor.
  - rewrite (Hv true) in Ha. rewrite (Hv false) in Hb. rewrite (sum_is true regs ts cs Z0 Hc) in Ha. rewrite (sum_is false regs ts cs Z0 Hc) in Hb. split; assumption.
  - eapply IH; eassumption.
Qed.
Section G.
Variables (g18 g18plus : P -> text) (lit slit : text -> K -> Prop).
(** the literals: what "%.18g" and "%+.18g" write is read by the system as the number; [imag == 0] is true only for zero *)
Definition literals_ok (h : text -> text) : Prop := (forall a, lit (h (g18 a)) (num a)) /\ (forall a, slit (h (g18plus a)) (num a)) /\ (forall b, is0 b = true -> num b = f0).
(** The converters for GiNaC, SymPy and Maple (power operator [pow], order symbol [ord]). *)
Theorem C85_convert pow ord regs sums : literals_ok (fun t => t) -> good_dist regs sums -> Forall (Forall (readable_term float_of)) sums -> Forall (fun x => symbol x /\ env x <> f0) regs ->
  exists rs, convert_disteval P float_of is0 g18 g18plus pow ord (result_to_sympy regs sums) = Some rs /\ Forall2 (faithful_sum (dsum K I f0 env lit slit pow ord) regs) sums rs.
Proof.
  intros (L1 & L2 & Z0) G R S. destruct (all_sums regs sums G R) as (vs & css & E & F & T & V). unfold convert_disteval. rewrite E. pose proof (layered_all _ _ _ T) as LA.
  assert (X : exists rs, Forall2 (fun v ab => (match fmt_series P g18 g18plus pow ord true v, fmt_series P g18 g18plus pow ord false v with Some a, Some b => Some (a, b) | _, _ => None end) = Some ab /\ dsum K I f0 env lit slit pow ord (fst ab) (pv K I env num f0 true v) /\ dsum K I f0 env lit slit pow ord (snd ab) (pv K I env num f0 false v)) vs rs).
  { destruct G as (Nr & _). destruct regs as [|x regs]; [contradiction|]. clear -L1 L2 S LA. induction LA as [|v vs L _ [rs IH]]; [exists []; constructor|].
    destruct (layered_series g18 g18plus K I f0 env num lit slit pow ord L1 L2 true x regs v S L) as (a & Ea & Da). destruct (layered_series g18 g18plus K I f0 env num lit slit pow ord L1 L2 false x regs v S L) as (b & Eb & Db). exists ((a, b) :: rs). constructor; [|exact IH]. rewrite Ea, Eb. auto. }
  destruct X as [rs X]. exists rs. split.
  - apply all_some_fwd. clear -X. induction X as [|v ab vs rs (H & _) _ IH]; constructor; assumption.
  - eapply values_all; [exact Z0|exact F|exact V|]. clear -X. induction X as [|v ab vs rs (_ & H) _ IH]; constructor; assumption.
Qed.
(** The converter for Mathematica, if it does not raise an exception because of a gap in the orders... *)
Theorem C85_mathematica regs sums rs : literals_ok replace_e -> good_dist regs sums -> Forall (Forall (readable_term float_of)) sums -> Forall (fun x => symbol_m x /\ env x <> f0) regs ->
  disteval_to_mathematica P float_of is0 g18 g18plus (result_to_sympy regs sums) = Some rs -> Forall2 (faithful_sum (msum K I f0 env lit slit) regs) sums rs.
Proof.
  intros (L1 & L2 & Z0) G R S. destruct (all_sums regs sums G R) as (vs & css & E & F & T & V). unfold disteval_to_mathematica. rewrite E. pose proof (layered_all _ _ _ T) as LA. intros H. apply all_some_inv in H.
  eapply values_all; [exact Z0|exact F|exact V|]. clear -L1 L2 S LA H. induction H as [|v ab vs rs Hv _ IH]; constructor; inversion LA as [|? ? L LA']; subst; [|apply IH; assumption].
  destruct (fmt_value_m P g18 g18plus true v) as [a|] eqn:Ea; [|discriminate]. destruct (fmt_value_m P g18 g18plus false v) as [b|] eqn:Eb; [|discriminate]. injection Hv as <-.
  split; [apply (layered_ok_m g18 g18plus K I f0 env num lit slit L1 L2 true regs v S L a Ea)|apply (layered_ok_m g18 g18plus K I f0 env num lit slit L1 L2 false regs v S L b Eb)].
Qed.
End G.
End K.
(** ... which does not happen for a single regulator. *)
Theorem C85_mathematica_single g18 g18plus x sums : good_dist [x] sums -> Forall (Forall (readable_term float_of)) sums -> disteval_to_mathematica P float_of is0 g18 g18plus (result_to_sympy [x] sums) <> None.
Proof.
  intros G R. destruct (all_sums Qc_Fld f0 (fun _ => f0) (fun _ => f0) [x] sums G R) as (vs & css & E & F & T & V). unfold disteval_to_mathematica. rewrite E. pose proof (layered_all _ _ _ T) as LA.
  assert (X : exists rs, all_some (map (fun v => match fmt_value_m P g18 g18plus true v, fmt_value_m P g18 g18plus false v with Some a, Some b => Some (a, b) | _, _ => None end) vs) = Some rs).
  { clear -LA. induction LA as [|v vs L _ [rs IH]]; [exists []; reflexivity|]. destruct (layered_single g18 g18plus true x v L) as [a Ea]. destruct (layered_single g18 g18plus false x v L) as [b Eb]. cbn [map all_some]. rewrite Ea, Eb. fold (@all_some (text * text)). rewrite IH. eexists. reflexivity. }
  destruct X as [rs ->]. discriminate.
Qed.
(** The text is read back as nested series with exactly the terms that were written; each is truncated one order above its highest order. *)
Theorem C85_read regs sums : good_dist regs sums -> Forall (Forall (readable_term float_of)) sums -> exists vs, parse_disteval P float_of is0 (result_to_sympy regs sums) = Some vs /\ Forall2 (same_terms float_of is0 regs) sums vs.
Proof. intros G R. destruct (all_sums Qc_Fld f0 (fun _ => f0) (fun _ => f0) regs sums G R) as (vs & css & E & _ & T & _). exists vs. auto. Qed.
End C.
(** ** examples: integers with signs *)
Definition term3 (ps : list Z) (a b u v : string) : dterm_out := mkTerm ps (txt a) (txt b) (txt u) (txt v).
Definition two_sums : list (list dterm_out) := [[term3 [-1; -2]%Z "+1" "-2" "+3" "+0"; term3 [-1; -1]%Z "+4" "+0" "+5" "+6"; term3 [0; -2]%Z "-7" "+0" "+1" "+1"]; [term3 [0; 0]%Z "+8" "+9" "+0" "+0"]].
Lemma two_sums_good : good_dist [txt "n"; txt "eps"] two_sums /\ Forall (Forall (readable_term pyint)) two_sums.
Proof.
  split; [split; [discriminate|split; [repeat constructor; discriminate|split; [discriminate|]]]|].
  - constructor; [|constructor; [|constructor]]; (split; [discriminate|split; [repeat constructor|]]); cbn; repeat (constructor; [cbn; intuition discriminate|]); constructor.
  - repeat constructor; discriminate.
Qed.
Example C85_example : convert_disteval Z pyint (Z.eqb 0) zdec (fun z => if Z.ltb z 0 then zdec z else txt "+" ++ zdec z) (txt "**") (txt "O") (result_to_sympy [txt "n"; txt "eps"] two_sums) =
  Some [(txt "((1-2*I)/eps**2 + 4/eps + O(eps**(0)))/n + (-7/eps**2 + O(eps**(-1))) + O(n)", txt "(3/eps**2 + (5+6*I)/eps + O(eps**(0)))/n + ((1+1*I)/eps**2 + O(eps**(-1))) + O(n)"); (txt "((8+9*I) + O(eps)) + O(n)", txt "(0 + O(eps)) + O(n)")].
Proof. vm_compute. reflexivity. Qed.
(** ** results that are not numbers, and sums without terms *)
(** The lines of a term with nan (or inf) do not match and are skipped: the term disappears without an error. *)
Theorem C85_nan_refuted : exists ts, In (term3 [-1]%Z "+nan" "+nan" "+nan" "+nan") ts /\ exists v, parse_disteval Z pyint (Z.eqb 0) (result_to_sympy [txt "eps"] [ts]) = Some [v] /\ parse_disteval Z pyint (Z.eqb 0) (result_to_sympy [txt "eps"] [tl ts]) = Some [v] /\ forall d, ~ pat v [-1]%Z d.
Proof.
  exists [term3 [-1]%Z "+nan" "+nan" "+nan" "+nan"; term3 [0]%Z "+1" "+0" "+1" "+0"]. split; [left; reflexivity|]. eexists. split; [vm_compute; reflexivity|]. split; [vm_compute; reflexivity|].
  intros d H. inversion H as [|? ? ? c k ks ? Hin _]; subst. destruct Hin as [E|[]]. injection E. discriminate.
Qed.
(** A sum without terms, for which 0 is written, makes the reader fail, for all sums of the text. *)
Theorem C85_empty_refuted : parse_disteval Z pyint (Z.eqb 0) (result_to_sympy [txt "eps"] [[term3 [0]%Z "+1" "+0" "+1" "+0"]; []]) = None.
Proof. vm_compute. reflexivity. Qed.
Print Assumptions C85_convert.
Print Assumptions C85_mathematica.
Print Assumptions C85_read.
