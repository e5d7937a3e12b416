(** C84: printed results are read back and converted faithfully. *)
From Verif Require Import TextMathProofs TextJsonProofs.
(** The text of a result is read back as the same numbers at the same orders, with the variable and the truncation order. *)
Theorem C84_read_back P float_of mn l tr x v : good (CSer mn l tr x) -> seen P float_of (CSer mn l tr x) v -> parse_text P float_of (show (CSer mn l tr x)) = Some v.
Proof. apply round_trip. Qed.
(** ** the converters *)
(** several results, each on a line *)
Definition printed (cs : list coef) : text := concat (map (fun c => show c ++ ["010"%char]) cs).
Definition series (c : coef) : Prop := match c with CSer _ _ _ _ => True | _ => False end.
Lemma lines_of cs : Forall good cs -> splitlines (printed cs) = map show cs.
Proof. intros G. unfold printed. rewrite <- (map_map show (fun t => t ++ ["010"%char])). apply splitlines_all. apply Forall_map. eapply Forall_impl; [|exact G]. intros c. apply show_lines. Qed.
Lemma all_results (f : text -> option (text * text)) (Q : coef -> text * text -> Prop) cs : Forall (fun c => exists ab, f (show c) = Some ab /\ Q c ab) cs -> exists rs, all_some (map f (map show cs)) = Some rs /\ Forall2 Q cs rs.
Proof.
  induction 1 as [|c cs (ab & E & H) _ (rs & IH & F)]; [exists []; split; constructor|]. exists (ab :: rs). split; [|constructor; assumption]. cbn [map all_some]. rewrite E. fold (@all_some (text * text)). rewrite IH. reflexivity.
Qed.
Section C.
Variables (P : Type) (float_of : text -> option P) (g18 g18plus : P -> text) (K : Fld) (I omega : K) (env : text -> K) (num : P -> K) (lit slit : text -> K -> Prop).
(** the assumptions on the results: the regulators are symbols with non-zero values *)
Definition convertible (sym : text -> Prop) (c : coef) : Prop := series c /\ good c /\ readable float_of c /\ (forall x, uses c x -> sym x /\ env x <> f0).
(** a result and a pair of texts: the first text has the mean value as its value, the second the standard deviation *)
Definition faithful (value : text -> K -> Prop) (c : coef) (ab : text * text) : Prop :=
  value (fst ab) (reading K I omega env (num_text float_of K num) true c) /\ value (snd ab) (reading K I omega env (num_text float_of K num) false c).
(** the literals: what "%.18g" and "%+.18g" write is read by the system as the number *)
Definition literals (h : text -> text) : Prop := (forall a, lit (h (g18 a)) (num a)) /\ (forall a, slit (h (g18plus a)) (num a)) /\ lit (txt "0") f0.
Lemma convert_ok pow ord cs : literals (fun t => t) -> Forall (convertible symbol) cs ->
  exists rs, convert_series P float_of g18 g18plus pow ord (printed cs) = Some rs /\ Forall2 (faithful (dsum K I omega env lit slit pow ord)) cs rs.
Proof.
  intros (L1 & L2 & L0) H. unfold convert_series. rewrite lines_of by (eapply Forall_impl; [|exact H]; intros c (_ & G & _); exact G). apply all_results. eapply Forall_impl; [|exact H]. intros c (S & G & R & U). destruct c as [| |mn l tr x]; [contradiction|contradiction|].
  destruct (convert_one_ok float_of g18 g18plus K I omega env num lit slit pow ord L1 L2 L0 mn l tr x G R U) as (a & b & E & A & B). exists (a, b). split; [exact E|]. split; assumption.
Qed.
(** The texts for GiNaC, SymPy and Maple have the mean values and the standard deviations of the results as their values. *)
Theorem C84_ginac cs : literals (fun t => t) -> Forall (convertible symbol) cs ->
  exists rs, series_to_ginac P float_of g18 g18plus (printed cs) = Some rs /\ Forall2 (faithful (dsum K I omega env lit slit (txt "^") (txt "Order"))) cs rs.
Proof. apply convert_ok. Qed.
Theorem C84_sympy cs : literals (fun t => t) -> Forall (convertible symbol) cs ->
  exists rs, series_to_sympy P float_of g18 g18plus (printed cs) = Some rs /\ Forall2 (faithful (dsum K I omega env lit slit (txt "**") (txt "O"))) cs rs.
Proof. apply convert_ok. Qed.
Theorem C84_maple cs : literals (fun t => t) -> Forall (convertible symbol) cs ->
  exists rs, series_to_maple P float_of g18 g18plus (printed cs) = Some rs /\ Forall2 (faithful (dsum K I omega env lit slit (txt "^") (txt "O"))) cs rs.
Proof. apply convert_ok. Qed.
(** The texts for Mathematica do so, if nested series occur only in truncated series. *)
Theorem C84_mathematica cs : literals replace_e -> Forall (fun c => convertible symbol_m c /\ nests_truncated c) cs ->
  exists rs, series_to_mathematica P float_of g18 g18plus (printed cs) = Some rs /\ Forall2 (faithful (msum K I omega env lit slit)) cs rs.
Proof.
  intros (L1 & L2 & L0) H. unfold series_to_mathematica. rewrite lines_of by (eapply Forall_impl; [|exact H]; intros c ((_ & G & _) & _); exact G). apply all_results. eapply Forall_impl; [|exact H]. intros c ((S & G & R & U) & N). destruct c as [| |mn l tr x]; [contradiction|contradiction|].
  destruct (convert_one_ok_m float_of g18 g18plus K I omega env num lit slit L1 L2 L0 mn l tr x G R N U) as (a & b & E & A & B). exists (a, b). split; [exact E|]. split; assumption.
Qed.
(** A text without a final newline is a single result. *)
Theorem C84_single c : series c -> good c ->
  series_to_ginac P float_of g18 g18plus (show c) = series_to_ginac P float_of g18 g18plus (printed [c]) /\ series_to_sympy P float_of g18 g18plus (show c) = series_to_sympy P float_of g18 g18plus (printed [c]) /\
  series_to_maple P float_of g18 g18plus (show c) = series_to_maple P float_of g18 g18plus (printed [c]) /\ series_to_mathematica P float_of g18 g18plus (show c) = series_to_mathematica P float_of g18 g18plus (printed [c]).
Proof.
  intros S G. assert (E : splitlines (show c) = splitlines (printed [c])). { rewrite lines_of by (constructor; [exact G|constructor]). apply splitlines_single; [|apply show_lines, G]. destruct c as [| |mn l tr x]; [contradiction|contradiction|]. inversion G; subst. rewrite show_ser. destruct l; [contradiction|]. discriminate. }
  unfold series_to_ginac, series_to_sympy, series_to_maple, series_to_mathematica, convert_series. rewrite E. auto.
Qed.
End C.
(** ** examples: numbers are integers *)
Definition zplus (z : Z) : text := if Z.ltb z 0 then zdec z else txt "+" ++ zdec z.
Definition re (z : Z) : coef := CNum (CReal (zdec z)).
Definition cdev (a b u v : Z) : coef := CDev (CCplx (zdec a) (zdec b)) (CCplx (zdec u) (zdec v)).
(** ((1,-2) +/- (3,0)) n^-1 ( eps^-1 + ... ) *)
Definition sample : coef := CSer (-1) [CSer (-2) [cdev 1 (-2) 3 0; cdev 4 5 0 1] true (txt "eps"); CSer (-1) [cdev 7 0 1 1] true (txt "eps")] true (txt "n").
Ltac isnum := split; [discriminate|repeat constructor].
Lemma sample_convertible : convertible Z pyint Qc_Fld (fun _ => f1) symbol_m sample /\ nests_truncated sample.
Proof.
  split; [|repeat constructor]. split; [exact Logic.I|]. split; [|split].
  - repeat (constructor || discriminate || isnum).
  - repeat (constructor || discriminate).
  - intros x H. split; [|exact (F1_neq_0 Qc_Fld)]. assert (E : x = txt "n" \/ x = txt "eps").
    { inversion H as [|? ? ? ? ? ? Hc Hu]; subst; [left; reflexivity|right]. destruct Hc as [<-|[<-|[]]]; inversion Hu as [|? ? ? ? ? ? Hd Hw]; subst; try reflexivity; cbn in Hd; repeat (destruct Hd as [<-|Hd]; [inversion Hw|]); contradiction. }
    destruct E as [->| ->]; (split; [split; [isnum|split; [discriminate|intros c r E; injection E as <- _; reflexivity]]|cbn; intros HH; repeat (destruct HH as [HH|HH]; [discriminate HH|]); exact HH]).
Qed.
Definition zlit (t : text) (v : Qc_Fld) : Prop := exists z, t = zdec z /\ v = zF z.
Definition zslit (t : text) (v : Qc_Fld) : Prop := exists z, t = zplus z /\ v = zF z.
Lemma digits_no_e z : replace_e (zdec z) = zdec z.
Proof. pose proof (zdec_expo z) as H. induction H as [|c t Hc _ IH]; [reflexivity|]. cbn [replace_e]. destruct (Ascii.eqb_spec c "e") as [->|]; [discriminate|]. rewrite IH. reflexivity. Qed.
Lemma zlit_ok : literals Z zdec zplus Qc_Fld zF zlit zslit (fun t => t) /\ literals Z zdec zplus Qc_Fld zF zlit zslit replace_e.
Proof.
  split; (split; [|split]); try (exists 0%Z; split; reflexivity); intros a; exists a; rewrite ?digits_no_e; try (split; reflexivity).
  unfold zplus. destruct (Z.ltb a 0); [|rewrite replace_app]; rewrite digits_no_e; split; reflexivity.
Qed.
Example C84_example_text : show sample = txt " + ( + ((1,-2) +/- (3,0))*eps^-2 + ((4,5) +/- (0,1))*eps^-1 + O(eps^0))*n^-1 + ( + ((7,0) +/- (1,1))*eps^-1 + O(eps^0)) + O(n)".
Proof. vm_compute. reflexivity. Qed.
Example C84_example_sympy : series_to_sympy Z pyint zdec zplus (show sample) =
  Some [(txt "((1-2*I)/eps**2 + (4+5*I)/eps + O(eps**(0)))/n + ((7+0*I)/eps + O(eps**(0))) + O(n)", txt "((3+0*I)/eps**2 + (0+1*I)/eps + O(eps**(0)))/n + ((1+1*I)/eps + O(eps**(0))) + O(n)")].
Proof. vm_compute. reflexivity. Qed.
Example C84_example_mathematica : series_to_mathematica Z pyint zdec zplus (show sample) =
  Some [(txt "SeriesData[n, 0, {(1-2*I)/eps^2 + (4+5*I)/eps + O[eps]/eps^1, (7+0*I)/eps + O[eps]/eps^1}, -1, 1, 1]", txt "SeriesData[n, 0, {(3+0*I)/eps^2 + (0+1*I)/eps + O[eps]/eps^1, (1+1*I)/eps + O[eps]/eps^1}, -1, 1, 1]")].
Proof. vm_compute. reflexivity. Qed.
(** ** Mathematica, nested series in series that are not truncated: the brackets are missing, and different results give the same text. *)
Definition left_result : coef := CSer 1 [CSer 0 [re 1; re 2] false (txt "eps")] false (txt "n").
Definition right_result : coef := CSer 0 [CSer 0 [re 1] false (txt "eps"); CSer 1 [re 2] false (txt "eps")] false (txt "n").
Theorem C84_mathematica_brackets_refuted :
  good left_result /\ good right_result /\ series_to_mathematica Z pyint zdec zplus (show left_result) = series_to_mathematica Z pyint zdec zplus (show right_result) /\ series_to_mathematica Z pyint zdec zplus (show left_result) <> None /\
  (let env := fun x => if starts (txt "n") x then zF 2 else f1 in reading Qc_Fld f0 f0 env (num_text pyint Qc_Fld zF) true left_result <> reading Qc_Fld f0 f0 env (num_text pyint Qc_Fld zF) true right_result).
Proof.
  split; [|split; [|split; [|split]]].
  - repeat (constructor || discriminate || isnum).
  - repeat (constructor || discriminate || isnum).
  - vm_compute. reflexivity.
  - vm_compute. discriminate.
  - vm_compute. intros H. discriminate H.
Qed.
(** ** series_to_json: the dictionary has exactly the coefficients under their orders, and the list of regulators. *)
Theorem C84_json P float_of dev x xs c : nested dev (x :: xs) c -> good c -> readable float_of c ->
  exists d, series_to_json P float_of (show c) = Some (d, map Some (x :: xs)) /\ forall ks,
    (forall e, get P d ks = Some e -> exists b, at_orders c ks b /\ entry_of float_of b e) /\ (forall b, at_orders c ks b -> exists e, get P d ks = Some e /\ entry_of float_of b e).
Proof. apply json_all. Qed.
Lemma sample_nested : nested true [txt "n"; txt "eps"] sample.
Proof. repeat (constructor || (left; reflexivity)). Qed.
(** A series that consists of the order 0 only and is not truncated does not show its regulator: the list has None in its place. *)
Theorem C84_json_regulators_refuted : exists c, (good c /\ readable pyint c /\ (forall x, uses c x <-> x = txt "n" \/ x = txt "eps") /\ exists d, series_to_json Z pyint (show c) = Some (d, [Some (txt "n"); None])).
Proof.
  exists (CSer 0 [CSer 0 [re 1] false (txt "eps")] true (txt "n")). split; [repeat (constructor || discriminate || isnum)|]. split; [repeat (constructor || discriminate)|]. split.
  - intros x. split.
    + intros H. inversion H as [|? ? ? ? ? ? Hc Hu]; subst; [left; reflexivity|right]. destruct Hc as [<-|[]]. inversion Hu as [|? ? ? ? ? ? Hd Hw]; subst; [reflexivity|]. destruct Hd as [<-|[]]. inversion Hw.
    + intros [->| ->]; [apply U_here|]. eapply U_in; [left; reflexivity|apply U_here].
  - eexists. vm_compute. reflexivity.
Qed.
Print Assumptions C84_mathematica.
Print Assumptions C84_sympy.
Print Assumptions C84_json.
