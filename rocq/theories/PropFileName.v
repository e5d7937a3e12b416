(** C91: names of generated files and of derivatives. *)
From Coq Require Import Lia.
From Verif Require Import TextProofs.
From Verif Require Export FileNameModel.
Local Open Scope list_scope.
Local Open Scope nat_scope.
(** a sector as it is written: its index, the powers of the regulators and the highest poles *)
Record written_sector := mkWritten { w_index : Z; w_powers : list (list Z); w_poles : list Z }.
Definition w_names (w : written_sector) := sector_order_names (w_index w) (w_powers w) (w_poles w).
(** all the files of all the sectors *)
Definition all_files (contour_deformation : bool) (ws : list written_sector) : list text :=
  flat_map (fun w => sector_cpp_files (w_index w) (w_names w) contour_deformation ++ sector_distsrc_files (w_names w) ++ sector_mma_files (w_names w)) ws.
(** with [r] regulators all vectors of powers have [r] entries *)
Definition w_ok (r : nat) (w : written_sector) : Prop := length (w_poles w) = r /\ Forall (fun p => length p = r) (w_powers w).

Lemma cut {A} (c : A) : forall a a' b b', ~ In c a -> ~ In c a' -> a ++ c :: b = a' ++ c :: b' -> a = a' /\ b = b'.
Proof.
  induction a as [|x a IH]; intros [|y a'] b b' H H' E; cbn [app] in E.
  - injection E as <-. auto.
  - injection E as <- _. exfalso. apply H'. left. reflexivity.
  - injection E as -> _. exfalso. apply H. left. reflexivity.
  - injection E as <- E. destruct (IH a' b b') as (-> & ->); [intros K; apply H; right; exact K|intros K; apply H'; right; exact K|exact E|]. auto.
Qed.
Lemma zdec_inj z z' : zdec z = zdec z' -> z = z'.
Proof. intros E. pose proof (pyint_zdec z) as H. rewrite E, pyint_zdec in H. congruence. Qed.
Lemma zdec_no c z : is_expo c = false -> ~ In c (zdec z).
Proof. intros H K. pose proof (zdec_expo z) as F. rewrite Forall_forall in F. specialize (F c K). congruence. Qed.
Lemma join_cons2 sep (a b : text) r : join sep (a :: b :: r) = a ++ sep ++ join sep (b :: r). Proof. reflexivity. Qed.
Lemma join_inj : forall ks ks', length ks = length ks' -> join (txt "_") (map zdec ks) = join (txt "_") (map zdec ks') -> ks = ks'.
Proof.
  induction ks as [|k ks IH]; intros [|k' ks'] L E; try discriminate; [reflexivity|]. destruct ks as [|k2 ks]; destruct ks' as [|k2' ks']; try discriminate.
  - cbn in E. f_equal. apply zdec_inj, E.
  - cbn [map] in E. rewrite !join_cons2 in E. cbn [txt list_ascii_of_string app] in E. apply cut in E as (E1 & E2); [|apply zdec_no; reflexivity|apply zdec_no; reflexivity]. f_equal; [apply zdec_inj, E1|apply IH; [cbn in *; lia|exact E2]].
Qed.
Lemma join_chars c ks : In c (join (txt "_") (map zdec ks)) -> is_expo c = true \/ c = "_"%char.
Proof.
  induction ks as [|k ks IH]; intros H; [destruct H|]. destruct ks as [|k2 ks].
  - left. pose proof (zdec_expo k) as F. rewrite Forall_forall in F. apply F, H.
  - cbn [map] in *. rewrite join_cons2 in H. apply in_app_or in H as [H|H]; [left; pose proof (zdec_expo k) as F; rewrite Forall_forall in F; apply F, H|]. destruct H as [<-|H]; [right; reflexivity|apply IH, H].
Qed.
Lemma map_inj_on {A B} (f : A -> B) : forall a b, (forall x y, In x a -> In y b -> f x = f y -> x = y) -> map f a = map f b -> a = b.
Proof. induction a as [|x a IH]; intros [|y b] H E; try discriminate; [reflexivity|]. injection E as E1 E2. f_equal; [apply H; [left; reflexivity|left; reflexivity|exact E1]|apply IH; [intros; apply H; try right; assumption|exact E2]]. Qed.
Lemma order_name_inj ks ks' : length ks = length ks' -> order_name ks = order_name ks' -> ks = ks'.
Proof.
  intros L E. apply join_inj; [exact L|]. unfold order_name in E. eapply map_inj_on; [|exact E]. cbn beta. intros x y Hx Hy H. apply join_chars in Hx, Hy.
  destruct (Ascii.eqb_spec x "-") as [->|Nx]; destruct (Ascii.eqb_spec y "-") as [->|Ny]; [reflexivity| | |exact H]; subst; [destruct Hy as [Hy|Hy]; discriminate|destruct Hx as [Hx|Hx]; discriminate].
Qed.
Lemma order_name_dot ks : ~ In "."%char (order_name ks).
Proof. unfold order_name. intros H. apply in_map_iff in H as (c & E & H). apply join_chars in H. destruct (Ascii.eqb_spec c "-"); [discriminate|]. subst c. destruct H as [H|H]; discriminate. Qed.
(** descriptions of files *)
Inductive fam := Src | Contour | Optimize | DistCpp | DistCu | Mma.
Definition pre (f : fam) : text := match f with Src => txt "src/sector_" | Contour => txt "src/contour_deformation_sector_" | Optimize => txt "src/optimize_deformation_parameters_sector_" | DistCpp | DistCu => txt "distsrc/sector_" | Mma => txt "mma/sector_" end.
Definition ext (f : fam) : text := match f with Src | Contour | Optimize | DistCpp => txt "cpp" | DistCu => txt "cu" | Mma => txt "m" end.
Definition body (s : Z) (o : option (list Z)) : text := zdec s ++ match o with None => [] | Some ks => "_"%char :: order_name ks end.
Definition fname (d : fam * Z * option (list Z)) : text := pre (fst (fst d)) ++ body (snd (fst d)) (snd d) ++ "."%char :: ext (fst (fst d)).
Definition d_ok (r : nat) (d : fam * Z * option (list Z)) : Prop := match snd d with Some ks => length ks = r | None => True end.
Lemma body_dot s o : ~ In "."%char (body s o).
Proof. unfold body. intros H. apply in_app_or in H as [H|H]; [revert H; apply zdec_no; reflexivity|]. destruct o as [ks|]; [|destruct H]. destruct H as [H|H]; [discriminate|exact (order_name_dot ks H)]. Qed.
Lemma body_inj r s o s' o' : d_ok r (Src, s, o) -> d_ok r (Src, s', o') -> body s o = body s' o' -> s = s' /\ o = o'.
Proof.
  unfold d_ok, body. cbn [snd]. intros H H' E. destruct o as [ks|], o' as [ks'|].
  - apply cut in E as (E1 & E2); [|apply zdec_no; reflexivity|apply zdec_no; reflexivity]. apply zdec_inj in E1. apply order_name_inj in E2; [|congruence]. subst. auto.
  - rewrite app_nil_r in E. exfalso. apply (zdec_no "_" s'); [reflexivity|]. rewrite <- E. apply in_or_app. right. left. reflexivity.
  - rewrite app_nil_r in E. exfalso. apply (zdec_no "_" s); [reflexivity|]. rewrite E. apply in_or_app. right. left. reflexivity.
  - rewrite !app_nil_r in E. apply zdec_inj in E. auto.
Qed.
Lemma fname_inj r d d' : d_ok r d -> d_ok r d' -> fname d = fname d' -> d = d'.
Proof.
  destruct d as ((f & s) & o), d' as ((f' & s') & o'). intros H H' E. unfold fname in E. cbn [fst snd] in E.
  assert (K : pre f = pre f' -> f = f' /\ s = s' /\ o = o').
  { intros P. rewrite P in E. apply app_inv_head in E. apply cut in E as (E1 & E2); [|apply body_dot|apply body_dot]. apply (body_inj r) in E1 as (-> & ->); [|exact H|exact H']. split; [|auto]. destruct f, f'; try reflexivity; discriminate. }
  assert (P : pre f = pre f') by (destruct f, f'; try reflexivity; exfalso; clear -E; cbn [pre txt list_ascii_of_string app] in E; discriminate). destruct (K P) as (-> & -> & ->). reflexivity.
Qed.
Lemma NoDup_app' {A} (a b : list A) : NoDup a -> NoDup b -> (forall x, In x a -> ~ In x b) -> NoDup (a ++ b).
Proof. induction a as [|x a IH]; cbn [app]; intros Ha Hb D; [exact Hb|]. inversion Ha as [|? ? H1 H2]; subst. constructor; [intros K; apply in_app_or in K as [K|K]; [exact (H1 K)|exact (D x (or_introl eq_refl) K)]|apply IH; [exact H2|exact Hb|intros y Hy; apply D; right; exact Hy]]. Qed.
Lemma NoDup_map' {A B} (f : A -> B) l : (forall x y, In x l -> In y l -> f x = f y -> x = y) -> NoDup l -> NoDup (map f l).
Proof. induction l as [|x l IH]; intros H N; [constructor|]. inversion N as [|? ? H1 H2]; subst. cbn [map]. constructor; [|apply IH; [intros; apply H; try right; assumption|exact H2]]. intros K. apply in_map_iff in K as (y & E & Hy). apply H1. rewrite (H x y); [exact Hy|left; reflexivity|right; exact Hy|symmetry; exact E]. Qed.
Definition w_orders (w : written_sector) : list (list Z) := nodup (list_eq_dec Z.eq_dec) (map (fun p => map (fun ph => (fst ph - snd ph)%Z) (combine p (w_poles w))) (w_powers w)).
Definition fams (cd : bool) : list fam := [Src] ++ (if cd then [Contour; Optimize] else []) ++ [DistCpp; DistCu; Mma].
Definition descs (cd : bool) (w : written_sector) : list (fam * Z * option (list Z)) := (Src, w_index w, None) :: flat_map (fun f => map (fun ks => (f, w_index w, Some ks)) (w_orders w)) (fams cd).
Lemma files_descs cd w : sector_cpp_files (w_index w) (w_names w) cd ++ sector_distsrc_files (w_names w) ++ sector_mma_files (w_names w) = map fname (descs cd w).
Proof.
  unfold descs, sector_cpp_files, sector_distsrc_files, sector_mma_files, w_names, sector_order_names. fold (w_orders w). rewrite !map_map. cbn [snd map app].
  assert (F : forall f, map (fun ks => file_of (pre f) ("."%char :: ext f) (w_index w, order_name ks)) (w_orders w) = map fname (map (fun ks => (f, w_index w, Some ks)) (w_orders w))).
  { intros f. rewrite map_map. apply map_ext. intros ks. unfold file_of, fname, body. cbn [fst snd]. rewrite <- !app_assoc. reflexivity. }
  f_equal; [unfold fname, body; cbn [fst snd]; rewrite app_nil_r; reflexivity|].
  destruct cd; cbn [fams app flat_map]; rewrite ?app_nil_r, !map_app, <- !F; rewrite <- ?app_assoc; reflexivity.
Qed.
Lemma descs_nodup cd w : NoDup (descs cd w).
Proof.
  unfold descs. constructor; [intros K; apply in_flat_map in K as (f & _ & K); apply in_map_iff in K as (ks & K & _); discriminate|].
  assert (N : NoDup (w_orders w)) by apply NoDup_nodup. assert (Nf : NoDup (fams cd)) by (destruct cd; repeat constructor; cbn; intuition discriminate).
  induction (fams cd) as [|f l IH]; [constructor|]. inversion Nf as [|? ? N1 N2]; subst. cbn [flat_map]. apply NoDup_app'; [apply NoDup_map'; [intros x y _ _ E; congruence|exact N]|apply IH, N2|].
  intros x Hx K. apply in_map_iff in Hx as (ks & <- & _). apply in_flat_map in K as (g & Hg & K). apply in_map_iff in K as (ks' & K & _). injection K as -> _. exact (N1 Hg).
Qed.
Lemma descs_ok cd r w d : w_ok r w -> In d (descs cd w) -> d_ok r d /\ snd (fst d) = w_index w.
Proof.
  intros (L & W) [<-|H]; [split; [exact I|reflexivity]|]. apply in_flat_map in H as (f & _ & H). apply in_map_iff in H as (ks & <- & H). split; [|reflexivity]. unfold d_ok. cbn [snd]. unfold w_orders in H. apply nodup_In in H. apply in_map_iff in H as (p & <- & Hp).
  rewrite map_length, combine_length. rewrite Forall_forall in W. rewrite (W p Hp), L. apply Nat.min_id.
Qed.
(** no two of the files written for a package have the same name *)
Theorem C91_files : forall r cd (ws : list written_sector), NoDup (map w_index ws) -> Forall (w_ok r) ws -> NoDup (all_files cd ws).
Proof.
  intros r cd ws N W. assert (E : all_files cd ws = map fname (flat_map (descs cd) ws)).
  { unfold all_files. clear N W. induction ws as [|w ws IH]; [reflexivity|]. cbn [flat_map]. rewrite files_descs, IH, map_app. reflexivity. }
  rewrite E. clear E. apply NoDup_map'.
  - intros d d' Hd Hd'. apply in_flat_map in Hd as (w & Hw & Hd), Hd' as (w' & Hw' & Hd'). rewrite Forall_forall in W. apply (fname_inj r); [apply (descs_ok cd r w d (W w Hw) Hd)|apply (descs_ok cd r w' d' (W w' Hw') Hd')].
  - induction ws as [|w ws IH]; [constructor|]. cbn [map flat_map] in *. inversion N as [|? ? N1 N2]; subst. apply Forall_cons_iff in W as (W1 & W). apply NoDup_app'; [apply descs_nodup|apply IH; assumption|].
    intros d Hd K. apply in_flat_map in K as (w' & Hw' & K). apply N1. rewrite Forall_forall in W. apply in_map_iff. exists w'. split; [|exact Hw'].
    rewrite <- (proj2 (descs_ok cd r w d W1 Hd)). symmetry. apply (descs_ok cd r w' d (W w' Hw') K).
Qed.
Print Assumptions C91_files.
(** every order of every sector has its file, in particular one integrand *)
Theorem C91_every_order : forall cd ws w p, In w ws -> In p (w_powers w) ->
  In (txt "src/sector_" ++ zdec (w_index w) ++ txt "_" ++ order_name (map (fun ph => (fst ph - snd ph)%Z) (combine p (w_poles w))) ++ txt ".cpp") (all_files cd ws) /\
  In (txt "distsrc/sector_" ++ zdec (w_index w) ++ txt "_" ++ order_name (map (fun ph => (fst ph - snd ph)%Z) (combine p (w_poles w))) ++ txt ".cpp") (all_files cd ws).
Proof.
  intros cd ws w p Hw Hp. set (ks := map _ (combine p _)). assert (K : In ks (w_orders w)) by (apply nodup_In, in_map_iff; exists p; split; [reflexivity|exact Hp]).
  assert (G : forall f, In f (fams cd) -> In (fname (f, w_index w, Some ks)) (all_files cd ws)).
  { intros f Hf. unfold all_files. apply in_flat_map. exists w. split; [exact Hw|]. rewrite files_descs. apply in_map. right. apply in_flat_map. exists f. split; [exact Hf|]. apply in_map_iff. exists ks. auto. }
  assert (E : forall f, fname (f, w_index w, Some ks) = pre f ++ zdec (w_index w) ++ txt "_" ++ order_name ks ++ "."%char :: ext f) by (intros f; unfold fname, body; cbn [fst snd]; rewrite <- !app_assoc; reflexivity).
  split; [assert (Q := G Src)|assert (Q := G DistCpp)]; rewrite E in Q; apply Q; destruct cd; cbn; auto 10.
Qed.
Print Assumptions C91_every_order.
(** the multi-index can be recovered from the name of a derivative of a function *)
Definition flat (n : nat) (m : list nat) : list nat := concat (map (fun id => repeat (fst id) (snd id)) (combine (seq n (length m)) m)).
Definition chunk (i : nat) : text := "d"%char :: zdec (Z.of_nat i).
Lemma suffix_flat n m : concat (map (fun id => concat (repeat (txt "d" ++ zdec (Z.of_nat (fst id))) (snd id))) (combine (seq n (length m)) m)) = concat (map chunk (flat n m)).
Proof.
  unfold flat. revert n. induction m as [|k m IH]; intros n; [reflexivity|]. cbn [length seq combine map concat fst snd]. rewrite map_app, concat_app, IH. f_equal.
  clear. induction k as [|k IH]; [reflexivity|]. cbn [repeat map concat]. rewrite IH. reflexivity.
Qed.
Lemma flat_length n m : length (flat n m) = list_sum m.
Proof. unfold flat. revert n. induction m as [|k m IH]; intros n; [reflexivity|]. cbn [length seq combine map concat fst snd]. rewrite app_length, repeat_length, IH. reflexivity. Qed.
Lemma flat_count n m i : count_occ Nat.eq_dec (flat n m) i = if i <? n then 0 else nth (i - n) m 0.
Proof.
  unfold flat. revert n. induction m as [|k m IH]; intros n; [destruct (i <? n); [reflexivity|destruct (i - n); reflexivity]|]. cbn [length seq combine map concat fst snd]. rewrite count_occ_app, IH.
  assert (R : count_occ Nat.eq_dec (repeat n k) i = if Nat.eqb n i then k else 0).
  { destruct (Nat.eqb_spec n i) as [E|Hn]; [apply count_occ_repeat_eq; congruence|apply count_occ_repeat_neq; congruence]. }
  rewrite R. clear R. destruct (Nat.eqb_spec n i) as [E|Hn].
  - rewrite E. rewrite Nat.ltb_irrefl, Nat.sub_diag. destruct (Nat.ltb_spec i (S i)); [cbn [nth]; lia|lia].
  - destruct (Nat.ltb_spec i n), (Nat.ltb_spec i (S n)); try lia. replace (i - n) with (S (i - S n)) by lia. reflexivity.
Qed.
Lemma count_zdec z : count_occ ascii_dec (zdec z) "d"%char = 0.
Proof. apply count_occ_not_In, zdec_no. reflexivity. Qed.
Lemma chunks_count l : count_occ ascii_dec (concat (map chunk l)) "d"%char = length l.
Proof. induction l as [|i l IH]; [reflexivity|]. cbn [map concat]. rewrite count_occ_app, IH. unfold chunk. rewrite count_occ_cons_eq by reflexivity. rewrite count_zdec. reflexivity. Qed.
Lemma chunks_inj : forall l l', concat (map chunk l) = concat (map chunk l') -> l = l'.
Proof.
  induction l as [|i l IH]; intros [|i' l'] E; try discriminate; [reflexivity|]. cbn [map concat chunk app] in E. injection E as E.
  assert (H : zdec (Z.of_nat i) = zdec (Z.of_nat i') /\ concat (map chunk l) = concat (map chunk l')).
  { destruct l as [|j l]; destruct l' as [|j' l']; cbn [map concat chunk app] in *.
    - rewrite !app_nil_r in E. auto.
    - exfalso. rewrite app_nil_r in E. apply (zdec_no "d" (Z.of_nat i)); [reflexivity|]. rewrite E. apply in_or_app. right. left. reflexivity.
    - exfalso. rewrite app_nil_r in E. apply (zdec_no "d" (Z.of_nat i')); [reflexivity|]. rewrite <- E. apply in_or_app. right. left. reflexivity.
    - apply cut in E as (E1 & E2); [|apply zdec_no; reflexivity|apply zdec_no; reflexivity]. rewrite E2. auto. }
  destruct H as (H1 & H2). apply zdec_inj, Nat2Z.inj in H1. subst. f_equal. apply IH, H2.
Qed.
Theorem C91_derivatives : forall basename m m', length m = length m' -> derivative_name basename m = derivative_name basename m' -> m = m'.
Proof.
  intros b m m' L E. unfold derivative_name in E. rewrite !suffix_flat in E.
  assert (S : list_sum m = list_sum m').
  { pose proof (f_equal (fun t => count_occ ascii_dec t "d"%char) E) as C. cbn beta in C. rewrite !count_occ_app, !chunks_count, !flat_length in C. rewrite !count_occ_repeat_eq in C by reflexivity. lia. }
  rewrite S in E. apply app_inv_head, app_inv_head, chunks_inj in E. apply (nth_ext _ _ 0 0); [exact L|]. intros i _.
  pose proof (f_equal (fun l => count_occ Nat.eq_dec l i) E) as C. cbn beta in C. rewrite !flat_count in C. cbn [Nat.ltb Nat.leb] in C. rewrite Nat.sub_0_r in C. exact C.
Qed.
Print Assumptions C91_derivatives.
(** but the derivative of one function can have the name of another function, or of a derivative of another function *)
Theorem C91_different_functions_refuted : derivative_name (txt "f") [1] = derivative_name (txt "dfd0") [0] /\ derivative_name (txt "f") [1; 1] = derivative_name (txt "dfd0") [0; 1].
Proof. split; vm_compute; reflexivity. Qed.
Print Assumptions C91_different_functions_refuted.
Example C91_ex : all_files true [mkWritten 1 [[0]; [1]]%Z [1%Z]] = [txt "src/sector_1.cpp"; txt "src/sector_1_n1.cpp"; txt "src/sector_1_0.cpp"; txt "src/contour_deformation_sector_1_n1.cpp"; txt "src/contour_deformation_sector_1_0.cpp";
  txt "src/optimize_deformation_parameters_sector_1_n1.cpp"; txt "src/optimize_deformation_parameters_sector_1_0.cpp"; txt "distsrc/sector_1_n1.cpp"; txt "distsrc/sector_1_0.cpp"; txt "distsrc/sector_1_n1.cu"; txt "distsrc/sector_1_0.cu"; txt "mma/sector_1_n1.m"; txt "mma/sector_1_0.m"]
  /\ NoDup (map w_index [mkWritten 1 [[0]; [1]]%Z [1%Z]]) /\ Forall (w_ok 1) [mkWritten 1 [[0]; [1]]%Z [1%Z]].
Proof. split; [vm_compute; reflexivity|]. split; [repeat constructor; intros []|repeat constructor]. Qed.
Example C91_ex_derivative : derivative_name (txt "f") [1; 2; 1] = txt "ddddfd0d1d1d2".
Proof. vm_compute. reflexivity. Qed.
