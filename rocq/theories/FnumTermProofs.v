From Coq Require Import List Arith Lia Permutation Bool. Import ListNotations.
From Verif Require Import MiscModel FnumModel FnumTermModel.
Notation FT := (nat * nat)%type.
Lemma eqb2_true (x y : FT) : eqb2 x y = true <-> x = y.
Proof. destruct x, y. unfold eqb2. cbn. rewrite andb_true_iff, !Nat.eqb_eq. split; [intros [-> ->]; reflexivity|intros H; injection H; auto]. Qed.
Lemma eqb2_refl x : eqb2 x x = true. Proof. apply eqb2_true. reflexivity. Qed.
Definition cx (x : FT) (t : list FT) : nat := length (filter (eqb2 x) t).
Definition out (x : FT) (t : list FT) : list FT := filter (fun y => negb (eqb2 x y)) t.
Lemma cx_cons x y t : cx x (y :: t) = if eqb2 x y then S (cx x t) else cx x t.
Proof. unfold cx. cbn [filter]. destruct (eqb2 x y); reflexivity. Qed.
Lemma exists_cx x t : existsb (eqb2 x) t = negb (Nat.eqb (cx x t) 0).
Proof. induction t as [|y t IH]; [reflexivity|]. rewrite cx_cons. cbn [existsb]. destruct (eqb2 x y); [reflexivity|exact IH]. Qed.
Lemma remove1_cx x t : cx x t <> 0 -> S (cx x (remove1 x t)) = cx x t /\ out x (remove1 x t) = out x t /\ S (length (remove1 x t)) = length t.
Proof.
  induction t as [|y t IH]; [cbn; lia|]. rewrite cx_cons. cbn [remove1 out filter]. destruct (eqb2 x y) eqn:E; cbn [negb].
  - intros _. repeat split; reflexivity.
  - intros H. destruct (IH H) as (H1 & H2 & H3). rewrite cx_cons. cbn [filter]. rewrite E. cbn [negb length]. split; [exact H1|]. split; [|lia]. f_equal. exact H2.
Qed.
Lemma out_none x t : cx x t = 0 -> out x t = t.
Proof. induction t as [|y t IH]; [reflexivity|]. rewrite cx_cons. cbn [out filter]. destruct (eqb2 x y); [discriminate|]. intros H. cbn [negb]. f_equal. apply IH, H. Qed.
Lemma strip_spec x fuel : forall t l c, length t <= fuel -> c <= 2 ->
  strip fuel x (t, l, c) = if Nat.leb (c + cx x t) 2 then Some (out x t, l ++ repeat x (cx x t), c + cx x t) else None.
Proof.
  induction fuel as [|fuel IH]; intros t l c Hf Hc.
  - destruct t; [|cbn in Hf; lia]. cbn. rewrite Nat.add_0_r, app_nil_r. apply Nat.leb_le in Hc. cbn in Hc. rewrite Hc. reflexivity.
  - cbn [strip]. rewrite exists_cx. destruct (Nat.eqb_spec (cx x t) 0) as [E|E]; cbn [negb].
    + rewrite E, out_none, Nat.add_0_r by exact E. cbn [repeat]. rewrite app_nil_r. apply Nat.leb_le in Hc. rewrite Hc. reflexivity.
    + destruct (remove1_cx x t E) as (H1 & H2 & H3). destruct (Nat.leb_spec (S c) 2) as [Hl|Hl].
      * rewrite IH by lia. rewrite H2. replace (S c + cx x (remove1 x t)) with (c + cx x t) by lia.
        destruct (Nat.leb (c + cx x t) 2); [|reflexivity]. rewrite <- app_assoc. rewrite <- H1. reflexivity.
      * destruct (Nat.leb_spec (c + cx x t) 2); [lia|reflexivity].
Qed.
(** factors with a momentum from [ms] and the index [idx] *)
Definition selq (ms : list nat) (idx : nat) (q : FT) : bool := existsb (Nat.eqb (fst q)) ms && Nat.eqb (snd q) idx.
Lemma repeat_filter x t : repeat x (cx x t) = filter (eqb2 x) t.
Proof.
  induction t as [|y t IH]; [reflexivity|]. rewrite cx_cons. cbn [filter]. destruct (eqb2 x y) eqn:E; [|exact IH].
  apply eqb2_true in E. subst. cbn [repeat]. f_equal. exact IH.
Qed.
Lemma filter_filter {A} (f g : A -> bool) l : filter f (filter g l) = filter (fun x => g x && f x) l.
Proof. induction l as [|x l IH]; [reflexivity|]. cbn [filter]. destruct (g x); cbn [filter andb]; [destruct (f x)|]; rewrite IH; reflexivity. Qed.
Lemma filter_split {A} (f g h : A -> bool) l : (forall x, h x = f x || g x) -> (forall x, f x = true -> g x = false) ->
  Permutation (filter h l) (filter f l ++ filter g l).
Proof.
  intros Hh Hd. induction l as [|x l IH]; [reflexivity|]. cbn [filter]. rewrite Hh. destruct (f x) eqn:E.
  - rewrite (Hd x E). cbn [orb app]. constructor. exact IH.
  - cbn [orb]. destruct (g x); [|exact IH]. rewrite <- Permutation_middle. constructor. exact IH.
Qed.
Lemma momenta_spec idx ms : forall t l c, NoDup ms -> c <= 2 ->
  if Nat.leb (c + length (filter (selq ms idx) t)) 2
  then exists l2, Permutation l2 (filter (selq ms idx) t) /\
     strip_momenta ms idx (t, l, c) = Some (filter (fun q => negb (selq ms idx q)) t, l ++ l2, c + length (filter (selq ms idx) t))
  else strip_momenta ms idx (t, l, c) = None.
Proof.
  induction ms as [|i ms IH]; intros t l c HN Hc.
  - assert (E : filter (selq [] idx) t = []) by (induction t; [reflexivity|assumption]).
    assert (E' : filter (fun q => negb (selq [] idx q)) t = t) by (clear; induction t as [|y t IHt]; [reflexivity|cbn [filter negb selq existsb andb]; f_equal; exact IHt]).
    rewrite E, E'. cbn [length]. rewrite Nat.add_0_r. rewrite (proj2 (Nat.leb_le c 2) Hc). exists []. rewrite app_nil_r. split; [reflexivity|reflexivity].
  - inversion HN as [|? ? Hi HN']; subst. cbn [strip_momenta fst]. rewrite strip_spec by (try lia; exact Hc).
    assert (HP : Permutation (filter (selq (i :: ms) idx) t) (filter (eqb2 (i, idx)) t ++ filter (selq ms idx) t)).
    { apply filter_split.
      - intros [u v]. unfold selq, eqb2. cbn [fst snd existsb]. rewrite (Nat.eqb_sym u i), (Nat.eqb_sym v idx). destruct (Nat.eqb i u), (Nat.eqb idx v), (existsb (Nat.eqb u) ms); reflexivity.
      - intros q E. apply eqb2_true in E. subst q. unfold selq. cbn [fst snd]. destruct (existsb (Nat.eqb i) ms) eqn:X; [|reflexivity].
        apply existsb_exists in X. destruct X as (j & Hj & E). apply Nat.eqb_eq in E. subst. contradiction. }
    assert (EL : length (filter (selq (i :: ms) idx) t) = cx (i, idx) t + length (filter (selq ms idx) t)) by (rewrite (Permutation_length HP), app_length; reflexivity).
    assert (EO : filter (selq ms idx) (out (i, idx) t) = filter (selq ms idx) t).
    { unfold out. rewrite filter_filter. apply filter_ext_in. intros q Hq. destruct (eqb2 (i, idx) q) eqn:E; [|reflexivity]. apply eqb2_true in E. subst q. unfold selq. cbn [fst snd negb andb].
      destruct (existsb (Nat.eqb i) ms) eqn:X; [|reflexivity]. apply existsb_exists in X. destruct X as (j & Hj & E). apply Nat.eqb_eq in E. subst. contradiction. }
    assert (EO' : filter (fun q => negb (selq ms idx q)) (out (i, idx) t) = filter (fun q => negb (selq (i :: ms) idx q)) t).
    { unfold out. rewrite filter_filter. apply filter_ext. intros [u v]. unfold selq, eqb2. cbn [fst snd existsb]. rewrite (Nat.eqb_sym u i), (Nat.eqb_sym v idx).
      destruct (Nat.eqb i u), (Nat.eqb idx v), (existsb (Nat.eqb u) ms); reflexivity. }
    rewrite EL. destruct (Nat.leb_spec (c + cx (i, idx) t) 2) as [H1|H1].
    + specialize (IH (out (i, idx) t) (l ++ repeat (i, idx) (cx (i, idx) t)) (c + cx (i, idx) t) HN' H1). rewrite EO, EO' in IH.
      rewrite <- Nat.add_assoc in IH.
      destruct (Nat.leb (c + (cx (i, idx) t + length (filter (selq ms idx) t))) 2).
      * destruct IH as (l2 & P2 & E2). exists (repeat (i, idx) (cx (i, idx) t) ++ l2). split; [rewrite HP, P2, repeat_filter; reflexivity|].
        cbn [fst]. rewrite E2. rewrite app_assoc. reflexivity.
      * cbn [fst]. exact IH.
    + destruct (Nat.leb_spec (c + (cx (i, idx) t + length (filter (selq ms idx) t))) 2); [lia|reflexivity].
Qed.
Definition selm (L : nat) (idxs : list nat) (q : FT) : bool := Nat.ltb (fst q) L && existsb (Nat.eqb (snd q)) idxs.
Lemma selq_seq L idx q : selq (seq 0 L) idx q = Nat.ltb (fst q) L && Nat.eqb (snd q) idx.
Proof.
  unfold selq. f_equal. destruct (Nat.ltb_spec (fst q) L) as [H|H].
  - apply existsb_exists. exists (fst q). split; [apply in_seq; lia|apply Nat.eqb_refl].
  - destruct (existsb _ _) eqn:X; [|reflexivity]. apply existsb_exists in X. destruct X as (j & Hj & E). apply Nat.eqb_eq in E. apply in_seq in Hj. lia.
Qed.
(** number of factors of the term with the index [i] *)
Definition nidx (L E : nat) (lf ef : list FT) (i : nat) : nat := length (filter (selq (seq 0 L) i) lf) + length (filter (selq (seq 0 E) i) ef).
Lemma indices_spec L E idxs : forall lf ll ef el,
  (if forallb (fun i => Nat.leb (nidx L E lf ef i) 2) idxs
   then exists l2 e2, Permutation l2 (filter (selm L idxs) lf) /\ Permutation e2 (filter (selm E idxs) ef) /\
     strip_indices L E idxs lf ll ef el = Some (filter (fun q => negb (selm L idxs q)) lf, ll ++ l2, filter (fun q => negb (selm E idxs q)) ef, el ++ e2)
   else strip_indices L E idxs lf ll ef el = None).
Proof.
  induction idxs as [|i idxs IH]; intros lf ll ef el.
  - cbn [forallb strip_indices]. exists [], []. rewrite !app_nil_r.
    assert (E1 : forall N t, filter (selm N []) t = []) by (intros N t; induction t as [|q t IHt]; [reflexivity|]; cbn [filter]; unfold selm at 1; cbn [existsb]; rewrite andb_false_r; exact IHt).
    assert (E2 : forall N t, filter (fun q => negb (selm N [] q)) t = t) by (intros N t; induction t as [|q t IHt]; [reflexivity|]; cbn [filter]; unfold selm at 1; cbn [existsb]; rewrite andb_false_r; cbn [negb]; f_equal; exact IHt).
    rewrite !E1, !E2. repeat split; reflexivity.
  - cbn [forallb strip_indices].
    assert (H0 : 0 <= 2) by lia. pose proof (momenta_spec i (seq 0 L) lf ll 0 (seq_NoDup _ _) H0) as ML. cbn [Nat.add] in ML.
    set (cl := length (filter (selq (seq 0 L) i) lf)) in *.
    assert (En : nidx L E lf ef i = cl + length (filter (selq (seq 0 E) i) ef)) by reflexivity. rewrite En.
    destruct (Nat.leb_spec cl 2) as [Hl|Hl].
    2:{ rewrite ML. destruct (Nat.leb_spec (cl + length (filter (selq (seq 0 E) i) ef)) 2); [lia|reflexivity]. }
    destruct ML as (l2 & Pl & ->).
    pose proof (momenta_spec i (seq 0 E) ef el cl (seq_NoDup _ _) Hl) as ME.
    destruct (Nat.leb_spec (cl + length (filter (selq (seq 0 E) i) ef)) 2) as [Hle|Hle]; [|rewrite ME; reflexivity].
    destruct ME as (e2 & Pe & ->). cbn [andb].
    set (lf' := filter (fun q => negb (selq (seq 0 L) i q)) lf). set (ef' := filter (fun q => negb (selq (seq 0 E) i q)) ef).
    assert (X1 : forall N t, Permutation (filter (selm N (i :: idxs)) t) (filter (selq (seq 0 N) i) t ++ filter (selm N idxs) (filter (fun q => negb (selq (seq 0 N) i q)) t))).
    { intros N t. rewrite filter_filter. apply filter_split.
      - intros [u v]. rewrite selq_seq. unfold selm. cbn [fst snd existsb]. destruct (Nat.ltb u N), (Nat.eqb v i), (existsb (Nat.eqb v) idxs); reflexivity.
      - intros q Hq. rewrite Hq. reflexivity. }
    assert (X2 : forall N t, filter (fun q => negb (selm N idxs q)) (filter (fun q => negb (selq (seq 0 N) i q)) t) = filter (fun q => negb (selm N (i :: idxs) q)) t).
    { intros N t. rewrite filter_filter. apply filter_ext. intros [u v]. rewrite selq_seq. unfold selm. cbn [fst snd existsb]. destruct (Nat.ltb u N), (Nat.eqb v i), (existsb (Nat.eqb v) idxs); reflexivity. }
    assert (X3 : forall j N t, length (filter (selq (seq 0 N) j) (filter (fun q => negb (selq (seq 0 N) i q)) t)) = if Nat.eqb i j then 0 else length (filter (selq (seq 0 N) j) t)).
    { intros j N t. rewrite filter_filter. destruct (Nat.eqb_spec i j) as [->|Hij].
      - rewrite (filter_ext _ (fun _ => false)) by (intros q; destruct (selq (seq 0 N) j q); reflexivity). clear. induction t; [reflexivity|assumption].
      - f_equal. apply filter_ext. intros [u v]. rewrite !selq_seq. cbn [fst snd]. destruct (Nat.ltb u N), (Nat.eqb_spec v i), (Nat.eqb_spec v j); try reflexivity. exfalso. lia. }
    assert (XF : forall js, forallb (fun j => Nat.leb (nidx L E lf' ef' j) 2) js = forallb (fun j => Nat.leb (nidx L E lf ef j) 2) js).
    { induction js as [|j r IHr]; [reflexivity|]. cbn [forallb]. rewrite IHr. f_equal. unfold nidx, lf', ef'. rewrite !X3.
      destruct (Nat.eqb_spec i j) as [<-|_]; [|reflexivity]. symmetry. apply Nat.leb_le. exact Hle. }
    specialize (IH lf' (ll ++ l2) ef' (el ++ e2)). rewrite XF in IH. destruct (forallb _ idxs); [|exact IH].
    destruct IH as (l3 & e3 & P3 & P4 & E3). exists (l2 ++ l3), (e2 ++ e3). split; [rewrite X1, Pl, P3; reflexivity|]. split; [rewrite X1, Pe, P4; reflexivity|].
    rewrite E3. unfold lf', ef'. rewrite !X2, !app_assoc. reflexivity.
Qed.
