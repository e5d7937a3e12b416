(** Several variables: the loops of integrate_pole_part and integrate_by_parts. *)
From Coq Require Import FunctionalExtensionality.
From Coquelicot Require Import Coquelicot.
From Verif Require Import SortProofs ExprSpec ExprSmooth ExprMixed ExprArith ExprOrd ExprSimp PropExpr CalmSpec CalmProofs ContSpec ContProofs ContJ SubModel SubSpec SubInt SubReg SubProofs.
Local Open Scope R_scope.

Section Multi.
Variables (nv : nat) (rho : point) (S : list nat).
Notation shape := (shape nv rho S).
Notation defined := (defined rho S).
Variables (fuel A : Type) (Ev : (fuel -> Prop) -> Prop) (idx : A -> nat) (f : fuel -> A -> pprod -> outcome) (St : A -> ((list Z -> R) -> Prop) -> (nat -> Prop) -> (R -> Prop) -> Prop).
Hypothesis Ev_and : forall P Q, Ev P -> Ev Q -> Ev (fun n => P n /\ Q n).
Hypothesis Ev_imp : forall P Q : fuel -> Prop, (forall n, P n -> Q n) -> Ev P -> Ev Q.
Hypothesis Ev_now : forall P : fuel -> Prop, (forall n, P n) -> Ev P.
Hypothesis step : forall a pp, In (idx a) S -> shape pp -> exists o, Ev (fun n => f n a pp = o) /\ step_ok nv rho S pp (idx a) (St a) o.
Definition settled (a : A) (t : pprod) : Prop := exists C Q Z, St a C Q Z /\ keeps rho S C Q Z (idx a) t.
Definition total (l : list pprod) : R := sumR (map (fun t => value S t rho) l).
Lemma total_app l l' : total (l ++ l') = total l + total l'. Proof. unfold total. rewrite map_app. apply sumR_app. Qed.
Definition from (a : A) (l : list pprod) (t' : pprod) : Prop :=
  shape t' /\ exists t, In t l /\ same_coef (idx a) t' t /\ (defined t -> defined t' /\ keeper rho S (idx a) t t' /\ settled a t').
Lemma from_sub a l l' t : incl l l' -> from a l t -> from a l' t.
Proof. intros H (H1 & u & H2 & H3). split; [exact H1|]. exists u. split; [apply H, H2|exact H3]. Qed.
Lemma for_all_ok a l : In (idx a) S -> Forall shape l -> exists o, Ev (fun n => for_all (f n a) l = o) /\ match o with
  | Ok l' => Forall (fun t => ~ no_regulator nv (mons t) (idx a)) l /\ (l <> [] -> l' <> []) /\ Forall (from a l) l' /\ (Forall defined l -> total l = total l')
  | ValueError => exists t, In t l /\ no_regulator nv (mons t) (idx a)
  | _ => False
  end.
Proof.
  intros Ha. induction 1 as [|pp l Hs H IH].
  { exists (Ok []). split; [apply Ev_now; reflexivity|]. split; [constructor|]. split; [congruence|]. split; [constructor|reflexivity]. }
  destruct (step a pp Ha Hs) as (o & EO & SO). destruct o as [| | |l1]; cbn [step_ok] in SO; try contradiction.
  { exists ValueError. split; [revert EO; apply Ev_imp; intros n E; cbn [for_all]; rewrite E; reflexivity|]. exists pp. split; [left; reflexivity|exact SO]. }
  destruct SO as (N1 & N2 & N3 & N4). destruct IH as (o & EO' & SO). destruct o as [| | |l2]; try contradiction.
  { exists ValueError. split; [generalize (Ev_and _ _ EO EO'); apply Ev_imp; intros n [E E']; cbn [for_all]; rewrite E, E'; reflexivity|]. destruct SO as (t & T1 & T2). exists t. split; [right; exact T1|exact T2]. }
  destruct SO as (M1 & M2 & M3 & M4). exists (Ok (l1 ++ l2)). split; [generalize (Ev_and _ _ EO EO'); apply Ev_imp; intros n [E E']; cbn [for_all]; rewrite E, E'; reflexivity|]. split; [constructor; assumption|]. split; [intros _; destruct l1; [congruence|discriminate]|]. split.
  - apply Forall_app. split; [|eapply Forall_impl; [|exact M3]; intros t; apply from_sub; intros u Hu; right; exact Hu]. rewrite Forall_forall in N3. apply Forall_forall. intros t Ht. destruct (N3 t Ht) as [T1 T2]. split; [exact T1|]. exists pp. split; [left; reflexivity|]. split; [exact T2|]. intros D. destruct (N4 D) as [K _]. rewrite Forall_forall in K. destruct (K t Ht) as (K1 & K2 & K3). split; [exact K1|]. split; [exact K2|exact K3].
  - intros D. apply Forall_cons_iff in D as [D1 D2]. rewrite total_app, <- (M4 D2). unfold total at 1. cbn [map]. rewrite sumR_cons. destruct (N4 D1) as [_ ->]. reflexivity.
Qed.
Lemma over_ok ixs : NoDup (map idx ixs) -> (forall a, In a ixs -> In (idx a) S) -> forall m0 l, Forall shape l -> l <> [] ->
  (forall a t, In a ixs -> In t l -> power_coef (mons t) (idx a) = power_coef m0 (idx a)) ->
  exists o, Ev (fun n => over (f n) ixs l = o) /\ match o with
  | Ok l' => (forall a, In a ixs -> ~ no_regulator nv m0 (idx a)) /\ Forall shape l' /\ (Forall defined l -> Forall defined l' /\ total l = total l' /\ (forall a, In a ixs -> Forall (settled a) l') /\
      forall t', In t' l' -> exists t, In t l /\ forall C Q Z i, In i S -> ~ In i (map idx ixs) -> keeps rho S C Q Z i t -> keeps rho S C Q Z i t')
  | ValueError => exists a, In a ixs /\ no_regulator nv m0 (idx a)
  | _ => False
  end.
Proof.
  induction ixs as [|a ixs IH]; intros ND HI m0 l Hs NL HC.
  { exists (Ok l). split; [apply Ev_now; reflexivity|]. split; [intros a []|]. split; [exact Hs|]. intros D. split; [exact D|]. split; [reflexivity|]. split; [intros a []|]. intros t Ht. exists t. auto. }
  cbn [map] in ND. apply NoDup_cons_iff in ND as [NA ND]. destruct (for_all_ok a l (HI a (or_introl eq_refl)) Hs) as (o & EO & SO).
  assert (NRE : forall t, In t l -> (no_regulator nv (mons t) (idx a) <-> no_regulator nv m0 (idx a))) by (intros t Ht; unfold no_regulator, power_at_0; rewrite (HC a t (or_introl eq_refl) Ht); reflexivity).
  destruct o as [| | |l1]; try contradiction.
  { exists ValueError. split; [revert EO; apply Ev_imp; intros n E; cbn [over]; rewrite E; reflexivity|]. destruct SO as (t & T1 & T2). exists a. split; [left; reflexivity|apply (NRE t T1), T2]. }
  destruct SO as (M1 & M2 & M3 & M4). assert (S1 : Forall shape l1) by (eapply Forall_impl; [|exact M3]; intros t [T _]; exact T).
  assert (NR : ~ no_regulator nv m0 (idx a)). { destruct l as [|t l]; [congruence|]. apply Forall_cons_iff in M1 as [M1 _]. intros H. apply M1, (NRE t (or_introl eq_refl)), H. }
  destruct (IH ND (fun b Hb => HI b (or_intror Hb)) m0 l1 S1 (M2 NL)) as (o & EO' & SO').
  { intros b t' Hb Ht'. rewrite Forall_forall in M3. destruct (M3 t' Ht') as (_ & t & T1 & T2 & _). rewrite (T2 (idx b)); [apply HC; [right; exact Hb|exact T1]|]. intros E. apply NA. rewrite <- E. apply in_map, Hb. }
  exists o. split; [generalize (Ev_and _ _ EO EO'); apply Ev_imp; intros n [E E']; cbn [over]; rewrite E; exact E'|]. destruct o as [| | |l']; try contradiction; [destruct SO' as (b & B1 & B2); exists b; split; [right; exact B1|exact B2]|].
  destruct SO' as (K1 & K2 & K3). split; [intros b [<-|Hb]; [exact NR|apply K1, Hb]|]. split; [exact K2|]. intros D.
  assert (D1 : Forall defined l1). { rewrite Forall_forall in *. intros t' Ht'. destruct (M3 t' Ht') as (_ & t & T1 & _ & T3). apply (T3 (D t T1)). }
  destruct (K3 D1) as (L1 & L2 & L3 & L4). split; [exact L1|]. split; [rewrite (M4 D); exact L2|]. split.
  - intros b [<-|Hb]; [|apply L3, Hb]. apply Forall_forall. intros t' Ht'. rewrite Forall_forall in M3, D.
    destruct (L4 t' Ht') as (t & T1 & T2). destruct (M3 t T1) as (_ & u & U1 & _ & U2). destruct (U2 (D u U1)) as (_ & _ & C & Q & Z & H1 & H2). exists C, Q, Z. split; [exact H1|]. apply T2; [apply HI; left; reflexivity|exact NA|exact H2].
  - intros t' Ht'. destruct (L4 t' Ht') as (t1 & T1 & T2). rewrite Forall_forall in M3, D. destruct (M3 t1 T1) as (_ & t & T3 & _ & T4). exists t. split; [exact T3|]. intros C Q Z i Hi Ni H. apply T2; [exact Hi|intros K; apply Ni; right; exact K|]. destruct (T4 (D t T3)) as (_ & KP & _). apply KP; [exact Hi| |exact H]. intros ->. apply Ni. left. reflexivity.
Qed.
End Multi.
