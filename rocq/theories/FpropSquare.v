From mathcomp Require Import all_ssreflect all_algebra.
From Verif Require Import PolyModel DetModel DetProofs FpropModel FpropSpec FpropProofs.
Import GRing.Theory.
Set Implicit Arguments. Unset Strict Implicit. Unset Printing Implicit Defensive.
Local Open Scope ring_scope.

Section Sq.
Variables (K : fieldType) (D : nat) (g : nat -> K) (L E : nat).
Hypothesis two : 2%:R != 0 :> K.
Notation vec := (nat -> K).
Notation dot := (dot D g).
Variables (props : list (expr K)) (x : list K).
Hypothesis Hwf : wf L E props.
Definition mcon (i j : nat) (t : mterm K) : K := if i == j then (if kexp i t == 2%nat then mc t else 0)
  else (if (kexp i t == 1%nat) && (kexp j t == 1%nat) then mc t / 2%:R else 0).
Lemma mconC i j t : mcon i j t = mcon j i t.
Proof. rewrite /mcon eq_sym. case: eqP => [->//|_]. by rewrite andbC. Qed.
Lemma eqbE a b : Nat.eqb a b = (a == b).
Proof. elim: a b => [|a IH] [|b] //=. Qed.
Lemma M_entryE i j : M_entry props x i j = \sum_(t <- propagator_sum props x) mcon i j t.
Proof.
have H : forall a b, M_upper props x a b = \sum_(t <- propagator_sum props x) mcon a b t.
  move=> a b. rewrite /M_upper fold_ksum lmap lfilter /has_product /mcon eqbE.
  case: (a == b); first by apply: eq_bigr => t _; rewrite eqbE.
  rewrite mulr_suml. apply: eq_bigr => t _; rewrite !eqbE. case: ifP => // _. by rewrite mul0r.
rewrite /M_entry !H. case: ifP => // _. apply: eq_bigr => t _. exact: mconC.
Qed.
Lemma M_sym i j : M_entry props x i j = M_entry props x j i.
Proof. rewrite !M_entryE. apply: eq_bigr => t _; exact: mconC. Qed.
Lemma wf_sum : List.Forall (wf_term L E) (propagator_sum props x).
Proof.
apply/List.Forall_forall => t. rewrite /propagator_sum => /List.in_flat_map [[e c] [H1 H2]].
move/List.in_map_iff: H2 => [s [<- Hs]]. have He := List.in_combine_l _ _ _ _ H1.
move/List.Forall_forall: Hwf => /(_ _ He) /List.Forall_forall /(_ _ Hs). by [].
Qed.
Lemma weightedE k p : weighted D g props x k p = \sum_(t <- propagator_sum props x) term_value D g k p t.
Proof.
rewrite /weighted /propagator_sum lsumE lflat. apply: eq_bigr => q _. rewrite /value lsumE lmap mulr_sumr.
apply: eq_bigr => t _. by rewrite /term_value /= mulrA [in RHS](mulrC (mc t)).
Qed.
Definition single (l : list vec) : vec := match l with List.cons u List.nil => u | _ => fun _ => 0 end.
Definition qvec (p : list vec) (e : list (K * list nat)) : vec := fun mu => \sum_(t <- e) t.1 * single (factors t.2 p) mu.
Lemma dot0 u : dot (fun _ => 0) u = 0.
Proof. rewrite /FpropSpec.dot big1 // => m _. by rewrite mulr0 mul0r. Qed.
Lemma dot0r u : dot u (fun _ => 0) = 0.
Proof. by rewrite dotC dot0. Qed.
Variables (k p : list vec).
Hypothesis (Hk : List.length k = L) (Hp : List.length p = E).
Notation kv := (fun a => vnth a k).
Lemma two_sum : 1 / 2%:R + 1 / 2%:R = 1 :> K.
Proof. by rewrite -mulrDl -[1 + 1]/(2%:R) divff. Qed.
Lemma sum_one (n : nat) (f : nat -> K) (a : nat) : (a < n)%nat -> (forall i, i != a -> f i = 0) -> \sum_(i < n) f i = f a.
Proof. move=> H Hf. rewrite (bigD1 (Ordinal H)) //= big1 ?addr0 // => i Hi. apply: Hf. by move: Hi; rewrite -val_eqE. Qed.
Lemma forallb_nth e : (List.forallb (Nat.eqb 0) e) = false <-> exists i, List.nth i e 0%nat <> 0%nat.
Proof.
elim: e => [|a e IH] /=; first by split=> // [[[|i]]].
case: a => [|a] /=.
- rewrite IH. split=> [[i Hi]|[[|i] Hi] //]; [by exists i.+1|by exists i].
- split=> // _. by exists 0%nat.
Qed.
Lemma upd_nth (T : Type) (d v : T) (l : list T) i j : (i < List.length l)%nat -> List.nth j (upd i v l) d = if j == i then v else List.nth j l d.
Proof. elim: l i j => [|a l IH] [|i] [|j] //= H. by rewrite IH. Qed.
Lemma upd_total e i : (i < List.length e)%nat -> (List.nth i e 0%nat + total (upd i 0%nat e))%nat = total e.
Proof. rewrite /total. elim: e i => [|a e IH] [|i] //= H. by rewrite !plusE' addnCA IH. Qed.
Lemma forallb_total e : List.forallb (Nat.eqb 0) e = (total e == 0%nat).
Proof. rewrite /total. elim: e => [|a e IH] //=. rewrite IH. by case: a. Qed.
(** one term *)
Definition term_parts (t : mterm K) : K :=
  \sum_(a < L) \sum_(b < L) mcon a b t * dot (kv a) (kv b)
  + \sum_(a < L) (if linear_in a t then mc t * dot (kv a) (single (factors (mp t) p)) else 0)
  + (if no_loop t then mc t * contract D g (factors (mp t) p) else 0).
Lemma term_split t : wf_term L E t -> term_value D g k p t = term_parts t.
Proof.
case=> [HL [HE Hdeg]]. rewrite /term_value /term_parts /no_loop forallb_total.
have Hlin : forall a : 'I_L, linear_in a t = (List.nth a (mk t) 0%nat == 1%nat) && (total (mk t) == 1%nat).
  move=> a. rewrite /linear_in /no_loop /= forallb_total eqbE /kexp. case E1: (_ == 1%nat) => //=.
  have Ha : (a < List.length (mk t))%nat by rewrite HL; exact: ltn_ord.
  rewrite -(upd_total Ha) (eqP E1). by case: (total _).
under [X in _ + X + _]eq_bigr => a _ do rewrite Hlin.
have [Hc|Hc|Hc] : [\/ total (mk t) = 0, total (mk t) = 1 | total (mk t) = 2]%nat.
- move: Hdeg. rewrite !plusE'. case: (total (mk t)) => [|[|[|m]]] //=; try by [constructor 1|constructor 2|constructor 3].
  by case.
- case: (deg0 K Hc) => H1 [H2 _]. rewrite H2 Hc /= [X in X + _ + _]big1 ?add0r; last first.
    move=> a _. rewrite big1 // => b _. rewrite /mcon /kexp !H1 /=. by case: ifP; rewrite mul0r.
  by rewrite big1 ?add0r // => a _; rewrite andbF.
- case: (deg1 K Hc) => a [Ha H1 H2]. rewrite H2 ?Hc ?Hk // /= addr0.
  have Hp1 : total (mp t) = 1%nat by move: Hdeg; rewrite !plusE' Hc; case=> //; rewrite add1n; case.
  case: (deg1 K Hp1) => c [Hc' H3 H4]. rewrite H4 ?HE //=.
  rewrite HL in Ha. rewrite [X in X + _]big1 ?add0r; last first.
    move=> a' _. rewrite big1 // => b _. rewrite /mcon /kexp !H1. case: eqP => [_|Hab]; first by case: (_ == a); rewrite mul0r.
    have : ~~ ((a' == a :> nat) && (b == a :> nat)). apply/negP => /andP [/eqP X1 /eqP X2]. by apply: Hab; rewrite X1 X2.
    case: (_ == a); case: (_ == a); by rewrite ?mul0r.
  rewrite (@sum_one L (fun i => if (List.nth i (mk t) 0%nat == 1%nat) && true then mc t * dot (vnth i k) (vnth c p) else 0) a) //.
  + by rewrite H1 eqxx.
  + move=> i Hi. by rewrite H1 (negbTE Hi).
- case: (deg2 K Hc) => a [b [Hab Hb H1 H2]]. rewrite H2 ?Hc ?Hk // /= addr0.
  have Hp0 : total (mp t) = 0%nat by move: Hdeg; rewrite !plusE' Hc; case=> //; rewrite add2n; case.
  case: (deg0 K Hp0) => H3 [H4 _]. rewrite H4 /= [X in _ = _ + X]big1 ?addr0; last by move=> i _; rewrite andbF.
  rewrite HL in Hb. have Ha := leq_ltn_trans Hab Hb.
  case Eab: (a == b).
  + move/eqP: Eab => Eab. subst b.
    rewrite (@sum_one L (fun i => \sum_(j < L) mcon i j t * dot (vnth i k) (vnth j k)) a) //; last first.
      move=> i Hi. rewrite big1 // => j _. rewrite /mcon /kexp !H1 (negbTE Hi) /=. by case: ifP; rewrite mul0r.
    rewrite (@sum_one L (fun j => mcon a j t * dot (vnth a k) (vnth j k)) a) //.
      by rewrite /mcon /kexp eqxx H1 eqxx.
    move=> j Hj. by rewrite /mcon /kexp eq_sym (negbTE Hj) !H1 eqxx mul0r.
  + have Hba : (b == a) = false by rewrite eq_sym.
    rewrite (bigD1 (Ordinal Ha)) //= [X in _ + X](bigD1 (Ordinal Hb)) /=; last by rewrite -?val_eqE /= Hba.
    rewrite [X in _ + (_ + X)]big1 ?addr0; last first.
      move=> i /andP [/negbTE Hi /negbTE Hj]. rewrite -?val_eqE /= in Hi. rewrite -?val_eqE /= in Hj.
      rewrite big1 // => j _. rewrite /mcon /kexp !H1 Hi Hj /=. by case: ifP; rewrite mul0r.
    rewrite (@sum_one L (fun j => mcon a j t * dot (vnth a k) (vnth j k)) b) //; last first.
      move=> j Hj. rewrite /mcon /kexp !H1 eqxx Eab (negbTE Hj) /= addn0.
      case: eqP => [_|/eqP Hja]; first by rewrite mul0r. by rewrite (eq_sym j) (negbTE Hja) mul0r.
    rewrite (@sum_one L (fun j => mcon b j t * dot (vnth b k) (vnth j k)) a) //; last first.
      move=> j Hj. rewrite /mcon /kexp !H1 eqxx Hba (negbTE Hj) /= add0n.
      case: eqP => [_|/eqP Hja]; first by rewrite mul0r. by rewrite (eq_sym j) (negbTE Hja) mul0r.
    rewrite /mcon /kexp Eab Hba !H1 !eqxx Eab Hba /= (dotC _ _ (vnth b k)) -mulrDl -mulrDr.
    by rewrite -[2%:R^-1]div1r two_sum mulr1.
Qed.
Lemma dot_sumr T (l : list T) (c : T -> K) (v : T -> vec) u : dot u (fun m => \sum_(t <- l) c t * v t m) = \sum_(t <- l) c t * dot u (v t).
Proof.
rewrite /FpropSpec.dot. under eq_bigr => m _ do rewrite mulr_sumr. rewrite exchange_big. apply: eq_bigr => t _.
rewrite mulr_sumr. apply: eq_bigr => m _. by rewrite mulrCA.
Qed.
Theorem weighted_quadratic : weighted D g props x k p =
  \sum_(a < L) \sum_(b < L) M_entry props x a b * dot (kv a) (kv b)
  - 2%:R * (\sum_(a < L) dot (kv a) (qvec p (Q props x a))) + ext_value D g p (J props x).
Proof.
rewrite weightedE (lext wf_sum term_split) /term_parts !big_split /=. congr (_ + _ + _).
- rewrite exchange_big. apply: eq_bigr => a _. rewrite exchange_big. apply: eq_bigr => b _. by rewrite M_entryE mulr_suml.
- rewrite exchange_big mulr_sumr -sumrN. apply: eq_bigr => a _. rewrite /qvec /Q.
  rewrite dot_sumr lmap lfilter mulr_sumr -sumrN. apply: eq_bigr => t _. case: ifP => _; last by rewrite mulr0 oppr0.
  by rewrite /= invrN mulrN mulNr mulrN opprK -mulrA mulrCA mulVKf.
- rewrite /ext_value lsumE /J lmap lfilter. by [].
Qed.
End Sq.
