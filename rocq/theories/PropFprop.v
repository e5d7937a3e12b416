(** C75: the Symanzik polynomials computed from a list of propagators. *)
From mathcomp Require Import all_ssreflect all_algebra.
From Verif Require Import PolyModel DetModel DetProofs FpropModel FpropSpec FpropProofs FpropSquare FpropQuad FpropMain FpropMore.
Import GRing.Theory.
Set Implicit Arguments. Unset Strict Implicit. Unset Printing Implicit Defensive.
Local Open Scope ring_scope.

(** misc.adjugate: for a square matrix with at least one row, M adj(M) = adj(M) M = det(M) 1; otherwise an error *)
Theorem C75_adjugate (K : fieldType) (A : list (list K)) :
  match adjugate A with
  | Some B => exists n, [/\ List.length A = n.+1, List.Forall (fun r => List.length r = n.+1) A,
       mx_of n.+1 A *m mx_of n.+1 B = (\det (mx_of n.+1 A))%:M & mx_of n.+1 B *m mx_of n.+1 A = (\det (mx_of n.+1 A))%:M]
  | None => A = [::] \/ exists r, List.In r A /\ List.length r <> List.length A
  end.
Proof.
have Hd := det_is_det A. rewrite /adjugate. move: Hd. rewrite /det. case: (_ && _) => //.
move=> [n [H1 [H2 _]]]. exists n. have E : mx_of n.+1 (adjugate_rec (length A) A) = \adj (mx_of n.+1 A).
  apply/matrixP => i j. by rewrite mxE H1 adj_entry.
by rewrite E mul_mx_adj mul_adj_mx; split.
Qed.

Lemma big1_In (K : fieldType) (T : Type) (f : T -> K) (l : list T) : (forall t, List.In t l -> f t = 0) -> \sum_(t <- l) f t = 0.
Proof.
elim: l => [|t l IH] H; rewrite ?big_nil // big_cons H ?add0r; last by left. apply: IH => u Hu. apply: H. by right.
Qed.
Section Thms.
Variables (K : fieldType) (D : nat) (g : nat -> K) (n E : nat).
Notation L := n.+1.
Hypothesis two : 2%:R != 0 :> K.
Lemma vectorE (p : list (vector K)) e m : qvec p e m = ext_vector p e m.
Proof. rewrite /qvec /ext_vector lsumE. apply: eq_bigr => t _. congr (_ * _). by case: (factors _ _) => [|u [|v l]]. Qed.

(** completing the square: with l = U k - adj(M) Q,
    U^2 sum_i x_i D_i(k, p) = sum_ab M_ab l_a.l_b - U F for all loop momenta *)
Theorem C75_complete_square (props : list (expr K)) (x : list K) (k p : list (vector K)) :
  wf L E props -> List.length k = L -> List.length p = E ->
  U L props x ^+ 2 * weighted D g props x k p
  = \sum_(a < L) \sum_(b < L) M_entry props x a b * dot D g (shifted L props x k p a) (shifted L props x k p b)
    - U L props x * ext_value D g p (F L props x).
Proof.
move=> Hwf Hk Hp. rewrite (square D g Hwf two x Hk Hp). congr (_ - _).
rewrite /form. apply: eq_bigr => a _. apply: eq_bigr => b _. rewrite mxE. congr (_ * _).
apply: eq_bigr => m _. congr (_ * _ * _); rewrite /lv /shifted; congr (_ - _); apply: eq_bigr => c _; congr (_ * _); exact: vectorE.
Qed.

(** degrees of the polynomials *)
Definition scale_term (c : K) (t : mterm K) : mterm K := {| mc := c * mc t; mk := mk t; mp := mp t |}.
Lemma psum_scale props (x : list K) c : propagator_sum props (List.map (fun a => c * a) x) = List.map (scale_term c) (propagator_sum props x).
Proof.
rewrite /propagator_sum. elim: props x => [|e props IH] [|a x] //=. rewrite List.map_app IH. congr (_ ++ _)%list.
rewrite List.map_map. apply: List.map_ext => t. by rewrite /scale_term /= mulrCA.
Qed.
Lemma M_scale props (x : list K) c i j : M_entry props (List.map (fun a => c * a) x) i j = c * M_entry props x i j.
Proof.
rewrite !M_entryE psum_scale lmap mulr_sumr. apply: eq_bigr => t _. rewrite /mcon /kexp /=.
case: ifP => _; case: ifP => _; by rewrite ?mulr0 ?mulrA.
Qed.
Lemma filter_scale (f : mterm K -> bool) c l : (forall t, f (scale_term c t) = f t) -> List.filter f (List.map (scale_term c) l) = List.map (scale_term c) (List.filter f l).
Proof. move=> H. elim: l => [|t l IH] //=. rewrite H IH. by case: (f t). Qed.
Lemma qv_scale props (x : list K) c (p : list (vector K)) i m : qv props p (List.map (fun a => c * a) x) i m = c * qv props p x i m.
Proof.
rewrite /qv /qvec /Q psum_scale filter_scale // !lmap mulr_sumr. apply: eq_bigr => t _ /=. by rewrite !mulrA.
Qed.
Lemma J_scale props (x : list K) c (p : list (vector K)) : ext_value D g p (J props (List.map (fun a => c * a) x)) = c * ext_value D g p (J props x).
Proof.
rewrite /ext_value /J psum_scale filter_scale // !lsumE !lmap mulr_sumr. apply: eq_bigr => t _ /=. by rewrite mulrA.
Qed.
Theorem C75_homogeneous (props : list (expr K)) (x : list K) (c : K) (p : list (vector K)) :
  wf L E props -> List.length p = E ->
  U L props (List.map (fun a => c * a) x) = c ^+ L * U L props x /\
  ext_value D g p (F L props (List.map (fun a => c * a) x)) = c ^+ L.+1 * ext_value D g p (F L props x).
Proof.
move=> Hwf Hp. have HM : Mx n props (List.map (fun a => c * a) x) = c *: Mx n props x.
  apply/matrixP => i j. by rewrite !mxE M_scale.
have HU : U L props (List.map (fun a => c * a) x) = c ^+ L * U L props x by rewrite !UE HM detZ.
split=> //. rewrite !(ext_F D g Hwf _ Hp) HU HM adjZ J_scale mulrBr. congr (_ - _).
- rewrite /form mulr_sumr. apply: eq_bigr => a _. rewrite mulr_sumr. apply: eq_bigr => b _.
  rewrite mxE /dot !mulr_sumr. apply: eq_bigr => m _. rewrite !qv_scale /= 2!exprS. set A := \adj _ _ _.
  exact: arith6.
- rewrite [c ^+ L.+1]exprSr. exact: mulrACA.
Qed.

(** the result does not depend on the choice of the loop momenta: if the second list of propagators is the first one with
    k replaced by R k + s (s a vector for each loop momentum, for example a combination of the external momenta), U and F are multiplied by det(R)^2 *)
Lemma weightedW (props : list (expr K)) (x : list K) (k p : list (vector K)) : wf L E props -> List.length k = L -> List.length p = E ->
  weighted D g props x k p = W D g (Mx n props x) (comp L (qv props p x)) (ext_value D g p (J props x)) (comp L (momentum k)).
Proof.
move=> Hwf Hk Hp. rewrite (weighted_quadratic D g two x Hwf Hk Hp) /W. congr (_ + _).
have -> : \sum_(a < L) \sum_(b < L) M_entry props x a b * dot D g (vnth a k) (vnth b k) = form D g (Mx n props x) (momentum k) (momentum k).
  apply: eq_bigr => a _. apply: eq_bigr => b _. by rewrite mxE.
rewrite (dotE D g n (momentum k) (qv props p x)) formE mulr_sumr -sumrB. apply: eq_bigr => m _.
by rewrite mulrBr (mulrCA 2%:R).
Qed.
Lemma weighted_reroute (props props' : list (expr K)) (x : list K) (k k' p : list (vector K)) :
  List.Forall2 (fun e' e => value D g k p e' = value D g k' p e) props' props -> weighted D g props' x k p = weighted D g props x k' p.
Proof.
move=> H. rewrite /weighted. elim: H x => [|e' e r' r He Hr IH] [|a x] //=. by rewrite He IH.
Qed.
Theorem C75_routing (props props' : list (expr K)) (x : list K) (p s : list (vector K)) (R : nat -> nat -> K) :
  wf L E props -> wf L E props' -> List.length p = E -> (0 < D)%nat -> (forall m : 'I_D, g m != 0) ->
  (forall k, List.length k = L -> List.Forall2 (fun e' e => value D g k p e' = value D g (reroute L R s k) p e) props' props) ->
  U L props' x = routing_det L R ^+ 2 * U L props x /\
  ext_value D g p (F L props' x) = routing_det L R ^+ 2 * ext_value D g p (F L props x).
Proof.
move=> Hwf Hwf' Hp HD Hg Hv. set Rm : 'M[K]_L := \matrix_(i, j) R i j.
have HW (kc : nat -> 'cV[K]_L) : W D g (Mx n props' x) (comp L (qv props' p x)) (ext_value D g p (J props' x)) kc
   = W D g (Mx n props x) (comp L (qv props p x)) (ext_value D g p (J props x)) (fun m => Rm *m kc m + comp L (momentum s) m).
  set k := List.map (fun (a m : nat) => kc m (inord a) 0) (List.seq 0 L).
  have Hk : List.length k = L by rewrite List.map_length List.seq_length.
  have Hkc m : comp L (momentum k) m = kc m.
    apply/matrixP => i j. by rewrite mxE /momentum /k nth_map_seq // inord_val ord1.
  have Hrl : List.length (reroute L R s k) = L by rewrite List.map_length List.seq_length.
  have Hr m : comp L (momentum (reroute L R s k)) m = Rm *m kc m + comp L (momentum s) m.
    apply/matrixP => i j. rewrite mxE /momentum /reroute nth_map_seq // !mxE. congr (_ + _).
    apply: eq_bigr => b _. rewrite !mxE -[in RHS](Hkc m) mxE. by [].
  have := weighted_reroute x (Hv k Hk). rewrite (weightedW x Hwf' Hk Hp) (weightedW x Hwf Hrl Hp) /W.
  under eq_bigr => m _ do rewrite Hkc. move=> ->. congr (_ + _). apply: eq_bigr => m _. by rewrite Hr.
case: (route_core two Hg (MxT n props x) (MxT n props' x) HW) => HMq Hj.
have HM : Mx n props' x = Rm^T *m Mx n props x *m Rm := (proj1 (HMq (Ordinal HD))).
split; first by rewrite !UE HM !det_mulmx det_tr expr2 mulrAC.
rewrite (ext_F D g Hwf' x Hp) (ext_F D g Hwf x Hp) !formE !UE HM.
exact: (F_core (MxT n props x) (fun m => proj2 (HMq m)) Hj).
Qed.

(** a propagator that is linear in the loop momenta does not contribute to U (lines 178-183 adjust the power of U for this case) *)
Theorem C75_linear_propagator (pre post : list (expr K)) (e : expr K) (x x' : list K) :
  wf L E (pre ++ e :: post) -> linear_propagator e ->
  (forall i, i <> List.length pre -> List.nth i x 0 = List.nth i x' 0) ->
  List.length x = List.length x' -> U L (pre ++ e :: post) x = U L (pre ++ e :: post) x'.
Proof.
move=> Hwf Hl Hx Hlen. rewrite !UE. congr (\det _). apply/matrixP => i j. rewrite !mxE !M_entryE.
have He : forall t c, List.In t e -> mcon i j {| mc := c; mk := mk t; mp := mp t |} = 0 :> K.
  move=> t c Ht. move/List.Forall_forall: Hl => /(_ _ Ht) /leP Hd. rewrite /mcon /kexp /=.
  have Hlt : List.length (mk t) = L.
    move/List.Forall_app: Hwf => [_ /(@List.Forall_inv _ _ _ _) /List.Forall_forall /(_ _ Ht) [H _]]. by [].
  have Hd' : (forall a, List.nth a (mk t) 0 <= total (mk t))%nat.
    clear. elim: (mk t) => [|b r IH] [|a] //=. rewrite /total /= plusE'. exact: leq_addr. rewrite /total /= plusE'.
    exact: leq_trans (IH a) (leq_addl _ _).
  case: eqP => Hij.
  - case: eqP => // H2. move: (Hd' i). rewrite H2 => H3. by move: (leq_trans H3 Hd).
  - case: eqP => //= H1; case: eqP => //= H2. exfalso.
    case Ht1: (total (mk t)) Hd => [|[|m]] // _.
    + by move: (Hd' i); rewrite Ht1 H1.
    + case: (deg1 K Ht1) => a [_ Hn _]. move: H1 H2. rewrite !Hn. case: eqP => // Hia _. case: eqP => // Hja _. by apply: Hij; rewrite Hia Hja.
clear Hwf Hl. rewrite /propagator_sum.
elim: pre x x' Hx Hlen => [|a pre IH] [|c x] [|c' x'] //= Hx [Hlen].
- rewrite !lapp !lmap. congr (_ + _).
  + transitivity (0 : K); [|symmetry]; apply: (@big1_In K) => t Ht; exact: He.
  + have -> : x = x'; last by [].
    apply: (@List.nth_ext _ _ _ 0 0) => // m _. exact: (Hx m.+1).
- rewrite !lapp. have -> : c = c' by exact: (Hx 0%nat). congr (_ + _). apply: IH => // m Hm. apply: (Hx m.+1) => [[H]]. exact: Hm.
Qed.
End Thms.

(** the one-loop bubble with masses: propagators k^2 - m1, (k + p)^2 - m2 *)
Section Bubble.
Variables (K : fieldType) (m1 m2 x1 x2 : K).
Hypothesis two : 2%:R != 0 :> K.
Definition tm (c : K) (a b : nat) : mterm K := {| mc := c; mk := [:: a]; mp := [:: b] |}.
Definition bubble (c : K) : list (expr K) := [:: [:: tm 1 2 0; tm (- m1) 0 0]; [:: tm 1 2 0; tm (2%:R * c) 1 1; tm 1 0 2; tm (- m2) 0 0]].
Lemma bubble_wf c : wf 1 1 (bubble c).
Proof. rewrite /wf /bubble. repeat (apply List.Forall_cons || apply List.Forall_nil); (split; [by []|split; [by []|by (left + right)]]). Qed.
Example C75_bubble_U : U 1 (bubble 1) [:: x1; x2] = x1 + x2.
Proof. rewrite /U /kdet_rec /M /entry /M_entry /M_upper /ksum /= !mul1r. by rewrite addr0. Qed.
Example C75_bubble_F (D : nat) (g : nat -> K) (p : vector K) :
  ext_value D g [:: p] (F 1 (bubble 1) [:: x1; x2]) = - (x1 * x2) * dot D g p p + (x1 + x2) * (m1 * x1 + m2 * x2).
Proof.
have HU : U 1 (bubble 1) [:: x1; x2] = x1 + x2 by rewrite /U /kdet_rec /M /entry /M_entry /M_upper /ksum /= !mul1r addr0.
rewrite /F HU /aM /adjugate_rec /entry /= !mul1r !mulr1 !addr0. set d := dot _ _ _ _.
have -> : 2%:R * x2 / - 2%:R = - x2 by rewrite invrN mulrN mulrAC mulfV // mul1r.
exact: arith7.
Qed.
(** the same diagram with the loop momentum reversed meets the hypotheses of C75_routing *)
Example C75_routing_example (D : nat) (g : nat -> K) (p k : vector K) :
  List.Forall2 (fun e' e => value D g [:: k] [:: p] e' = value D g (reroute 1 (fun _ _ => -1) [:: fun _ => 0] [:: k]) [:: p] e) (bubble (-1)) (bubble 1).
Proof.
have Hk : dot D g (fun mu => \sum_(b < 1) -1 * momentum [:: k] b mu + momentum [:: (fun _ : nat => 0)] 0 mu)
                (fun mu => \sum_(b < 1) -1 * momentum [:: k] b mu + momentum [:: (fun _ : nat => 0)] 0 mu) = dot D g k k.
  apply: eq_bigr => m _. by rewrite big_ord1 /momentum /= addr0 mulN1r !mulrN !mulNr opprK.
have Hkp : dot D g (fun mu => \sum_(b < 1) -1 * momentum [:: k] b mu + momentum [:: (fun _ : nat => 0)] 0 mu) p = - dot D g k p.
  rewrite -sumrN. apply: eq_bigr => m _. by rewrite big_ord1 /momentum /= addr0 mulN1r mulrN mulNr.
constructor; [|constructor; [|constructor]]; rewrite /value /term_value /= Hk // Hkp. congr (_ + (_ + _)).
by rewrite mulrN1 mulr1 mulrN mulNr.
Qed.
End Bubble.
