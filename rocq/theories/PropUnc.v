(** Property C55: error propagation of UncorrelatedDeviation. *)
From Verif Require Import UncModel UncSpec.
Local Open Scope R_scope.

Lemma expect_ext f g (d : dist) : (forall x, f x = g x) -> expect f d = expect g d.
Proof. intros H. induction d as [|[p x] d IH]; cbn; [reflexivity|]. rewrite H, IH. reflexivity. Qed.
Lemma expect_lin a f b g (d : dist) : expect (fun x => a * f x + b * g x) d = a * expect f d + b * expect g d.
Proof. induction d as [|[p x] d IH]; cbn; [ring|]. rewrite IH. ring. Qed.
Lemma expect_scal a f (d : dist) : expect (fun x => a * f x) d = a * expect f d.
Proof. induction d as [|[p x] d IH]; cbn; [ring|]. rewrite IH. ring. Qed.
Lemma expect_add f g (d : dist) : expect (fun x => f x + g x) d = expect f d + expect g d.
Proof. induction d as [|[p x] d IH]; cbn; [ring|]. rewrite IH. ring. Qed.
Lemma expect_const c (d : dist) : expect (fun _ => c) d = c * expect (fun _ => 1) d.
Proof. induction d as [|[p x] d IH]; cbn; [ring|]. rewrite IH. ring. Qed.
Lemma expect_app f (d e : dist) : expect f (d ++ e) = expect f d + expect f e.
Proof. induction d as [|[p x] d IH]; cbn; [ring|]. rewrite IH. ring. Qed.
Lemma expect_image f g (d : dist) : expect f (image g d) = expect (fun x => f (g x)) d.
Proof. unfold image. induction d as [|[p x] d IH]; cbn; [reflexivity|]. rewrite IH. reflexivity. Qed.
Lemma expect_image2 f op (d e : dist) : expect f (image2 op d e) = expect (fun x => expect (fun y => f (op x y)) e) d.
Proof.
  unfold image2. induction d as [|[p x] d IH]; cbn; [reflexivity|]. rewrite expect_app. f_equal; [|exact IH].
  clear IH. induction e as [|[q y] e IH]; cbn; [ring|]. rewrite IH. cbn. ring.
Qed.
Lemma moment (d : dist) : is_dist d -> expect (fun x => x ^ 2) d = variance d + mean d ^ 2.
Proof.
  intros [_ H]. unfold variance. rewrite (expect_ext (fun x => (x - mean d) ^ 2) (fun x => 1 * x ^ 2 + 1 * ((- 2 * mean d) * x + mean d ^ 2 * 1))) by (intros; ring).
  rewrite expect_lin, expect_lin, H. fold (mean d). ring.
Qed.
Lemma variance_moment (d : dist) : is_dist d -> variance d = expect (fun x => x ^ 2) d - mean d ^ 2.
Proof. intros H. rewrite (moment d H). ring. Qed.
Lemma image_dist g (d : dist) : is_dist d -> is_dist (image g d).
Proof.
  intros [H1 H2]. split; [|rewrite expect_image; exact H2]. unfold image. apply Forall_forall. intros q Hq. apply in_map_iff in Hq as (s & <- & Hs). rewrite Forall_forall in H1. exact (H1 s Hs).
Qed.
Lemma image2_dist op (d e : dist) : is_dist d -> is_dist e -> is_dist (image2 op d e).
Proof.
  intros [H1 H2] [G1 G2]. split.
  - apply Forall_forall. intros q Hq. apply in_flat_map in Hq as (s & Hs & Hq). apply in_map_iff in Hq as (t & <- & Ht). rewrite Forall_forall in H1, G1. cbn. apply Rmult_le_pos; auto.
  - rewrite expect_image2, (expect_ext _ (fun _ => 1)) by (intros; exact G2). exact H2.
Qed.
Lemma sq_sqrt x : 0 <= x -> sqrt x ^ 2 = x. Proof. intros H. cbn. rewrite Rmult_1_r. apply sqrt_sqrt, H. Qed.
Lemma sqr x : x ^ 2 = x * x. Proof. ring. Qed.
Lemma sq_pos x : 0 <= x ^ 2. Proof. rewrite sqr. apply Rle_0_sqr. Qed.

(** * real numbers *)
(** what an object stands for *)
Notation stands a d := (describes (val a) (unc a) d).
Theorem C55_convert : forall x, stands (conv x) [(1, x)].
Proof. intros x. split; [split; [repeat constructor; cbn; lra|cbn; ring]|]. unfold variance, mean. cbn. repeat split; try ring; lra. Qed.
Theorem C55_negation : forall a d, stands a d -> stands (uneg a) (image Ropp d).
Proof.
  intros a d (D & M & P & V). split; [apply image_dist, D|]. assert (M' : mean (image Ropp d) = - mean d). { unfold mean. rewrite expect_image, (expect_ext _ (fun x => (-1) * x)) by (intros; ring). rewrite expect_scal. ring. }
  split; [rewrite M', M; reflexivity|]. split; [exact P|]. rewrite variance_moment by (apply image_dist, D). rewrite M', expect_image, (expect_ext _ (fun x => x ^ 2)) by (intros; ring). rewrite moment by exact D. cbn [uneg unc]. rewrite V. ring.
Qed.
Lemma affine_ok (s t : R) (d : dist) : is_dist d -> is_dist (image (fun x => s * x + t) d) /\ mean (image (fun x => s * x + t) d) = s * mean d + t /\ variance (image (fun x => s * x + t) d) = s ^ 2 * variance d.
Proof.
  intros D. assert (D' := image_dist (fun x => s * x + t) d D). split; [exact D'|].
  assert (M' : mean (image (fun x => s * x + t) d) = s * mean d + t). { unfold mean. rewrite expect_image, (expect_ext _ (fun x => s * x + t * 1)) by (intros; ring). rewrite expect_lin. destruct D as [_ D]. rewrite D. ring. }
  split; [exact M'|]. rewrite variance_moment, M', expect_image by exact D'. rewrite (expect_ext _ (fun x => 1 * (s ^ 2 * x ^ 2 + (2 * s * t) * x) + t ^ 2 * 1)) by (intros; ring). rewrite expect_lin, expect_lin. rewrite moment by exact D. destruct D as [_ D]. rewrite D. fold (mean d). ring.
Qed.
Lemma image_ext f g (d : dist) : (forall x, f x = g x) -> image f d = image g d.
Proof. intros H. unfold image. apply map_ext. intros q. rewrite H. reflexivity. Qed.
(** shifts and factors without uncertainty *)
Theorem C55_add_number : forall a d x, stands a d -> stands (uadd_t a x) (image (fun y => y + x) d) /\ stands (tadd x a) (image (fun y => x + y) d).
Proof.
  intros a d x (D & M & P & V). destruct (affine_ok 1 x d D) as (H1 & H2 & H3).
  assert (X : stands (uadd_t a x) (image (fun y => 1 * y + x) d)). { split; [exact H1|]. cbn [uadd_t val unc]. rewrite H2, H3, M. repeat split; [ring|exact P|rewrite V; ring]. }
  split; [rewrite (image_ext _ (fun y => 1 * y + x)) by (intros; ring); exact X|]. rewrite (image_ext _ (fun y => 1 * y + x)) by (intros; ring). exact X.
Qed.
Theorem C55_sub_number : forall a d x, stands a d -> stands (usub_t a x) (image (fun y => y - x) d) /\ stands (tsub x a) (image (fun y => x - y) d).
Proof.
  intros a d x (D & M & P & V). split.
  - destruct (affine_ok 1 (- x) d D) as (H1 & H2 & H3). rewrite (image_ext _ (fun y => 1 * y + - x)) by (intros; ring). split; [exact H1|]. cbn [usub_t val unc]. rewrite H2, H3, M. repeat split; [ring|exact P|rewrite V; ring].
  - destruct (affine_ok (-1) x d D) as (H1 & H2 & H3). rewrite (image_ext _ (fun y => -1 * y + x)) by (intros; ring). split; [exact H1|]. cbn [tsub uadd_t uneg val unc]. rewrite H2, H3, M. repeat split; [ring|exact P|rewrite V; ring].
Qed.
Theorem C55_mul_number : forall a d x, stands a d -> stands (umul_t a x) (image (fun y => y * x) d) /\ stands (tmul x a) (image (fun y => x * y) d).
Proof.
  intros a d x (D & M & P & V). destruct (affine_ok x 0 d D) as (H1 & H2 & H3).
  assert (X : stands (umul_t a x) (image (fun y => x * y + 0) d)). { split; [exact H1|]. cbn [umul_t val unc]. rewrite H2, H3, M. repeat split; [ring|apply sqrt_pos|]. rewrite <- V. rewrite sq_sqrt by (replace (unc a * x * unc a * x) with ((unc a * x) ^ 2) by ring; apply sq_pos). ring. }
  split; [rewrite (image_ext _ (fun y => x * y + 0)) by (intros; ring); exact X|]. rewrite (image_ext _ (fun y => x * y + 0)) by (intros; ring). exact X.
Qed.
Theorem C55_div_number : forall a d x, stands a d -> x <> 0 -> stands (udiv_t a x) (image (fun y => y / x) d).
Proof.
  intros a d x (D & M & P & V) N. destruct (affine_ok (/ x) 0 d D) as (H1 & H2 & H3). rewrite (image_ext _ (fun y => / x * y + 0)) by (intros; field; exact N). split; [exact H1|]. cbn [udiv_t val unc]. rewrite H2, H3, M. repeat split; [field; exact N|apply sqrt_pos|]. rewrite <- V. replace (unc a * unc a / (x * x)) with ((unc a / x) ^ 2) by (field; exact N). rewrite sq_sqrt by apply sq_pos. field. exact N.
Qed.
(** sums, differences and products of independent quantities *)
Lemma lin2_ok (s t : R) (d e : dist) : is_dist d -> is_dist e -> is_dist (image2 (fun x y => s * x + t * y) d e) /\ mean (image2 (fun x y => s * x + t * y) d e) = s * mean d + t * mean e /\ variance (image2 (fun x y => s * x + t * y) d e) = s ^ 2 * variance d + t ^ 2 * variance e.
Proof.
  intros D E. assert (D' := image2_dist (fun x y => s * x + t * y) d e D E). split; [exact D'|].
  assert (M' : mean (image2 (fun x y => s * x + t * y) d e) = s * mean d + t * mean e).
  { unfold mean. rewrite expect_image2. rewrite (expect_ext _ (fun x => s * x + (t * mean e) * 1)).
    - rewrite expect_lin. destruct D as [_ D]. rewrite D. fold (mean d) (mean e). ring.
    - intros x. rewrite (expect_ext _ (fun y => (s * x) * 1 + t * y)) by (intros; ring). rewrite expect_lin. destruct E as [_ E]. rewrite E. fold (mean e). ring. }
  split; [exact M'|]. rewrite variance_moment, M', expect_image2 by exact D'.
  rewrite (expect_ext _ (fun x => s ^ 2 * x ^ 2 + (2 * s * t * mean e * x + (t ^ 2 * (variance e + mean e ^ 2)) * 1))).
  - rewrite expect_add, !expect_lin, expect_scal. rewrite moment by exact D. destruct D as [_ D]. rewrite D. fold (mean d). ring.
  - intros x. rewrite (expect_ext _ (fun y => (s ^ 2 * x ^ 2) * 1 + (2 * s * t * x * y + t ^ 2 * y ^ 2))) by (intros; ring). rewrite expect_add, expect_lin, expect_scal. rewrite moment by exact E. destruct E as [_ E]. rewrite E. fold (mean e). ring.
Qed.
Lemma image2_ext f g (d e : dist) : (forall x y, f x y = g x y) -> image2 f d e = image2 g d e.
Proof. intros H. unfold image2. induction d as [|q d IH]; cbn; [reflexivity|]. rewrite IH. f_equal. apply map_ext. intros s. rewrite H. reflexivity. Qed.
Theorem C55_add : forall a b d e, stands a d -> stands b e -> stands (uadd a b) (image2 Rplus d e).
Proof.
  intros a b d e (D & M & P & V) (D2 & M2 & P2 & V2). destruct (lin2_ok 1 1 d e D D2) as (H1 & H2 & H3). rewrite (image2_ext _ (fun x y => 1 * x + 1 * y)) by (intros; ring). split; [exact H1|]. rewrite H2, H3, M, M2, <- V, <- V2. cbn [uadd val unc]. repeat split; [ring|apply sqrt_pos|]. rewrite sq_sqrt by (rewrite <- !sqr; pose proof (sq_pos (unc a)); pose proof (sq_pos (unc b)); lra). ring.
Qed.
Theorem C55_sub : forall a b d e, stands a d -> stands b e -> stands (usub a b) (image2 Rminus d e).
Proof.
  intros a b d e (D & M & P & V) (D2 & M2 & P2 & V2). destruct (lin2_ok 1 (-1) d e D D2) as (H1 & H2 & H3). rewrite (image2_ext _ (fun x y => 1 * x + -1 * y)) by (intros; ring). split; [exact H1|]. rewrite H2, H3, M, M2, <- V, <- V2. cbn [usub val unc]. repeat split; [ring|apply sqrt_pos|]. rewrite sq_sqrt by (rewrite <- !sqr; pose proof (sq_pos (unc a)); pose proof (sq_pos (unc b)); lra). ring.
Qed.
Theorem C55_mul : forall a b d e, stands a d -> stands b e -> stands (umul a b) (image2 Rmult d e).
Proof.
  intros a b d e (D & M & P & V) (D2 & M2 & P2 & V2). assert (D' := image2_dist Rmult d e D D2). split; [exact D'|].
  assert (M' : mean (image2 Rmult d e) = mean d * mean e).
  { unfold mean at 1. rewrite expect_image2. rewrite (expect_ext _ (fun x => mean e * x)) by (intros x; rewrite expect_scal; fold (mean e); ring). rewrite expect_scal. fold (mean d). ring. }
  rewrite variance_moment, M' by exact D'. cbn [umul umul_at val unc]. rewrite M, M2. repeat split; [apply sqrt_pos|].
  rewrite expect_image2. rewrite (expect_ext _ (fun x => (variance e + mean e ^ 2) * x ^ 2)).
  - rewrite expect_scal, (moment d) by exact D. rewrite M, M2, <- V, <- V2. rewrite sq_sqrt; [ring|].
    replace (unc a * val b * unc a * val b + unc b * val a * unc b * val a + unc a * unc a * unc b * unc b) with ((unc a * val b) ^ 2 + ((unc b * val a) ^ 2 + (unc a * unc b) ^ 2)) by ring.
    repeat apply Rplus_le_le_0_compat; apply sq_pos.
  - intros x. rewrite (expect_ext _ (fun y => x ^ 2 * y ^ 2)) by (intros; ring). rewrite expect_scal, (moment e) by exact D2. ring.
Qed.
(** * any expression in which every quantity is independent of the others and occurs once *)
Inductive expr : Type :=
| Leaf (a : ud) (d : dist)
| Num (x : R)
| Neg (e : expr)
| Add (e f : expr) | Sub (e f : expr) | Mul (e f : expr)
| AddN (e : expr) (x : R) | SubN (e : expr) (x : R) | MulN (e : expr) (x : R) | DivN (e : expr) (x : R)
| NAdd (x : R) (e : expr) | NSub (x : R) (e : expr) | NMul (x : R) (e : expr).
(** what the class computes *)
Fixpoint computed (e : expr) : ud :=
  match e with
  | Leaf a _ => a | Num x => conv x | Neg e => uneg (computed e)
  | Add e f => uadd (computed e) (computed f) | Sub e f => usub (computed e) (computed f) | Mul e f => umul (computed e) (computed f)
  | AddN e x => uadd_t (computed e) x | SubN e x => usub_t (computed e) x | MulN e x => umul_t (computed e) x | DivN e x => udiv_t (computed e) x
  | NAdd x e => tadd x (computed e) | NSub x e => tsub x (computed e) | NMul x e => tmul x (computed e)
  end.
(** the distribution of the value of the expression *)
Fixpoint law (e : expr) : dist :=
  match e with
  | Leaf _ d => d | Num x => [(1, x)] | Neg e => image Ropp (law e)
  | Add e f => image2 Rplus (law e) (law f) | Sub e f => image2 Rminus (law e) (law f) | Mul e f => image2 Rmult (law e) (law f)
  | AddN e x => image (fun y => y + x) (law e) | SubN e x => image (fun y => y - x) (law e) | MulN e x => image (fun y => y * x) (law e) | DivN e x => image (fun y => y / x) (law e)
  | NAdd x e => image (fun y => x + y) (law e) | NSub x e => image (fun y => x - y) (law e) | NMul x e => image (fun y => x * y) (law e)
  end.
Fixpoint fine (e : expr) : Prop :=
  match e with
  | Leaf a d => describes (val a) (unc a) d | Num _ => True | Neg e => fine e
  | Add e f | Sub e f | Mul e f => fine e /\ fine f
  | AddN e _ | SubN e _ | MulN e _ | NAdd _ e | NSub _ e | NMul _ e => fine e
  | DivN e x => fine e /\ x <> 0
  end.
Theorem C55_expression : forall e, fine e -> describes (val (computed e)) (unc (computed e)) (law e).
Proof.
  induction e; cbn [fine computed law]; intros H.
  - exact H.
  - apply C55_convert.
  - apply C55_negation; auto.
  - destruct H. apply C55_add; auto.
  - destruct H. apply C55_sub; auto.
  - destruct H. apply C55_mul; auto.
  - apply C55_add_number; auto.
  - apply C55_sub_number; auto.
  - apply C55_mul_number; auto.
  - destruct H. apply C55_div_number; auto.
  - apply C55_add_number; auto.
  - apply C55_sub_number; auto.
  - apply C55_mul_number; auto.
Qed.
(** * the formulas, and signs, without probability *)
Theorem C55_formulas : forall a b x, 0 <= unc a ->
  val (uadd a b) = val a + val b /\ val (usub a b) = val a - val b /\ val (umul a b) = val a * val b /\
  unc (uadd a b) ^ 2 = unc a ^ 2 + unc b ^ 2 /\ unc (usub a b) ^ 2 = unc a ^ 2 + unc b ^ 2 /\
  unc (umul a b) ^ 2 = (unc a * val b) ^ 2 + (unc b * val a) ^ 2 + (unc a * unc b) ^ 2 /\
  unc (uadd_t a x) = unc a /\ unc (usub_t a x) = unc a /\ unc (tsub x a) = unc a /\
  unc (umul_t a x) = Rabs x * unc a /\ (x <> 0 -> unc (udiv_t a x) = unc a / Rabs x) /\
  0 <= unc (uadd a b) /\ 0 <= unc (usub a b) /\ 0 <= unc (umul a b) /\ 0 <= unc (umul_t a x) /\ 0 <= unc (udiv_t a x).
Proof.
  intros a b x P. unfold uadd, usub, umul, umul_at, uadd_t, usub_t, tsub, uneg, umul_t, udiv_t. cbn [val unc uadd_t uneg]. repeat split; try apply sqrt_pos.
  - rewrite sq_sqrt by (rewrite <- !sqr; pose proof (sq_pos (unc a)); pose proof (sq_pos (unc b)); lra). ring.
  - rewrite sq_sqrt by (rewrite <- !sqr; pose proof (sq_pos (unc a)); pose proof (sq_pos (unc b)); lra). ring.
  - replace (unc a * val b * unc a * val b + unc b * val a * unc b * val a + unc a * unc a * unc b * unc b) with ((unc a * val b) ^ 2 + (unc b * val a) ^ 2 + (unc a * unc b) ^ 2) by ring. apply sq_sqrt. repeat apply Rplus_le_le_0_compat; apply sq_pos.
  - replace (unc a * x * unc a * x) with (Rsqr (x * unc a)) by (unfold Rsqr; ring). rewrite sqrt_Rsqr_abs, Rabs_mult, (Rabs_pos_eq (unc a)) by exact P. reflexivity.
  - intros N. replace (unc a * unc a / (x * x)) with (Rsqr (unc a / x)) by (unfold Rsqr; field; exact N). rewrite sqrt_Rsqr_abs. unfold Rdiv. rewrite Rabs_mult, Rabs_inv, (Rabs_pos_eq (unc a)) by exact P. reflexivity.
Qed.
(** * complex numbers *)
(** real and imaginary part are independent quantities *)
Definition cstands (a : cud) (d : dist * dist) : Prop := describes (val (cre a)) (unc (cre a)) (fst d) /\ describes (val (cim a)) (unc (cim a)) (snd d).
(** real and imaginary part of the product of independent complex quantities have these distributions *)
Theorem C55_complex_mul : forall a b d e, cstands a d -> cstands b e ->
  cstands (cmul a b) (image2 Rminus (image2 Rmult (fst d) (fst e)) (image2 Rmult (snd d) (snd e)),
                      image2 Rplus (image2 Rmult (fst d) (snd e)) (image2 Rmult (fst e) (snd d))).
Proof. intros a b d e [H1 H2] [H3 H4]. split; cbn [cmul cre cim fst snd]; [apply C55_sub; apply C55_mul; assumption|apply C55_add; apply C55_mul; assumption]. Qed.
Theorem C55_complex_add : forall a b d e, cstands a d -> cstands b e ->
  cstands (cadd a b) (image2 Rplus (fst d) (fst e), image2 Rplus (snd d) (snd e)) /\
  cstands (csub a b) (image2 Rminus (fst d) (fst e), image2 Rminus (snd d) (snd e)) /\
  cstands (cneg a) (image Ropp (fst d), image Ropp (snd d)).
Proof.
  intros a b d e [H1 H2] [H3 H4]. unfold cstands. cbn [cadd csub cneg cre cim fst snd]. repeat split.
  all: try apply (C55_add (cre a) (cre b) _ _ H1 H3). all: try apply (C55_add (cim a) (cim b) _ _ H2 H4).
  all: try apply (C55_sub (cre a) (cre b) _ _ H1 H3). all: try apply (C55_sub (cim a) (cim b) _ _ H2 H4).
  all: try apply (C55_negation (cre a) _ H1). all: apply (C55_negation (cim a) _ H2).
Qed.
(** numbers without uncertainty, on either side *)
Definition same (a b : cud) : Prop := val (cre a) = val (cre b) /\ unc (cre a) = unc (cre b) /\ val (cim a) = val (cim b) /\ unc (cim a) = unc (cim b).
Definition ok_unc (a : cud) : Prop := 0 <= unc (cre a) /\ 0 <= unc (cim a).
Lemma sqrt0 u : 0 <= u -> sqrt (0 * 0 + u * u) = u.
Proof. intros H. replace (0 * 0 + u * u) with (Rsqr u) by (unfold Rsqr; ring). apply sqrt_Rsqr, H. Qed.
Lemma sqrtm u v : 0 <= u -> sqrt (0 * v * 0 * v + u * 0 * u * 0 + 0 * 0 * u * u) = 0.
Proof. intros H. replace (0 * v * 0 * v + u * 0 * u * 0 + 0 * 0 * u * u) with 0 by ring. apply sqrt_0. Qed.
Theorem C55_complex_left : forall a x c, ok_unc a ->
  same (tcadd x a) (cadd_t a x) /\ same (ccadd c a) (cadd_c a c) /\ same (tcsub x a) (cadd_t (cneg a) x) /\ same (ccsub c a) (cadd_c (cneg a) c) /\
  same (tcmul x a) (cmul_t a x) /\ same (ccmul c a) (cmul_c a c).
Proof.
  intros [[v u] [w z]] x [c s] [P Q]. cbn in P, Q. unfold same.
  unfold tcadd, ccadd, tcsub, ccsub, tcmul, ccmul, cadd, csub, cmul, cadd_t, cadd_c, cneg, cmul_t, cmul_c, cconv_t, cconv, conv, tmul, umul, umul_at, umul_t, uadd, usub.
  cbn [cre cim val unc fst snd]. repeat split; try ring; try (apply sqrt0; assumption).
  - rewrite (sqrtm z w Q). replace (0 * v * 0 * v + u * x * u * x + 0 * 0 * u * u) with (u * x * u * x) by ring. rewrite Rmult_0_l, Rplus_0_r. apply sqrt_square, sqrt_pos.
  - replace (u * 0 * u * 0 + 0 * v * 0 * v + u * u * 0 * 0) with 0 by ring. replace (0 * w * 0 * w + z * x * z * x + 0 * 0 * z * z) with (z * x * z * x) by ring. rewrite sqrt_0, Rmult_0_l, Rplus_0_r. apply sqrt_square, sqrt_pos.
  - f_equal. f_equal; f_equal; f_equal; ring.
  - f_equal. match goal with |- sqrt ?A * _ + sqrt ?B * _ = sqrt ?C * _ + sqrt ?D * _ => replace A with D by ring; replace B with C by ring end. ring.
Qed.
Theorem C55_complex_number : forall a d c x, cstands a d ->
  cstands (cadd_t a x) (image (fun y => y + x) (fst d), snd d) /\
  cstands (csub_t a x) (image (fun y => y - x) (fst d), snd d) /\
  cstands (cadd_c a c) (image (fun y => y + fst c) (fst d), image (fun y => y + snd c) (snd d)) /\
  cstands (csub_c a c) (image (fun y => y - fst c) (fst d), image (fun y => y - snd c) (snd d)) /\
  cstands (cmul_t a x) (image (fun y => y * x) (fst d), image (fun y => x * y) (snd d)) /\
  cstands (cmul_c a c) (image2 (fun r i => r * fst c - i * snd c) (fst d) (snd d), image2 (fun r i => r * snd c + fst c * i) (fst d) (snd d)) /\
  (x <> 0 -> cstands (cdiv_t a x) (image (fun y => y / x) (fst d), image (fun y => y / x) (snd d))) /\
  (fst c <> 0 \/ snd c <> 0 ->
   cstands (cdiv_c a c) (image2 (fun r i => (r * fst c + i * snd c) / (fst c ^ 2 + snd c ^ 2)) (fst d) (snd d),
                         image2 (fun r i => (i * fst c - r * snd c) / (fst c ^ 2 + snd c ^ 2)) (fst d) (snd d))).
Proof.
  assert (I2 : forall f g h (d e : dist), image2 f (image g d) (image h e) = image2 (fun x y => f (g x) (h y)) d e).
  { intros f g h d e. unfold image2, image. induction d as [|q d IH]; cbn; [reflexivity|]. rewrite IH. f_equal. rewrite map_map. reflexivity. }
  assert (I1 : forall f g (d e : dist), image f (image2 g d e) = image2 (fun x y => f (g x y)) d e).
  { intros f g d e. unfold image2, image. induction d as [|q d IH]; cbn; [reflexivity|]. rewrite map_app, IH. f_equal. rewrite map_map. reflexivity. }
  assert (I0 : forall f g (d : dist), image f (image g d) = image (fun x => f (g x)) d) by (intros; unfold image; rewrite map_map; reflexivity).
  assert (IS : forall f (d e : dist), image2 (fun x y => f y x) e d = image2 (fun x y => f y x) e d) by reflexivity.
  intros a [d e] [c s] x [H1 H2]. cbn [fst snd] in *. unfold cstands. cbn [cadd_t csub_t cadd_c csub_c cmul_t cmul_c cdiv_t cdiv_c cre cim fst snd].
  split; [split; [apply (C55_add_number (cre a) d x H1)|exact H2]|]. split; [split; [apply (C55_sub_number (cre a) d x H1)|exact H2]|].
  split; [split; [apply (C55_add_number (cre a) d c H1)|apply (C55_add_number (cim a) e s H2)]|]. split; [split; [apply (C55_sub_number (cre a) d c H1)|apply (C55_sub_number (cim a) e s H2)]|].
  split; [split; [apply (C55_mul_number (cre a) d x H1)|apply (C55_mul_number (cim a) e x H2)]|].
  split.
  { split.
    - rewrite <- (I2 Rminus (fun r => r * c) (fun i => i * s)). apply C55_sub; apply C55_mul_number; assumption.
    - rewrite <- (I2 Rplus (fun r => r * s) (fun i => c * i)). apply C55_add; apply C55_mul_number; assumption. }
  split.
  { intros N. assert (NN : x * x <> 0) by (intros X; apply Rmult_integral in X; tauto). split.
    - rewrite (image_ext _ (fun y => (y * x) / (x * x))) by (intros; field; exact N). rewrite <- (I0 (fun y => y / (x * x)) (fun y => y * x)). apply C55_div_number; [|exact NN]. apply C55_mul_number. exact H1.
    - rewrite (image_ext _ (fun y => (x * y) / (x * x))) by (intros; field; exact N). rewrite <- (I0 (fun y => y / (x * x)) (fun y => x * y)). apply C55_div_number; [|exact NN]. apply C55_mul_number. exact H2. }
  intros N. assert (NN : c * c + s * s <> 0).
  { intros X. pose proof (Rle_0_sqr c) as A. pose proof (Rle_0_sqr s) as B. unfold Rsqr in A, B. assert (c * c = 0) by lra. assert (s * s = 0) by lra. destruct N as [N|N]; apply N; [apply Rsqr_0_uniq; exact H|apply Rsqr_0_uniq; exact H0]. }
  split.
  - rewrite (image2_ext _ (fun r i => (r * c + i * s) / (c * c + s * s))) by (intros; replace (c ^ 2 + s ^ 2) with (c * c + s * s) by ring; reflexivity).
    rewrite <- (I1 (fun y => y / (c * c + s * s)) (fun r i => r * c + i * s)). apply C55_div_number; [|exact NN]. rewrite <- (I2 Rplus (fun r => r * c) (fun i => i * s)). apply C55_add; apply C55_mul_number; assumption.
  - assert (K : stands (usub (umul_t (cre a) s) (tmul c (cim a))) (image2 Rminus (image (fun r => r * s) d) (image (fun i => c * i) e))) by (apply C55_sub; apply C55_mul_number; assumption).
    apply C55_negation in K. apply (fun H => C55_div_number _ _ (c * c + s * s) H NN) in K. rewrite I2, I1, I1 in K.
    rewrite (image2_ext _ (fun r i => - (r * s - c * i) / (c * c + s * s))) by (intros; replace (c ^ 2 + s ^ 2) with (c * c + s * s) by ring; unfold Rdiv; ring).
    destruct K as (K1 & K2 & K3 & K4). split; [exact K1|]. split; [rewrite K2; cbn [udiv_t uneg usub tmul umul_t val]; f_equal; ring|].
    assert (U : unc (udiv_t (uneg (usub (umul_t (cre a) s) (tmul c (cim a)))) (c * c + s * s)) = unc (udiv_t (usub (tmul c (cim a)) (umul_t (cre a) s)) (c * c + s * s))).
    { cbn [udiv_t uneg usub tmul umul_t unc]. rewrite (Rplus_comm (sqrt (unc (cre a) * s * unc (cre a) * s) * _)). reflexivity. }
    rewrite <- U. split; assumption.
Qed.
(** * deviations *)
(** [x *= x] does not give the uncertainty of [x * x]: the value has been overwritten when the uncertainty is computed *)
Theorem C55_self_assignment_refuted : exists a, 0 < unc a /\ val (umul_self a) = val (umul a a) /\ unc (umul_self a) <> unc (umul a a).
Proof.
  exists (mkU 2 1). cbn [unc val umul_self umul umul_at]. split; [lra|]. split; [reflexivity|]. intros H. apply sqrt_inj in H; lra.
Qed.
(** real and imaginary part of a product are correlated, which is forgotten: multiplying by 1+i and then by 1-i is
    multiplying by 2, but gives a smaller uncertainty *)
Theorem C55_complex_chain_refuted : exists a : cud, 0 < unc (cre a) /\ val (cre (cmul_c (cmul_c a (1, 1)) (1, -1))) = val (cre (cmul_t a 2)) /\ unc (cre (cmul_c (cmul_c a (1, 1)) (1, -1))) < unc (cre (cmul_t a 2)).
Proof.
  exists (mkC (mkU 1 1) (mkU 0 0)). cbn [cmul_c cmul_t cre cim val unc fst snd usub uadd umul_t tmul]. split; [lra|]. split; [ring|].
  replace (1 * 1 * 1 * 1) with 1 by ring. replace (0 * 1 * 0 * 1) with 0 by ring. rewrite sqrt_0, sqrt_1. replace (1 * 1 + 0 * 0) with 1 by ring. rewrite sqrt_1.
  replace (1 * 1 * 1 * 1) with 1 by ring. replace (1 * -1 * 1 * -1) with 1 by ring. rewrite sqrt_1. apply sqrt_lt_1; lra.
Qed.
(** * a concrete case: a fair coin with outcomes 1 and 3 has mean 2 and deviation 1 *)
Definition coin : dist := [(/2, 1); (/2, 3)].
Example C55_ex : describes 2 1 coin /\ fine (Mul (AddN (Leaf (mkU 2 1) coin) 5) (DivN (Leaf (mkU 2 1) coin) 4)).
Proof.
  assert (H : describes 2 1 coin). { unfold describes, is_dist, variance, mean, coin. cbn. repeat split; try lra; repeat constructor; cbn; lra. }
  split; [exact H|]. cbn. split; [exact H|]. split; [exact H|lra].
Qed.
