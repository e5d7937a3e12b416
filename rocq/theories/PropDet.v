(** Property C15: [det] is the determinant of mathcomp (Leibniz formula [\sum_s sgn s * \prod_i A i (s i)]). *)
From mathcomp Require Import all_ssreflect all_fingroup all_algebra.
From Verif Require Import DetModel DetProofs.
Import GRing.Theory.
Local Open Scope ring_scope.

Theorem C15_det : forall (R : comRingType) (M : list (list R)),
  match det 0 (fun x y => x + y) (fun x y => x - y) (fun x y => x * y) M with
  | Some d => exists n, length M = S n /\ List.Forall (fun r => length r = S n) M /\
                d = \sum_(s : 'S_n.+1) (-1) ^+ s * \prod_(i < n.+1) entry 0 M i (s i)
  | None => M = nil \/ exists r, List.In r M /\ length r <> length M
  end.
Proof.
move=> R M. have := det_is_det M. case: (det _ _ _ _ M) => // d [n [HL [HF ->]]].
exists n. split; [exact HL|split; [exact HF|]]. apply: eq_bigr => s _. congr (_ * _). by apply: eq_bigr => i _; rewrite mxE.
Qed.
Print Assumptions C15_det.
Theorem C15_parallel_det : forall (R : comRingType) (M : list (list R)),
  parallel_det 0 (fun x y => x + y) (fun x y => x - y) (fun x y => x * y) M =
  det 0 (fun x y => x + y) (fun x y => x - y) (fun x y => x * y) M.
Proof. exact parallel_det_is_det. Qed.
Print Assumptions C15_parallel_det.
Example C15_ex : det (0 : int) (fun x y => x + y) (fun x y => x - y) (fun x y => x * y)
  [:: [:: 2; 1; 3]; [:: 0; 1; 4]; [:: 5; 6; 0]] = Some (- (43%:Z)).
Proof. vm_compute. reflexivity. Qed.
