(** Model of /repo/pySecDec/loop_integral/common.py: powers, exponents, numerator and measure of the Feynman parametrised
    integrand. *)
From Coq Require Import QArith Qround Reals Qreals.
From Verif Require Export PolyModel.

(** A propagator power: its value for vanishing regulators and the coefficients of the regulators.  Simplification: the
    dependence on the regulators is linear. *)
Record power : Type := mkPower { at0 : Q; regs : list Q }.

(** [power0.is_Integer] for a rational number *)
Definition is_int (q : Q) : bool := Z.eqb (Z.modulo (Qnum q) (Zpos (Qden q))) 0.
Definition regfree (p : power) : bool := forallb (fun c => Qeq_bool c 0) (regs p).

(** common.py:175-187 the number of derivatives *)
Definition derivatives (p : power) : Z :=
  if Qle_bool 1 (at0 p) then 0%Z
  else if is_int (at0 p) then Z.abs (Qfloor (at0 p))
  else (Z.abs (Qfloor (at0 p)) + 1)%Z.

(** [eff_power = self.powerlist[i] + self.derivativelist[i]], common.py:279, 299, 322, 344 *)
Definition eff_power (p : power) : power := mkPower (at0 p + inject_Z (derivatives p)) (regs p).
Definition power_is_zero (p : power) : bool := Qeq_bool (at0 p) 0 && regfree p.

(** numerical value of a power for given values of the regulators *)
Definition power_value (eps : list R) (p : power) : R :=
  (Q2R (at0 p) + fold_right Rplus 0 (map (fun ce => Q2R (fst ce) * snd ce) (combine (regs p) eps)))%R.

(** which parameters are dropped: [powerlist[i].is_integer and powerlist[i].is_nonpositive] in [U], [F] and
    [integration_variables] (common.py:201, 210, 359), [newpower == 0] in [numerator] (common.py:280),
    [eff_power.is_integer and eff_power.is_zero] in [measure] (common.py:323) *)
Definition dropped_U (p : power) : bool := regfree p && is_int (at0 p) && Qle_bool (at0 p) 0.
Definition dropped_numerator (p : power) : bool := power_is_zero (eff_power p).
Definition dropped_measure (p : power) : bool := regfree (eff_power p) && is_int (at0 (eff_power p)) && power_is_zero (eff_power p).

(** [eff_power not in (0,1)], common.py:300 *)
Definition in_0_1 (p : power) : bool := regfree p && (Qeq_bool (at0 p) 0 || Qeq_bool (at0 p) 1).

Section Num.
Variable F : Fld.
Local Open Scope fld_scope.
Implicit Types p q : PolyModel.poly F.

(** products and sums of polynomials with the same number of variables: the assertion (algebra.py:585, 603) holds *)
Definition ptimes p q : PolyModel.poly F := match pmul p q with Some r => r | None => p end.
Definition pplus p q : PolyModel.poly F := match psub_or_add false p q with Some r => r | None => p end.

(** common.py:219-229: rows extended by zeros for the symbols U and F *)
Definition extend (p : PolyModel.poly F) : PolyModel.poly F := mkPoly (pnv p + 2) (map (fun t => (fst t ++ [0; 0]%Z, snd t)) (ptm p)).
(** the polynomial that is a single symbol (common.py:232-233) *)
Definition psymbol (nv i : nat) : PolyModel.poly F := mkPoly nv [(upd i 1%Z (zrow nv), 1)].

(** state of the loop of [numerator]; the number of parameters still present is [pnv sNu - 2] *)
Record nstate : Type := mkState { sU : PolyModel.poly F; sF : PolyModel.poly F; sUs : PolyModel.poly F; sFs : PolyModel.poly F; sNu : PolyModel.poly F; sn : F; sm : F }.

(** [dUdx.coeffs.any() != 0] *)
Definition any_coeff (p : PolyModel.poly F) : bool := existsb (fun t => negb (feqb (snd t) 0)) (ptm p).

(** common.py:251-274 one derivative with respect to parameter [i]; [Nu.derive(-1)] and [Nu.derive(-2)] are the
    derivatives by F and U *)
Definition one_derivative (i : nat) (s : nstate) : nstate :=
  let Nu := sNu s in let nv := pnv Nu in
  let dFdx := pderive (sF s) i in
  let dUdx := pderive (sU s) i in
  let term1 := ptimes (pmul_num dUdx (sn s)) Nu in
  let term2 := ptimes (pmul_num dFdx (- sm s)) Nu in
  let term3 := pplus (pplus (pderive Nu i) (ptimes (pderive Nu (nv - 1)) dFdx)) (ptimes (pderive Nu (nv - 2)) dUdx) in
  let b := any_coeff dUdx in
  let n' := if b then sn s - 1 else sn s in
  let term2 := if b then ptimes term2 (sUs s) else term2 in
  let term3 := if b then ptimes term3 (sUs s) else term3 in
  let term1 := ptimes term1 (sFs s) in
  let term3 := ptimes term3 (sFs s) in
  mkState (sU s) (sF s) (sUs s) (sFs s) (pplus (pplus term1 term2) term3) n' (sm s + 1).
Fixpoint many_derivatives (k i : nat) (s : nstate) : nstate :=
  match k with O => s | S k' => many_derivatives k' i (one_derivative i s) end.

(** common.py:276-286 the parameter is set to zero and removed *)
Definition drop0 (i : nat) (p : PolyModel.poly F) : PolyModel.poly F := psimplify (preplace p i 0 true).
Definition drop_parameter (i : nat) (s : nstate) : nstate :=
  mkState (drop0 i (sU s)) (drop0 i (sF s)) (drop0 i (sUs s)) (drop0 i (sFs s)) (drop0 i (sNu s)) (sn s) (sm s).

(** common.py:195-211 [U] and [F]: the parameters of inverse propagators ([ds]) are set to zero and removed, backwards *)
Definition drop_loop (ds : list bool) (p : PolyModel.poly F) : PolyModel.poly F :=
  fold_left (fun p (id : nat * bool) => if snd id then drop0 (fst id) p else p) (rev (combine (seq 0 (length ds)) ds)) p.

(** common.py:241-286 loop body for parameter [i] with [k] derivatives; [d] is [newpower == 0] *)
Definition num_step (s : nstate) (ikd : nat * (nat * bool)) : nstate :=
  let '(i, (k, d)) := ikd in
  let s := many_derivatives k i s in
  if d then drop_parameter i s else s.
(** common.py:213-288 [numerator]: backwards over all parameters; [kd] lists derivatives and [newpower == 0] *)
Definition num_init (U Fp Nu : PolyModel.poly F) (n m : F) : nstate :=
  let P := pnv U in mkState (extend U) (extend Fp) (psymbol (P + 2) P) (psymbol (P + 2) (P + 1)) Nu n m.
Definition num_loop (kd : list (nat * bool)) (s : nstate) : nstate :=
  fold_left num_step (rev (combine (seq 0 (length kd)) kd)) s.

(** common.py:290-326 [measure]: a product of powers of monomials, each a pair (polynomial, exponent); [value] gives the
    numerical value of a power for given values of the regulators *)
Definition measure_factors (value : power -> F) (pw : list power) : list (PolyModel.poly F * F) :=
  let P := length pw in
  flat_map (fun ip : nat * power => if in_0_1 (eff_power (snd ip)) then []
                                    else [(psymbol (P + 2) (fst ip), value (eff_power (snd ip)) - 1)])
           (combine (seq 0 P) pw).
Definition measure (value : power -> F) (pw : list power) : list (PolyModel.poly F * F) :=
  let P := length pw in
  let start := match measure_factors value pw with
               | [] => [(pconst (P + 2) 1, value (eff_power (last pw (mkPower 0 []))) - 1)]
               | fs => fs end in
  fold_left (fun fs (ip : nat * power) =>
      if dropped_measure (snd ip) then map (fun f => (preplace (fst f) (fst ip) 0 true, snd f)) fs else fs)
    (rev (combine (seq 0 P) pw)) start.

(** common.py:235-236: initial exponents; [D] is the dimensionality, [L] the number of loops, [r] the highest rank *)
Definition n_start (Nnu D : F) (L : nat) (r : nat) : F := Nnu - D / (1 + 1) * natF (L + 1) - natF r.
Definition m_start (Nnu D : F) (L : nat) : F := Nnu - D / (1 + 1) * natF L.
(** common.py:61-72 [exponent_U], [exponent_F]; [dU], [dF] are [U_derivatives], [F_derivatives], both set to the
    number of derivatives in common.py:189-192 *)
Definition exponent_U (Nnu D : F) (L r : nat) (dU : nat) : F := Nnu - natF dU - D / (1 + 1) * natF (L + 1) - natF r.
Definition exponent_F (Nnu D : F) (L : nat) (dF : nat) : F := D / (1 + 1) * natF L - (Nnu + natF dF).
(** common.py:175-194: per propagator the number of derivatives and whether the parameter is removed; [N_nu] *)
Definition instructions (pw : list power) : list (nat * bool) := map (fun p : power => (Z.to_nat (derivatives p), dropped_numerator p)) pw.
Definition number_of_derivatives (pw : list power) : nat := list_sum (map (fun p : power => Z.to_nat (derivatives p)) pw).
Definition N_nu (value : power -> F) (pw : list power) : F := sumF (map value pw).
(** common.py:195-211 and 213-288: [U], [F] and [numerator] *)
Definition loop_U (pw : list power) (U : PolyModel.poly F) : PolyModel.poly F := drop_loop (map dropped_U pw) U.
Definition final_state (value : power -> F) (pw : list power) (D : F) (L r : nat) (U Fp Nu : PolyModel.poly F) : nstate :=
  num_loop (instructions pw) (num_init U Fp Nu (n_start (N_nu value pw) D L r) (m_start (N_nu value pw) D L)).
Definition numerator (value : power -> F) (pw : list power) (D : F) (L r : nat) (U Fp Nu : PolyModel.poly F) : PolyModel.poly F :=
  sNu (final_state value pw D L r U Fp Nu).
End Num.
Arguments extend {F} _. Arguments one_derivative {F} _ _. Arguments many_derivatives {F} _ _ _. Arguments drop_parameter {F} _ _.
Arguments num_step {F} _ _. Arguments num_loop {F} _ _. Arguments num_init {F} _ _ _ _ _. Arguments any_coeff {F} _.
Arguments mkState {F} _ _ _ _ _ _ _. Arguments sU {F} _. Arguments sF {F} _. Arguments sUs {F} _. Arguments sFs {F} _. Arguments sNu {F} _. Arguments sn {F} _. Arguments sm {F} _.
Arguments ptimes {F} _ _. Arguments pplus {F} _ _. Arguments psymbol {F} _ _. Arguments drop0 {F} _ _. Arguments drop_loop {F} _ _. Arguments measure {F} _ _. Arguments measure_factors {F} _ _.
Arguments n_start {F} _ _ _ _. Arguments m_start {F} _ _ _. Arguments exponent_U {F} _ _ _ _ _. Arguments exponent_F {F} _ _ _ _. Arguments N_nu {F} _ _. Arguments loop_U {F} _ _. Arguments final_state {F} _ _ _ _ _ _ _ _. Arguments numerator {F} _ _ _ _ _ _ _ _.
