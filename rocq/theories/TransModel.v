(** Model of the periodising transforms:
    - /repo/pySecDecContrib/qmc.hpp: None (416-445), Baker (459-505), IPow (533-569), Binomial (587-620), KorobovCoefficient (638-668),
      KorobovTerm (683-706), KorobovImpl (719-748), Factorial (804-820), SidiCoefficient (841-870), SidiTerm (892-945), SidiImpl (961-1070),
    - /repo/pySecDecContrib/disteval/common_cpu.h:237-341 (none, baker, korobov1x1 ... korobov10x10; the same formulas up to 6x6 in common_cuda.h:64-110).
    Simplifications: real numbers instead of doubles, integrands with real values, unbounded integers in Binomial and Factorial. *)
From Coq Require Export List Reals.
From Coq Require Import NArith.
Export ListNotations.
Local Open Scope R_scope.

(** ** qmc.hpp *)
(** 533-569: square and multiply on the binary digits of the exponent *)
Fixpoint ipow_pos (p : positive) (base : R) : R :=
  match p with
  | xO p => let power := ipow_pos p base in power * power
  | xI p => let power := ipow_pos p base in base * power * power
  | xH => base * 1 * 1
  end.
Definition ipow (n : nat) (base : R) : R := match N.of_nat n with N0 => 1 | Npos p => ipow_pos p base end.
(** 587-612 *)
Fixpoint binomial (n k : nat) : nat :=
  if Nat.ltb n k then 0%nat else if Nat.eqb k 0 then 1%nat else if Nat.eqb n k then 1%nat
  else match n, k with S n, S k => (binomial n k + binomial n (S k))%nat | _, _ => 0%nat end.
(** 638-661 *)
Fixpoint korobov_coefficient (k a b : nat) : R :=
  match k with
  | O => ((INR a + INR b + 1) * INR (binomial (a + b) b)) / (INR a + 1)
  | S k' => (-1 * (INR b - INR k + 1) * korobov_coefficient k' a b * (INR a + INR k)) / (INR k * (INR a + INR k + 1))
  end.
(** 683-704 *)
Fixpoint korobov_term (k a b : nat) (x : R) : R :=
  match k with
  | O => korobov_coefficient b a b
  | S k' => korobov_term k' a b x * x + korobov_coefficient (b - k) a b
  end.
(** 743-744: back into the unit interval *)
Definition clamp (x : R) : R := let y := if Rlt_dec 1 x then 1 else x in if Rlt_dec y 0 then 0 else y.
(** 735-744 *)
Definition korobov_w (r0 r1 : nat) (x : R) : R := ((INR r0 + INR r1 + 1) * INR (binomial (r0 + r1) r0)) * ipow r0 x * ipow r1 (1 - x).
Definition korobov_f (r0 r1 : nat) (x : R) : R := clamp (ipow (r0 + 1) x * korobov_term r1 r0 r1 x).
(** 416-445 *)
Definition id_w (x : R) : R := 1.
Definition id_f (x : R) : R := x.
(** 472-476 *)
Definition baker_w (x : R) : R := 1.
Definition baker_f (x : R) : R := clamp (1 - Rabs (2 * x - 1)).
(** 804-815 *)
Fixpoint factorial (n : nat) : nat := match n with O => 1%nat | S m => (n * factorial m)%nat end.
(** 845-869; [m] is (r-1)/2 or r/2 *)
Definition sidi_coefficient (k r : nat) : R :=
  let m := if Nat.odd r then ((r - 1) / 2)%nat else (r / 2)%nat in
  ipow (m - k) (-1) * INR (binomial r k) / (2 * INR k - INR r).
(** 896-944 *)
Fixpoint sidi_term (k r : nat) (x : R) : R :=
  if Nat.odd r then
    match k with
    | O => sidi_coefficient 0 r * (cos (- INR r * PI * x) - 1)
    | S k' => sidi_coefficient k r * (cos ((2 * INR k - INR r) * PI * x) - 1) + sidi_term k' r x
    end
  else
    match k with
    | O => sidi_coefficient 0 r * sin (- INR r * PI * x) + 1 / 2 * PI * INR (binomial r (r / 2)) * x
    | S k' => sidi_coefficient k r * sin ((2 * INR k - INR r) * PI * x) + sidi_term k' r x
    end.
(** 979-995 (odd), 1047-1062 (even), 1102-1115 (zero) *)
Definition sidi_w (r : nat) (x : R) : R :=
  if Nat.eqb r 0 then 1
  else if Nat.odd r then
    let fac1 := INR (factorial r) in let fac2 := INR (factorial ((r - 1) / 2)) in
    (PI / ipow r 2 * fac1 / fac2 / fac2) * ipow r (sin (PI * x))
  else
    let fac1 := INR (factorial (r / 2 - 1)) in let fac2 := INR (factorial (r - 1)) in
    (ipow (r - 2) 2 * INR r * fac1 * fac1 / fac2) * ipow r (sin (PI * x)).
Definition sidi_f (r : nat) (x : R) : R :=
  if Nat.eqb r 0 then x
  else if Nat.odd r then
    let fac1 := INR (factorial r) in let fac2 := INR (factorial ((r - 1) / 2)) in
    clamp ((1 / ipow (2 * r - 1) 2 * fac1 / fac2 / fac2) * sidi_term ((r - 1) / 2) r x)
  else
    let fac1 := INR (factorial (r / 2 - 1)) in let fac2 := INR (factorial (r - 1)) in
    clamp ((INR r / 2 / PI * fac1 * fac1 / fac2) * sidi_term (r / 2 - 1) r x).
(** the call operator of a transformed integrand, e.g. 731-748: weights are multiplied, coordinates replaced one after the other *)
Fixpoint transform_loop (w f : R -> R) (x : list R) (wgt : R) : R * list R :=
  match x with [] => (wgt, []) | a :: x => let '(wgt, y) := transform_loop w f x (wgt * w a) in (wgt, f a :: y) end.
Definition transformed (w f : R -> R) (g : list R -> R) (x : list R) : R := let '(wgt, y) := transform_loop w f x 1 in wgt * g y.

(** ** disteval: common_cpu.h:237-341 *)
Definition sqr (x : R) : R := x * x.
(** 155, 158-159 *)
Definition vec_min (a b : R) : R := if Rle_dec a b then a else b.
Definition le_choose (x b t f : R) : R := if Rle_dec x b then t else f.
Definition dist_none_w (x : R) : R := 1.
Definition dist_none_f (x : R) : R := x.
Definition dist_baker_w (x : R) : R := 1.
Definition dist_baker_f (x : R) : R := vec_min (2 * x) (2 - 2 * x).
(** the common frame of the korobov functions: [h] is the polynomial *)
Definition reflect (h : R -> R) (x : R) : R := let y := le_choose x (1 / 2) x (1 - x) in let v := h y in le_choose x (1 / 2) v (1 - v).
Definition dist_w (i : nat) (x : R) : R :=
  let u := (1 - x) * x in
  match i with
  | 1%nat => 6 * u
  | 2%nat => 30 * sqr u
  | 3%nat => 140 * u * sqr u
  | 4%nat => 630 * sqr (sqr u)
  | 5%nat => 2772 * u * sqr (sqr u)
  | 6%nat => 12012 * sqr (u * sqr u)
  | 7%nat => 51480 * u * sqr (u * sqr u)
  | 8%nat => 218790 * sqr (sqr (sqr u))
  | 9%nat => 923780 * u * sqr (sqr (sqr u))
  | 10%nat => 3879876 * sqr (u * sqr (sqr u))
  | _ => 0
  end.
Definition dist_h (i : nat) (y : R) : R :=
  match i with
  | 1%nat => let y2 := sqr y in y2 * (3 - 2 * y)
  | 2%nat => let y3 := y * sqr y in y3 * (10 + y * (-15 + 6 * y))
  | 3%nat => let y4 := sqr (sqr y) in y4 * (35 + y * (-84 + (70 - 20 * y) * y))
  | 4%nat => let y5 := y * sqr (sqr y) in y5 * (126 + y * (-420 + y * (540 + y * (-315 + 70 * y))))
  | 5%nat => let y6 := sqr (y * sqr y) in y6 * (462 + y * (-1980 + y * (3465 + y * (-3080 + (1386 - 252 * y) * y))))
  | 6%nat => let y7 := y * sqr (y * sqr y) in y7 * (1716 + y * (-9009 + y * (20020 + y * (-24024 + y * (16380 + y * (-6006 + 924 * y))))))
  | 7%nat => let y8 := sqr (sqr (sqr y)) in y8 * (6435 + y * (-40040 + y * (108108 + y * (-163800 + y * (150150 + y * (-83160 + (25740 - 3432 * y) * y))))))
  | 8%nat => let y9 := y * sqr (sqr (sqr y)) in y9 * (24310 + y * (-175032 + y * (556920 + y * (-1021020 + y * (1178100 + y * (-875160 + y * (408408 + y * (-109395 + 12870 * y))))))))
  | 9%nat => let y10 := sqr (y * sqr (sqr y)) in y10 * (92378 + y * (-755820 + y * (2771340 + y * (-5969040 + y * (8314020 + y * (-7759752 + y * (4849845 + y * (-1956240 + (461890 - 48620 * y) * y))))))))
  | 10%nat => let y11 := y * sqr (y * sqr (sqr y)) in y11 * (352716 + y * (-3233230 + y * (13430340 + y * (-33256080 + y * (54318264 + y * (-61108047 + y * (47927880 + y * (-25865840 + y * (9189180 + y * (-1939938 + 184756 * y))))))))))
  | _ => 0
  end.
Definition dist_f (i : nat) : R -> R := reflect (dist_h i).
