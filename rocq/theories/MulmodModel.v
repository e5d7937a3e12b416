(** Model of [mulmod] in /repo/pySecDecContrib/disteval/common_cpu.h:82-92 (identical in common_cuda.h:111-121) and of [mul_mod] in
    /repo/pySecDecContrib/qmc.hpp:98-113.  Integers are unbounded, every unsigned (signed) 64 bit operation is followed by an
    explicit reduction [u64] ([s64]); double precision multiplication and division are the exact results rounded to nearest even
    (Flocq); overflow to infinity cannot occur for the sizes considered. *)
From Coq Require Import ZArith Reals.
From Flocq Require Import Core.
Local Open Scope Z_scope.

Definition u64 (z : Z) : Z := z mod 2 ^ 64.
Definition s64 (z : Z) : Z := if u64 z <? 2 ^ 63 then u64 z else u64 z - 2 ^ 64.
Definition double (x : R) : R := round radix2 (FLT_exp (-1074) 53) ZnearestE x.

(** [(x*b)/k] in double precision, truncated to an unsigned integer: common_cpu.h:87-88, qmc.hpp:109-110 *)
Definition quotient (a b k : Z) : Z :=
  u64 (Ztrunc (double (double (double (IZR a) * double (IZR b)) / double (IZR k)))).
(** common_cpu.h:82-92; [%] of signed integers is Z.rem *)
Definition mulmod (a b k : Z) : Z :=
  if k <=? 3037000499 then u64 (a * b) mod k
  else
    let c := quotient a b k in
    let r := Z.rem (s64 (u64 (a * b) - u64 (c * k))) (s64 k) in
    if r <? 0 then u64 (r + k) else u64 r.
(** qmc.hpp:98-113; the result is converted to double precision *)
Definition mul_mod (a b k : Z) : R :=
  let c := quotient a b k in
  let r := Z.rem (s64 (u64 (a * b) - u64 (c * k))) (s64 k) in
  if r <? 0 then double (IZR (u64 (u64 r + k))) else double (IZR r).
