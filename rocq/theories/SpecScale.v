(** * Accuracy assumed of [x ** 2] for C117 *)
From Coq Require Import ZArith Reals Floats.
From Flocq Require Import Core.
From Verif Require Import Num NumFloat OrdLaws FloatFacts FloatFacts2 SpecExact FloatExact.
Local Open Scope R_scope.

(** [x ** 2] is within two roundings of the square, for [x] up to 2^400. *)
Definition pow_ok (L : FloatLib) : Prop := forall x, finite x -> Rabs (toR x) <= bpow radix2 400 ->
  finite (fl_pow2 L x) /\ Rabs (toR (fl_pow2 L x) - toR x * toR x) <= 2 * bpow radix2 (-53) * (toR x * toR x) + 2 * bpow radix2 (-1075).
