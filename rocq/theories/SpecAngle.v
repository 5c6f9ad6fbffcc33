(** * The angle of a vector with signed zeros, and accuracy assumed of [atan2] and [degrees] *)
From Coq Require Import ZArith Reals Floats.
From Flocq Require Import Core.
From Verif Require Import Num NumFloat Vec SpecGeom OrdLaws FloatFacts FloatFacts2 SpecExact FloatExact FloatVec FloatErr.
Local Open Scope R_scope.

(** [t] is the angle of the vector in radians: between -pi and pi, on the side of
    the sign of the y component, which decides between pi and -pi for the signed
    zeros on the negative x axis (C99, and CPython's [math.atan2]). *)
Definition is_arg (v : vec PrimFloat.float) (t : R) : Prop :=
  - PI <= t <= PI /\ vecR v = mkV (norm (vecR v) * cos t) (norm (vecR v) * sin t) /\
  (PrimFloat.get_sign (vy v) = true -> t <= 0) /\ (PrimFloat.get_sign (vy v) = false -> 0 <= t).

(** [atan2] within two roundings of the angle, [degrees] within three of the
    conversion. *)
Record angle_ok (L : FloatLib) : Prop := {
  ao_atan2 : forall v, finite_vec v -> 0 < norm (vecR v) -> exists t, is_arg v t /\ apx (fl_atan2 L (vy v) (vx v)) t (2 * bpow radix2 (-53) * Rabs t + bpow radix2 (-1075));
  ao_degrees : forall r, finite r -> Rabs (toR r) <= 9 ->
    apx (fl_degrees L r) (toR r * (180 / PI)) (3 * bpow radix2 (-53) * Rabs (toR r * (180 / PI)) + bpow radix2 (-1075)) }.
