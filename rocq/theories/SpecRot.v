(** * Accuracy assumed of [%], [radians], [cos] and [sin] for C114 *)
From Coq Require Import ZArith Reals Floats.
From Flocq Require Import Core.
From Verif Require Import Num NumFloat Vec SpecGeom OrdLaws FloatFacts FloatFacts2 SpecExact FloatExact FloatVec.
Local Open Scope R_scope.

(** [d % 360.0] lies in [0, 360] and differs from a value congruent to [d] by at
    most the rounding (below 2^-44) of the addition Python performs for negative [d]; the
    conversion to radians is within three roundings; the cosine and sine of an
    angle of up to 9 radians are within 2^-52.  These hold of CPython on a libm
    whose [cos] and [sin] are within one unit in the last place. *)
Record trig_ok (L : FloatLib) : Prop := {
  to_mod : forall d, finite d -> finite (fl_mod L d 360%float) /\ 0 <= toR (fl_mod L d 360%float) <= 360 /\
    exists k : Z, Rabs (toR (fl_mod L d 360%float) - (toR d - 360 * IZR k)) <= bpow radix2 (-44);
  to_rad : forall d, finite d -> 0 <= toR d <= 360 -> finite (fl_radians L d) /\
    Rabs (toR (fl_radians L d) - deg (toR d)) <= 3 * bpow radix2 (-53) * deg (toR d) + bpow radix2 (-1075);
  to_cos : forall x, finite x -> Rabs (toR x) <= 9 -> finite (fl_cos L x) /\ Rabs (toR (fl_cos L x) - cos (toR x)) <= 2 * bpow radix2 (-53);
  to_sin : forall x, finite x -> Rabs (toR x) <= 9 -> finite (fl_sin L x) /\ Rabs (toR (fl_sin L x) - sin (toR x)) <= 2 * bpow radix2 (-53) }.

(** [w] is finite and its exact position is within [d] of [p]. *)
Definition close_vec (w : vec PrimFloat.float) (p : pt) (d : R) : Prop := finite_vec w /\ dist (vecR w) p <= d.
