(** * IEEE binary64 instance of the number systems

    Python floats are IEEE binary64; [+ - * /], [abs], negation and the
    comparisons are the primitive float operations.  The libm functions, [%],
    [//] and [**] are not specified by IEEE 754, so they are fields of a record
    [FloatLib] that theorems quantify over. *)
From Coq Require Import ZArith List Bool Floats Uint63.
From Verif Require Import Num.

Record FloatLib : Type := {
  fl_sqrt : float -> float;            (* x ** 0.5, C pow *)
  fl_pow2 : float -> float;            (* x ** 2, C pow *)
  fl_floordiv : float -> float -> float;
  fl_mod : float -> float -> float;
  fl_cos : float -> float;
  fl_sin : float -> float;
  fl_tan : float -> float;
  fl_atan2 : float -> float -> float;
  fl_hypot : float -> float -> float;
  fl_radians : float -> float;
  fl_degrees : float -> float
}.

(** Integer literals that occur in the source are small, hence exact. *)
Definition float_of_Z (z : Z) : float :=
  match z with
  | Z0 => 0%float
  | Zpos _ => PrimFloat.of_uint63 (Uint63.of_Z z)
  | Zneg p => (- PrimFloat.of_uint63 (Uint63.of_Z (Zpos p)))%float
  end.

Definition FNum (L : FloatLib) : Num float := {|
  nlit := float_of_Z;
  nhalf := 0.5%float;
  nadd := PrimFloat.add; nsub := PrimFloat.sub; nmul := PrimFloat.mul;
  ndiv := PrimFloat.div; nopp := PrimFloat.opp; nabs := PrimFloat.abs;
  nsqrt := fl_sqrt L; npow2 := fl_pow2 L;
  nisinf := PrimFloat.is_infinity;
  nfloordiv := fl_floordiv L; nmod := fl_mod L;
  nltb := PrimFloat.ltb; nleb := PrimFloat.leb; neqb := PrimFloat.eqb;
  ncos := fl_cos L; nsin := fl_sin L; ntan := fl_tan L;
  natan2 := fl_atan2 L; nhypot := fl_hypot L;
  nradians := fl_radians L; ndegrees := fl_degrees L
|}.
