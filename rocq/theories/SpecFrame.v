(** * Specification vocabulary for C113: the frame of a linear shape on doubles (no modelled function) *)
From Coq Require Import List Bool Reals Floats.
From Flocq Require Import Core.
From Verif Require Import Num NumFloat Vec Line SpecGeom SpecExact FloatVec.
Local Open Scope R_scope.

(** The normal is the direction turned clockwise by a right angle, bit by bit. *)
Definition turned (d : dirn PrimFloat.float) : Prop := dnormal d = mkV (vy (ddir d)) (- vx (ddir d))%float.
(** Finite, and of length one within 15 units of roundoff. *)
Definition near_unit (v : vec PrimFloat.float) : Prop :=
  finite_vec v /\ Rabs (norm (mkV (toR (vx v)) (toR (vy v))) - 1) <= 15 * bpow radix2 (-53).
Definition has_nan (v : vec PrimFloat.float) : Prop := PrimFloat.is_nan (vx v) = true \/ PrimFloat.is_nan (vy v) = true.
(** [x ** 0.5] at the values that are not numbers. *)
Definition sqrt_edges (L : FloatLib) : Prop := fl_sqrt L infinity = infinity /\ fl_sqrt L nan = nan.
