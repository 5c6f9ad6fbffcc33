(** * Bounding boxes on doubles: vocabulary (no modelled function) *)
From Coq Require Import ZArith List Reals Floats.
From Flocq Require Import Core.
From Verif Require Import Num Vec Affine Box SpecGeom SpecBox SpecExact FloatErr FloatErr4.
Local Open Scope R_scope.

(** A finite number of magnitude at most [M]. *)
Definition coord (M : R) (x : PrimFloat.float) : Prop := FloatFacts2.finite x /\ Rabs (toR x) <= M.
(** Both corners are finite, of magnitude at most [M]. *)
Definition box_within (M : R) (b : bbox PrimFloat.float) : Prop := within M (bmin b) /\ within M (bmax b).
(** The entries of a transform are finite, of magnitude at most [K]. *)
Definition aff_within (K : R) (m : affine PrimFloat.float) : Prop :=
  coord K (aa m) /\ coord K (ab m) /\
  coord K (ac m) /\ coord K (ad m) /\
  coord K (ae m) /\ coord K (af m).
(** The transform maps axis-parallel lines to axis-parallel lines, exactly. *)
Definition axis_parallel (m : affine R) : Prop := (ab m = 0 /\ ad m = 0) \/ (aa m = 0 /\ ae m = 0).
(** Within [d] of the box in both coordinates. *)
Definition in_widened (d : R) (b : bbox R) (p : pt) : Prop :=
  vx (bmin b) - d <= vx p <= vx (bmax b) + d /\ vy (bmin b) - d <= vy p <= vy (bmax b) + d.
(** The rectangle spanned by [p] and either vertical side of the box is not so
    small that its area is lost when rounded. *)
Definition off_sides (b : bbox R) (p : pt) : Prop :=
  (vx p = vx (bmin b) \/ bpow radix2 (-1000) <= Rabs (vx p - vx (bmin b)) * ht b) /\
  (vx p = vx (bmax b) \/ bpow radix2 (-1000) <= Rabs (vx p - vx (bmax b)) * ht b).
