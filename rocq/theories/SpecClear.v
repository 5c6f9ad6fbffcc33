(** * Points in general position, with room to spare *)
From Coq Require Import ZArith List Reals Floats.
From Flocq Require Import Core.
From Verif Require Import Num Vec Affine Polygon PolyOps SpecGeom SpecPoly.
Local Open Scope R_scope.

(** No three different points are nearly on a line: twice the area of each of
    their triangles is more than [m]. *)
Definition clear_of (m : R) (a b c : pt) : Prop := a <> b -> b <> c -> a <> c -> m < Rabs (orient a b c).
Definition general_position (m : R) (l : list pt) : Prop :=
  forall a b c, In a l -> In b l -> In c l -> clear_of m a b c.

(** The edge from [a] to [b] crosses the height of [p] (upwards or downwards;
    the upper end may be at that height). *)
Definition crosses_height (p a b : pt) : Prop := (vy a < vy p <= vy b) \/ (vy b < vy p <= vy a).

(** Calls that mention only points satisfying [P], other than products with a
    transform and [centroid]. *)
Definition op_on {T} (P : vec T -> Prop) (o : pop T) : Prop :=
  match o with
  | PRead (QContains _ p) | PRead (QTangents p) => P p
  | PSet _ v => P v
  | PRead QCentroid | PImul _ => False
  | PRead _ | PCopy | PDeepcopy => True
  end.
