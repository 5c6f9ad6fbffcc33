(** * Specification vocabulary for affine transforms (no modelled function) *)
From Coq Require Import ZArith List Bool Reals.
From Verif Require Import Num Vec Affine SpecGeom.
Import ListNotations.
Local Open Scope R_scope.

(** The point image under the matrix entries (a b c / d e f) as planar's
    documentation of [Affine * point] computes it. *)
Definition img (m : affine R) (p : pt) : pt :=
  mkV (vx p * aa m + vy p * ad m + ac m) (vx p * ab m + vy p * ae m + af m).
(** Image of a displacement. *)
Definition limg (m : affine R) (p : pt) : pt :=
  mkV (vx p * aa m + vy p * ad m) (vx p * ab m + vy p * ae m).
Definition det (m : affine R) : R := aa m * ae m - ab m * ad m.
Definition idmat : affine R := mkA 1 0 0 0 1 0.
